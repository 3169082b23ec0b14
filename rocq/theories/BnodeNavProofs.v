(** Proofs about programs over binary nodes. *)
Require Import List NArith Bool Arith Lia Permutation.
Require Import Verif.Base Verif.BnodeModel Verif.BnodeSpec Verif.BnodeProofs
  Verif.BnodeNavModel Verif.BnodeNavSpec.
Import ListNotations.

Section Proofs.
Context {V : Type} (v0 : V).
Notation heap := (heap V).
Notation bnode := (bnode V).
Notation atree := (atree V).
Notation forest := (list atree).

Lemma nodup_perm : forall (l l' : list nat), Permutation l l' -> NoDup l -> NoDup l'.
Proof. intros. eapply Permutation_NoDup; eauto. Qed.
Lemma nodup_app : forall (l r : list nat), NoDup (l ++ r) <->
  NoDup l /\ NoDup r /\ forall x, In x l -> ~ In x r.
Proof.
  induction l; intros r; cbn.
  - split; [intros H; split; [constructor|split; [easy|easy]]|tauto].
  - split.
    + intros H. inversion_clear H. apply IHl in H1. destruct H1 as (A & B & C).
      rewrite in_app_iff in H0. split; [constructor; tauto|]. split; [easy|].
      intros x [->|X]; [tauto|auto].
    + intros (A & B & C). inversion_clear A. constructor.
      * rewrite in_app_iff. intros [X|X]; [easy|]. apply (C a); auto.
      * apply IHl. split; [easy|]. split; [easy|]. intros x X. apply C. auto.
Qed.

(** ** Parts of a tree *)

Lemma sub_root : forall a (t u : atree), sub a t = Some u -> root u = Some a.
Proof.
  induction t as [|b v l IHl r IHr]; intros u; cbn; [easy|].
  destruct (Nat.eqb_spec a b) as [->|].
  - intros [= <-]. easy.
  - destruct (sub a l) eqn:E; [intros [= <-]; auto|auto].
Qed.
Lemma sub_none : forall a (t : atree), sub a t = None <-> ~ In a (addrs t).
Proof.
  induction t as [|b v l IHl r IHr]; cbn; [easy|]. rewrite in_app_iff.
  destruct (Nat.eqb_spec a b) as [->|].
  - split; [easy|tauto].
  - destruct (sub a l) eqn:E; [split; [easy|]|].
    + intros H. assert (G : ~ (~ In a (addrs l))) by (rewrite <- IHl; easy). tauto.
    + rewrite IHr. assert (~ In a (addrs l)) by now apply IHl. split; [intros ? [|[|]]; congruence|tauto].
Qed.
Lemma sub_in : forall a (t : atree), In a (addrs t) -> exists u, sub a t = Some u.
Proof.
  intros a t H. destruct (sub a t) eqn:E; [eauto|]. apply sub_none in E. easy.
Qed.
Lemma sub_incl : forall a (t u : atree), sub a t = Some u -> forall x, In x (addrs u) -> In x (addrs t).
Proof.
  induction t as [|b v l IHl r IHr]; intros u; cbn; [easy|].
  destruct (Nat.eqb a b).
  - intros [= <-] x H. exact H.
  - intros H x X. right. apply in_app_iff. destruct (sub a l) eqn:E.
    + injection H as <-. left; eauto.
    + right; eauto.
Qed.
Lemma put_notin : forall a (u t : atree), ~ In a (addrs t) -> put a u t = t.
Proof.
  induction t as [|b v l IHl r IHr]; cbn; [easy|]. rewrite in_app_iff. intros H.
  destruct (Nat.eqb_spec a b) as [->|]; [tauto|]. rewrite IHl, IHr; tauto.
Qed.
Lemma put_root : forall a (u t : atree), root u = Some a -> root (put a u t) = root t.
Proof.
  intros a u [|b v l r] H; cbn; [easy|]. destruct (Nat.eqb_spec a b) as [->|]; easy.
Qed.

Lemma tree_focus : forall a (t u : atree), NoDup (addrs t) -> sub a t = Some u ->
  exists rest, Permutation (addrs t) (addrs u ++ rest) /\
  forall u', root u' = Some a -> Permutation (addrs (put a u' t)) (addrs u' ++ rest) /\
    forall (h h' : heap) p, has h p t ->
      (forall q, has h q u -> has h' q u') ->
      (forall x, In x rest -> nth_error h' x = nth_error h x) -> has h' p (put a u' t).
Proof.
  induction t as [|b v l IHl r IHr]; intros u N S; cbn in S; [easy|]. cbn [put].
  apply nodup_tree in N. destruct N as (Bl & Br & Nl & Nr & D).
  destruct (Nat.eqb_spec a b) as [->|AB].
  - injection S as <-. exists []. rewrite app_nil_r. split; [easy|].
    intros u' R. rewrite app_nil_r. split; [easy|]. auto.
  - destruct (sub a l) as [w|] eqn:E.
    + injection S as ->. destruct (IHl u Nl eq_refl) as (rest & P & Q).
      exists (b :: rest ++ addrs r). split.
      { cbn. rewrite P. rewrite <- Permutation_middle, app_assoc. easy. }
      intros u' R. destruct (Q u' R) as [P' T].
      assert (IA : In a (addrs l)) by (eapply sub_incl; [eauto|]; apply root_in; eapply sub_root; eauto).
      rewrite (put_notin a u' r) by auto. split.
      { cbn. rewrite P'. rewrite <- Permutation_middle, app_assoc. easy. }
      intros h h' p (HN & HL & HR) HU F. cbn. split; [|split].
      * rewrite put_root by easy. rewrite F; [easy|now left].
      * apply (T h); auto. intros x X. apply F. right. apply in_app_iff. auto.
      * apply has_frame with h; auto. intros x X. apply F. right. apply in_app_iff. auto.
    + destruct (IHr u Nr S) as (rest & P & Q).
      exists (b :: addrs l ++ rest). split.
      { cbn. rewrite P. rewrite <- Permutation_middle. apply perm_skip. rewrite !app_assoc.
        apply Permutation_app_tail, Permutation_app_comm. }
      intros u' R. destruct (Q u' R) as [P' T].
      apply sub_none in E. rewrite (put_notin a u' l) by auto. split.
      { cbn. rewrite P'. rewrite <- Permutation_middle. apply perm_skip. rewrite !app_assoc.
        apply Permutation_app_tail, Permutation_app_comm. }
      intros h h' p (HN & HL & HR) HU F. cbn. split; [|split].
      * rewrite put_root by easy. rewrite F; [easy|now left].
      * apply has_frame with h; auto. intros x X. apply F. right. apply in_app_iff. auto.
      * apply (T h); auto. intros x X. apply F. right. apply in_app_iff. auto.
Qed.

(** ** The same for forests *)

Definition grown (h : heap) (ts : forest) : Prop := forall t, In t ts -> has h None t.

Lemma grown_cons : forall h t (ts : forest), grown h (t :: ts) <-> has h None t /\ grown h ts.
Proof.
  unfold grown. intros. split.
  - intros H. split; [apply H; now left|intros; apply H; now right].
  - intros [A B] x [<-|X]; auto.
Qed.
Lemma fput_notin : forall a (u : atree) (ts : forest), ~ In a (nodes ts) -> fput a u ts = ts.
Proof.
  induction ts as [|t ts IH]; cbn; [easy|]. rewrite in_app_iff. intros H.
  rewrite put_notin by tauto. f_equal. apply IH. tauto.
Qed.
Lemma fsub_root : forall a (ts : forest) u, fsub a ts = Some u -> root u = Some a.
Proof.
  induction ts as [|t ts IH]; intros u; cbn; [easy|].
  destruct (sub a t) eqn:E; [intros [= <-]; eapply sub_root; eauto|auto].
Qed.
Lemma fsub_none : forall a (ts : forest), fsub a ts = None <-> ~ In a (nodes ts).
Proof.
  induction ts as [|t ts IH]; cbn; [easy|]. rewrite in_app_iff. destruct (sub a t) eqn:E.
  - split; [easy|]. intros H. assert (G : ~ (~ In a (addrs t))) by (rewrite <- sub_none; congruence). tauto.
  - rewrite IH. apply sub_none in E. tauto.
Qed.
Lemma fsub_in : forall a (ts : forest), In a (nodes ts) -> exists u, fsub a ts = Some u.
Proof. intros a ts H. destruct (fsub a ts) eqn:E; [eauto|]. apply fsub_none in E. easy. Qed.
Lemma fsub_incl : forall a (ts : forest) u, fsub a ts = Some u -> forall x, In x (addrs u) -> In x (nodes ts).
Proof.
  induction ts as [|t ts IH]; intros u; cbn; [easy|]. intros H x X. apply in_app_iff.
  destruct (sub a t) eqn:E.
  - injection H as <-. left. eapply sub_incl; eauto.
  - right. eauto.
Qed.

Lemma forest_focus : forall a (ts : forest) (u : atree), NoDup (nodes ts) -> fsub a ts = Some u ->
  exists rest, Permutation (nodes ts) (addrs u ++ rest) /\
  forall u', root u' = Some a -> Permutation (nodes (fput a u' ts)) (addrs u' ++ rest) /\
    forall (h h' : heap), grown h ts ->
      (forall q, has h q u -> has h' q u') ->
      (forall x, In x rest -> nth_error h' x = nth_error h x) -> grown h' (fput a u' ts).
Proof.
  induction ts as [|t ts IH]; intros u N S; cbn in S; [easy|]. cbn [fput map].
  cbn in N. apply nodup_app in N. destruct N as (Nt & Ns & D).
  destruct (sub a t) as [w|] eqn:E.
  - injection S as ->. destruct (tree_focus _ _ _ Nt E) as (rest & P & Q).
    exists (rest ++ nodes ts). split; [cbn; now rewrite P, app_assoc|].
    intros u' R. destruct (Q u' R) as [P' T].
    assert (IA : In a (addrs t)) by (eapply sub_incl; [eauto|]; apply root_in; eapply sub_root; eauto).
    fold (fput a u' ts). rewrite (fput_notin a u' ts) by auto.
    split; [cbn; now rewrite P', app_assoc|].
    intros h h' G HU F. apply grown_cons in G. destruct G as [G1 G2]. apply grown_cons. split.
    + apply (T h); auto. intros x X. apply F. apply in_app_iff. auto.
    + intros z Z. apply has_frame with h; auto. intros x X. apply F. apply in_app_iff. right.
      apply in_flat_map. eauto.
  - destruct (IH u Ns S) as (rest & P & Q).
    exists (addrs t ++ rest). split.
    { cbn. fold (nodes ts). rewrite P, !app_assoc. apply Permutation_app_tail, Permutation_app_comm. }
    intros u' R. destruct (Q u' R) as [P' T]. apply sub_none in E. rewrite (put_notin a u' t) by auto.
    fold (fput a u' ts). split.
    { cbn. fold (nodes (fput a u' ts)). rewrite P', !app_assoc. apply Permutation_app_tail, Permutation_app_comm. }
    intros h h' G HU F. apply grown_cons in G. destruct G as [G1 G2]. apply grown_cons. split.
    + apply has_frame with h; auto. intros x X. apply F. apply in_app_iff. auto.
    + apply (T h); auto. intros x X. apply F. apply in_app_iff. auto.
Qed.

Lemma forest_part : forall (h : heap) a (ts : forest) u, NoDup (nodes ts) -> grown h ts -> fsub a ts = Some u ->
  exists q, tree_at h q u.
Proof.
  intros h a ts u N G S.
  assert (X : exists q, has h q u).
  { clear N. induction ts as [|t ts IH]; cbn in S; [easy|]. apply grown_cons in G. destruct G as [G1 G2].
    destruct (sub a t) eqn:E; [|auto]. injection S as ->. clear -G1 E. revert G1. generalize (@None nat).
    induction t as [|b v l IHl r IHr]; cbn in E; [easy|]. intros q (A & B & C).
    destruct (Nat.eqb a b).
    - injection E as <-. exists q. now cbn.
    - destruct (sub a l) eqn:F; [injection E as <-; eauto|eauto]. }
  destruct X as [q X]. exists q. split; [easy|].
  destruct (forest_focus _ _ _ N S) as (rest & P & _). apply (nodup_perm _ _ P) in N.
  apply nodup_app in N. tauto.
Qed.

Lemma has_parent_unique : forall (h : heap) a v l r q q', has h q (ANode a v l r) -> has h q' (ANode a v l r) ->
  q = q'.
Proof. intros h a v l r q q' [A _] [B _]. congruence. Qed.

(** A call that changes one part of the forest. *)
Lemma change : forall (h h' : heap) (ts : forest) a u u' q,
  holds h ts -> fsub a ts = Some u -> has h q u -> root u' = Some a -> tree_at h' q u' ->
  (forall x, In x (addrs u') -> In x (addrs u) \/ length h <= x) ->
  (forall x, x < length h -> ~ In x (addrs u) -> nth_error h' x = nth_error h x) ->
  (forall x n, nth_error h' x = Some (Some n) -> In x (addrs u) \/ length h <= x -> In x (addrs u')) ->
  holds h' (fput a u' ts).
Proof.
  intros h h' ts a u u' q (G & N & C) S Q R (T & M) I F L.
  destruct (forest_focus _ _ _ N S) as (rest & P & K). destruct (K u' R) as [P' K']. clear K.
  assert (N' := N). apply (nodup_perm _ _ P) in N'. apply nodup_app in N'. destruct N' as (_ & Nr & D).
  assert (B : forall x, In x rest -> x < length h).
  { intros x X. assert (Y : In x (nodes ts)) by (eapply Permutation_in; [symmetry; exact P|]; apply in_app_iff; auto).
    apply in_flat_map in Y. destruct Y as (t & Y1 & Y2). eapply has_lt; [apply (G t Y1)|easy]. }
  split; [|split].
  - apply (K' h h' G).
    + intros q' Q'. destruct (root_some _ _ (fsub_root _ _ _ S)) as (v & l & r & ->).
      now rewrite (has_parent_unique _ _ _ _ _ _ _ Q' Q).
    + intros x X. apply F; [auto|]. intros Y. apply (D x Y X).
  - eapply nodup_perm; [symmetry; exact P'|]. apply nodup_app. split; [easy|]. split; [easy|].
    intros x X Y. destruct (I x X) as [Z|Z]; [apply (D x Z Y)|]. apply B in Y. lia.
  - intros x n H. eapply Permutation_in; [symmetry; exact P'|]. apply in_app_iff.
    destruct (in_dec Nat.eq_dec x (addrs u)) as [Z|Z]; [left; eapply L; eauto|].
    destruct (le_lt_dec (length h) x) as [W|W]; [left; eapply L; eauto|].
    right. rewrite F in H by easy. apply C in H. apply (Permutation_in _ P) in H.
    apply in_app_iff in H. tauto.
Qed.

(** Depth is bounded by the number of cells. *)
Lemma depth_addrs : forall (t : atree), depth t <= length (addrs t).
Proof. induction t as [|b v l IHl r IHr]; cbn; [lia|]. rewrite app_length. lia. Qed.
Lemma depth_heap : forall (h : heap) q (t : atree), tree_at h q t -> depth t <= length h.
Proof.
  intros h q t [T N]. etransitivity; [apply depth_addrs|]. rewrite <- (seq_length (length h) 0).
  apply NoDup_incl_length; [easy|]. intros x X. apply in_seq. pose proof (has_lt _ _ _ _ T X). lia.
Qed.

Lemma holds_lt : forall (h : heap) (ts : forest) x, holds h ts -> In x (nodes ts) -> x < length h.
Proof.
  intros h ts x (G & _ & _) X. apply in_flat_map in X. destruct X as (t & A & B).
  eapply has_lt; [apply (G t A)|easy].
Qed.

(** ** The calls *)

Lemma part : forall (h : heap) (ts : forest) a, holds h ts -> In a (nodes ts) ->
  exists v l r q, fsub a ts = Some (ANode a v l r) /\ tree_at h q (ANode a v l r).
Proof.
  intros h ts a (G & N & C) I. destruct (fsub_in _ _ I) as [u S].
  destruct (forest_part _ _ _ _ N G S) as [q T].
  destruct (root_some _ _ (fsub_root _ _ _ S)) as (v & l & r & ->). eauto 6.
Qed.

Lemma new_ok : forall (h : heap) (ts : forest) v, holds h ts ->
  holds (h ++ [Some (mkB None v None None)]) (ANode (length h) v ALeaf ALeaf :: ts) /\
  ~ In (length h) (nodes ts).
Proof.
  intros h ts v H. assert (X : ~ In (length h) (nodes ts)).
  { intros I. pose proof (holds_lt _ _ _ H I). lia. }
  split; [|easy]. destruct H as (G & N & C). split; [|split].
  - apply grown_cons. split.
    + cbn. rewrite nth_error_app2, Nat.sub_diag by lia. easy.
    + intros t T. apply has_frame with h; [|auto]. intros x I. apply nth_error_app1.
      eapply has_lt; [apply (G t T)|easy].
  - cbn. constructor; easy.
  - intros x n H. cbn. destruct (lt_dec x (length h)) as [L|L].
    + rewrite nth_error_app1 in H by easy. right. eauto.
    + left. apply nth_lt in H. rewrite app_length in H. cbn in H. lia.
Qed.

Lemma set_ok : forall (h : heap) (ts : forest) a v, holds h ts -> In a (nodes ts) ->
  exists h', set_value h a v = Val h' /\ length h' = length h /\ holds h' (fset a v ts).
Proof.
  intros h ts a v H I. destruct (part _ _ _ H I) as (w & l & r & q & S & T).
  destruct T as [(A & B & C) N]. exists (set_nth h a (Some (mkB q v (root l) (root r)))).
  unfold set_value. rewrite (load_ok _ _ _ A). cbn [bind]. rewrite (store_ok _ _ _ _ A).
  split; [easy|]. split; [apply set_nth_length|]. unfold fset. rewrite S. cbn [set_val].
  assert (N' := N). apply nodup_tree in N'. destruct N' as (Al & Ar & _).
  assert (T' : has (set_nth h a (Some (mkB q v (root l) (root r)))) q (ANode a v l r)).
  { cbn. split; [eapply set_eq; eauto|]. split; (eapply has_frame; [|eassumption]); intros x X;
      apply set_neq; congruence. }
  refine (change _ _ _ _ _ _ q H S _ _ _ _ _ _).
  - now cbn.
  - easy.
  - split; easy.
  - intros x X. left. exact X.
  - intros x X Y. apply set_neq. intros ->. apply Y. now left.
  - intros x n X [Y|Y]; [exact Y|]. apply nth_lt in X. rewrite set_nth_length in X. lia.
Qed.

Lemma fset_nodes : forall a v (ts : forest) x, NoDup (nodes ts) -> (In x (nodes (fset a v ts)) <-> In x (nodes ts)).
Proof.
  intros a v ts x N. unfold fset. destruct (fsub a ts) as [u|] eqn:S; [|easy].
  destruct (forest_focus _ _ _ N S) as (rest & P & K).
  pose proof (fsub_root _ _ _ S) as R. destruct (root_some _ _ R) as (w & l & r & ->).
  destruct (K (set_val (ANode a w l r) v) eq_refl) as [P' _].
  split; intros X.
  - apply (Permutation_in _ P') in X. eapply Permutation_in; [symmetry; exact P|]. exact X.
  - apply (Permutation_in _ P) in X. eapply Permutation_in; [symmetry; exact P'|]. exact X.
Qed.

Lemma get_ok : forall (h : heap) (ts : forest) a, holds h ts -> In a (nodes ts) ->
  exists v, get h a = Val v /\ value_at ts a v.
Proof.
  intros h ts a H I. destruct (part _ _ _ H I) as (w & l & r & q & S & (A & _) & N).
  exists w. unfold get. rewrite (load_ok _ _ _ A). split; [easy|]. exists l, r. exact S.
Qed.

Lemma swap_with_ok : forall (h : heap) (ts : forest) a b, holds h ts -> In a (nodes ts) -> In b (nodes ts) ->
  exists h' v w, swap_with h a b = Val h' /\ value_at ts a v /\ value_at ts b w /\
    holds h' (fset a w (fset b v ts)).
Proof.
  intros h ts a b H A B. destruct (get_ok _ _ _ H A) as (v & GA & VA).
  destruct (get_ok _ _ _ H B) as (w & GB & VB). unfold swap_with. rewrite GB. cbn [bind]. rewrite GA. cbn [bind].
  destruct (set_ok _ _ _ v H B) as (h1 & S1 & L1 & H1). rewrite S1. cbn [bind].
  assert (A1 : In a (nodes (fset b v ts))) by (apply fset_nodes; [apply H|easy]).
  destruct (set_ok _ _ _ w H1 A1) as (h2 & S2 & L2 & H2). eauto 8.
Qed.

Lemma add_ok : forall (h : heap) (ts : forest) a dir v, holds h ts -> In a (nodes ts) ->
  exists h' r ts', nstep v0 h (NAdd a dir v) = Val (h', r) /\ holds h' ts' /\ after ts (NAdd a dir v) r ts'.
Proof.
  intros h ts a dir v H I. destruct (part _ _ _ H I) as (w & l & r & q & S & T). cbn [nstep after].
  destruct (child dir (ANode a w l r)) eqn:C.
  - destruct (add_child_free h q (ANode a w l r) a dir v T eq_refl C) as (h' & E & L & T' & O).
    rewrite E. cbn [bind]. exists h', (RBool true), (fput a (set_child dir (ANode a w l r) (ANode (length h) v ALeaf ALeaf)) ts).
    split; [easy|]. split.
    + destruct O as [_ O]. refine (change _ _ _ _ _ _ q H S _ _ T' _ _ _).
      * apply T.
      * now destruct dir.
      * intros x X. destruct dir; cbn in X, C |- *; subst; cbn in X.
        -- rewrite app_nil_r. destruct X as [X|X]; [auto|]. apply in_app_iff in X. cbn in X. intuition lia.
        -- destruct X as [X|[X|X]]; [auto|right; lia|auto].
      * intros x X Y. apply O; auto. intros [->|[]]. apply Y. now left.
      * intros x n X Y. destruct Y as [Y|Y].
        -- destruct dir; cbn in Y, C |- *; subst; cbn in Y |- *; rewrite ?in_app_iff in *; cbn in *; tauto.
        -- assert (x = length h) as -> by (apply nth_lt in X; lia).
           destruct dir; cbn; rewrite ?in_app_iff; cbn; tauto.
    + exists (ANode a w l r). split; [easy|]. rewrite C. exists (length h). split; [|easy].
      intros X. pose proof (holds_lt _ _ _ H X). lia.
  - rewrite (add_child_taken h q (ANode a w l r) a dir v T eq_refl) by congruence. cbn [bind].
    exists h, (RBool false), ts. split; [easy|]. split; [easy|]. exists (ANode a w l r).
    split; [easy|]. now rewrite C.
Qed.

Lemma del_ok : forall (h : heap) (ts : forest) a dir, holds h ts -> In a (nodes ts) ->
  exists h' r ts', nstep v0 h (NDelete a dir) = Val (h', r) /\ holds h' ts' /\ after ts (NDelete a dir) r ts'.
Proof.
  intros h ts a dir H I. destruct (part _ _ _ H I) as (w & l & r & q & S & T). cbn [nstep after].
  pose proof (depth_heap _ _ _ T) as DH.
  destruct (delete_child_ok (Datatypes.S (length h)) h q _ a dir T eq_refl ltac:(lia)) as (h' & E & L & T' & O & O').
  rewrite E. cbn [bind]. eexists h', _, (fput a (set_child dir (ANode a w l r) ALeaf) ts).
  split; [reflexivity|]. split; [|eauto].
  refine (change _ _ _ _ _ _ q H S _ _ T' _ _ _).
  - apply T.
  - now destruct dir.
  - intros x X. left. destruct dir; cbn in *; rewrite ?in_app_iff in *; cbn in *; tauto.
  - intros x X Y. apply O'; auto.
    + intros Z. apply Y. destruct dir; cbn in *; rewrite ?in_app_iff in *; tauto.
    + intros [->|[]]. apply Y. now left.
  - intros x n X Y. destruct Y as [Y|Y]; [|apply nth_lt in X; lia].
    assert (Z : ~ In x (addrs (child dir (ANode a w l r)))) by (intros Z; apply O in Z; congruence).
    destruct dir; cbn in *; rewrite ?in_app_iff in *; cbn in *; tauto.
Qed.

Lemma clr_ok : forall (h : heap) (ts : forest) a, holds h ts -> In a (nodes ts) ->
  exists h' r ts', nstep v0 h (NClear a) = Val (h', r) /\ holds h' ts' /\ after ts (NClear a) r ts'.
Proof.
  intros h ts a H I. destruct (part _ _ _ H I) as (w & l & r & q & S & T). cbn [nstep after].
  pose proof (depth_heap _ _ _ T) as DH.
  destruct (clear_ok (Datatypes.S (length h)) h q _ _ _ _ T ltac:(lia)) as (h' & E & L & A & O & O').
  rewrite E. cbn [bind]. eexists h', _, (fput a (ANode a w ALeaf ALeaf) ts).
  split; [reflexivity|]. split; [|exists (ANode a w l r); auto].
  refine (change _ _ _ _ _ _ q H S _ _ _ _ _ _).
  - apply T.
  - easy.
  - split; [cbn; auto|]. cbn. constructor; [easy|constructor].
  - intros x X. left. cbn in *. tauto.
  - intros x X Y. apply O'; auto.
    + intros ->. apply Y. now left.
    + intros Z. apply Y. now right.
  - intros x n X Y. destruct Y as [Y|Y]; [|apply nth_lt in X; lia].
    cbn in *. destruct Y as [Y|Y]; [auto|]. apply O in Y. congruence.
Qed.

Lemma swp_ok : forall (h : heap) (ts : forest) a dir, holds h ts -> In a (nodes ts) ->
  exists h' r ts', nstep v0 h (NSwap a dir) = Val (h', r) /\ holds h' ts' /\ after ts (NSwap a dir) r ts'.
Proof.
  intros h ts a dir H I. destruct (part _ _ _ H I) as (w & l & r & q & S & T). cbn [nstep after].
  destruct (child dir (ANode a w l r)) as [|c x cl cr] eqn:C.
  - rewrite (swap_none h q _ a dir T eq_refl C). cbn [bind]. exists h, RUnit, ts.
    split; [easy|]. split; [easy|]. exists w, l, r. rewrite C. auto.
  - destruct (swap_ok h q _ a w dir c x cl cr T eq_refl ltac:(eauto) C) as (h' & E & L & T' & _ & O).
    rewrite E. cbn [bind].
    exists h', RUnit, (fput a (set_val (set_child dir (ANode a w l r) (ANode c w cl cr)) x) ts).
    split; [easy|]. split; [|exists w, l, r; rewrite C; auto].
    assert (AD : addrs (set_val (set_child dir (ANode a w l r) (ANode c w cl cr)) x) = addrs (ANode a w l r)).
    { destruct dir; cbn in C |- *; subst; easy. }
    refine (change _ _ _ _ _ _ q H S _ _ T' _ _ _).
    + apply T.
    + now destruct dir.
    + rewrite AD. auto.
    + intros y X Y. apply O; [easy|easy|]. intros [->|[->|[]]]; apply Y; [now left|].
      destruct dir; cbn in C |- *; subst; cbn; rewrite in_app_iff; cbn; tauto.
    + rewrite AD. intros y n X [Y|Y]; [easy|]. apply nth_lt in X. lia.
Qed.

Lemma assign_step : forall (h : heap) (ts : forest) fuel a b u w, holds h ts -> length h <= fuel ->
  fsub a ts = Some u -> fsub b ts = Some w -> apart u w ->
  exists h' t, assign v0 fuel h a b = Val h' /\ holds h' (fput a t ts) /\ root t = Some a /\ alike w t /\
    (forall y, In y (addrs t) -> y = a \/ length h <= y).
Proof.
  intros h ts fuel a b u w H L SA SB AP.
  destruct (root_some _ _ (fsub_root _ _ _ SA)) as (va & la & ra & ->).
  destruct (root_some _ _ (fsub_root _ _ _ SB)) as (vb & lb & rb & ->).
  destruct (forest_part h a ts _ (proj1 (proj2 H)) (proj1 H) SA) as [p TA].
  destruct (forest_part h b ts _ (proj1 (proj2 H)) (proj1 H) SB) as [q TB].
  pose proof (depth_heap _ _ _ TA) as DA. pose proof (depth_heap _ _ _ TB) as DB.
  destruct (assign_apart v0 fuel h p q a va la ra b vb lb rb TA TB AP ltac:(lia) ltac:(lia))
    as (h' & t & E & R & T & AL & _ & X & O & O').
  exists h', t. split; [easy|]. split; [|split; [easy|split; [easy|]]].
  - refine (change _ _ _ _ _ _ p H SA _ R T _ _ _).
    + apply TA.
    + intros x Y. apply X in Y. destruct Y as [->|Y]; [left; now left|right; lia].
    + intros x Y Z. apply O'; auto.
      * intros W. apply Z. now right.
      * intros [->|[]]. apply Z. now left.
    + intros x n Y [Z|Z].
      * cbn in Z. destruct Z as [->|Z]; [apply X; auto|]. apply O in Z. congruence.
      * apply X. right. apply nth_lt in Y. lia.
  - intros y Y. apply X in Y. destruct Y; [auto|right; lia].
Qed.

Lemma perm_nodes : forall (ts ts' : forest), Permutation ts ts' -> Permutation (nodes ts) (nodes ts').
Proof. intros. unfold nodes. now apply Permutation_flat_map. Qed.
Lemma holds_perm : forall (h : heap) (ts ts' : forest), Permutation ts ts' -> holds h ts -> holds h ts'.
Proof.
  intros h ts ts' P (G & N & C). pose proof (perm_nodes _ _ P) as Q. split; [|split].
  - intros t T. apply G. eapply Permutation_in; [symmetry; exact P|easy].
  - eapply nodup_perm; eauto.
  - intros x n H. eapply Permutation_in; [exact Q|eauto].
Qed.

Lemma move_step : forall (h : heap) (ts : forest) fuel a b w bl br, holds h ts -> length h <= fuel ->
  In (ANode b w bl br) ts -> In a (nodes ts) -> ~ In a (addrs (ANode b w bl br)) ->
  exists h', move fuel h a b = Val h' /\
    holds h' (fput a (ANode a w bl br) (fput b (ANode b w ALeaf ALeaf) ts)).
Proof.
  intros h ts fuel a b w bl br H L T IA NA.
  destruct (in_split _ _ T) as (l1 & l2 & ->).
  assert (P : Permutation (l1 ++ ANode b w bl br :: l2) (ANode b w bl br :: l1 ++ l2))
    by (symmetry; apply Permutation_middle).
  pose proof (holds_perm _ _ _ P H) as H1.
  assert (E : fput a (ANode a w bl br) (fput b (ANode b w ALeaf ALeaf) (l1 ++ ANode b w bl br :: l2)) =
              fput a (ANode a w bl br) l1 ++ ANode b w ALeaf ALeaf :: fput a (ANode a w bl br) l2).
  { destruct H1 as (_ & N & _). cbn in N. inversion_clear N as [|? ? N1 N2]. rewrite in_app_iff in N1.
    fold (nodes (l1 ++ l2)) in N1. unfold nodes in N1. rewrite flat_map_app, !in_app_iff in N1.
    unfold fput. rewrite !map_app. cbn [map].
    fold (fput b (ANode b w ALeaf ALeaf) l1). fold (fput b (ANode b w ALeaf ALeaf) l2).
    rewrite (fput_notin b _ l1), (fput_notin b _ l2) by (unfold nodes; tauto). f_equal. f_equal.
    cbn. rewrite Nat.eqb_refl. cbn. destruct (Nat.eqb_spec a b) as [->|]; [|easy].
    exfalso. apply NA. now left. }
  rewrite E. clear E T. set (rest := l1 ++ l2) in *.
  assert (IA' : In a (nodes rest)).
  { apply (Permutation_in _ (perm_nodes _ _ P)) in IA. cbn [nodes flat_map] in IA.
    apply in_app_iff in IA. tauto. }
  destruct H1 as (G & N & C). apply grown_cons in G. destruct G as [GB GR].
  cbn [nodes flat_map] in N. apply nodup_app in N. destruct N as (NB & NR & D).
  destruct (fsub_in _ _ IA') as [u S].
  destruct (root_some _ _ (fsub_root _ _ _ S)) as (v & l & r & ->).
  destruct (forest_part _ _ _ _ NR GR S) as [p TA].
  destruct (forest_focus _ _ _ NR S) as (R & PR & K).
  destruct (K (ANode a w bl br) eq_refl) as [PR' K']. clear K.
  assert (NR' := NR). apply (nodup_perm _ _ PR) in NR'. apply nodup_app in NR'. destruct NR' as (NU & NRR & DU).
  assert (IR : forall x, In x (addrs (ANode a v l r)) \/ In x R <-> In x (nodes rest)).
  { intros x. rewrite <- in_app_iff. split; apply Permutation_in; [now symmetry|easy]. }
  assert (AP : apart (ANode a v l r) (ANode b w bl br)).
  { intros x X Y. apply (D x Y). apply IR. auto. }
  pose proof (depth_heap _ _ _ TA) as DA.
  destruct (move_apart fuel h p None a v l r b w bl br TA (conj GB NB) AP ltac:(lia))
    as (h' & E & LE & T1 & T2 & O & O').
  exists h'. split; [easy|].
  assert (P' : Permutation (fput a (ANode a w bl br) l1 ++ ANode b w ALeaf ALeaf :: fput a (ANode a w bl br) l2)
     (ANode b w ALeaf ALeaf :: fput a (ANode a w bl br) rest)).
  { unfold rest, fput. rewrite map_app. symmetry. apply Permutation_middle. }
  eapply holds_perm; [symmetry; exact P'|]. clear P'.
  assert (RB : forall x, In x (roots bl br) -> In x (addrs bl ++ addrs br)).
  { intros x X. apply in_roots in X. apply in_app_iff. destruct X as [X|X]; apply root_in in X; auto. }
  assert (RL : forall x, In x R -> x < length h).
  { intros x X. assert (Y : In x (nodes rest)) by (apply IR; auto).
    apply in_flat_map in Y. destruct Y as (z & Y1 & Y2). eapply has_lt; [apply (GR z Y1)|easy]. }
  assert (RO : forall x, In x R -> nth_error h' x = nth_error h x).
  { intros x X. apply O'; [auto| |].
    - intros Y. apply (DU x); [now right|easy].
    - intros [<-|[<-|Y]].
      + apply (DU a); [now left|easy].
      + apply (D b); [now left|]. apply IR. auto.
      + apply (D x); [right; auto|]. apply IR. auto. }
  split; [|split].
  - apply grown_cons. split; [apply T2|]. apply (K' h h' GR); [|easy].
    intros q Q. destruct TA as [TA _]. rewrite (has_parent_unique _ _ _ _ _ _ _ Q TA). apply T1.
  - cbn [nodes flat_map]. apply nodup_app. split; [apply T2|]. split.
    + eapply nodup_perm; [symmetry; exact PR'|]. apply nodup_app. split; [apply T1|]. split; [easy|].
      intros x [<-|X] Y.
      * apply (DU a); [now left|easy].
      * apply (D x); [now right|]. apply IR. auto.
    + intros x X Y. cbn in X. destruct X as [<-|[]]. apply (Permutation_in _ PR') in Y.
      apply in_app_iff in Y. destruct Y as [[->|Y]|Y].
      * apply NA. now left.
      * cbn in NB. inversion_clear NB. easy.
      * apply (D b); [now left|]. apply IR. auto.
  - intros x n X.
    assert (XL : x < length h) by (apply nth_lt in X; lia).
    assert (Y : x = b \/ In x (addrs (ANode a w bl br)) \/ In x R).
    { destruct (in_dec Nat.eq_dec x (addrs l ++ addrs r)) as [Z|Z]; [apply O in Z; congruence|].
      destruct (in_dec Nat.eq_dec x (a :: b :: addrs bl ++ addrs br)) as [W|W].
      - destruct W as [<-|[<-|W]]; [right; left; now left|auto|right; left; now right].
      - rewrite O' in X; [|easy|easy|].
        + apply C in X. cbn [nodes flat_map] in X. apply in_app_iff in X. destruct X as [X|X].
          * exfalso. apply W. cbn in X. destruct X; [right; now left|right; now right].
          * apply IR in X. destruct X as [[X|X]|X]; [exfalso; apply W; now left|easy|auto].
        + intros [Y|[Y|Y]]; apply W; [now left|right; now left|right; right; auto]. }
    cbn [nodes flat_map]. apply in_app_iff. destruct Y as [->|Y]; [left; now left|].
    right. eapply Permutation_in; [symmetry; exact PR'|]. apply in_app_iff. easy.
Qed.

Lemma root_part : forall (ts : forest) a v l r, NoDup (nodes ts) -> In (ANode a v l r) ts ->
  fsub a ts = Some (ANode a v l r).
Proof.
  induction ts as [|t ts IH]; intros a v l r N I; [easy|]. cbn in *. apply nodup_app in N.
  destruct N as (Nt & Ns & D). destruct I as [->|I].
  - cbn. now rewrite Nat.eqb_refl.
  - destruct (sub a t) eqn:E; [|auto]. exfalso.
    apply (D a); [eapply sub_incl; [eauto|]; apply root_in; eapply sub_root; eauto|].
    apply in_flat_map. eexists. split; [exact I|]. now left.
Qed.

Lemma copynew_ok : forall (h : heap) (ts : forest) b, holds h ts -> In b (nodes ts) ->
  exists h' r ts', nstep v0 h (NCopyNew b) = Val (h', r) /\ holds h' ts' /\ after ts (NCopyNew b) r ts'.
Proof.
  intros h ts b H I. destruct (new_ok h ts v0 H) as [H1 NI]. cbn [nstep after]. unfold copy_construct, alloc.
  destruct (fsub_in _ _ I) as [w S].
  set (a := length h) in *. set (h1 := h ++ [Some (mkB None v0 None None)]) in *.
  set (ts1 := ANode a v0 ALeaf ALeaf :: ts) in *.
  assert (SA : fsub a ts1 = Some (ANode a v0 ALeaf ALeaf)) by (cbn; now rewrite Nat.eqb_refl).
  assert (BA : b <> a) by (intros ->; easy).
  assert (SB : fsub b ts1 = Some w).
  { cbn. destruct (Nat.eqb_spec b a); [easy|exact S]. }
  assert (AP : apart (ANode a v0 ALeaf ALeaf) w).
  { intros x [<-|[]] X. apply NI. eapply fsub_incl; eauto. }
  assert (LE : length h1 = Datatypes.S (length h)) by (unfold h1; rewrite app_length; cbn; lia).
  destruct (assign_step h1 ts1 (Datatypes.S (length h)) a b _ w H1 ltac:(lia) SA SB AP)
    as (h' & t & E & HH & R & AL & F).
  fold a in E. rewrite E. cbn [bind]. exists h', (RNode a), (t :: ts). split; [easy|].
  assert (EQ : fput a t ts1 = t :: ts).
  { cbn. rewrite Nat.eqb_refl. f_equal. now apply fput_notin. }
  rewrite EQ in HH. split; [easy|]. exists a, w, t. do 3 (split; [easy|]). split; [|easy].
  intros y Y Z. apply F in Y. destruct Y as [->|Y]; [easy|]. pose proof (holds_lt _ _ _ H Z). lia.
Qed.

Lemma movenew_ok : forall (h : heap) (ts : forest) b, holds h ts -> is_root b ts ->
  exists h' r ts', nstep v0 h (NMoveNew b) = Val (h', r) /\ holds h' ts' /\ after ts (NMoveNew b) r ts'.
Proof.
  intros h ts b H (t & I & R). destruct (root_some _ _ R) as (w & bl & br & ->).
  destruct (new_ok h ts v0 H) as [H1 NI]. cbn [nstep after]. unfold move_construct, alloc.
  set (a := length h) in *. set (h1 := h ++ [Some (mkB None v0 None None)]) in *.
  assert (LE : length h1 = Datatypes.S (length h)) by (unfold h1; rewrite app_length; cbn; lia).
  assert (NT : ~ In a (addrs (ANode b w bl br))).
  { intros X. apply NI. apply in_flat_map. eauto. }
  destruct (move_step h1 (ANode a v0 ALeaf ALeaf :: ts) (Datatypes.S (length h)) a b w bl br H1
    ltac:(lia) ltac:(now right) ltac:(now left) NT) as (h' & E & HH).
  fold a in E. rewrite E. cbn [bind].
  exists h', (RNode a), (ANode a w bl br :: fput b (ANode b w ALeaf ALeaf) ts). split; [easy|]. split.
  - cbn [fput map put] in HH. destruct (Nat.eqb_spec b a) as [->|BA].
    { exfalso. apply NT. now left. }
    cbn [put] in HH. rewrite Nat.eqb_refl in HH.
    fold (fput b (ANode b w ALeaf ALeaf) ts) in HH.
    fold (fput a (ANode a w bl br) (fput b (ANode b w ALeaf ALeaf) ts)) in HH.
    rewrite fput_notin in HH; [easy|].
    destruct H as (_ & N & _).
    destruct (forest_focus _ _ _ N (root_part _ _ _ _ _ N I)) as (rest & P & K).
    destruct (K (ANode b w ALeaf ALeaf) eq_refl) as [P' _]. intros X. apply (Permutation_in _ P') in X.
    apply NI. eapply Permutation_in; [symmetry; exact P|]. apply in_app_iff in X. apply in_app_iff.
    destruct X as [[X|[]]|X]; [left; now left|auto].
  - exists a, w, bl, br. auto.
Qed.

Lemma filter_ext_in' : forall (f : atree -> bool) ts, (forall t, In t ts -> f t = true) -> filter f ts = ts.
Proof.
  induction ts as [|t ts IH]; intros H; cbn; [easy|]. rewrite H by now left. f_equal. apply IH.
  intros; apply H; now right.
Qed.

Lemma destroy_ok : forall (h : heap) (ts : forest) a, holds h ts -> is_root a ts ->
  exists h' r ts', nstep v0 h (NDestroy a) = Val (h', r) /\ holds h' ts' /\ after ts (NDestroy a) r ts'.
Proof.
  intros h ts a H (t & I & R). destruct (root_some _ _ R) as (w & l & r & ->). cbn [nstep after].
  destruct (in_split _ _ I) as (l1 & l2 & ->).
  assert (P : Permutation (l1 ++ ANode a w l r :: l2) (ANode a w l r :: l1 ++ l2))
    by (symmetry; apply Permutation_middle).
  pose proof (holds_perm _ _ _ P H) as (G & N & C). apply grown_cons in G. destruct G as [GA GR].
  cbn [nodes flat_map] in N. apply nodup_app in N. destruct N as (NA & NR & D). fold (nodes (l1 ++ l2)) in NR, D.
  pose proof (depth_heap h None _ (conj GA NA)) as DH.
  destruct (clear_and_delete (Datatypes.S (length h)) h None a w l r (conj GA NA) ltac:(lia))
    as (_ & h' & E & L & O & O').
  rewrite E. cbn [bind]. exists h', RUnit, (l1 ++ l2). split; [easy|].
  assert (FR : forall x, In x (nodes (l1 ++ l2)) -> nth_error h' x = nth_error h x).
  { intros x X. apply O'; [|intros Y; apply (D x Y X)|easy].
    apply in_flat_map in X. destruct X as (z & X1 & X2). eapply has_lt; [apply (GR z X1)|easy]. }
  split.
  - split; [|split; [easy|]].
    + intros z Z. apply has_frame with h; [|auto]. intros x X. apply FR. apply in_flat_map. eauto.
    + intros x n X. assert (XL : x < length h) by (apply nth_lt in X; lia).
      destruct (in_dec Nat.eq_dec x (addrs (ANode a w l r))) as [Z|Z]; [apply O in Z; congruence|].
      rewrite O' in X by easy. apply C in X. cbn [nodes flat_map] in X. apply in_app_iff in X. tauto.
  - split; [easy|].
    assert (K : forall z, In z (l1 ++ l2) -> negb (has_root a z) = true).
    { intros z Z. unfold has_root. destruct (root z) as [b|] eqn:RZ; [|easy].
      destruct (Nat.eqb_spec a b) as [->|]; [|easy]. exfalso. apply (D b); [now left|].
      apply in_flat_map. exists z. split; [easy|]. now apply root_in. }
    rewrite filter_app. cbn [filter]. unfold has_root at 2. cbn [root]. rewrite Nat.eqb_refl. cbn [negb].
    rewrite !filter_ext_in'; [easy| |]; intros z Z; apply K; apply in_app_iff; auto.
Qed.

(** The parent of a node of a tree. *)
Lemma parent_in_tree : forall (h : heap) a (t : atree) p, has h p t -> NoDup (addrs t) -> In a (addrs t) ->
  exists n, nth_error h a = Some (Some n) /\
  ((root t = Some a /\ parent n = p) \/
   exists b u dir, sub b t = Some u /\ root (child dir u) = Some a /\ parent n = Some b).
Proof.
  induction t as [|b v l IHl r IHr]; intros p HT N I; [easy|]. destruct HT as (A & B & C).
  apply nodup_tree in N. destruct N as (Bl & Br & Nl & Nr & D).
  destruct I as [->|I].
  - eexists. split; [exact A|]. left. auto.
  - apply in_app_iff in I. destruct I as [I|I].
    + destruct (IHl _ B Nl I) as (n & E & [[R P]|(c & u & dir & S & R & P)]); exists n; (split; [easy|]); right.
      * exists b, (ANode b v l r), false. cbn. rewrite Nat.eqb_refl. auto.
      * exists c, u, dir. cbn. destruct (Nat.eqb_spec c b) as [->|].
        -- exfalso. apply Bl. eapply sub_incl; [eauto|]. apply root_in. eapply sub_root; eauto.
        -- rewrite S. auto.
    + destruct (IHr _ C Nr I) as (n & E & [[R P]|(c & u & dir & S & R & P)]); exists n; (split; [easy|]); right.
      * exists b, (ANode b v l r), true. cbn. rewrite Nat.eqb_refl. auto.
      * assert (IC : In c (addrs r)) by (eapply sub_incl; [eauto|]; apply root_in; eapply sub_root; eauto).
        exists c, u, dir. cbn. destruct (Nat.eqb_spec c b) as [->|]; [easy|].
        assert (sub c l = None) as -> by (apply sub_none; intros X; apply (D c X IC)). auto.
Qed.
Lemma parent_in : forall (h : heap) a (ts : forest), holds h ts -> In a (nodes ts) ->
  exists n, nth_error h a = Some (Some n) /\
  ((is_root a ts /\ parent n = None) \/
   exists b u dir, fsub b ts = Some u /\ root (child dir u) = Some a /\ parent n = Some b).
Proof.
  intros h a ts (G & N & _) I.
  assert (X : exists t, In t ts /\ In a (addrs t)) by now apply in_flat_map in I.
  destruct X as (t & T & IA).
  assert (NT : NoDup (addrs t)).
  { destruct (in_split _ _ T) as (l1 & l2 & ->). unfold nodes in N. rewrite flat_map_app in N.
    apply nodup_app in N. destruct N as (_ & N & _). cbn in N. apply nodup_app in N. tauto. }
  destruct (parent_in_tree h a t None (G t T) NT IA) as (n & E & [[R P]|(b & u & dir & S & R & P)]);
    exists n; (split; [easy|]).
  - left. split; [exists t; auto|easy].
  - right. exists b, u, dir. split; [|auto].
    clear -N T S. assert (IB : In b (addrs t)) by (eapply sub_incl; [eauto|]; apply root_in; eapply sub_root; eauto).
    induction ts as [|z ts IH]; [easy|]. cbn in *. apply nodup_app in N. destruct N as (Nt & Ns & D).
    destruct T as [->|T]; [now rewrite S|].
    assert (sub b z = None) as ->; [|auto]. apply sub_none. intros X. apply (D b X). apply in_flat_map. eauto.
Qed.

Lemma child_side : forall dir (h : heap) q a v (l r : atree), has h q (ANode a v l r) ->
  exists n, load h a = Val n /\ side dir n = root (child dir (ANode a v l r)).
Proof.
  intros dir h q a v l r (A & _). eexists. split; [apply load_ok; exact A|]. now destruct dir.
Qed.

Theorem step_ok : forall o (h : heap) (ts : forest), holds h ts -> legal ts o ->
  exists h' r ts', nstep v0 h o = Val (h', r) /\ holds h' ts' /\ after ts o r ts'.
Proof.
  intros o h ts H L. destruct o; cbn [legal] in L.
  - destruct (new_ok h ts v H) as [H1 N]. cbn [nstep after construct alloc].
    eexists _, _, _. split; [reflexivity|]. split; [exact H1|]. eauto.
  - now apply copynew_ok.
  - now apply movenew_ok.
  - now apply destroy_ok.
  - now apply add_ok.
  - now apply del_ok.
  - now apply clr_ok.
  - now apply swp_ok.
  - destruct L as [A B]. destruct (swap_with_ok _ _ _ _ H A B) as (h' & v & w & E & VA & VB & HH).
    cbn [nstep after]. rewrite E. cbn [bind]. eexists _, _, _. split; [reflexivity|]. split; [exact HH|]. eauto 6.
  - destruct (set_ok h ts a v H L) as (h' & E & _ & HH). cbn [nstep after]. rewrite E. cbn [bind].
    eexists _, _, _. split; [reflexivity|]. split; [exact HH|]. auto.
  - destruct L as (u & w & SA & SB & AP).
    destruct (assign_step h ts (Datatypes.S (length h)) a b u w H ltac:(lia) SA SB AP)
      as (h' & t & E & HH & R & AL & F).
    cbn [nstep after]. rewrite E. cbn [bind]. eexists _, _, _. split; [reflexivity|]. split; [exact HH|].
    exists w, t. do 3 (split; [easy|]). split; [|auto].
    intros y Y. apply F in Y. destruct Y as [Y|Y]; [auto|]. right. intros Z. pose proof (holds_lt _ _ _ H Z). lia.
  - destruct L as (t & T & R & IA & NA). destruct (root_some _ _ R) as (w & bl & br & ->).
    destruct (move_step h ts (Datatypes.S (length h)) a b w bl br H ltac:(lia) T IA NA) as (h' & E & HH).
    cbn [nstep after]. rewrite E. cbn [bind]. eexists _, _, _. split; [reflexivity|]. split; [exact HH|].
    exists w, bl, br. auto.
  - destruct (part _ _ _ H L) as (v & l & r & q & S & T & _). destruct (child_side dir h q a v l r T) as (n & E & SD).
    cbn [nstep after]. unfold child_of. rewrite E. cbn [bind]. rewrite SD.
    exists h, (match root (child dir (ANode a v l r)) with Some c => RNode c | None => RThrow end), ts.
    split; [now destruct (root _)|]. split; [easy|]. eauto.
  - destruct (part _ _ _ H L) as (v & l & r & q & S & T & _). destruct (child_side dir h q a v l r T) as (n & E & SD).
    cbn [nstep after]. unfold has_child. rewrite E. cbn [bind look]. rewrite SD.
    eexists h, _, ts. split; [reflexivity|]. split; [easy|]. exists (ANode a v l r).
    split; [easy|]. split; [easy|]. now destruct (child dir (ANode a v l r)).
  - destruct (part _ _ _ H L) as (v & l & r & q & S & T & _).
    destruct (child_side false h q a v l r T) as (n & E & SD).
    destruct (child_side true h q a v l r T) as (m & F & SE). rewrite E in F. injection F as <-.
    cbn [nstep after]. unfold children_count, has_child. rewrite E. cbn [bind look]. rewrite SD, SE.
    eexists h, _, ts. split; [reflexivity|]. split; [easy|]. exists (ANode a v l r).
    split; [easy|]. split; [easy|]. cbn. now destruct l, r.
  - destruct (parent_in h a ts H L) as (n & E & [[R P]|(b & u & dir & S & R & P)]);
      cbn [nstep after]; unfold parent_of; rewrite (load_ok _ _ _ E); cbn [bind]; rewrite P;
      eexists h, _, ts; (split; [reflexivity|]); (split; [easy|]); (split; [easy|]).
    + left. auto.
    + right. exists b, u, dir. auto.
  - destruct (parent_in h a ts H L) as (n & E & [[R P]|(b & u & dir & S & R & P)]);
      cbn [nstep after]; unfold has_parent; rewrite (load_ok _ _ _ E); cbn [bind]; rewrite P;
      eexists h, _, ts; (split; [reflexivity|]); (split; [easy|]); (split; [easy|]).
    + left. auto.
    + right. split; [easy|]. exists b, u, dir. auto.
  - destruct (get_ok _ _ _ H L) as (v & E & VA). cbn [nstep after]. rewrite E. cbn [look].
    eexists h, _, ts. split; [reflexivity|]. split; [easy|]. eauto.
Qed.

Theorem run_ok : forall (p : prog V) (h : heap) (ts : forest), holds h ts -> fair ts p ->
  exists h' rs ts', nrun v0 h p = Val (h', rs) /\ holds h' ts' /\ play ts rs ts'.
Proof.
  induction p as [|o k IH]; intros h ts H F; cbn [nrun fair] in *.
  - exists h, [], ts. split; [easy|]. split; [easy|constructor].
  - destruct F as [L F]. destruct (step_ok o h ts H L) as (h1 & r & ts1 & E & H1 & A).
    rewrite E. cbn [bind]. destruct (IH r h1 ts1 H1 (F _ _ A)) as (h2 & rs & ts2 & E2 & H2 & P).
    rewrite E2. cbn [bind]. exists h2, ((o, r) :: rs), ts2. split; [easy|]. split; [easy|].
    econstructor; eauto.
Qed.

Lemma holds_nil : holds ([] : heap) [].
Proof. split; [easy|]. split; [constructor|]. intros [|x] n; easy. Qed.

Lemma child_parent : forall (h : heap) (ts : forest) a dir c, holds h ts -> In a (nodes ts) ->
  child_of h a dir = Val c -> In c (nodes ts) /\ parent_of h c = Val a /\ child_of h a (negb dir) <> Val c.
Proof.
  intros h ts a dir c H I E. destruct (part _ _ _ H I) as (v & l & r & q & S & T & N).
  destruct (child_side dir h q a v l r T) as (n & LO & SD). unfold child_of in *. rewrite LO in *. cbn [bind] in *.
  rewrite SD in E. destruct T as (A & HL & HR). apply nodup_tree in N. destruct N as (_ & _ & _ & _ & D).
  assert (Q : n = mkB q v (root l) (root r)) by (unfold load in LO; rewrite A in LO; congruence).
  destruct (root (child dir (ANode a v l r))) as [d|] eqn:R; [|easy]. injection E as ->.
  assert (IC : In c (addrs (ANode a v l r))).
  { apply root_in in R. destruct dir; cbn in *; rewrite in_app_iff; tauto. }
  split; [eapply fsub_incl; eauto|]. split.
  - unfold parent_of. destruct (root_some _ _ R) as (cv & cl & cr & EC).
    destruct dir; cbn in EC; subst; [destruct HR as (B & _)|destruct HL as (B & _)];
      now rewrite (load_ok _ _ _ B).
  - subst n. intros X. destruct dir; cbn in X, R.
    + destruct (root l) as [d|] eqn:RL; [|easy]. injection X as ->. apply (D c); now apply root_in.
    + destruct (root r) as [d|] eqn:RL; [|easy]. injection X as ->. apply (D c); now apply root_in.
Qed.

Lemma parent_child : forall (h : heap) (ts : forest) a p, holds h ts -> In a (nodes ts) ->
  parent_of h a = Val p -> In p (nodes ts) /\ exists dir, child_of h p dir = Val a.
Proof.
  intros h ts a p H I E. destruct (parent_in h a ts H I) as (n & LO & X). unfold parent_of in E.
  rewrite (load_ok _ _ _ LO) in E. cbn [bind] in E. destruct X as [[_ P]|(b & u & dir & S & R & P)].
  - rewrite P in E. easy.
  - rewrite P in E. injection E as <-.
    assert (IB : In b (nodes ts)).
    { eapply fsub_incl; [eauto|]. apply root_in. eapply fsub_root; eauto. }
    split; [easy|]. exists dir. destruct (part _ _ _ H IB) as (v & l & r & q & S' & T & _).
    rewrite S in S'. injection S' as ->. destruct (child_side dir h q b v l r T) as (m & LM & SD).
    unfold child_of. rewrite LM. cbn [bind]. now rewrite SD, R.
Qed.

Lemma climb_S : forall n (h : heap) a, climb (S n) h a =
  let* b := has_parent h a in if b then let* a := parent_of h a in climb n h a else Val a.
Proof. reflexivity. Qed.

(** Climbing inside one tree. *)
Lemma climb_tree : forall (t : atree) (h : heap) p rt a n, has h p t -> In a (addrs t) ->
  root t = Some rt -> depth t <= n -> exists m, m < depth t /\ climb n h a = climb (n - m) h rt.
Proof.
  induction t as [|b v l IHl r IHr]; intros h p rt a n HT I R L; [easy|]. destruct HT as (A & B & C).
  injection R as <-. cbn [addrs] in I. destruct I as [->|I].
  { exists 0. rewrite Nat.sub_0_r. cbn. split; [lia|easy]. }
  cbn [depth] in *. apply in_app_iff in I.
  assert (STEP : forall (z : atree) d, has h (Some b) z -> root z = Some d -> forall k, 0 < k -> climb k h d = climb (k - 1) h b).
  { intros z d Z RZ k K. destruct (root_some _ _ RZ) as (zv & zl & zr & ->). destruct Z as (Z & _).
    destruct k; [lia|]. rewrite climb_S. unfold has_parent, parent_of. rewrite (load_ok _ _ _ Z). cbn [bind parent].
    now rewrite Nat.sub_succ, Nat.sub_0_r. }
  destruct I as [I|I].
  - destruct (root l) as [d|] eqn:RL; [|destruct l; easy].
    destruct (IHl h _ d a n B I eq_refl ltac:(lia)) as (m & M & E). exists (S m). split; [lia|].
    rewrite E, (STEP l d B RL) by lia. f_equal. lia.
  - destruct (root r) as [d|] eqn:RR; [|destruct r; easy].
    destruct (IHr h _ d a n C I eq_refl ltac:(lia)) as (m & M & E). exists (S m). split; [lia|].
    rewrite E, (STEP r d C RR) by lia. f_equal. lia.
Qed.

Lemma climb_ok : forall (h : heap) (ts : forest) a n, holds h ts -> In a (nodes ts) -> length h <= n ->
  exists t rt, In t ts /\ In a (addrs t) /\ root t = Some rt /\ climb n h a = Val rt.
Proof.
  intros h ts a n (G & N & _) I L. apply in_flat_map in I. destruct I as (t & T & IA).
  assert (NT : NoDup (addrs t)).
  { destruct (in_split _ _ T) as (l1 & l2 & ->). unfold nodes in N. rewrite flat_map_app in N.
    apply nodup_app in N. destruct N as (_ & N & _). cbn in N. apply nodup_app in N. tauto. }
  pose proof (depth_heap _ _ _ (conj (G t T) NT)) as D.
  destruct t as [|rt v l r]; [easy|]. exists (ANode rt v l r), rt. do 3 (split; [easy|]).
  destruct (climb_tree (ANode rt v l r) h None rt a n (G _ T) IA eq_refl ltac:(lia)) as (m & M & ->).
  destruct (n - m) eqn:K; [lia|]. rewrite climb_S. destruct (G _ T) as (A & _).
  unfold has_parent. rewrite (load_ok _ _ _ A). easy.
Qed.

Lemma live_iff : forall (h : heap) (ts : forest) a, holds h ts ->
  (In a (nodes ts) <-> exists n, nth_error h a = Some (Some n)).
Proof.
  intros h ts a H. split.
  - intros I. destruct (part _ _ _ H I) as (v & l & r & q & _ & (A & _) & _). eauto.
  - intros [n E]. destruct H as (_ & _ & C). eauto.
Qed.

Lemma has_child_iff : forall (h : heap) (ts : forest) a dir, holds h ts -> In a (nodes ts) ->
  (has_child h a dir = Val true /\ exists c, child_of h a dir = Val c) \/
  (has_child h a dir = Val false /\ child_of h a dir = Exn NullNode).
Proof.
  intros h ts a dir H I. destruct (part _ _ _ H I) as (v & l & r & q & _ & (A & _) & _).
  unfold has_child, child_of. rewrite (load_ok _ _ _ A). cbn [bind].
  destruct (side dir _); eauto.
Qed.
Lemma has_parent_iff : forall (h : heap) (ts : forest) a, holds h ts -> In a (nodes ts) ->
  (has_parent h a = Val true /\ exists c, parent_of h a = Val c) \/
  (has_parent h a = Val false /\ parent_of h a = Exn NullNode /\ is_root a ts).
Proof.
  intros h ts a H I. destruct (parent_in h a ts H I) as (n & E & [[R P]|(b & u & dir & S & R & P)]);
    unfold has_parent, parent_of; rewrite (load_ok _ _ _ E); cbn [bind]; rewrite P; eauto.
Qed.

End Proofs.
