(** Proofs about traversals whose callback changes the nodes. *)
Require Import List Bool Arith Lia Permutation.
Require Import Verif.Base Verif.BnodeModel Verif.BnodeSpec Verif.BnodeProofs
  Verif.BnodeNavModel Verif.BnodeNavSpec Verif.BnodeNavProofs Verif.BnodeWalkModel Verif.BnodeWalkSpec.
Import ListNotations.

Section Proofs.
Context {V : Type}.
Notation heap := (heap V).
Notation atree := (atree V).
Notation callback := (callback V).
Notation effect := (effect V).

(** ** Parts of parts *)

Lemma sub_self : forall a v (l r : atree), sub a (ANode a v l r) = Some (ANode a v l r).
Proof. intros. cbn. now rewrite Nat.eqb_refl. Qed.
Lemma put_self : forall a v (l r u : atree), put a u (ANode a v l r) = u.
Proof. intros. cbn. now rewrite Nat.eqb_refl. Qed.
Lemma put_at_root : forall a (t u : atree), root t = Some a -> put a u t = u.
Proof. intros a t u R. destruct (root_some _ _ R) as (v & l & r & ->). apply put_self. Qed.

Lemma in_sub : forall a (t u : atree), sub a t = Some u -> In a (addrs t).
Proof. intros. eapply sub_incl; eauto. apply root_in. eapply sub_root; eauto. Qed.

Lemma sub_sub : forall a b (t u w : atree), NoDup (addrs t) -> sub a t = Some u -> sub b u = Some w ->
  sub b t = Some w.
Proof.
  induction t as [|c v l IHl r IHr]; intros u w N A B; [easy|].
  apply nodup_tree in N. destruct N as (Cl & Cr & Nl & Nr & D). cbn in A.
  destruct (Nat.eqb_spec a c) as [->|].
  - injection A as <-. easy.
  - destruct (sub a l) as [z|] eqn:E.
    + injection A as ->. pose proof (IHl _ _ Nl eq_refl B) as X. cbn.
      destruct (Nat.eqb_spec b c) as [->|]; [apply in_sub in X; easy|]. now rewrite X.
    + pose proof (IHr _ _ Nr A B) as X. cbn.
      destruct (Nat.eqb_spec b c) as [->|]; [apply in_sub in X; easy|].
      assert (sub b l = None) as ->; [|easy]. apply sub_none. intros Y. apply in_sub in X. apply (D b Y X).
Qed.

Lemma put_incl : forall c (w t : atree) x, In x (addrs (put c w t)) -> In x (addrs t) \/ In x (addrs w).
Proof.
  induction t as [|b v l IHl r IHr]; intros x; cbn; [auto|].
  destruct (Nat.eqb c b); [auto|]. cbn. rewrite !in_app_iff. intros [X|[X|X]]; [auto| |].
  - apply IHl in X. tauto.
  - apply IHr in X. tauto.
Qed.
Lemma put_has : forall c (w t : atree) x, In c (addrs t) -> In x (addrs w) -> In x (addrs (put c w t)).
Proof.
  induction t as [|b v l IHl r IHr]; intros x C X; [easy|]. cbn. destruct (Nat.eqb_spec c b); [easy|].
  cbn. rewrite in_app_iff. cbn in C. rewrite in_app_iff in C.
  destruct C as [C|[C|C]]; [congruence| |]; auto.
Qed.
Lemma put_sub : forall a (t u : atree), NoDup (addrs t) -> sub a t = Some u -> put a u t = t.
Proof.
  induction t as [|b v l IHl r IHr]; intros u N S; cbn in *; [easy|].
  destruct (Nat.eqb a b); [congruence|]. apply nodup_node in N. destruct N as (_ & _ & Nl & Nr & D).
  destruct (sub a l) eqn:E.
  - injection S as ->. rewrite IHl by auto. rewrite put_notin; [easy|]. apply D. eapply in_sub; eauto.
  - rewrite IHr by auto. rewrite put_notin; [easy|]. now apply sub_none.
Qed.

(** After replacing a part below [a]. *)
Lemma sub_put_below : forall a c (t u w : atree), NoDup (addrs t) -> NoDup (addrs (put c w t)) ->
  sub a t = Some u -> In c (addrs u) -> c <> a -> sub a (put c w t) = Some (put c w u).
Proof.
  induction t as [|b v l IHl r IHr]; intros u w N N' A C CA; [easy|].
  apply nodup_tree in N. destruct N as (Bl & Br & Nl & Nr & D). cbn [sub] in A. cbn [put] in *.
  assert (CT : forall z, sub a z = Some u -> In c (addrs z)) by (intros z Z; eapply sub_incl; eauto).
  destruct (Nat.eqb_spec a b) as [->|].
  - injection A as <-. destruct (Nat.eqb_spec c b) as [->|]; [easy|]. cbn [put].
    destruct (Nat.eqb_spec c b); [easy|]. apply sub_self.
  - destruct (sub a l) as [z|] eqn:E.
    + injection A as ->. pose proof (CT l E) as CL. destruct (Nat.eqb_spec c b) as [->|]; [easy|].
      rewrite (put_notin c w r) in * by auto. apply nodup_tree in N'. destruct N' as (_ & _ & Nl' & _).
      cbn. destruct (Nat.eqb_spec a b); [easy|]. now rewrite (IHl u w Nl Nl' eq_refl C CA).
    + pose proof (CT r A) as CR. destruct (Nat.eqb_spec c b) as [->|]; [easy|].
      rewrite (put_notin c w l) in * by (intros X; apply (D c X CR)).
      apply nodup_tree in N'. destruct N' as (_ & _ & _ & Nr' & _).
      cbn. destruct (Nat.eqb_spec a b); [easy|]. rewrite E. now apply IHr.
Qed.

Lemma put_put : forall a c (t u w u' : atree), NoDup (addrs t) -> sub a t = Some u -> In c (addrs u) -> c <> a ->
  put a u' (put c w t) = put a u' t \/ In a (addrs w).
Proof.
  induction t as [|b v l IHl r IHr]; intros u w u' N A C CA; [easy|].
  destruct (in_dec Nat.eq_dec a (addrs w)) as [I|I]; [auto|]. left.
  apply nodup_tree in N. destruct N as (Bl & Br & Nl & Nr & D). cbn [sub] in A. cbn [put].
  assert (CT : forall z, sub a z = Some u -> In c (addrs z)) by (intros z Z; eapply sub_incl; eauto).
  destruct (Nat.eqb_spec a b) as [->|].
  - destruct (Nat.eqb_spec c b) as [->|]; [easy|]. apply put_self.
  - destruct (sub a l) as [z|] eqn:E.
    + injection A as ->. pose proof (CT l E) as CL. destruct (Nat.eqb_spec c b) as [->|]; [easy|].
      rewrite (put_notin c w r) by auto. cbn. destruct (Nat.eqb_spec a b); [easy|].
      destruct (IHl u w u' Nl eq_refl C CA) as [->|]; easy.
    + pose proof (CT r A) as CR. destruct (Nat.eqb_spec c b) as [->|]; [easy|].
      rewrite (put_notin c w l) by (intros X; apply (D c X CR)). cbn. destruct (Nat.eqb_spec a b); [easy|].
      destruct (IHr u w u' Nr A C CA) as [->|]; easy.
Qed.

Lemma sub_put_same : forall a (t u : atree), In a (addrs t) -> NoDup (addrs t) -> NoDup (addrs (put a u t)) ->
  root u = Some a -> sub a (put a u t) = Some u.
Proof.
  induction t as [|b v l IHl r IHr]; intros u I N N' R; [easy|].
  apply nodup_tree in N. destruct N as (Bl & Br & Nl & Nr & D). cbn [put] in *.
  destruct (Nat.eqb_spec a b) as [->|].
  - destruct (root_some _ _ R) as (w & x & y & ->). apply sub_self.
  - apply nodup_tree in N'. destruct N' as (_ & _ & Nl' & Nr' & D').
    cbn in I. rewrite in_app_iff in I. cbn. destruct (Nat.eqb_spec a b); [easy|].
    destruct I as [I|[I|I]]; [congruence| |].
    + now rewrite (IHl u I Nl Nl' R).
    + rewrite (put_notin a u l) by (intros X; apply (D a X I)).
      assert (sub a l = None) as -> by (apply sub_none; intros X; apply (D a X I)). now apply IHr.
Qed.
Lemma put_put_same : forall a (t u w : atree), In a (addrs t) -> NoDup (addrs t) -> root u = Some a ->
  put a w (put a u t) = put a w t.
Proof.
  induction t as [|b v l IHl r IHr]; intros u w I N R; [easy|].
  apply nodup_tree in N. destruct N as (Bl & Br & Nl & Nr & D). cbn [put] in *.
  destruct (Nat.eqb_spec a b) as [->|].
  - now apply put_at_root.
  - cbn in I. rewrite in_app_iff in I. cbn. destruct (Nat.eqb_spec a b); [easy|].
    destruct I as [I|[I|I]]; [congruence| |].
    + rewrite IHl by easy. rewrite !(put_notin a _ r); auto.
    + rewrite !(put_notin a _ l) by (intros X; apply (D a X I)). now rewrite IHr.
Qed.

(** A part apart from the one that is replaced. *)
Lemma sub_put_apart : forall a b (t u w u' : atree), NoDup (addrs t) -> NoDup (addrs (put a u' t)) ->
  sub a t = Some u -> sub b t = Some w -> ~ In a (addrs w) -> ~ In b (addrs u) ->
  sub b (put a u' t) = Some w.
Proof.
  induction t as [|c v l IHl r IHr]; intros u w u' N N' A B AW BU; [easy|].
  apply nodup_tree in N. destruct N as (Cl & Cr & Nl & Nr & D). cbn [sub] in A, B. cbn [put] in *.
  destruct (Nat.eqb_spec b c) as [->|].
  - injection B as <-. exfalso. apply AW. destruct (Nat.eqb_spec a c) as [->|]; [now left|].
    right. apply in_app_iff. destruct (sub a l) eqn:E; [left|right]; eapply in_sub; eauto.
  - destruct (Nat.eqb_spec a c) as [->|].
    + injection A as <-. exfalso. apply BU. right. apply in_app_iff.
      destruct (sub b l) eqn:E; [left|right]; eapply in_sub; eauto.
    + apply nodup_tree in N'. destruct N' as (_ & _ & Nl' & Nr' & D').
      cbn. destruct (Nat.eqb_spec b c); [easy|].
      destruct (sub a l) as [x|] eqn:EA.
      * injection A as ->. rewrite (put_notin a u' r) by (apply D; eapply in_sub; eauto).
        rewrite (put_notin a u' r) in D' by (apply D; eapply in_sub; eauto).
        destruct (sub b l) as [y|] eqn:EB.
        -- injection B as ->. now rewrite (IHl u w u' Nl Nl' eq_refl eq_refl AW BU).
        -- assert (sub b (put a u' l) = None) as ->; [|easy]. apply sub_none. intros X.
           apply (D' b X). eapply in_sub; eauto.
      * assert (AL : ~ In a (addrs l)) by now apply sub_none.
        rewrite (put_notin a u' l) by easy. destruct (sub b l) as [y|] eqn:EB; [easy|]. eapply IHr; eauto.
Qed.

Lemma sub_child : forall a v (l r : atree) dir c, NoDup (addrs (ANode a v l r)) ->
  root (child dir (ANode a v l r)) = Some c ->
  sub c (ANode a v l r) = Some (child dir (ANode a v l r)) /\ c <> a.
Proof.
  intros a v l r dir c N R. apply nodup_tree in N. destruct N as (Al & Ar & Nl & Nr & D).
  pose proof (root_in _ _ R) as I. destruct (root_some _ _ R) as (w & x & y & E).
  assert (CA : c <> a) by (intros ->; destruct dir; cbn in *; auto).
  split; [|easy]. cbn. destruct (Nat.eqb_spec c a); [easy|].
  destruct dir; cbn in *.
  - assert (sub c l = None) as -> by (apply sub_none; intros X; apply (D c X I)). subst. apply sub_self.
  - subst. now rewrite sub_self.
Qed.
Lemma put_child : forall a v (l r w : atree) dir c, NoDup (addrs (ANode a v l r)) ->
  root (child dir (ANode a v l r)) = Some c ->
  put c w (ANode a v l r) = set_child dir (ANode a v l r) w.
Proof.
  intros a v l r w dir c N R. destruct (sub_child _ _ _ _ _ _ N R) as [_ CA].
  apply nodup_tree in N. destruct N as (Al & Ar & Nl & Nr & D).
  pose proof (root_in _ _ R) as I. cbn. destruct (Nat.eqb_spec c a); [easy|].
  destruct dir; cbn in *.
  - rewrite (put_notin c w l) by (intros X; apply (D c X I)). now rewrite put_at_root.
  - rewrite (put_notin c w r) by auto. now rewrite put_at_root.
Qed.

(** ** Steps of the recursive traversals *)

Lemma holds_nodup : forall (h : heap) t os, holds h (t :: os) -> NoDup (addrs t).
Proof. intros h t os (_ & N & _). cbn in N. now apply nodup_app in N. Qed.
Lemma holds_part : forall (h : heap) t os a u, holds h (t :: os) -> sub a t = Some u ->
  exists q, tree_at h q u.
Proof.
  intros h t os a u H S. apply (forest_part h a (t :: os) u (proj1 (proj2 H)) (proj1 H)). cbn. now rewrite S.
Qed.

Definition wk : Type := heap -> list nat -> nat -> outcome (heap * list nat * nat).
(** A traversal of the part [u] does what the walk [W] says. *)
Definition follows (W : atree -> list nat -> atree -> Prop) (walk : wk) : Prop :=
  forall h past t os a u, holds h (t :: os) -> sub a t = Some u ->
  walk h past a = NoFuel \/
  exists h' cs u' os', walk h past a = Val (h', past ++ cs, length cs) /\ W u cs u' /\
    (root u' = Some a \/ u' = ALeaf /\ root t <> Some a) /\ holds h' (put a u' t :: os').

(** One descent. *)
Lemma descend_ok : forall (W : atree -> list nat -> atree -> Prop) walk, W ALeaf [] ALeaf -> follows W walk ->
  forall h past t os a v l r dir, holds h (t :: os) -> sub a t = Some (ANode a v l r) ->
  descend walk h past a dir = NoFuel \/
  exists h' cs w os', descend walk h past a dir = Val (h', past ++ cs, length cs) /\
    W (child dir (ANode a v l r)) cs w /\
    (root w = root (child dir (ANode a v l r)) \/ w = ALeaf) /\
    exists t', holds h' (t' :: os') /\ sub a t' = Some (set_child dir (ANode a v l r) w) /\
      root t' = root t /\
      forall u', root u' = Some a \/ u' = ALeaf -> put a u' t' = put a u' t.
Proof.
  intros W walk WL F h past t os a v l r dir H S.
  pose proof (holds_nodup _ _ _ H) as N.
  destruct (holds_part _ _ _ _ _ H S) as (q & T & NU).
  destruct (child_side dir h q a v l r T) as (n & LO & SD). unfold descend. rewrite LO. cbn [bind]. rewrite SD.
  destruct (root (child dir (ANode a v l r))) as [c|] eqn:R.
  - destruct (sub_child _ _ _ _ _ _ NU R) as [SC CA].
    pose proof (sub_sub _ _ _ _ _ N S SC) as SCT.
    destruct (F h past t os c _ H SCT) as [->|(h' & cs & w & os' & -> & HW & HR & HH)]; [auto|]. right.
    exists h', cs, w, os'. split; [easy|]. split; [easy|]. split; [intuition|].
    exists (put c w t). split; [easy|].
    pose proof (holds_nodup _ _ _ HH) as N'.
    assert (CU : In c (addrs (ANode a v l r))) by (eapply in_sub; eauto).
    split.
    { rewrite (sub_put_below a c t _ w N N' S CU CA). f_equal. eapply put_child; eauto. }
    split.
    { destruct t as [|b tv tl tr]; [easy|]. cbn [put]. destruct (Nat.eqb_spec c b) as [->|]; [|easy].
      (* c is the root: impossible, a is above it *)
      cbn in S. destruct (Nat.eqb_spec a b) as [->|]; [easy|]. exfalso.
      apply nodup_tree in N. destruct N as (Bl & Br & _). 
      destruct (sub a tl) eqn:E.
      - injection S as ->. apply Bl. eapply sub_incl; eauto.
      - apply Br. eapply sub_incl; eauto. }
    intros u' RU. destruct (put_put a c t _ w u' N S CU CA) as [E|I]; [exact E|].
    exfalso. (* a twice in the new tree *)
    pose proof (sub_put_below a c t _ w N N' S CU CA) as S'.
    destruct (forest_focus a [put c w t] _ ltac:(cbn; rewrite app_nil_r; exact N') ltac:(cbn; rewrite S'; reflexivity))
      as (rest & P & _).
    unfold nodes in P. cbn [flat_map] in P. rewrite app_nil_r in P. apply (nodup_perm _ _ P) in N'. apply nodup_app in N'.
    destruct N' as (N' & _). rewrite (put_child _ _ _ _ _ _ _ NU R) in N'.
    destruct dir; cbn in N'; inversion_clear N'; rewrite in_app_iff in *; tauto.
  - right. exists h, [], ALeaf, os. rewrite app_nil_r. split; [easy|].
    assert (C : child dir (ANode a v l r) = ALeaf) by (destruct (child dir (ANode a v l r)); easy).
    rewrite C. split; [easy|]. split; [auto|]. exists t. split; [easy|].
    split; [rewrite S; f_equal; destruct dir; cbn in *; now subst|]. split; [easy|auto].
Qed.

Lemma set_child_node : forall dir a v (l r w : atree), set_child dir (ANode a v l r) w =
  if dir then ANode a v l w else ANode a v w r.
Proof. reflexivity. Qed.

Lemma length_snoc : forall (l : list nat) x, length (l ++ [x]) = S (length l).
Proof. intros. rewrite app_length. cbn. lia. Qed.

Theorem pre_ok : forall R cb, does R cb -> forall fuel, follows (pre_walk R) (pre_order cb fuel).
Proof.
  intros R cb D. induction fuel as [|fuel IH]; intros h past t os a u H S; [now left|].
  cbn [pre_order]. unfold visit. destruct (D past h t os a u H S) as (h1 & b & u1 & os1 & E & HR & RU & H1).
  rewrite E. cbn [bind]. pose proof (holds_nodup _ _ _ H) as N. pose proof (holds_nodup _ _ _ H1) as N1.
  pose proof (sub_root _ _ _ S) as RT. pose proof (in_sub _ _ _ S) as IA.
  destruct b.
  { right. exists h1, [a], u1, os1. split; [easy|]. split; [now constructor|]. auto. }
  destruct (root_some _ _ RU) as (v & l & r & ->).
  pose proof (sub_put_same a t _ IA N N1 RU) as S1.
  destruct (descend_ok _ _ (pre_leaf R) IH h1 (past ++ [a]) _ os1 a v l r false H1 S1)
    as [->|(h2 & cs & l' & os2 & -> & W2 & _ & t2 & H2 & S2 & _ & K2)]; [now left|].
  cbn [bind]. cbn in S2.
  destruct (descend_ok _ _ (pre_leaf R) IH h2 ((past ++ [a]) ++ cs) _ os2 a v l' r true H2 S2)
    as [->|(h3 & ds & r' & os3 & -> & W3 & _ & t3 & H3 & S3 & _ & K3)]; [now left|].
  cbn [bind]. cbn in S3. right. exists h3, (a :: cs ++ ds), (ANode a v l' r'), os3.
  split. { f_equal. f_equal; [f_equal; rewrite <- !app_assoc; easy|]. cbn. rewrite app_length. lia. }
  split; [econstructor; eauto|]. split; [now left|].
  assert (E3 : t3 = put a (ANode a v l' r') t).
  { rewrite <- (put_put_same a t (ANode a v l r)) by easy. rewrite <- K2, <- K3 by auto.
    symmetry. apply put_sub; [eapply holds_nodup; eauto|easy]. }
  now rewrite <- E3.
Qed.

Theorem in_ok : forall R cb, does R cb -> forall fuel, follows (in_walk R) (in_order cb fuel).
Proof.
  intros R cb D. induction fuel as [|fuel IH]; intros h past t os a u H S; [now left|].
  cbn [in_order]. unfold visit. pose proof (holds_nodup _ _ _ H) as N.
  destruct (root_some _ _ (sub_root _ _ _ S)) as (v & l & r & ->).
  destruct (descend_ok _ _ (in_leaf R) IH h past _ os a v l r false H S)
    as [->|(h1 & cs & l' & os1 & -> & W1 & _ & t1 & H1 & S1 & _ & K1)]; [now left|].
  cbn [bind]. cbn in S1. pose proof (holds_nodup _ _ _ H1) as N1. pose proof (in_sub _ _ _ S1) as IA.
  destruct (D (past ++ cs) h1 t1 os1 a _ H1 S1) as (h2 & b & u2 & os2 & E & HR & RU & H2).
  rewrite E. cbn [bind]. pose proof (holds_nodup _ _ _ H2) as N2.
  destruct b.
  { right. exists h2, (cs ++ [a]), u2, os2. rewrite length_snoc, app_assoc. split; [easy|].
    split; [econstructor; eauto|]. split; [auto|]. now rewrite <- K1 by auto. }
  destruct (root_some _ _ RU) as (v2 & l2 & r2 & ->).
  pose proof (sub_put_same a t1 _ IA N1 N2 RU) as S2.
  destruct (descend_ok _ _ (in_leaf R) IH h2 ((past ++ cs) ++ [a]) _ os2 a v2 l2 r2 true H2 S2)
    as [->|(h3 & ds & r' & os3 & -> & W3 & _ & t3 & H3 & S3 & _ & K3)]; [now left|].
  cbn [bind]. cbn in S3. right. exists h3, (cs ++ a :: ds), (ANode a v2 l2 r'), os3.
  split. { f_equal. f_equal; [f_equal; rewrite <- !app_assoc; easy|]. rewrite app_length. cbn. lia. }
  split; [econstructor; eauto|]. split; [now left|].
  rewrite <- K1 by auto. rewrite <- (put_put_same a t1 (ANode a v2 l2 r2)) by easy. rewrite <- K3 by auto.
  now rewrite (put_sub a t3 _ (holds_nodup _ _ _ H3) S3).
Qed.

Theorem pos_ok : forall R cb, does_or_deletes R cb -> forall fuel, follows (pos_walk R) (pos_order cb fuel).
Proof.
  intros R cb D. induction fuel as [|fuel IH]; intros h past t os a u H S; [now left|].
  cbn [pos_order]. unfold visit. pose proof (holds_nodup _ _ _ H) as N.
  destruct (root_some _ _ (sub_root _ _ _ S)) as (v & l & r & ->).
  destruct (descend_ok _ _ (pos_leaf R) IH h past _ os a v l r false H S)
    as [->|(h1 & cs & l' & os1 & -> & W1 & _ & t1 & H1 & S1 & Q1 & K1)]; [now left|].
  cbn [bind]. cbn in S1.
  destruct (descend_ok _ _ (pos_leaf R) IH h1 (past ++ cs) _ os1 a v l' r true H1 S1)
    as [->|(h2 & ds & r' & os2 & -> & W2 & _ & t2 & H2 & S2 & Q2 & K2)]; [now left|].
  cbn [bind]. cbn in S2.
  destruct (D ((past ++ cs) ++ ds) h2 t2 os2 a _ H2 S2) as (h3 & b & u3 & os3 & E & HR & RU & H3).
  rewrite E. cbn [bind]. right. exists h3, (cs ++ ds ++ [a]), u3, os3.
  split. { f_equal. f_equal; [f_equal; rewrite <- !app_assoc; easy|]. rewrite !app_length. cbn. lia. }
  split; [econstructor; eauto|]. rewrite Q2, Q1 in RU. split; [easy|].
  rewrite <- K1, <- K2; [easy| |]; intuition.
Qed.

(** ** What the walks call *)

Lemma part_refl : forall (l : list nat), part_of l l.
Proof. induction l; constructor; auto. Qed.
Lemma part_none : forall (l : list nat), part_of [] l.
Proof. induction l; constructor; auto. Qed.
Lemma part_app : forall (l l' m m' : list nat), part_of l l' -> part_of m m' -> part_of (l ++ m) (l' ++ m').
Proof. induction 1; intros; cbn; [easy| |]; constructor; auto. Qed.
Lemma part_trans : forall (m n : list nat), part_of m n -> forall l, part_of l m -> part_of l n.
Proof.
  induction 1 as [|x l m H IH|x l m H IH]; intros k K; [easy| |].
  - inversion K; subst; constructor; auto.
  - constructor. auto.
Qed.
Lemma part_in : forall (l m : list nat) x, part_of l m -> In x l -> In x m.
Proof. induction 1; cbn; tauto. Qed.
Lemma part_nodup : forall (l m : list nat), part_of l m -> NoDup m -> NoDup l.
Proof.
  induction 1; intros N; [easy| |]; inversion_clear N; [constructor|]; auto.
  intros I. eapply part_in in I; eauto.
Qed.

Lemma part_length : forall (l m : list nat), part_of l m -> length l <= length m.
Proof. induction 1; cbn; lia. Qed.

Lemma pruned_refl : forall (u : atree), pruned u u.
Proof. induction u; cbn; auto. Qed.
Lemma pruned_addrs : forall (u' u : atree), pruned u u' -> part_of (addrs u') (addrs u).
Proof.
  induction u' as [|b w l' IHl r' IHr]; intros u P; [apply part_none|].
  destruct u as [|a v l r]; [easy|]. destruct P as (-> & Pl & Pr). cbn. constructor. apply part_app; auto.
Qed.
Lemma pruned_inorder : forall (u' u : atree), pruned u u' -> part_of (inorder u') (inorder u).
Proof.
  induction u' as [|b w l' IHl r' IHr]; intros u P; [apply part_none|].
  destruct u as [|a v l r]; [easy|]. destruct P as (-> & Pl & Pr). cbn. apply part_app; auto.
  constructor. auto.
Qed.
Lemma pruned_depth : forall (u' u : atree), pruned u u' -> depth u' <= depth u.
Proof.
  induction u' as [|b w l' IHl r' IHr]; intros u P; cbn; [lia|].
  destruct u as [|a v l r]; [easy|]. destruct P as (-> & Pl & Pr). cbn.
  pose proof (IHl _ Pl). pose proof (IHr _ Pr). lia.
Qed.
Lemma pruned_trans : forall (w v u : atree), pruned u v -> pruned v w -> pruned u w.
Proof.
  induction w as [|b x l IHl r IHr]; intros v u P Q; [easy|].
  destruct v as [|c y vl vr]; [easy|]. destruct Q as (-> & Ql & Qr).
  destruct u as [|d z ul ur]; [easy|]. destruct P as (-> & Pl & Pr). cbn. eauto.
Qed.
Lemma revalued_pruned : forall (u u' : atree), revalued u u' -> pruned u u'.
Proof.
  induction u as [|a v l IHl r IHr]; intros [|b w l' r']; cbn; try easy.
  intros (-> & A & B). auto.
Qed.
Lemma revalued_refl : forall (u : atree), revalued u u.
Proof. induction u; cbn; auto. Qed.
Lemma revalued_trans : forall (u v w : atree), revalued u v -> revalued v w -> revalued u w.
Proof.
  induction u as [|a x l IHl r IHr]; intros [|b y vl vr] [|c z wl wr]; cbn; try easy.
  intros (-> & A & B) (-> & C & D). eauto.
Qed.
Lemma revalued_addrs : forall (u u' : atree), revalued u u' -> addrs u' = addrs u.
Proof.
  induction u as [|a v l IHl r IHr]; intros [|b w l' r']; cbn; try easy.
  intros (-> & A & B). now rewrite (IHl _ A), (IHr _ B).
Qed.

Lemma pre_prunes : forall (u : atree) cs u', pre_walk prunes u cs u' -> part_of cs (addrs u) /\ pruned u u'.
Proof.
  induction 1 as [|u u' a RT HR|u a v l r cs l' ds r' RT HR W1 [P1 Q1] W2 [P2 Q2]].
  - split; [constructor|easy].
  - split; [|easy]. destruct (root_some _ _ RT) as (v & l & r & ->). cbn. constructor. apply part_none.
  - destruct u as [|b w ul ur]; [easy|]. injection RT as ->. destruct HR as (_ & Pl & Pr). split.
    + cbn. constructor. apply part_app; eapply part_trans; eauto using pruned_addrs.
    + cbn. eauto using pruned_trans.
Qed.
Lemma in_prunes : forall (u : atree) cs u', in_walk prunes u cs u' -> part_of cs (inorder u) /\ pruned u u'.
Proof.
  induction 1 as [|a v l r cs l' u' W1 [P1 Q1] HR|a v l r cs l' v1 l1 r1 ds r' W1 [P1 Q1] HR W2 [P2 Q2]].
  - split; [constructor|easy].
  - split.
    + cbn. apply part_app; [easy|]. constructor. apply part_none.
    + eapply pruned_trans; [|exact HR]. cbn. auto using pruned_refl.
  - destruct HR as (_ & Pl & Pr). split.
    + cbn. apply part_app; [easy|]. constructor. eapply part_trans; eauto using pruned_inorder.
    + cbn. eauto using pruned_trans.
Qed.
Lemma pos_calls : forall R (u : atree) cs u', pos_walk R u cs u' -> cs = postorder u.
Proof. induction 1; cbn; subst; easy. Qed.
Lemma pre_values : forall (u : atree) cs u', pre_walk values_only u cs u' -> cs = addrs u /\ revalued u u'.
Proof.
  induction 1 as [|u u' a RT HR|u a v l r cs l' ds r' RT HR W1 [P1 Q1] W2 [P2 Q2]].
  - easy.
  - now destruct HR.
  - destruct HR as [_ HR]. destruct u as [|b w ul ur]; [easy|]. injection RT as ->. destruct HR as (_ & Pl & Pr).
    cbn. rewrite P1, P2, (revalued_addrs _ _ Pl), (revalued_addrs _ _ Pr).
    do 2 (split; [easy|]). split; eauto using revalued_trans.
Qed.
Lemma revalued_inorder : forall (u u' : atree), revalued u u' -> inorder u' = inorder u.
Proof.
  induction u as [|a v l IHl r IHr]; intros [|b w l' r']; cbn; try easy.
  intros (-> & A & B). now rewrite (IHl _ A), (IHr _ B).
Qed.
Lemma in_values : forall (u : atree) cs u', in_walk values_only u cs u' -> cs = inorder u /\ revalued u u'.
Proof.
  induction 1 as [|a v l r cs l' u' W1 [P1 Q1] HR|a v l r cs l' v1 l1 r1 ds r' W1 [P1 Q1] HR W2 [P2 Q2]].
  - easy.
  - now destruct HR.
  - destruct HR as [_ (_ & Pl & Pr)]. cbn. rewrite P1, P2, (revalued_inorder _ _ Pr).
    do 2 (split; [easy|]). split; eauto using revalued_trans.
Qed.

(** ** Enough fuel *)

Lemma descend_fuel : forall (walk : wk) h past t os a v l r dir,
  holds h (t :: os) -> sub a t = Some (ANode a v l r) ->
  (forall c, sub c t = Some (child dir (ANode a v l r)) -> walk h past c <> NoFuel) ->
  descend walk h past a dir <> NoFuel.
Proof.
  intros walk h past t os a v l r dir H S K. destruct (holds_part _ _ _ _ _ H S) as (q & T & NU).
  destruct (child_side dir h q a v l r T) as (n & LO & SD). unfold descend. rewrite LO. cbn [bind]. rewrite SD.
  destruct (root (child dir (ANode a v l r))) as [c|] eqn:R; [|easy]. apply K.
  eapply sub_sub; [eapply holds_nodup; eauto|eauto|]. eapply sub_child; eauto.
Qed.

Lemma pos_fuel : forall R cb, does_or_deletes R cb -> forall fuel (h : heap) past t os a u,
  holds h (t :: os) -> sub a t = Some u -> depth u <= fuel -> pos_order cb fuel h past a <> NoFuel.
Proof.
  intros R cb D. induction fuel as [|fuel IH]; intros h past t os a u H S L.
  { destruct (root_some _ _ (sub_root _ _ _ S)) as (v & l & r & ->). cbn in L. lia. }
  destruct (root_some _ _ (sub_root _ _ _ S)) as (v & l & r & ->). cbn in L. cbn [pos_order]. unfold visit.
  assert (F1 : descend (pos_order cb fuel) h past a false <> NoFuel).
  { eapply descend_fuel; eauto. intros c SC. eapply IH; eauto. cbn. lia. }
  destruct (descend_ok _ _ (pos_leaf R) (pos_ok R cb D fuel) h past _ os a v l r false H S)
    as [E|(h1 & cs & l' & os1 & E & W1 & _ & t1 & H1 & S1 & Q1 & K1)]; [easy|].
  rewrite E. cbn [bind]. cbn in S1.
  assert (F2 : descend (pos_order cb fuel) h1 (past ++ cs) a true <> NoFuel).
  { eapply descend_fuel; eauto. intros c SC. eapply IH; eauto. cbn. lia. }
  destruct (descend_ok _ _ (pos_leaf R) (pos_ok R cb D fuel) h1 (past ++ cs) _ os1 a v l' r true H1 S1)
    as [E2|(h2 & ds & r' & os2 & E2 & W2 & _ & t2 & H2 & S2 & Q2 & K2)]; [easy|].
  rewrite E2. cbn [bind]. cbn in S2.
  destruct (D ((past ++ cs) ++ ds) h2 t2 os2 a _ H2 S2) as (h3 & b & u3 & os3 & E3 & _).
  rewrite E3. easy.
Qed.

Lemma pre_fuel : forall cb, does prunes cb -> forall fuel (h : heap) past t os a u,
  holds h (t :: os) -> sub a t = Some u -> depth u <= fuel -> pre_order cb fuel h past a <> NoFuel.
Proof.
  intros cb D. induction fuel as [|fuel IH]; intros h past t os a u H S L.
  { destruct (root_some _ _ (sub_root _ _ _ S)) as (v & l & r & ->). cbn in L. lia. }
  cbn [pre_order]. unfold visit.
  destruct (D past h t os a u H S) as (h1 & b & u1 & os1 & E & HR & RU & H1). rewrite E. cbn [bind].
  destruct b; [easy|]. pose proof (pruned_depth _ _ HR) as L1.
  destruct (root_some _ _ RU) as (v & l & r & ->). cbn in L1.
  pose proof (sub_put_same a t _ (in_sub _ _ _ S) (holds_nodup _ _ _ H) (holds_nodup _ _ _ H1) RU) as S1.
  assert (F1 : descend (pre_order cb fuel) h1 (past ++ [a]) a false <> NoFuel).
  { eapply descend_fuel; eauto. intros c SC. eapply IH; eauto. cbn. lia. }
  destruct (descend_ok _ _ (pre_leaf prunes) (pre_ok prunes cb D fuel) h1 (past ++ [a]) _ os1 a v l r false H1 S1)
    as [E2|(h2 & cs & l' & os2 & E2 & W2 & _ & t2 & H2 & S2 & _ & K2)]; [easy|].
  rewrite E2. cbn [bind]. cbn in S2.
  assert (F2 : descend (pre_order cb fuel) h2 ((past ++ [a]) ++ cs) a true <> NoFuel).
  { eapply descend_fuel; eauto. intros c SC. eapply IH; eauto. cbn. lia. }
  destruct (descend_ok _ _ (pre_leaf prunes) (pre_ok prunes cb D fuel) h2 ((past ++ [a]) ++ cs) _ os2 a v l' r true H2 S2)
    as [E3|(h3 & ds & r' & os3 & E3 & _)]; [easy|].
  rewrite E3. easy.
Qed.

Lemma in_fuel : forall cb, does prunes cb -> forall fuel (h : heap) past t os a u,
  holds h (t :: os) -> sub a t = Some u -> depth u <= fuel -> in_order cb fuel h past a <> NoFuel.
Proof.
  intros cb D. induction fuel as [|fuel IH]; intros h past t os a u H S L.
  { destruct (root_some _ _ (sub_root _ _ _ S)) as (v & l & r & ->). cbn in L. lia. }
  destruct (root_some _ _ (sub_root _ _ _ S)) as (v & l & r & ->). cbn in L. cbn [in_order]. unfold visit.
  assert (F1 : descend (in_order cb fuel) h past a false <> NoFuel).
  { eapply descend_fuel; eauto. intros c SC. eapply IH; eauto. cbn. lia. }
  destruct (descend_ok _ _ (in_leaf prunes) (in_ok prunes cb D fuel) h past _ os a v l r false H S)
    as [E|(h1 & cs & l' & os1 & E & W1 & _ & t1 & H1 & S1 & Q1 & K1)]; [easy|].
  rewrite E. cbn [bind]. cbn in S1.
  destruct (D (past ++ cs) h1 t1 os1 a _ H1 S1) as (h2 & b & u2 & os2 & E2 & HR & RU & H2). rewrite E2. cbn [bind].
  destruct b; [easy|].
  destruct (root_some _ _ RU) as (v2 & l2 & r2 & ->).
  assert (L2 : depth r2 <= depth r) by (apply pruned_depth; apply HR).
  pose proof (sub_put_same a t1 _ (in_sub _ _ _ S1) (holds_nodup _ _ _ H1) (holds_nodup _ _ _ H2) RU) as S2.
  assert (F2 : descend (in_order cb fuel) h2 ((past ++ cs) ++ [a]) a true <> NoFuel).
  { eapply descend_fuel; eauto. intros c SC. eapply IH; eauto. cbn. lia. }
  destruct (descend_ok _ _ (in_leaf prunes) (in_ok prunes cb D fuel) h2 ((past ++ cs) ++ [a]) _ os2 a v2 l2 r2 true H2 S2)
    as [E3|(h3 & ds & r' & os3 & E3 & _)]; [easy|].
  rewrite E3. easy.
Qed.

(** ** The searches *)

Section Search.
Variable join : forall A : Type, list A -> list A -> list A.
Hypothesis join_perm : forall A (q c : list A), Permutation (join A q c) (q ++ c).
Hypothesis join_map : forall A B (R : A -> B -> Prop) q c q' c', Forall2 R q q' -> Forall2 R c c' ->
  Forall2 R (join A q c) (join B q' c').

Fixpoint search (cb : callback) (fuel : nat) (h : heap) (q past : list nat) (visited : nat)
  : outcome (heap * list nat * nat) :=
  match q with
  | [] => Val (h, past, visited)
  | a :: q =>
      match fuel with
      | O => NoFuel
      | S fuel =>
          let* (h, past, stop) := visit cb h past a in
          let* cs := children h a in
          if stop : bool then Val (h, past, S visited)
          else search cb fuel h (join nat q cs) past (S visited)
      end
  end.

Definition waits (t : atree) (q : list nat) (us : list atree) : Prop :=
  Forall2 (fun a u => sub a t = Some u) q us /\ NoDup (flat_map addrs us).

Lemma kids_children : forall (h : heap) q a v l r, has h q (ANode a v l r) -> exists cs,
  children h a = Val cs /\ Forall2 (fun c (w : atree) => root w = Some c) cs (kids (ANode a v l r)).
Proof.
  intros h q a v l r (A & _). unfold children. rewrite (load_ok _ _ _ A). cbn [bind left right].
  eexists. split; [reflexivity|]. destruct l, r; cbn; repeat constructor.
Qed.
Lemma kids_addrs : forall a v (l r : atree), flat_map addrs (kids (ANode a v l r)) = addrs l ++ addrs r.
Proof. intros a v l r. destruct l, r; cbn; now rewrite ?app_nil_r. Qed.
Lemma kid_sub : forall a v (l r : atree) w c, NoDup (addrs (ANode a v l r)) -> In w (kids (ANode a v l r)) ->
  root w = Some c -> sub c (ANode a v l r) = Some w.
Proof.
  intros a v l r w c N I R.
  assert (X : exists dir, w = child dir (ANode a v l r)).
  { cbn in I. apply in_app_iff in I. destruct I as [I|I]; [exists false|exists true];
      [destruct l|destruct r]; cbn in *; intuition. }
  destruct X as [dir ->]. now apply sub_child.
Qed.

Lemma search_step : forall R cb, does R cb -> forall h a q u us past t os,
  holds h (t :: os) -> waits t (a :: q) (u :: us) ->
  exists h1 b v l r os1 cs, visit cb h past a = Val (h1, past ++ [a], b) /\ root u = Some a /\
    R b u (ANode a v l r) /\ children h1 a = Val cs /\
    root (put a (ANode a v l r) t) = root t /\ holds h1 (put a (ANode a v l r) t :: os1) /\
    waits (put a (ANode a v l r) t) (join nat q cs) (join atree us (kids (ANode a v l r))).
Proof.
    intros R cb D h a q u us past t os H [F N]. inversion F as [|? ? ? ? S F' E1 E2]. subst. clear F. rename F' into F.
    unfold visit. destruct (D past h t os a u H S) as (h1 & b & u1 & os1 & E & HR & RU & H1).
    rewrite E. cbn [bind]. pose proof (holds_nodup _ _ _ H) as NT. pose proof (holds_nodup _ _ _ H1) as NT1.
    pose proof (sub_root _ _ _ S) as RT. pose proof (in_sub _ _ _ S) as IA.
    destruct (root_some _ _ RU) as (v & l & r & ->).
    pose proof (sub_put_same a t _ IA NT NT1 RU) as S1.
    destruct (holds_part _ _ _ _ _ H1 S1) as (p & T1 & N1).
    destruct (kids_children h1 p a v l r T1) as (cs & EC & FC).
    assert (RR : root (put a (ANode a v l r) t) = root t) by now apply put_root.
    exists h1, b, v, l, r, os1, cs. do 6 (split; [easy|]).
    cbn [flat_map] in N. apply nodup_app in N. destruct N as (NU & NS & DU).
    set (t1 := put a (ANode a v l r) t) in *.
    assert (F1 : Forall2 (fun b w => sub b t1 = Some w) q us).
    { clear -F NT NT1 S DU NS RT. revert DU NS. induction F as [|b w q us SB F IH]; intros DU NS; constructor.
      - eapply sub_put_apart; eauto.
        + intros X. apply (DU a); [now apply root_in|]. cbn. apply in_app_iff. auto.
        + intros X. apply (DU b X). cbn. apply in_app_iff. left. apply root_in. eapply sub_root; eauto.
      - apply IH; [|cbn in NS; now apply nodup_app in NS].
        intros x X Y. apply (DU x X). cbn. apply in_app_iff. auto. }
    assert (F2 : Forall2 (fun b w => sub b t1 = Some w) cs (kids (ANode a v l r))).
    { assert (K : forall w, In w (kids (ANode a v l r)) -> forall c, root w = Some c -> sub c t1 = Some w).
      { intros w I c RW. eapply sub_sub; [exact NT1|exact S1|]. now apply kid_sub. }
      revert K. clear -FC. induction FC as [|c w cs ws RW FC IH]; intros K; constructor.
      - apply K; [now left|easy].
      - apply IH. intros. apply K; [now right|easy]. }
    assert (DN : NoDup (flat_map addrs (join atree us (kids (ANode a v l r))))).
    { eapply nodup_perm; [apply Permutation_flat_map; symmetry; apply join_perm|].
      rewrite flat_map_app, kids_addrs. apply nodup_app. split; [easy|]. split.
      - cbn in N1. now inversion_clear N1.
      - (* the waiting parts are apart from the changed one *)
        intros x X Y. apply in_flat_map in X. destruct X as (w & W1 & W2).
        assert (XT : In x (addrs t)).
        { clear -F W1 W2. induction F as [|b w' q us SB F IH]; [easy|]. destruct W1 as [->|W1]; [|auto].
          eapply sub_incl; eauto. }
        destruct (tree_focus a t u NT S) as (rest & P & K). destruct (K (ANode a v l r) RU) as [P' _].
        apply (Permutation_in _ P) in XT. apply in_app_iff in XT. destruct XT as [XT|XT].
        + apply (DU x XT). apply in_flat_map. eauto.
        + fold t1 in P'. apply (nodup_perm _ _ P') in NT1. apply nodup_app in NT1. destruct NT1 as (_ & _ & DD).
          apply (DD x); [now right|easy]. }
    split; [apply join_map|]; auto.
Qed.

Lemma search_ok : forall R cb, does R cb -> forall fuel h q us past visited t os,
  holds h (t :: os) -> waits t q us ->
  search cb fuel h q past visited = NoFuel \/
  exists h' cs t' os', search cb fuel h q past visited = Val (h', past ++ cs, visited + length cs) /\
    search_walk (join atree) R us cs /\ root t' = root t /\ holds h' (t' :: os').
Proof.
  intros R cb D. induction fuel as [|fuel IH]; intros h q us past visited t os H W.
  - destruct W as [F N]. destruct F as [|a u q us S F]; [|now left]. right. exists h, [], t, os.
    rewrite app_nil_r, Nat.add_0_r. split; [easy|]. split; [constructor|easy].
  - destruct q as [|a q].
    { destruct W as [F N]. inversion F. subst. right. exists h, [], t, os. rewrite app_nil_r, Nat.add_0_r.
      split; [easy|]. split; [constructor|easy]. }
    destruct us as [|u us]; [destruct W as [F _]; inversion F|].
    cbn [search]. destruct (search_step R cb D h a q u us past t os H W)
      as (h1 & b & v & l & r & os1 & cs & -> & RT & HR & EC & RR & H1 & W1).
    cbn [bind]. rewrite EC. cbn [bind]. set (t1 := put a (ANode a v l r) t) in *.
    destruct b.
    { right. exists h1, [a], t1, os1. cbn [length]. rewrite Nat.add_1_r.
      split; [easy|]. split; [econstructor; eauto|easy]. }
    destruct (IH h1 (join nat q cs) (join atree us (kids (ANode a v l r))) (past ++ [a]) (S visited) t1 os1 H1 W1)
      as [->|(h2 & ds & t2 & os2 & -> & W2 & R2 & H2)]; [now left|].
    right. exists h2, (a :: ds), t2, os2.
    split; [f_equal; f_equal; [f_equal; now rewrite <- app_assoc|cbn; lia]|].
    split; [eapply search_go; eauto; easy|]. now rewrite R2.
Qed.

Lemma search_prunes : forall us cs, search_walk (join atree) prunes us cs -> NoDup (flat_map addrs us) ->
  NoDup cs /\ incl cs (flat_map addrs us).
Proof.
  induction 1 as [|u u' q a RT HR|u u' q a cs RT HR RU W IH]; intros N.
  - split; [constructor|easy].
  - split; [constructor; [easy|constructor]|]. intros x [<-|[]]. cbn. apply in_app_iff. left. now apply root_in.
  - cbn in N. apply nodup_app in N. destruct N as (NU & NQ & D).
    destruct (root_some _ _ RU) as (v & l & r & ->). destruct u as [|b w ul ur]; [easy|].
    injection RT as ->. destruct HR as (_ & Pl & Pr).
    assert (PI : forall x, In x (flat_map addrs (join atree q (kids (ANode a v l r)))) ->
      In x (flat_map addrs q) \/ In x (addrs ul ++ addrs ur)).
    { intros x X. eapply Permutation_in in X; [|apply Permutation_flat_map; apply join_perm].
      rewrite flat_map_app, kids_addrs in X. apply in_app_iff in X. destruct X as [X|X]; [auto|].
      right. eapply part_in; [|exact X]. apply part_app; now apply pruned_addrs. }
    destruct IH as [N1 I1].
    { eapply nodup_perm; [apply Permutation_flat_map; symmetry; apply join_perm|].
      rewrite flat_map_app, kids_addrs. apply nodup_app. split; [easy|].
      assert (PP : part_of (addrs l ++ addrs r) (addrs ul ++ addrs ur)) by (apply part_app; now apply pruned_addrs).
      split; [eapply part_nodup; [exact PP|]; cbn in NU; now inversion_clear NU|].
      intros x X Y. apply (D x); [|easy]. right. eapply part_in; eauto. }
    split.
    + constructor; [|easy]. intros X. apply I1 in X. apply PI in X. destruct X as [X|X].
      * apply (D a); [now left|easy].
      * cbn in NU. now inversion_clear NU.
    + intros x [<-|X]; [now left|]. apply I1 in X. apply PI in X. cbn. rewrite !in_app_iff in *. tauto.
Qed.

Lemma search_fuel : forall cb, does prunes cb -> forall fuel h q us past visited t os,
  holds h (t :: os) -> waits t q us -> length (flat_map addrs us) <= fuel ->
  search cb fuel h q past visited <> NoFuel.
Proof.
  intros cb D. induction fuel as [|fuel IH]; intros h q us past visited t os H W L.
  - destruct W as [F N]. destruct F as [|a u q us S F]; [easy|]. pose proof (root_in _ _ (sub_root _ _ _ S)) as I.
    cbn in L. rewrite app_length in L. destruct (addrs u); [easy|]. cbn in L. lia.
  - destruct q as [|a q]; [easy|]. destruct us as [|u us]; [destruct W as [F _]; inversion F|].
    cbn [search]. destruct (search_step prunes cb D h a q u us past t os H W)
      as (h1 & b & v & l & r & os1 & cs & -> & RT & HR & EC & RR & H1 & W1).
    cbn [bind]. rewrite EC. cbn [bind]. destruct b; [easy|].
    eapply IH; [exact H1|exact W1|].
    rewrite (Permutation_length (Permutation_flat_map addrs (join_perm _ us (kids (ANode a v l r))))).
    rewrite flat_map_app, kids_addrs, !app_length. cbn in L. rewrite app_length in L.
    destruct u as [|b w ul ur]; [easy|]. destruct HR as (_ & Pl & Pr). cbn in L. rewrite app_length in L.
    pose proof (part_length _ _ (pruned_addrs _ _ Pl)). pose proof (part_length _ _ (pruned_addrs _ _ Pr)). lia.
Qed.

Lemma search_values : forall us cs, search_walk (join atree) values_only us cs -> Permutation cs (flat_map addrs us).
Proof.
  induction 1 as [|u u' q a RT HR|u u' q a cs RT HR RU W IH]; [constructor|now destruct HR|].
  destruct HR as [_ HR]. destruct u' as [|b w l' r']; [easy|]. injection RU as ->.
  rewrite IH. rewrite (Permutation_flat_map addrs (join_perm _ _ _)), flat_map_app, kids_addrs.
  destruct u as [|b x l r]; [easy|]. destruct HR as (-> & A & B).
  rewrite (revalued_addrs _ _ A), (revalued_addrs _ _ B). cbn. apply perm_skip. apply Permutation_app_comm.
Qed.
End Search.

Definition jb A (q c : list A) := q ++ c.
Definition jd A (q c : list A) := c ++ q.
Lemma bfs_search : forall cb fuel (h : heap) q past n, bfs cb fuel h q past n = search jb cb fuel h q past n.
Proof.
  intros cb. induction fuel; intros h [|a q] past n; cbn; try easy.
  destruct (visit cb h past a) as [[[h1 p1] []]| | |]; cbn; try easy; destruct (children h1 a); cbn; easy.
Qed.
Lemma dfs_search : forall cb fuel (h : heap) q past n, dfs cb fuel h q past n = search jd cb fuel h q past n.
Proof.
  intros cb. induction fuel; intros h [|a q] past n; cbn; try easy.
  destruct (visit cb h past a) as [[[h1 p1] []]| | |]; cbn; try easy; destruct (children h1 a); cbn; easy.
Qed.
Lemma jb_perm : forall A (q c : list A), Permutation (jb A q c) (q ++ c).
Proof. easy. Qed.
Lemma jd_perm : forall A (q c : list A), Permutation (jd A q c) (q ++ c).
Proof. intros. apply Permutation_app_comm. Qed.
Lemma jb_map : forall A B (R : A -> B -> Prop) q c q' c', Forall2 R q q' -> Forall2 R c c' -> Forall2 R (jb A q c) (jb B q' c').
Proof. intros. now apply Forall2_app. Qed.
Lemma jd_map : forall A B (R : A -> B -> Prop) q c q' c', Forall2 R q q' -> Forall2 R c c' -> Forall2 R (jd A q c) (jd B q' c').
Proof. intros. now apply Forall2_app. Qed.

Lemma waits_root : forall (t : atree) a, NoDup (addrs t) -> root t = Some a -> waits t [a] [t].
Proof.
  intros t a N R. split.
  - destruct (root_some _ _ R) as (v & l & r & ->). constructor; [apply sub_self|constructor].
  - cbn. now rewrite app_nil_r.
Qed.

Lemma bfs_ok : forall R cb fuel (h : heap) t os a, does R cb -> holds h (t :: os) -> root t = Some a ->
  bfs cb fuel h [a] [] 0 = NoFuel \/
  exists h' cs t' os', bfs cb fuel h [a] [] 0 = Val (h', cs, length cs) /\ bfs_walk R [t] cs /\
    root t' = Some a /\ holds h' (t' :: os').
Proof.
  intros R cb fuel h t os a D H RT. rewrite bfs_search.
  destruct (search_ok jb jb_perm jb_map R cb D fuel h [a] [t] [] 0 t os H (waits_root _ _ (holds_nodup _ _ _ H) RT))
    as [->|(h' & cs & t' & os' & -> & W & R' & H')]; [now left|].
  right. exists h', cs, t', os'. split; [easy|]. split; [exact W|]. split; [congruence|easy].
Qed.
Lemma dfs_ok : forall R cb fuel (h : heap) t os a, does R cb -> holds h (t :: os) -> root t = Some a ->
  dfs cb fuel h [a] [] 0 = NoFuel \/
  exists h' cs t' os', dfs cb fuel h [a] [] 0 = Val (h', cs, length cs) /\ dfs_walk R [t] cs /\
    root t' = Some a /\ holds h' (t' :: os').
Proof.
  intros R cb fuel h t os a D H RT. rewrite dfs_search.
  destruct (search_ok jd jd_perm jd_map R cb D fuel h [a] [t] [] 0 t os H (waits_root _ _ (holds_nodup _ _ _ H) RT))
    as [->|(h' & cs & t' & os' & -> & W & R' & H')]; [now left|].
  right. exists h', cs, t', os'. split; [easy|]. split; [exact W|]. split; [congruence|easy].
Qed.

(** Depth first with values only: pre-order. *)
Lemma dfs_values : forall (us : list atree) cs, dfs_walk values_only us cs -> cs = flat_map addrs us.
Proof.
  induction 1 as [|u u' q a RT HR|u u' q a cs RT HR RU W IH]; [easy|now destruct HR|].
  rewrite IH. destruct HR as [_ HR]. destruct u' as [|b w l' r']; [easy|]. injection RU as ->.
  rewrite flat_map_app, kids_addrs. destruct u as [|b x l r]; [easy|]. destruct HR as (-> & A & B).
  rewrite (revalued_addrs _ _ A), (revalued_addrs _ _ B). easy.
Qed.

(** Breadth first with values only: level order. *)
Lemma level_deep : forall k (t : atree), depth t <= k -> level k t = [].
Proof.
  induction k as [|k IH]; intros [|a v l r]; cbn; try easy; try lia. intros L. rewrite !IH by lia. easy.
Qed.
Lemma revalued_level : forall k (u u' : atree), revalued u u' -> level k u' = level k u.
Proof.
  induction k as [|k IH]; intros [|a v l r] [|b w l' r']; cbn; try easy.
  - now intros (-> & _).
  - intros (-> & A & B). now rewrite (IH _ _ A), (IH _ _ B).
Qed.
Lemma level_kids : forall k (u : atree), level (S k) u = flat_map (level k) (kids u).
Proof. intros k [|a v l r]; [easy|]. destruct l, r, k; cbn; now rewrite ?app_nil_r. Qed.

(** One level is walked, [next] are the trees of the next one so far. *)
Lemma bfs_level : forall (q next : list atree) cs, bfs_walk values_only (q ++ next) cs ->
  exists cs' ws, cs = flat_map (level 0) q ++ cs' /\ bfs_walk values_only (next ++ ws) cs' /\
    (forall k, flat_map (level k) ws = flat_map (level (S k)) q) /\
    (forall n, (forall u, In u q -> depth u <= S n) -> forall w, In w ws -> depth w <= n).
Proof.
  induction q as [|u q IH]; intros next cs H.
  { exists cs, []. rewrite app_nil_r. split; [easy|]. split; [exact H|]. split; easy. }
  cbn [app] in H. inversion H as [|u0 u' q0 a RT HR|u0 u' q0 a ds RT HR RU W]; subst; [now destruct HR|].
  rewrite <- app_assoc in W. destruct (IH _ _ W) as (cs' & ws & -> & W' & LV & DP). destruct HR as [_ HR].
  exists cs', (kids u' ++ ws). split.
  { destruct u as [|b v l r]; [easy|]. injection RT as ->. easy. }
  split; [now rewrite app_assoc|]. split.
  - intros k. rewrite flat_map_app, LV. cbn [flat_map]. f_equal. rewrite <- level_kids. now apply revalued_level.
  - intros n K w I. apply in_app_iff in I. destruct I as [I|I].
    + pose proof (pruned_depth _ _ (revalued_pruned _ _ HR)) as L. pose proof (K u ltac:(now left)) as L2.
      destruct u' as [|b v l r]; [easy|]. cbn in L.
      assert (depth w <= Nat.max (depth l) (depth r)).
      { cbn in I. apply in_app_iff in I. destruct I as [I|I]; [destruct l|destruct r]; cbn in I; try easy;
          destruct I as [<-|[]]; lia. }
      lia.
    + apply (DP n); [|easy]. intros. apply K. now right.
Qed.
Lemma bfs_levels : forall n (q : list atree) cs, (forall u, In u q -> depth u <= n) -> bfs_walk values_only q cs ->
  cs = flat_map (fun k => flat_map (level k) q) (seq 0 n).
Proof.
  induction n as [|n IH]; intros q cs L H.
  - destruct q as [|u q].
    + inversion H. easy.
    + specialize (L u ltac:(now left)). inversion H as [|u0 u' q0 a RT HR|u0 u' q0 a ds RT HR RU W]; subst;
        destruct u; cbn in L; try easy; lia.
  - rewrite <- (app_nil_r q) in H. destruct (bfs_level _ _ _ H) as (cs' & ws & -> & W & LV & DP).
    cbn [app] in W. rewrite (IH ws cs' (DP n L) W). cbn [seq flat_map]. f_equal.
    rewrite <- seq_shift. clear -LV. induction (seq 0 n) as [|k ks IH]; [easy|]. cbn [flat_map map]. now rewrite IH, LV.
Qed.


(** ** Callbacks *)

Section Own.
Variable v0 : V.

Lemma fput_first : forall (h : heap) t os a u u', holds h (t :: os) -> sub a t = Some u ->
  fput a u' (t :: os) = put a u' t :: os.
Proof.
  intros h t os a u u' H S. unfold fput. cbn [map]. f_equal. apply fput_notin.
  pose proof (proj1 (proj2 H)) as N. unfold nodes in N. cbn [flat_map] in N. apply nodup_app in N.
  destruct N as (_ & _ & D). apply D. now apply in_sub in S.
Qed.
Lemma in_first : forall t (os : list atree) a u, sub a t = Some u -> In a (nodes (t :: os)).
Proof. intros t os a u S. unfold nodes. cbn. apply in_app_iff. left. now apply in_sub in S. Qed.
Lemma fsub_first : forall t (os : list atree) a u, sub a t = Some u -> fsub a (t :: os) = Some u.
Proof. intros t os a u S. cbn. now rewrite S. Qed.

Definition adds (o : own_op V) : Prop := match o with OAdd _ _ => True | _ => False end.
Definition sets (o : own_op V) : Prop :=
  match o with OSet _ | OSwap _ | OHas _ | OCount | OGet => True | _ => False end.

Lemma revalued_set : forall (u : atree) v, revalued u (set_val u v).
Proof. intros [|a w l r] v; cbn; auto using revalued_refl. Qed.
Lemma pruned_set_child : forall dir (u : atree), pruned u (set_child dir u ALeaf).
Proof. intros dir [|a v l r]; cbn; [easy|]. destruct dir; cbn; auto using pruned_refl. Qed.

Lemma own_step : forall o (h : heap) t os a u, holds h (t :: os) -> sub a t = Some u ->
  exists h' r u', nstep v0 h (on_node a o) = Val (h', r) /\ root u' = Some a /\ holds h' (put a u' t :: os) /\
    (~ adds o -> pruned u u') /\ (sets o -> revalued u u') /\
    (forall dir v, o = OAdd dir v -> child dir u' <> ALeaf).
Proof.
  intros o h t os a u H S.
  assert (L : legal (t :: os) (on_node a o)) by (destruct o; cbn; eapply in_first; eauto).
  destruct (step_ok v0 (on_node a o) h (t :: os) H L) as (h' & r & ts' & E & H' & A).
  pose proof (sub_root _ _ _ S) as RU. pose proof (fsub_first t os a u S) as FS.
  pose proof (put_sub a t u (holds_nodup _ _ _ H) S) as PS.
  pose proof (fun u' => fput_first h t os a u u' H S) as FP.
  assert (SAME : ts' = t :: os -> ~ adds o -> exists h0 r0 u', Val (h', r) = Val (h0, r0) /\ root u' = Some a /\
    holds h0 (put a u' t :: os) /\ (~ adds o -> pruned u u') /\ (sets o -> revalued u u') /\
    (forall dir v, o = OAdd dir v -> child dir u' <> ALeaf)).
  { intros -> NA. exists h', r, u. rewrite PS. split; [easy|]. split; [easy|]. split; [easy|].
    split; [intros; apply pruned_refl|]. split; [intros; apply revalued_refl|]. intros dir v ->. now destruct NA. }
  rewrite E. destruct o; cbn [on_node after] in A; cbn [adds] in SAME.
  - destruct A as [_ ->]. unfold fset in H'. rewrite FS, FP in H'. exists h', r, (set_val u v).
    split; [easy|]. split; [now destruct u|]. split; [easy|].
    split; [intros; apply revalued_pruned, revalued_set|]. split; [intros; apply revalued_set|easy].
  - destruct A as (w & FW & A). rewrite FS in FW. injection FW as <-.
    destruct (child dir u) eqn:EC.
    + destruct A as (x & _ & _ & ->). rewrite FP in H'. eexists h', r, _. split; [easy|].
      split; [|split; [exact H'|]]; [destruct u; [easy|]; now destruct dir|].
      split; [intros K; now destruct K|]. split; [easy|]. intros dir' v' [= <- <-].
      destruct u; [easy|]. now destruct dir.
    + destruct A as [_ ->]. exists h', r, u. rewrite PS. split; [easy|]. split; [easy|]. split; [easy|].
      split; [intros K; now destruct K|]. split; [easy|]. intros dir' v' [= <- <-]. now rewrite EC.
  - destruct A as (w & FW & _ & ->). rewrite FS in FW. injection FW as <-. rewrite FP in H'.
    eexists h', r, _. split; [easy|]. split; [|split; [exact H'|]]; [destruct u; [easy|]; now destruct dir|].
    split; [intros; apply pruned_set_child|]. split; [easy|]. easy.
  - destruct A as (w & FW & _ & ->). rewrite FS in FW. injection FW as <-. rewrite FP in H'.
    eexists h', r, _. split; [easy|]. split; [|split; [exact H'|]]; [now destruct u|].
    split; [intros; eapply pruned_trans; apply pruned_set_child|]. split; [easy|]. easy.
  - destruct A as (v & l & r' & FW & _ & A). rewrite FS in FW. injection FW as ->.
    destruct (child dir (ANode a v l r')) as [|c w cl cr] eqn:EC; [now apply SAME|]. subst ts'. rewrite FP in H'.
    assert (RV : revalued (ANode a v l r') (set_val (set_child dir (ANode a v l r') (ANode c v cl cr)) w)).
    { destruct dir; cbn in EC; subst; cbn; auto 6 using revalued_refl. }
    eexists h', r, _. split; [easy|]. split; [|split; [exact H'|]]; [now destruct dir|].
    split; [intros; now apply revalued_pruned|]. split; easy.
  - destruct A as (w & FW & -> & _). now apply SAME.
  - destruct A as (w & FW & -> & _). now apply SAME.
  - destruct A as (-> & _). now apply SAME.
Qed.

Lemma run_body_ok : forall p (h : heap) t os a u, holds h (t :: os) -> sub a t = Some u ->
  exists h' b u', run_body v0 h a p = Val (h', b) /\ root u' = Some a /\ holds h' (put a u' t :: os) /\
    (adds_none p -> pruned u u') /\ (sets_only p -> b = false /\ revalued u u').
Proof.
  induction p as [b|o k IH]; intros h t os a u H S; cbn [run_body].
  - exists h, b, u. rewrite (put_sub a t u (holds_nodup _ _ _ H) S). split; [easy|].
    split; [eapply sub_root; eauto|]. split; [easy|]. split; [intros; apply pruned_refl|]. split; [easy|apply revalued_refl].
  - destruct (own_step o h t os a u H S) as (h1 & r & u1 & -> & R1 & H1 & P1 & V1 & _). cbn [bind].
    pose proof (in_sub _ _ _ S) as IA. pose proof (holds_nodup _ _ _ H) as NT. pose proof (holds_nodup _ _ _ H1) as NT1.
    pose proof (sub_put_same a t _ IA NT NT1 R1) as S1.
    destruct (IH r h1 _ os a u1 H1 S1) as (h2 & b & u2 & E2 & R2 & H2 & P2 & V2).
    exists h2, b, u2. rewrite put_put_same in H2 by easy. split; [easy|]. split; [easy|]. split; [easy|].
    cbn [adds_none sets_only]. split.
    + intros [A B]. eapply pruned_trans; [apply P1|apply P2, B]. now destruct o.
    + intros [A B]. destruct (V2 (B r)) as [V3 V4]. split; [easy|]. eapply revalued_trans; [apply V1|exact V4].
      now destruct o.
Qed.

Lemma own_does : forall f, does anything (own v0 f).
Proof.
  intros f past h t os a u H S. destruct (run_body_ok (f past a) h t os a u H S) as (h' & b & u' & E & R & H' & _).
  exists h', b, u', os. split; [easy|]. split; [exact Logic.I|easy].
Qed.
Lemma own_prunes : forall f, (forall past a, adds_none (f past a)) -> does prunes (own v0 f).
Proof.
  intros f F past h t os a u H S. destruct (run_body_ok (f past a) h t os a u H S) as (h' & b & u' & E & R & H' & P & _).
  exists h', b, u', os. split; [easy|]. split; [apply P, F|easy].
Qed.
Lemma own_values : forall f, (forall past a, sets_only (f past a)) -> does values_only (own v0 f).
Proof.
  intros f F past h t os a u H S. destruct (run_body_ok (f past a) h t os a u H S) as (h' & b & u' & E & R & H' & _ & P).
  exists h', b, u', os. split; [easy|]. split; [apply P, F|easy].
Qed.
Lemma grow_does : forall dir v, does (grows dir) (own v0 (grow dir v)).
Proof.
  intros dir v past h t os a u H S. destruct (own_step (OAdd dir v) h t os a u H S) as (h' & r & u' & E & R & H' & _ & _ & G).
  exists h', false, u', os. unfold own, grow. cbn [run_body]. rewrite E. cbn [bind run_body].
  split; [easy|]. split; [split; [easy|now apply (G dir v)]|easy].
Qed.
End Own.

(** A callback that grows its node on the way of the walk: no end. *)
Lemma pre_grows : forall (u : atree) cs u', pre_walk (grows false) u cs u' -> u = ALeaf.
Proof.
  induction 1 as [|u u' a RT [HR _]|u a v l r cs l' ds r' RT [_ HR] P1 I1 P2 I2]; [easy|easy|]. now destruct HR.
Qed.
Lemma in_grows : forall (u : atree) cs u', in_walk (grows true) u cs u' -> u = ALeaf.
Proof.
  induction 1 as [|a v l r cs l' u' P1 I1 [HR _]|a v l r cs l' v1 l1 r1 ds r' P1 I1 [_ HR] P2 I2]; [easy|easy|].
  now destruct HR.
Qed.
Lemma search_grows : forall join dir, (forall q c : list atree, join q c = [] -> c = []) ->
  forall us cs, search_walk join (grows dir) us cs -> us = [].
Proof.
  intros join dir J. induction 1 as [|u u' q a RT [HR _]|u u' q a cs RT [_ HR] RU W IH]; [easy|easy|].
  apply J in IH. destruct u' as [|b v l r]; [easy|]. cbn in IH. apply app_eq_nil in IH. destruct IH as [A B].
  destruct dir; cbn in HR; [destruct r|destruct l]; easy.
Qed.

(** ** The results *)

Lemma pre_prunes_all : forall cb fuel (h : heap) past t os a u, does prunes cb -> holds h (t :: os) ->
  sub a t = Some u -> depth u <= fuel ->
  exists h' cs u' os', pre_order cb fuel h past a = Val (h', past ++ cs, length cs) /\
    part_of cs (addrs u) /\ pruned u u' /\ holds h' (put a u' t :: os').
Proof.
  intros cb fuel h past t os a u D H S L. pose proof (pre_fuel cb D fuel h past t os a u H S L) as F.
  destruct (pre_ok prunes cb D fuel h past t os a u H S) as [E|(h' & cs & u' & os' & E & W & _ & H')]; [easy|].
  apply pre_prunes in W. exists h', cs, u', os'. now destruct W.
Qed.
Lemma in_prunes_all : forall cb fuel (h : heap) past t os a u, does prunes cb -> holds h (t :: os) ->
  sub a t = Some u -> depth u <= fuel ->
  exists h' cs u' os', in_order cb fuel h past a = Val (h', past ++ cs, length cs) /\
    part_of cs (inorder u) /\ pruned u u' /\ holds h' (put a u' t :: os').
Proof.
  intros cb fuel h past t os a u D H S L. pose proof (in_fuel cb D fuel h past t os a u H S L) as F.
  destruct (in_ok prunes cb D fuel h past t os a u H S) as [E|(h' & cs & u' & os' & E & W & _ & H')]; [easy|].
  apply in_prunes in W. exists h', cs, u', os'. now destruct W.
Qed.
Lemma pos_all : forall R cb fuel (h : heap) past t os a u, does_or_deletes R cb -> holds h (t :: os) ->
  sub a t = Some u -> depth u <= fuel ->
  exists h' u' os', pos_order cb fuel h past a = Val (h', past ++ postorder u, length (postorder u)) /\
    pos_walk R u (postorder u) u' /\ holds h' (put a u' t :: os').
Proof.
  intros R cb fuel h past t os a u D H S L. pose proof (pos_fuel R cb D fuel h past t os a u H S L) as F.
  destruct (pos_ok R cb D fuel h past t os a u H S) as [E|(h' & cs & u' & os' & E & W & _ & H')]; [easy|].
  pose proof (pos_calls _ _ _ _ W). subst. exists h', u', os'. easy.
Qed.

Lemma values_prunes : forall cb : callback, does values_only cb -> does prunes cb.
Proof.
  intros cb D past h t os a u H S. destruct (D past h t os a u H S) as (h' & b & u' & os' & E & [_ HR] & K).
  exists h', b, u', os'. split; [easy|]. split; [now apply revalued_pruned|easy].
Qed.
Lemma pre_values_all : forall cb fuel (h : heap) past t os a u, does values_only cb -> holds h (t :: os) ->
  sub a t = Some u -> depth u <= fuel ->
  exists h' u' os', pre_order cb fuel h past a = Val (h', past ++ addrs u, length (addrs u)) /\
    revalued u u' /\ holds h' (put a u' t :: os').
Proof.
  intros cb fuel h past t os a u D H S L.
  pose proof (pre_fuel cb (values_prunes cb D) fuel h past t os a u H S L) as F.
  destruct (pre_ok values_only cb D fuel h past t os a u H S) as [E|(h' & cs & u' & os' & E & W & _ & H')]; [easy|].
  apply pre_values in W. destruct W as [-> W]. exists h', u', os'. easy.
Qed.
Lemma in_values_all : forall cb fuel (h : heap) past t os a u, does values_only cb -> holds h (t :: os) ->
  sub a t = Some u -> depth u <= fuel ->
  exists h' u' os', in_order cb fuel h past a = Val (h', past ++ inorder u, length (inorder u)) /\
    revalued u u' /\ holds h' (put a u' t :: os').
Proof.
  intros cb fuel h past t os a u D H S L.
  pose proof (in_fuel cb (values_prunes cb D) fuel h past t os a u H S L) as F.
  destruct (in_ok values_only cb D fuel h past t os a u H S) as [E|(h' & cs & u' & os' & E & W & _ & H')]; [easy|].
  apply in_values in W. destruct W as [-> W]. exists h', u', os'. easy.
Qed.

Lemma bfs_prunes_all : forall cb fuel (h : heap) t os a, does prunes cb -> holds h (t :: os) -> root t = Some a ->
  length (addrs t) <= fuel ->
  exists h' cs t' os', bfs cb fuel h [a] [] 0 = Val (h', cs, length cs) /\ NoDup cs /\ incl cs (addrs t) /\
    root t' = Some a /\ holds h' (t' :: os').
Proof.
  intros cb fuel h t os a D H R L. pose proof (holds_nodup _ _ _ H) as N.
  assert (F : bfs cb fuel h [a] [] 0 <> NoFuel).
  { rewrite bfs_search. eapply search_fuel; eauto using jb_perm, jb_map, waits_root. cbn. now rewrite app_nil_r. }
  destruct (bfs_ok prunes cb fuel h t os a D H R) as [E|(h' & cs & t' & os' & E & W & K)]; [easy|].
  destruct (search_prunes jb jb_perm _ _ W) as [A B]; [cbn; now rewrite app_nil_r|]. cbn in B. rewrite app_nil_r in B.
  exists h', cs, t', os'. easy.
Qed.
Lemma dfs_prunes_all : forall cb fuel (h : heap) t os a, does prunes cb -> holds h (t :: os) -> root t = Some a ->
  length (addrs t) <= fuel ->
  exists h' cs t' os', dfs cb fuel h [a] [] 0 = Val (h', cs, length cs) /\ NoDup cs /\ incl cs (addrs t) /\
    root t' = Some a /\ holds h' (t' :: os').
Proof.
  intros cb fuel h t os a D H R L. pose proof (holds_nodup _ _ _ H) as N.
  assert (F : dfs cb fuel h [a] [] 0 <> NoFuel).
  { rewrite dfs_search. eapply search_fuel; eauto using jd_perm, jd_map, waits_root. cbn. now rewrite app_nil_r. }
  destruct (dfs_ok prunes cb fuel h t os a D H R) as [E|(h' & cs & t' & os' & E & W & K)]; [easy|].
  destruct (search_prunes jd jd_perm _ _ W) as [A B]; [cbn; now rewrite app_nil_r|]. cbn in B. rewrite app_nil_r in B.
  exists h', cs, t', os'. easy.
Qed.
Lemma bfs_values_all : forall cb fuel (h : heap) t os a, does values_only cb -> holds h (t :: os) -> root t = Some a ->
  length (addrs t) <= fuel ->
  exists h' t' os', bfs cb fuel h [a] [] 0 = Val (h', level_order t, length (level_order t)) /\
    root t' = Some a /\ holds h' (t' :: os').
Proof.
  intros cb fuel h t os a D H R L.
  destruct (bfs_prunes_all cb fuel h t os a (values_prunes cb D) H R L) as (h' & cs & t' & os' & E & _).
  destruct (bfs_ok values_only cb fuel h t os a D H R) as [E'|(h2 & cs2 & t2 & os2 & E' & W & K)]; [congruence|].
  exists h2, t2, os2. rewrite E'. apply (bfs_levels (depth t)) in W; [|intros u [<-|[]]; lia].
  assert (W2 : cs2 = level_order t).
  { rewrite W. unfold level_order. apply flat_map_ext. intros k. cbn. now rewrite app_nil_r. }
  now rewrite W2.
Qed.
Lemma dfs_values_all : forall cb fuel (h : heap) t os a, does values_only cb -> holds h (t :: os) -> root t = Some a ->
  length (addrs t) <= fuel ->
  exists h' t' os', dfs cb fuel h [a] [] 0 = Val (h', addrs t, length (addrs t)) /\
    root t' = Some a /\ holds h' (t' :: os').
Proof.
  intros cb fuel h t os a D H R L.
  destruct (dfs_prunes_all cb fuel h t os a (values_prunes cb D) H R L) as (h' & cs & t' & os' & E & _).
  destruct (dfs_ok values_only cb fuel h t os a D H R) as [E'|(h2 & cs2 & t2 & os2 & E' & W & K)]; [congruence|].
  exists h2, t2, os2. rewrite E'. apply dfs_values in W. cbn in W. rewrite app_nil_r in W. now rewrite W.
Qed.

Lemma growing_all : forall v0 v fuel (h : heap) past t os a u, holds h (t :: os) ->
  sub a t = Some u -> pre_order (own v0 (grow false v)) fuel h past a = NoFuel /\
  in_order (own v0 (grow true v)) fuel h past a = NoFuel /\
  (root t = Some a -> bfs (own v0 (grow false v)) fuel h [a] [] 0 = NoFuel /\
    dfs (own v0 (grow false v)) fuel h [a] [] 0 = NoFuel).
Proof.
  intros v0 v fuel h past t os a u H S.
  destruct (root_some _ _ (sub_root _ _ _ S)) as (w & l & r & ->).
  split; [|split; [|intros R; split]].
  - destruct (pre_ok _ _ (grow_does v0 false v) fuel h past t os a _ H S) as [E|(h' & cs & u' & os' & E & W & _)]; [easy|].
    now apply pre_grows in W.
  - destruct (in_ok _ _ (grow_does v0 true v) fuel h past t os a _ H S) as [E|(h' & cs & u' & os' & E & W & _)]; [easy|].
    now apply in_grows in W.
  - destruct (bfs_ok _ _ fuel h t os a (grow_does v0 false v) H R) as [E|(h' & cs & u' & os' & E & W & _)]; [easy|].
    apply search_grows in W; [easy|]. intros q c Z. now apply app_eq_nil in Z.
  - destruct (dfs_ok _ _ fuel h t os a (grow_does v0 false v) H R) as [E|(h' & cs & u' & os' & E & W & _)]; [easy|].
    apply search_grows in W; [easy|]. intros q c Z. now apply app_eq_nil in Z.
Qed.

(** ** A callback that deletes its own node *)

Lemma put_below : forall b c (t w x : atree), NoDup (addrs t) -> sub b t = Some w -> In c (addrs w) -> c <> b ->
  put b (put c x w) t = put c x t.
Proof.
  induction t as [|d v l IHl r IHr]; intros w x N S C CB; [easy|]. pose proof (nodup_tree _ _ _ _ N) as (Al & Ar & Nl & Nr & D).
  cbn in S. cbn [put]. destruct (Nat.eqb_spec b d) as [->|BD].
  - injection S as <-. cbn [put]. destruct (Nat.eqb_spec c d); [easy|]. easy.
  - destruct (sub b l) as [y|] eqn:SL.
    + injection S as ->. pose proof (sub_incl _ _ _ SL _ C) as CL. pose proof (in_sub _ _ _ SL) as BL.
      destruct (Nat.eqb_spec c d) as [->|]; [easy|]. rewrite (IHl w x); try easy. f_equal.
      rewrite !put_notin; [easy| |]; intros X; [apply (D c CL X)|apply (D b BL X)].
    + pose proof (sub_incl _ _ _ S _ C) as CR. pose proof (in_sub _ _ _ S) as BR.
      destruct (Nat.eqb_spec c d) as [->|]; [easy|]. rewrite (IHr w x); try easy. f_equal.
      rewrite !put_notin; [easy| |]; intros X; [apply (D c X CR)|apply (D b X BR)].
Qed.
Lemma root_below : forall a b (t w : atree), NoDup (addrs t) -> root t = Some a -> sub b t = Some w ->
  In a (addrs w) -> a = b.
Proof.
  intros a b t w N R S I. destruct (root_some _ _ R) as (v & l & r & ->).
  pose proof (nodup_tree _ _ _ _ N) as (Al & Ar & Nl & Nr & D). cbn in S.
  destruct (Nat.eqb_spec b a); [easy|]. exfalso.
  destruct (sub b l) as [y|] eqn:SL; [injection S as ->; apply Al|apply Ar]; eapply sub_incl; eauto.
Qed.

Lemma remove_ok : forall (v0 : V) (h : heap) t os a u, holds h (t :: os) -> sub a t = Some u ->
  exists h' u', remove h a = Val h' /\ holds h' (put a u' t :: os) /\
    (root t = Some a /\ u' = u \/ root t <> Some a /\ u' = ALeaf).
Proof.
  intros v0 h t os a u H S. pose proof (in_sub _ _ _ S) as IA.
  pose proof (in_first t os a u S) as IN. pose proof (proj1 (proj2 H)) as N.
  unfold nodes in N. cbn [flat_map] in N. apply nodup_app in N. destruct N as (NT & NO & D).
  destruct (parent_in h a (t :: os) H IN) as (n & E & [[R P]|(b & w & dir & SB & R & P)]); unfold remove, has_parent;
    rewrite (load_ok _ _ _ E); cbn [bind]; rewrite P.
  - exists h, u. rewrite (put_sub a t u NT S). split; [easy|]. split; [easy|]. left. split; [|easy].
    destruct R as (t0 & [<-|I] & R); [easy|]. exfalso. apply (D a IA). apply in_flat_map. exists t0. split; [easy|].
    now apply root_in.
  - assert (IW : In a (addrs w)).
    { destruct w as [|c x l r]; [easy|]. cbn. right. apply in_app_iff. destruct dir; cbn in R; apply root_in in R; auto. }
    assert (SB' : sub b t = Some w).
    { cbn in SB. destruct (sub b t) as [w'|]; [easy|]. exfalso. apply (D a IA). now apply (fsub_incl b os w SB). }
    assert (IB : In b (nodes (t :: os))) by (eapply in_first; eauto).
    pose proof (fsub_root _ _ _ SB) as RB. destruct (root_some _ _ RB) as (x & l & r & ->).
    destruct (holds_part _ _ _ _ _ H SB') as (q & TW & NW).
    unfold parent_of. rewrite (load_ok _ _ _ E). cbn [bind]. rewrite P. cbn [bind].
    destruct (child_side false h q b x l r TW) as (m & LM & SL). unfold has_child, child_of. rewrite LM. cbn [bind].
    rewrite SL. cbn [child] in SL |- *.
    assert (DIR : (let* dir := (if (match root l with None => false | Some _ => true end) then
      let* c := match root l with None => Exn NullNode | Some c => Val c end in Val (negb (Nat.eqb c a)) else Val true) in Val dir)
      = Val dir).
    { apply nodup_tree in NW. destruct NW as (_ & _ & _ & _ & DLR). destruct dir; cbn in R.
      - destruct (root l) as [c|] eqn:RL; [|easy]. cbn. destruct (Nat.eqb_spec c a); [|easy]. subst.
        exfalso. apply (DLR a); now apply root_in.
      - rewrite R. cbn. now rewrite Nat.eqb_refl. }
    match goal with |- context [bind ?m ?k] => assert (DE : m = Val dir) end.
    { destruct (root l); cbn in DIR |- *; congruence. }
    rewrite DE. cbn [bind].
    destruct (del_ok v0 h (t :: os) b dir H IB) as (h' & r0 & ts' & E1 & H1 & A).
    cbn [nstep] in E1. cbn [after] in A. destruct A as (w & FW & _ & ->). rewrite SB in FW. injection FW as <-.
    destruct (delete_child (Datatypes.S (length h)) h b dir) as [[h2 b2]| | |]; try discriminate. cbn [bind] in E1 |- *.
    injection E1 as <- _. exists h2, ALeaf. split; [easy|].
    assert (NA : a <> b).
    { now destruct (sub_child b x l r dir a NW R). }
    split.
    + rewrite (fput_first h t os b _ _ H SB') in H1.
      rewrite <- (put_child b x l r ALeaf dir a NW R) in H1.
      rewrite (put_below b a t _ ALeaf) in H1; easy.
    + right. split; [|easy]. intros RT. apply NA. exact (root_below a b t _ NT RT SB' IW).
Qed.
Lemma remove_self_does : forall v0 : V, does_or_deletes (V := V) (fun _ u u' => u' = u \/ u' = ALeaf) remove_self.
Proof.
  intros v0 past h t os a u H S. destruct (remove_ok v0 h t os a u H S) as (h' & u' & E & H' & K).
  exists h', false, u', os. unfold remove_self. rewrite E. cbn [bind]. split; [easy|]. split; [tauto|]. split; [|easy].
  destruct K as [[R ->]|[R ->]]; [left; eapply sub_root; eauto|auto].
Qed.

End Proofs.
