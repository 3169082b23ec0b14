(** Proofs about the binary nodes. *)
Require Import List Arith NArith Lia Bool.
Require Import Verif.Base Verif.BnodeModel Verif.BnodeSpec.
Import ListNotations.

Section Proofs.
Context {V : Type}.
Variable v0 : V.
Local Notation heap := (heap V).
Local Notation bnode := (bnode V).
Local Notation atree := (atree V).

Lemma nth_lt : forall (h : heap) x c, nth_error h x = Some c -> x < length h.
Proof. intros h x c H. apply nth_error_Some. congruence. Qed.

Lemma load_ok : forall (h : heap) a (n : bnode), nth_error h a = Some (Some n) -> load h a = Val n.
Proof. intros h a n H. unfold load. now rewrite H. Qed.
Lemma load_gone : forall (h : heap) a, nth_error h a = Some None -> load h a = UB.
Proof. intros h a H. unfold load. now rewrite H. Qed.
Lemma store_ok : forall (h : heap) a (n m : bnode), nth_error h a = Some (Some n) ->
  store h a m = Val (set_nth h a (Some m)).
Proof. intros h a n m H. unfold store. now rewrite (load_ok _ _ _ H). Qed.
Lemma free_ok : forall (h : heap) a (n : bnode), nth_error h a = Some (Some n) ->
  free h a = Val (set_nth h a None).
Proof. intros h a n H. unfold free. now rewrite (load_ok _ _ _ H). Qed.

Lemma set_eq : forall (h : heap) a c d, nth_error h a = Some d -> nth_error (set_nth h a c) a = Some c.
Proof. intros h a c d H. apply nth_error_set_nth_eq. now apply nth_lt in H. Qed.
Lemma set_neq : forall (h : heap) a c x, x <> a -> nth_error (set_nth h a c) x = nth_error h x.
Proof. intros h a c x H. apply nth_error_set_nth_neq. congruence. Qed.

Lemma with_side_side : forall dir (n : bnode) c, side dir (with_side dir n c) = c.
Proof. now intros [|] n c. Qed.
Lemma with_side_other : forall dir (n : bnode) c, side (negb dir) (with_side dir n c) = side (negb dir) n.
Proof. now intros [|] n c. Qed.
Lemma with_side_parent : forall dir (n : bnode) c, parent (with_side dir n c) = parent n.
Proof. now intros [|] n c. Qed.
Lemma with_side_same : forall dir (n : bnode), with_side dir n (side dir n) = n.
Proof. now intros [|] []. Qed.
Lemma with_side_twice : forall dir (n : bnode) c d, with_side dir (with_side dir n c) d = with_side dir n d.
Proof. now intros [|] [] c d. Qed.

Lemma has_frame : forall t (h h' : heap) p,
  (forall x, In x (addrs t) -> nth_error h' x = nth_error h x) -> has h p t -> has h' p t.
Proof.
  induction t as [|a v l IHl r IHr]; intros h h' p E H; cbn in *; [trivial|].
  destruct H as (H1 & H2 & H3). rewrite E by auto. split; [trivial|]. split.
  - apply IHl with h; [|trivial]. intros x Hx. apply E. right. apply in_or_app. now left.
  - apply IHr with h; [|trivial]. intros x Hx. apply E. right. apply in_or_app. now right.
Qed.
Lemma has_lt : forall t (h : heap) p x, has h p t -> In x (addrs t) -> x < length h.
Proof.
  induction t as [|a v l IHl r IHr]; intros h p x H Hx; cbn in *; [tauto|].
  destruct H as (H1 & H2 & H3). destruct Hx as [<-|Hx]; [now apply nth_lt in H1|].
  apply in_app_or in Hx as [Hx|Hx]; eauto.
Qed.
(** The nodes of a tree are all live. *)
Lemma has_live : forall t (h : heap) p x, has h p t -> In x (addrs t) -> exists n, nth_error h x = Some (Some n).
Proof.
  induction t as [|a v l IHl r IHr]; intros h p x H Hx; cbn in *; [tauto|].
  destruct H as (H1 & H2 & H3). destruct Hx as [<-|Hx]; [eauto|].
  apply in_app_or in Hx as [Hx|Hx]; eauto.
Qed.

Lemma nodup_node : forall (a : nat) l r, NoDup (a :: l ++ r) ->
  ~ In a l /\ ~ In a r /\ NoDup l /\ NoDup r /\ (forall x, In x l -> ~ In x r).
Proof.
  intros a l r H. inversion H as [|? ? Ha Hn]; subst.
  rewrite in_app_iff in Ha. split; [tauto|]. split; [tauto|].
  clear - Hn. induction l as [|b l IH]; cbn in *.
  - split; [constructor|]. split; [trivial|tauto].
  - inversion Hn as [|? ? Hb Hn']; subst. rewrite in_app_iff in Hb.
    destruct (IH Hn') as (I1 & I2 & I3). split; [constructor; tauto|]. split; [trivial|].
    intros x [<-|Hx]; [tauto|auto].
Qed.
Lemma nodup_tree : forall a v (l r : atree), NoDup (addrs (ANode a v l r)) ->
  ~ In a (addrs l) /\ ~ In a (addrs r) /\ NoDup (addrs l) /\ NoDup (addrs r) /\
  (forall x, In x (addrs l) -> ~ In x (addrs r)).
Proof. intros a v l r H. now apply nodup_node. Qed.
Lemma node_nodup : forall (a : nat) l r, ~ In a l -> ~ In a r -> NoDup l -> NoDup r ->
  (forall x, In x l -> ~ In x r) -> NoDup (a :: l ++ r).
Proof.
  intros a l r H1 H2 H3 H4 H5. constructor; [rewrite in_app_iff; tauto|].
  induction l as [|b l IH]; cbn; [trivial|]. inversion H3; subst.
  constructor; [rewrite in_app_iff; intros [|]; [tauto|now apply (H5 b); [left|]]|].
  apply IH; [now intros ?; apply H1; right|trivial|]. intros x Hx. apply H5. now right.
Qed.

Lemma root_some : forall (t : atree) c, root t = Some c -> exists v l r, t = ANode c v l r.
Proof. intros [|a v l r] c H; cbn in H; [congruence|]. injection H as ->. eauto. Qed.
Lemma root_in : forall (t : atree) c, root t = Some c -> In c (addrs t).
Proof. intros t c H. destruct (root_some _ _ H) as (v & l & r & ->). now left. Qed.

(** ** Deleting *)

Definition deletes (del : heap -> nat -> outcome heap) (t : atree) : Prop :=
  forall h p c, tree_at h p t -> root t = Some c ->
  exists h', del h c = Val h' /\ length h' = length h /\
    (forall x, In x (addrs t) -> nth_error h' x = Some None) /\
    (forall x, ~ In x (addrs t) -> nth_error h' x = nth_error h x).

Lemma delete_child_with_ok : forall del (t : atree), deletes del t ->
  forall h a (n : bnode) dir q, nth_error h a = Some (Some n) -> side dir n = root t ->
  tree_at h q t -> ~ In a (addrs t) ->
  exists h', delete_child_with del h a dir = Val (h', match root t with None => false | Some _ => true end) /\
    length h' = length h /\ nth_error h' a = Some (Some (with_side dir n None)) /\
    (forall x, In x (addrs t) -> nth_error h' x = Some None) /\
    (forall x, x <> a -> ~ In x (addrs t) -> nth_error h' x = nth_error h x).
Proof.
  intros del t D h a n dir q Ha Hs Ht Hna. unfold delete_child_with.
  rewrite (load_ok _ _ _ Ha). cbn [bind]. rewrite Hs.
  destruct (root t) as [c|] eqn:Rt.
  - destruct (D h q c Ht Rt) as (h1 & E1 & L1 & G1 & K1). rewrite E1. cbn [bind].
    assert (Ha1 : nth_error h1 a = Some (Some n)) by (rewrite K1; trivial).
    rewrite (load_ok _ _ _ Ha1). cbn [bind]. rewrite (store_ok _ _ _ _ Ha1). cbn [bind].
    eexists. split; [reflexivity|]. split; [now rewrite set_nth_length|].
    split; [eapply set_eq; eassumption|]. split.
    + intros x Hx. rewrite set_neq by congruence. auto.
    + intros x Hx Hn. rewrite set_neq by trivial. auto.
  - exists h. split; [trivial|]. split; [trivial|]. split.
    + now rewrite <- Hs, with_side_same.
    + destruct t; [cbn; tauto|discriminate].
Qed.

Lemma clear_with_ok : forall del (l r : atree), deletes del l -> deletes del r ->
  forall h p a v, tree_at h p (ANode a v l r) ->
  exists h', clear_with del h a = Val h' /\ length h' = length h /\
    nth_error h' a = Some (Some (mkB p v None None)) /\
    (forall x, In x (addrs l ++ addrs r) -> nth_error h' x = Some None) /\
    (forall x, x <> a -> ~ In x (addrs l ++ addrs r) -> nth_error h' x = nth_error h x).
Proof.
  intros del l r Dl Dr h p a v ((Ha & Hl & Hr) & ND).
  destruct (nodup_tree _ _ _ _ ND) as (Nl & Nr & NDl & NDr & DJ).
  destruct (delete_child_with_ok del l Dl h a _ false (Some a) Ha eq_refl (conj Hl NDl) Nl)
    as (h1 & E1 & L1 & A1 & G1 & K1).
  assert (Hr1 : has h1 (Some a) r).
  { apply has_frame with h; [|trivial]. intros x Hx. apply K1; [congruence|]. intro. now apply (DJ x). }
  destruct (delete_child_with_ok del r Dr h1 a _ true (Some a) A1 eq_refl (conj Hr1 NDr) Nr)
    as (h2 & E2 & L2 & A2 & G2 & K2).
  exists h2. unfold clear_with. rewrite E1. cbn [bind fst]. rewrite E2. cbn [bind fst].
  split; [trivial|]. split; [congruence|]. split; [exact A2|]. split.
  - intros x Hx. apply in_app_or in Hx as [Hx|Hx]; [|auto].
    rewrite K2; [auto|congruence|now apply DJ].
  - intros x Hx Hn. rewrite in_app_iff in Hn. rewrite K2 by tauto. apply K1; tauto.
Qed.

Lemma delete_ok : forall (t : atree) fuel, depth t <= fuel -> deletes (delete fuel) t.
Proof.
  induction t as [|a v l IHl r IHr]; intros fuel F h p c Ht Hc; [discriminate|].
  cbn [depth] in F. destruct fuel as [|fuel]; [lia|]. cbn in Hc. injection Hc as <-.
  cbn [delete].
  destruct (clear_with_ok (delete fuel) l r (IHl fuel ltac:(lia)) (IHr fuel ltac:(lia)) h p a v Ht)
    as (h1 & E1 & L1 & A1 & G1 & K1).
  rewrite E1. cbn [bind]. rewrite (free_ok _ _ _ A1).
  destruct Ht as (_ & ND). destruct (nodup_tree _ _ _ _ ND) as (Nl & Nr & _).
  eexists. split; [reflexivity|]. split; [now rewrite set_nth_length|]. cbn [addrs]. split.
  - intros x [<-|Hx]; [eapply set_eq; eassumption|]. rewrite set_neq; [auto|].
    intros ->. apply in_app_or in Hx. tauto.
  - intros x Hx. cbn in Hx. rewrite set_neq by (intro; subst; tauto). apply K1; [intro; subst; tauto|tauto].
Qed.

Lemma clear_ok : forall fuel (h : heap) p a v (l r : atree), tree_at h p (ANode a v l r) ->
  depth (ANode a v l r) <= fuel ->
  exists h', clear fuel h a = Val h' /\ length h' = length h /\
    nth_error h' a = Some (Some (mkB p v None None)) /\
    (forall x, In x (addrs l ++ addrs r) -> nth_error h' x = Some None) /\
    (forall x, x <> a -> ~ In x (addrs l ++ addrs r) -> nth_error h' x = nth_error h x).
Proof.
  intros fuel h p a v l r Ht F. cbn [depth] in F.
  apply clear_with_ok; [apply delete_ok; lia|apply delete_ok; lia|trivial].
Qed.
(** One step less of fuel is enough. *)
Lemma clear_ok' : forall fuel (h : heap) p a v (l r : atree), tree_at h p (ANode a v l r) ->
  depth (ANode a v l r) <= S fuel ->
  exists h', clear fuel h a = Val h' /\ length h' = length h /\
    nth_error h' a = Some (Some (mkB p v None None)) /\
    (forall x, In x (addrs l ++ addrs r) -> nth_error h' x = Some None) /\
    (forall x, x <> a -> ~ In x (addrs l ++ addrs r) -> nth_error h' x = nth_error h x).
Proof.
  intros fuel h p a v l r Ht F. cbn [depth] in F.
  apply clear_with_ok; [apply delete_ok; lia|apply delete_ok; lia|trivial].
Qed.
Lemma clear_childless : forall fuel (h : heap) a p v, nth_error h a = Some (Some (mkB p v None None)) ->
  clear fuel h a = Val h.
Proof.
  intros fuel h a p v H. unfold clear, clear_with, delete_child_with.
  rewrite (load_ok _ _ _ H). cbn [bind side left fst]. rewrite (load_ok _ _ _ H). reflexivity.
Qed.

(** ** Copying *)

Definition copies (asg : heap -> nat -> nat -> outcome heap) (t : atree) : Prop :=
  forall h c b q p v, tree_at h q t -> root t = Some b ->
  nth_error h c = Some (Some (mkB p v None None)) -> ~ In c (addrs t) ->
  exists h' t', asg h c b = Val h' /\ root t' = Some c /\ tree_at h' p t' /\ alike t t' /\
    length h <= length h' /\
    (forall x, In x (addrs t') <-> x = c \/ length h <= x < length h') /\
    (forall x, x < length h -> x <> c -> nth_error h' x = nth_error h x).

Lemma copy_side_ok : forall asg (t : atree), copies asg t ->
  forall h a b (n o : bnode) dir, nth_error h a = Some (Some n) -> nth_error h b = Some (Some o) ->
  a <> b -> side dir o = root t -> side dir n = None -> tree_at h (Some b) t -> ~ In a (addrs t) ->
  exists h' t', copy_side v0 asg h a b dir = Val h' /\
    nth_error h' a = Some (Some (with_side dir n (root t'))) /\ tree_at h' (Some a) t' /\ alike t t' /\
    length h <= length h' /\
    (forall x, In x (addrs t') <-> length h <= x < length h') /\
    (forall x, x < length h -> x <> a -> nth_error h' x = nth_error h x).
Proof.
  intros asg t C h a b n o dir Ha Hb AB So Sn Ht Na. unfold copy_side.
  rewrite (load_ok _ _ _ Hb). cbn [bind]. rewrite So.
  destruct (root t) as [d|] eqn:Rt.
  - cbn [alloc]. set (c := length h). set (h1 := h ++ [Some (mkB None v0 None None)]).
    assert (Lc : length h1 = S c) by (unfold h1; rewrite app_length; cbn; unfold c; lia).
    assert (K1 : forall x, x < length h -> nth_error h1 x = nth_error h x)
      by (intros x Hx; unfold h1; now apply nth_error_app1).
    assert (C1 : nth_error h1 c = Some (Some (mkB None v0 None None)))
      by (unfold h1, c; rewrite nth_error_app2, Nat.sub_diag; [reflexivity|lia]).
    assert (La : a < length h) by (eapply nth_lt; eassumption).
    assert (Lb : b < length h) by (eapply nth_lt; eassumption).
    assert (A1 : nth_error h1 a = Some (Some n)) by (rewrite K1; trivial).
    rewrite (load_ok _ _ _ A1). cbn [bind]. rewrite (store_ok _ _ _ _ A1). cbn [bind].
    set (h2 := set_nth h1 a _).
    assert (B2 : nth_error h2 b = Some (Some o))
      by (unfold h2; rewrite set_neq by congruence; rewrite K1; trivial).
    rewrite (load_ok _ _ _ B2). cbn [bind]. rewrite So.
    assert (C2 : nth_error h2 c = Some (Some (mkB None v0 None None)))
      by (unfold h2; rewrite set_neq by (unfold c; lia); trivial).
    destruct Ht as (Hh & ND).
    assert (Bd : forall x, In x (addrs t) -> x < length h) by (intros; eapply has_lt; eassumption).
    assert (T2 : tree_at h2 (Some b) t).
    { split; [|trivial]. apply has_frame with h; [|trivial]. intros x Hx.
      unfold h2. rewrite set_neq by congruence. apply K1. auto. }
    assert (Nc : ~ In c (addrs t)) by (intro Hc; apply Bd in Hc; unfold c in Hc; lia).
    destruct (C h2 c d (Some b) None v0 T2 Rt C2 Nc) as (h3 & t' & E3 & R3 & T3 & AL & L3 & F3 & K3).
    rewrite E3. cbn [bind].
    destruct (root_some _ _ R3) as (w & l' & r' & ->).
    destruct T3 as ((C3 & Hl & Hr) & ND3).
    rewrite (load_ok _ _ _ C3). cbn [bind]. rewrite (store_ok _ _ _ _ C3).
    assert (L2 : length h2 = S c) by (unfold h2; rewrite set_nth_length; trivial).
    destruct (nodup_tree _ _ _ _ ND3) as (N1 & N2 & _).
    eexists. exists (ANode c w l' r'). split; [reflexivity|]. rewrite set_nth_length.
    cbn [with_parent val left right root].
    split.
    { rewrite set_neq by (unfold c; lia). rewrite K3; [|lia|unfold c; lia].
      unfold h2. eapply set_eq; eassumption. }
    split.
    { split; [|trivial]. cbn [has]. split; [eapply set_eq; eassumption|]. split.
      - apply has_frame with h3; [|trivial]. intros x Hx. apply set_neq. intros ->. tauto.
      - apply has_frame with h3; [|trivial]. intros x Hx. apply set_neq. intros ->. tauto. }
    split; [trivial|]. split; [unfold c in *; lia|]. split.
    + intros x. change (In x (addrs (ANode c w l' r')) <-> length h <= x < length h3). rewrite F3, L2. unfold c in *. lia.
    + intros x Hx Hxa. rewrite set_neq by (unfold c; lia).
      rewrite K3 by (unfold c in *; lia). unfold h2. rewrite set_neq by trivial. auto.
  - exists h, ALeaf. split; [trivial|]. cbn [root].
    split; [now rewrite <- Sn, with_side_same|]. split; [split; [exact I|constructor]|].
    destruct t; [|discriminate]. split; [exact I|]. split; [trivial|]. split; [intros x; cbn; lia|trivial].
Qed.

Lemma assign_childless : forall (t : atree) fuel, depth t <= fuel -> copies (assign v0 fuel) t.
Proof.
  induction t as [|b w l IHl r IHr]; intros fuel F h c b' q p v Ht Hb Hc Nc; [discriminate|].
  cbn [depth] in F. destruct fuel as [|fuel]; [lia|]. cbn in Hb. injection Hb as <-.
  cbn [assign]. rewrite (clear_childless _ _ _ _ _ Hc). cbn [bind].
  destruct Ht as ((Hb & Hl & Hr) & ND). cbn [addrs] in Nc.
  destruct (nodup_tree _ _ _ _ ND) as (Nl & Nr & NDl & NDr & DJ).
  assert (CB : c <> b) by (intros ->; apply Nc; now left).
  assert (Ncl : ~ In c (addrs l)) by (intro; apply Nc; right; apply in_or_app; now left).
  assert (Ncr : ~ In c (addrs r)) by (intro; apply Nc; right; apply in_or_app; now right).
  destruct (copy_side_ok _ l (IHl fuel ltac:(lia)) h c b _ _ false Hc Hb CB eq_refl eq_refl
              (conj Hl NDl) Ncl) as (h1 & l' & E1 & A1 & T1 & AL1 & L1 & F1 & K1).
  rewrite E1. cbn [bind].
  assert (Lc : c < length h) by (eapply nth_lt; eassumption).
  assert (Lb : b < length h) by (eapply nth_lt; eassumption).
  assert (B1 : nth_error h1 b = Some (Some (mkB q w (root l) (root r)))) by (rewrite K1; trivial; congruence).
  assert (Hr1 : has h1 (Some b) r).
  { apply has_frame with h; [|trivial]. intros x Hx. apply K1; [eapply has_lt; eassumption|congruence]. }
  destruct (copy_side_ok _ r (IHr fuel ltac:(lia)) h1 c b _ _ true A1 B1 CB eq_refl eq_refl
              (conj Hr1 NDr) Ncr) as (h2 & r' & E2 & A2 & T2 & AL2 & L2 & F2 & K2).
  rewrite E2. cbn [bind].
  assert (B2 : nth_error h2 b = Some (Some (mkB q w (root l) (root r)))) by (rewrite K2; trivial; [lia|congruence]).
  rewrite (load_ok _ _ _ B2). cbn [bind]. rewrite (load_ok _ _ _ A2). cbn [bind].
  rewrite (store_ok _ _ _ _ A2).
  assert (N1 : ~ In c (addrs l')) by (intro H; apply F1 in H; lia).
  assert (N2 : ~ In c (addrs r')) by (intro H; apply F2 in H; lia).
  destruct T1 as (T1 & ND1). destruct T2 as (T2 & ND2).
  eexists. exists (ANode c w l' r'). split; [reflexivity|]. rewrite set_nth_length.
  split; [reflexivity|]. split.
  { split.
    - cbn [has]. split; [eapply set_eq; eassumption|]. split.
      + apply has_frame with h1; [|trivial]. intros x Hx. rewrite set_neq by congruence.
        apply K2; [apply F1 in Hx; lia|congruence].
      + apply has_frame with h2; [|trivial]. intros x Hx. rewrite set_neq by congruence. trivial.
    - cbn [addrs]. apply node_nodup; trivial. intros x Hx Hy. apply F1 in Hx. apply F2 in Hy. lia. }
  split; [cbn; auto|]. split; [lia|]. split.
  - intros x. cbn [addrs In]. rewrite in_app_iff, F1, F2. lia.
  - intros x Hx Hxc. rewrite set_neq by trivial. rewrite K2 by (trivial; lia). auto.
Qed.

(** What assigning depends on after clearing: a childless target. *)
Lemma assign_after_clear : forall fuel (h : heap) h1 a b p v, clear fuel h a = Val h1 ->
  nth_error h1 a = Some (Some (mkB p v None None)) ->
  assign v0 (S fuel) h a b = assign v0 (S fuel) h1 a b.
Proof.
  intros fuel h h1 a b p v E A. cbn [assign]. rewrite E, (clear_childless _ _ _ _ _ A). reflexivity.
Qed.

Lemma assign_apart : forall fuel (h : heap) p q a v (l r : atree) b w (bl br : atree),
  tree_at h p (ANode a v l r) -> tree_at h q (ANode b w bl br) ->
  apart (ANode a v l r) (ANode b w bl br) ->
  depth (ANode a v l r) <= fuel -> depth (ANode b w bl br) <= fuel ->
  exists h' t', assign v0 fuel h a b = Val h' /\ root t' = Some a /\ tree_at h' p t' /\
    alike (ANode b w bl br) t' /\ tree_at h' q (ANode b w bl br) /\
    (forall x, In x (addrs t') <-> x = a \/ length h <= x < length h') /\
    only [a] (addrs l ++ addrs r) h h'.
Proof.
  intros fuel h p q a v l r b w bl br Ta Tb AP Fa Fb.
  destruct fuel as [|fuel]; [cbn in Fa; lia|].
  destruct (clear_ok' fuel _ _ _ _ _ _ Ta Fa) as (h1 & E1 & L1 & A1 & G1 & K1).
  rewrite (assign_after_clear _ _ _ _ _ _ _ E1 A1).
  assert (Fr : forall x, In x (addrs (ANode b w bl br)) -> nth_error h1 x = nth_error h x).
  { intros x Hx. apply K1.
    - intros ->. apply (AP a); [now left|trivial].
    - intro Hn. apply (AP x); [now right|trivial]. }
  assert (Tb1 : tree_at h1 q (ANode b w bl br)).
  { destruct Tb as (Hb & ND). split; [|trivial]. now apply has_frame with h. }
  assert (Na : ~ In a (addrs (ANode b w bl br))) by (apply AP; now left).
  destruct (assign_childless _ _ Fb h1 a b q p v Tb1 eq_refl A1 Na)
    as (h2 & t' & E2 & R2 & T2 & AL & L2 & F2 & K2).
  exists h2, t'. split; [trivial|]. split; [trivial|]. split; [trivial|]. split; [trivial|]. split.
  { destruct Tb1 as (Hb & ND). split; [|trivial]. apply has_frame with h1; [|trivial].
    intros x Hx. apply K2; [eapply has_lt; eassumption|congruence]. }
  split; [intros x; rewrite F2, L1; tauto|].
  destruct Ta as ((Ha & Hl & Hr) & ND). destruct (nodup_tree _ _ _ _ ND) as (Nl & Nr & _). split.
  - intros x Hx. rewrite K2; [auto| |].
    + rewrite L1. apply in_app_or in Hx as [Hx|Hx]; [exact (has_lt _ _ _ _ Hl Hx)|exact (has_lt _ _ _ _ Hr Hx)].
    + intros ->. apply in_app_or in Hx. tauto.
  - intros x Hx Hg Ht. assert (x <> a) by (intros ->; apply Ht; now left). rewrite K2 by (trivial; lia). auto.
Qed.

Lemma copy_construct_ok : forall fuel (h : heap) q b w (bl br : atree), tree_at h q (ANode b w bl br) ->
  depth (ANode b w bl br) <= fuel ->
  exists h' t', copy_construct v0 fuel h b = Val (h', length h) /\ root t' = Some (length h) /\
    tree_at h' None t' /\ alike (ANode b w bl br) t' /\ tree_at h' q (ANode b w bl br) /\
    (forall x, In x (addrs t') <-> length h <= x < length h') /\ only [] [] h h'.
Proof.
  intros fuel h q b w bl br (Hb & ND) F. unfold copy_construct. cbn [alloc].
  set (h1 := h ++ _).
  assert (K1 : forall x, x < length h -> nth_error h1 x = nth_error h x)
    by (intros x Hx; unfold h1; now apply nth_error_app1).
  assert (Tb1 : tree_at h1 q (ANode b w bl br)).
  { split; [|trivial]. apply has_frame with h; [|trivial]. intros x Hx. apply K1. eapply has_lt; eassumption. }
  assert (C1 : nth_error h1 (length h) = Some (Some (mkB None v0 None None)))
    by (unfold h1; rewrite nth_error_app2, Nat.sub_diag; [reflexivity|lia]).
  assert (Nc : ~ In (length h) (addrs (ANode b w bl br)))
    by (intro Hc; apply (has_lt _ _ _ _ Hb) in Hc; lia).
  assert (L1 : length h1 = S (length h)) by (unfold h1; rewrite app_length; cbn; lia).
  destruct (assign_childless _ _ F h1 (length h) b q None v0 Tb1 eq_refl C1 Nc)
    as (h2 & t' & E2 & R2 & T2 & AL & L2 & F2 & K2).
  rewrite E2. cbn [bind]. exists h2, t'. split; [trivial|]. split; [trivial|]. split; [trivial|].
  split; [trivial|]. split.
  { split; [|trivial]. apply has_frame with h1; [|apply Tb1]. intros x Hx.
    pose proof (has_lt _ _ _ _ Hb Hx). apply K2; lia. }
  split; [intros x; rewrite F2, L1; lia|]. split; [intros x []|].
  intros x Hx _ _. rewrite K2 by lia. auto.
Qed.

(** ** Moving *)

Lemma adopt_ok : forall (t : atree) h q a, tree_at h q t -> ~ In a (addrs t) ->
  exists h', adopt h (root t) a = Val h' /\ length h' = length h /\ tree_at h' (Some a) t /\
    (forall x, root t <> Some x -> nth_error h' x = nth_error h x).
Proof.
  intros [|c v l r] h q a (H & ND) Na; cbn [root adopt].
  - exists h. split; [trivial|]. split; [trivial|]. split; [now split|trivial].
  - destruct H as (Hc & Hl & Hr). rewrite (load_ok _ _ _ Hc). cbn [bind]. rewrite (store_ok _ _ _ _ Hc).
    destruct (nodup_tree _ _ _ _ ND) as (Nl & Nr & _).
    eexists. split; [reflexivity|]. split; [apply set_nth_length|]. split.
    + split; [|trivial]. cbn [has]. split; [eapply set_eq; eassumption|].
      split; (eapply has_frame; [|eassumption]); intros x Hx; apply set_neq; intros ->; tauto.
    + intros x Hx. apply set_neq. congruence.
Qed.


Lemma in_roots : forall (l r : atree) x, In x (roots l r) <-> root l = Some x \/ root r = Some x.
Proof.
  intros l r x. unfold roots. rewrite in_app_iff.
  destruct (root l), (root r); cbn; split; intros H; intuition congruence.
Qed.

Lemma move_apart : forall fuel (h : heap) p q a v (l r : atree) b w (bl br : atree),
  tree_at h p (ANode a v l r) -> tree_at h q (ANode b w bl br) ->
  apart (ANode a v l r) (ANode b w bl br) -> depth (ANode a v l r) <= fuel ->
  exists h', move fuel h a b = Val h' /\ length h' = length h /\
    tree_at h' p (ANode a w bl br) /\ tree_at h' None (ANode b w ALeaf ALeaf) /\
    only (a :: b :: roots bl br) (addrs l ++ addrs r) h h'.
Proof.
  intros fuel h p q a v l r b w bl br Ta Tb AP Fa.
  destruct (clear_ok fuel _ _ _ _ _ _ Ta Fa) as (h1 & E1 & L1 & A1 & G1 & K1).
  assert (Fr : forall x, In x (addrs (ANode b w bl br)) -> nth_error h1 x = nth_error h x).
  { intros x Hx. apply K1.
    - intros ->. apply (AP a); [now left|trivial].
    - intro Hn. apply (AP x); [now right|trivial]. }
  assert (Hb1 : has h1 q (ANode b w bl br)) by (destruct Tb; now apply has_frame with h).
  destruct Tb as (Hb & ND).
  destruct (nodup_tree _ _ _ _ ND) as (Nbl & Nbr & NDl & NDr & DJ).
  destruct Hb1 as (B1 & Hl1 & Hr1).
  assert (Na : ~ In a (addrs (ANode b w bl br))) by (apply AP; now left).
  assert (AB : a <> b) by (intros ->; apply Na; now left).
  assert (Nal : ~ In a (addrs bl)) by (intro; apply Na; right; apply in_or_app; now left).
  assert (Nar : ~ In a (addrs br)) by (intro; apply Na; right; apply in_or_app; now right).
  unfold move. rewrite E1. cbn [bind].
  rewrite (load_ok _ _ _ B1). cbn [bind]. rewrite (load_ok _ _ _ A1). cbn [bind].
  rewrite (store_ok _ _ _ _ A1). cbn [bind]. cbn [with_left parent val left right].
  set (h2 := set_nth h1 a _).
  assert (B2 : nth_error h2 b = Some (Some (mkB q w (root bl) (root br))))
    by (unfold h2; rewrite set_neq by congruence; exact B1).
  assert (A2 : nth_error h2 a = Some (Some (mkB p v (root bl) None))) by (eapply set_eq; eassumption).
  rewrite (load_ok _ _ _ B2). cbn [bind]. rewrite (load_ok _ _ _ A2). cbn [bind].
  rewrite (store_ok _ _ _ _ A2). cbn [bind]. cbn [with_right parent val left right].
  set (h3 := set_nth h2 a _).
  assert (B3 : nth_error h3 b = Some (Some (mkB q w (root bl) (root br))))
    by (unfold h3; rewrite set_neq by congruence; exact B2).
  assert (A3 : nth_error h3 a = Some (Some (mkB p v (root bl) (root br)))) by (eapply set_eq; eassumption).
  rewrite (load_ok _ _ _ B3). cbn [bind]. rewrite (store_ok _ _ _ _ B3). cbn [bind].
  cbn [with_right with_left parent val left right].
  set (h4 := set_nth h3 b _).
  assert (B4 : nth_error h4 b = Some (Some (mkB q w None None))) by (eapply set_eq; eassumption).
  rewrite (load_ok _ _ _ B4). cbn [bind]. rewrite (store_ok _ _ _ _ B4). cbn [bind].
  cbn [with_parent parent val left right].
  set (h5 := set_nth h4 b _).
  assert (B5 : nth_error h5 b = Some (Some (mkB None w None None))) by (eapply set_eq; eassumption).
  assert (A5 : nth_error h5 a = Some (Some (mkB p v (root bl) (root br))))
    by (unfold h5, h4; rewrite !set_neq by congruence; exact A3).
  assert (K5 : forall x, x <> a -> x <> b -> nth_error h5 x = nth_error h1 x)
    by (intros x X1 X2; unfold h5, h4, h3, h2; rewrite !set_neq by trivial; reflexivity).
  assert (L5 : length h5 = length h) by (unfold h5, h4, h3, h2; rewrite !set_nth_length; exact L1).
  clearbody h5. clear h2 h3 h4 B2 A2 B3 A3 B4.
  rewrite (load_ok _ _ _ A5). cbn [bind left].
  assert (Tl5 : tree_at h5 (Some b) bl).
  { split; [|trivial]. apply has_frame with h1; [|trivial]. intros x Hx. apply K5; congruence. }
  destruct (adopt_ok bl h5 (Some b) a Tl5 Nal) as (h6 & E6 & L6 & T6 & K6).
  rewrite E6. cbn [bind].
  assert (A6 : nth_error h6 a = Some (Some (mkB p v (root bl) (root br)))).
  { rewrite K6; [trivial|]. intro H. now apply root_in in H. }
  assert (B6 : nth_error h6 b = Some (Some (mkB None w None None))).
  { rewrite K6; [trivial|]. intro H. now apply root_in in H. }
  rewrite (load_ok _ _ _ A6). cbn [bind right].
  assert (Tr6 : tree_at h6 (Some b) br).
  { split; [|trivial]. apply has_frame with h1; [|trivial]. intros x Hx.
    rewrite K6; [apply K5; congruence|]. intro H. apply root_in in H. now apply (DJ x). }
  destruct (adopt_ok br h6 (Some b) a Tr6 Nar) as (h7 & E7 & L7 & T7 & K7).
  rewrite E7. cbn [bind].
  assert (A7 : nth_error h7 a = Some (Some (mkB p v (root bl) (root br)))).
  { rewrite K7; [trivial|]. intro H. now apply root_in in H. }
  assert (B7 : nth_error h7 b = Some (Some (mkB None w None None))).
  { rewrite K7; [trivial|]. intro H. now apply root_in in H. }
  rewrite (load_ok _ _ _ B7). cbn [bind]. rewrite (load_ok _ _ _ A7). cbn [bind].
  rewrite (store_ok _ _ _ _ A7). cbn [with_val parent val left right].
  destruct T6 as (T6 & _). destruct T7 as (T7 & _).
  eexists. split; [reflexivity|]. rewrite set_nth_length. split; [congruence|]. split.
  { split.
    - cbn [has]. split; [eapply set_eq; eassumption|]. split.
      + apply has_frame with h6; [|trivial]. intros x Hx. rewrite set_neq by congruence.
        apply K7. intro H. apply root_in in H. now apply (DJ x).
      + apply has_frame with h7; [|trivial]. intros x Hx. apply set_neq. congruence.
    - cbn [addrs]. now apply node_nodup. }
  split.
  { split; [|cbn; constructor; [intros []|constructor]]. cbn. rewrite set_neq by congruence. now split. }
  destruct Ta as ((Ha & Hl & Hr) & NDa). destruct (nodup_tree _ _ _ _ NDa) as (Nl & Nr & _). split.
  - intros x Hx. assert (X : In x (addrs (ANode a v l r))) by (now right).
    pose proof (AP x X) as Y. cbn [addrs] in Y.
    assert (xa : x <> a) by (intros ->; apply in_app_or in Hx; tauto).
    rewrite set_neq, K7, K6, K5; [auto|trivial| | | |trivial].
    + intros ->. apply Y. now left.
    + intro H. apply root_in in H. apply Y. right. apply in_or_app. now left.
    + intro H. apply root_in in H. apply Y. right. apply in_or_app. now right.
  - intros x Hx Hg Ht. cbn [In] in Ht. rewrite in_roots in Ht.
    rewrite set_neq, K7, K6, K5; [apply K1; [|trivial]| | | | |]; intuition congruence.
Qed.

(** ** Aliasing *)

Lemma assign_self : forall fuel (h : heap) p a v (l r : atree), tree_at h p (ANode a v l r) ->
  depth (ANode a v l r) <= fuel ->
  exists h', assign v0 fuel h a a = Val h' /\ tree_at h' p (ANode a v ALeaf ALeaf) /\
    only [a] (addrs l ++ addrs r) h h'.
Proof.
  intros fuel h p a v l r Ta F. destruct fuel as [|fuel]; [cbn in F; lia|].
  destruct (clear_ok' fuel _ _ _ _ _ _ Ta F) as (h1 & E1 & L1 & A1 & G1 & K1).
  cbn [assign]. rewrite E1. cbn [bind]. unfold copy_side.
  rewrite !(load_ok _ _ _ A1). cbn [bind side left]. rewrite (load_ok _ _ _ A1). cbn [bind side right].
  rewrite (load_ok _ _ _ A1). cbn [bind]. rewrite (store_ok _ _ _ _ A1).
  cbn [with_val parent val left right].
  destruct Ta as ((Ha & _) & ND). destruct (nodup_tree _ _ _ _ ND) as (Nl & Nr & _).
  eexists. split; [reflexivity|]. split.
  - split; [|cbn; constructor; [intros []|constructor]]. cbn.
    split; [eapply set_eq; eassumption|now split].
  - split.
    + intros x Hx. rewrite set_neq; [auto|]. intros ->. apply in_app_or in Hx. tauto.
    + intros x Hx Hg Ht. rewrite set_neq; [apply K1; [|trivial]|]; intros ->; apply Ht; now left.
Qed.

Lemma assign_from_descendant : forall fuel (h : heap) p a v (l r : atree) b, tree_at h p (ANode a v l r) ->
  depth (ANode a v l r) <= fuel -> In b (addrs l ++ addrs r) -> assign v0 fuel h a b = UB.
Proof.
  intros fuel h p a v l r b Ta F Hb. destruct fuel as [|fuel]; [cbn in F; lia|].
  destruct (clear_ok' fuel _ _ _ _ _ _ Ta F) as (h1 & E1 & L1 & A1 & G1 & K1).
  cbn [assign]. rewrite E1. cbn [bind]. unfold copy_side.
  now rewrite (load_gone _ _ (G1 b Hb)).
Qed.

Lemma assign_chain : forall fuel (h : heap) x y (n o : bnode),
  nth_error h x = Some (Some n) -> left n = None -> right n = None ->
  nth_error h y = Some (Some o) -> left o = Some x -> x <> y ->
  assign v0 fuel h x y = NoFuel.
Proof.
  induction fuel as [|fuel IH]; intros h x y n o Hx Nl Nr Hy Ly XY; [reflexivity|].
  cbn [assign]. destruct n as [p v nl nr]. cbn in Nl, Nr. subst nl nr.
  rewrite (clear_childless _ _ _ _ _ Hx). cbn [bind]. unfold copy_side at 1.
  rewrite (load_ok _ _ _ Hy). cbn [bind side]. rewrite Ly. cbn [alloc].
  set (c := length h). set (h1 := h ++ [Some (mkB None v0 None None)]).
  assert (K1 : forall z, z < length h -> nth_error h1 z = nth_error h z)
    by (intros z Hz; unfold h1; now apply nth_error_app1).
  assert (C1 : nth_error h1 c = Some (Some (mkB None v0 None None)))
    by (unfold h1, c; rewrite nth_error_app2, Nat.sub_diag; [reflexivity|lia]).
  assert (Lx : x < length h) by (eapply nth_lt; eassumption).
  assert (Lb : y < length h) by (eapply nth_lt; eassumption).
  assert (X1 : nth_error h1 x = Some (Some (mkB p v None None))) by (rewrite K1; trivial).
  rewrite (load_ok _ _ _ X1). cbn [bind]. rewrite (store_ok _ _ _ _ X1). cbn [bind].
  set (h2 := set_nth h1 x _).
  assert (Y2 : nth_error h2 y = Some (Some o))
    by (unfold h2; rewrite set_neq by congruence; rewrite K1; trivial).
  rewrite (load_ok _ _ _ Y2). cbn [bind side]. rewrite Ly.
  rewrite (IH h2 c x (mkB None v0 None None) (mkB p v (Some c) None)); trivial.
  - unfold h2. rewrite set_neq by (unfold c; lia). trivial.
  - unfold h2. erewrite set_eq by eassumption. reflexivity.
  - unfold c. lia.
Qed.

Lemma assign_child_from_node : forall fuel (h : heap) p a v lv b (ll lr r : atree),
  tree_at h p (ANode a v (ANode b lv ll lr) r) -> depth (ANode b lv ll lr) <= fuel ->
  assign v0 fuel h b a = NoFuel.
Proof.
  intros fuel h p a v lv b ll lr r (H & ND) F. destruct fuel as [|fuel]; [reflexivity|].
  destruct H as (Ha & Hb & _).
  destruct (nodup_tree a v (ANode b lv ll lr) r ND) as (Nl & _ & NDl & _).
  destruct (clear_ok' fuel _ _ _ _ _ _ (conj Hb NDl) F) as (h1 & E1 & L1 & B1 & G1 & K1).
  rewrite (assign_after_clear _ _ _ _ _ _ _ E1 B1).
  cbn [addrs In] in Nl.
  apply (assign_chain _ h1 b a _ (mkB p v (Some b) (root r)) B1); trivial.
  - rewrite K1; [exact Ha| |]; intuition congruence.
  - intros ->. tauto.
Qed.

Lemma move_self : forall fuel (h : heap) p a v (l r : atree), tree_at h p (ANode a v l r) ->
  depth (ANode a v l r) <= fuel ->
  exists h', move fuel h a a = Val h' /\ tree_at h' None (ANode a v ALeaf ALeaf) /\
    only [a] (addrs l ++ addrs r) h h'.
Proof.
  intros fuel h p a v l r Ta F.
  destruct (clear_ok fuel _ _ _ _ _ _ Ta F) as (h1 & E1 & L1 & A1 & G1 & K1).
  unfold move. rewrite E1. cbn [bind].
  repeat match goal with
  | H : nth_error ?h a = Some (Some _) |- context [load ?h a] =>
      rewrite !(load_ok _ _ _ H); cbn [bind left right with_left with_right with_parent with_val parent val adopt]
  | H : nth_error ?h a = Some (Some _) |- context [store ?h a ?m] =>
      rewrite (store_ok _ _ _ m H);
      pose proof (set_eq _ _ (Some m) _ H);
      assert (forall x, x <> a -> nth_error (set_nth h a (Some m)) x = nth_error h x) by (intros; now apply set_neq);
      cbn [bind left right with_left with_right with_parent with_val parent val adopt] in *;
      let g := fresh "g" in set (g := set_nth h a _) in *; clearbody g
  end.
  destruct Ta as ((Ha & _) & ND). destruct (nodup_tree _ _ _ _ ND) as (Nl & Nr & _).
  eexists. split; [reflexivity|]. split.
  - split; [|cbn; constructor; [intros []|constructor]]. cbn.
    split; [eassumption|now split].
  - split.
    + intros x Hx. assert (x <> a) by (intros ->; apply in_app_or in Hx; tauto).
      repeat match goal with H : forall x, x <> a -> nth_error ?g x = _ |- context [nth_error ?g x] =>
        rewrite H by trivial end. auto.
    + intros x Hx Hg Ht. assert (x <> a) by (intros ->; apply Ht; now left).
      repeat match goal with H : forall x, x <> a -> nth_error ?g x = _ |- context [nth_error ?g x] =>
        rewrite H by trivial end. now apply K1.
Qed.

Lemma move_from_descendant : forall fuel (h : heap) p a v (l r : atree) b, tree_at h p (ANode a v l r) ->
  depth (ANode a v l r) <= fuel -> In b (addrs l ++ addrs r) -> move fuel h a b = UB.
Proof.
  intros fuel h p a v l r b Ta F Hb.
  destruct (clear_ok fuel _ _ _ _ _ _ Ta F) as (h1 & E1 & L1 & A1 & G1 & K1).
  unfold move. rewrite E1. cbn [bind]. now rewrite (load_gone _ _ (G1 b Hb)).
Qed.

(** ** Adding, deleting and exchanging *)


Lemma add_child_taken : forall (h : heap) p (t : atree) a dir v, tree_at h p t -> root t = Some a ->
  child dir t <> ALeaf -> add_child h a dir v = Val (h, false).
Proof.
  intros h p t a dir v (H & ND) R C. destruct (root_some _ _ R) as (w & l & r & ->).
  destruct H as (Ha & _). unfold add_child. rewrite (load_ok _ _ _ Ha). cbn [bind].
  destruct dir; cbn [child side left right] in *; [destruct r|destruct l]; cbn [root]; trivial; congruence.
Qed.

Lemma add_child_free : forall (h : heap) p (t : atree) a dir v, tree_at h p t -> root t = Some a ->
  child dir t = ALeaf ->
  exists h', add_child h a dir v = Val (h', true) /\ length h' = S (length h) /\
    tree_at h' p (set_child dir t (ANode (length h) v ALeaf ALeaf)) /\ only [a] [] h h'.
Proof.
  intros h p t a dir v (H & ND) R C. destruct (root_some _ _ R) as (w & l & r & ->).
  destruct H as (Ha & Hl & Hr). unfold add_child. rewrite (load_ok _ _ _ Ha). cbn [bind].
  assert (S0 : side dir (mkB p w (root l) (root r)) = None)
    by (destruct dir; cbn [child side left right] in *; subst; reflexivity).
  rewrite S0. cbn [alloc]. set (c := length h). set (h1 := h ++ _).
  assert (K1 : forall z, z < length h -> nth_error h1 z = nth_error h z)
    by (intros z Hz; unfold h1; now apply nth_error_app1).
  assert (C1 : nth_error h1 c = Some (Some (mkB (Some a) v None None)))
    by (unfold h1, c; rewrite nth_error_app2, Nat.sub_diag; [reflexivity|lia]).
  assert (La : a < length h) by (eapply nth_lt; eassumption).
  assert (A1 : nth_error h1 a = Some (Some (mkB p w (root l) (root r)))) by (rewrite K1; trivial).
  rewrite (load_ok _ _ _ A1). cbn [bind]. rewrite (store_ok _ _ _ _ A1). cbn [bind].
  destruct (nodup_tree _ _ _ _ ND) as (Nl & Nr & NDl & NDr & DJ).
  eexists. split; [reflexivity|].
  split; [rewrite set_nth_length; unfold h1; rewrite app_length; cbn; lia|]. split.
  - assert (Fl : forall u q, has h q u -> ~ In a (addrs u) ->
        forall n, has (set_nth h1 a (Some n)) q u).
    { intros u q Hu Nu n. apply has_frame with h; [|trivial]. intros x Hx.
      rewrite set_neq by congruence. apply K1. eapply has_lt; eassumption. }
    assert (Lu : forall u q x, has h q u -> In x (addrs u) -> x <> c)
      by (intros u q x Hu Hx; apply (has_lt _ _ _ _ Hu) in Hx; unfold c; lia).
    destruct dir; cbn [child set_child] in *; subst; split; cbn [has root addrs].
    + split; [eapply set_eq; eassumption|]. split; [auto|]. rewrite set_neq by (unfold c; lia). now split.
    + apply node_nodup; trivial; [cbn; intros [E|[]]; unfold c in E; lia|constructor; [intros []|constructor]|].
      intros x Hx [E|[]]. now apply (Lu l _ x Hl Hx).
    + split; [eapply set_eq; eassumption|]. split; [|auto]. rewrite set_neq by (unfold c; lia). now split.
    + apply node_nodup; trivial; [cbn; intros [E|[]]; unfold c in E; lia|constructor; [intros []|constructor]|].
      intros x [E|[]] Hx. now apply (Lu r _ x Hr Hx).
  - split; [intros x []|]. intros x Hx _ Ht. rewrite set_neq by (intros ->; apply Ht; now left). auto.
Qed.

Lemma delete_child_ok : forall fuel (h : heap) p (t : atree) a dir, tree_at h p t -> root t = Some a -> depth t <= fuel ->
  exists h', delete_child fuel h a dir = Val (h', match child dir t with ALeaf => false | _ => true end) /\
    length h' = length h /\ tree_at h' p (set_child dir t ALeaf) /\
    only [a] (addrs (child dir t)) h h'.
Proof.
  intros fuel h p t a dir (H & ND) R F. destruct (root_some _ _ R) as (w & l & r & ->).
  destruct H as (Ha & Hl & Hr). cbn [depth] in F.
  destruct (nodup_tree _ _ _ _ ND) as (Nl & Nr & NDl & NDr & DJ).
  assert (D : deletes (delete fuel) (child dir (ANode a w l r))) by (apply delete_ok; destruct dir; cbn; lia).
  destruct (delete_child_with_ok _ _ D h a _ dir (Some a) Ha) as (h' & E & L & A & G & K).
  - now destruct dir.
  - destruct dir; now split.
  - now destruct dir.
  - exists h'. unfold delete_child. rewrite E. split; [now destruct dir; cbn; [destruct r|destruct l]|].
    split; [trivial|]. split.
    + destruct dir; cbn [child set_child has addrs root app] in *; split; cbn [has addrs root app].
      * split; [exact A|]. split; [|trivial]. apply has_frame with h; [|trivial].
        intros x Hx. apply K; [congruence|now apply DJ].
      * rewrite app_nil_r. now constructor.
      * split; [exact A|]. split; [trivial|]. apply has_frame with h; [|trivial].
        intros x Hx. apply K; [congruence|]. intro. now apply (DJ x).
      * now constructor.
    + split; [trivial|]. intros x Hx Hg Ht. apply K; [|trivial]. intros ->. apply Ht. now left.
Qed.

Lemma swap_none : forall (h : heap) p (t : atree) a dir, tree_at h p t -> root t = Some a -> child dir t = ALeaf ->
  swap h a dir = Val h.
Proof.
  intros h p t a dir (H & ND) R C. destruct (root_some _ _ R) as (w & l & r & ->).
  destruct H as (Ha & _). unfold swap. rewrite (load_ok _ _ _ Ha). cbn [bind].
  destruct dir; cbn [child side left right] in *; subst; reflexivity.
Qed.


Lemma swap_ok : forall (h : heap) p (t : atree) a v dir c w (cl cr : atree), tree_at h p t -> root t = Some a ->
  (exists l r, t = ANode a v l r) -> child dir t = ANode c w cl cr ->
  exists h', swap h a dir = Val h' /\ length h' = length h /\
    tree_at h' p (set_val (set_child dir t (ANode c v cl cr)) w) /\ only [a; c] [] h h'.
Proof.
  intros h p t a v dir c w cl cr (H & ND) R (l & r & ->) C. destruct H as (Ha & Hl & Hr).
  destruct (nodup_tree _ _ _ _ ND) as (Nl & Nr & NDl & NDr & DJ).
  assert (S0 : side dir (mkB p v (root l) (root r)) = Some c)
    by (destruct dir; cbn [child side left right] in *; subst; reflexivity).
  assert (Hc : has h (Some a) (ANode c w cl cr)) by (rewrite <- C; now destruct dir).
  assert (NDc : NoDup (addrs (ANode c w cl cr))) by (rewrite <- C; now destruct dir).
  assert (Nc : ~ In a (addrs (ANode c w cl cr))) by (rewrite <- C; now destruct dir).
  destruct Hc as (Hc & Hcl & Hcr).
  destruct (nodup_tree _ _ _ _ NDc) as (Ncl & Ncr & _).
  assert (AC : a <> c) by (intros ->; apply Nc; now left).
  cbn [addrs In] in Nc. rewrite in_app_iff in Nc.
  unfold swap. rewrite (load_ok _ _ _ Ha). cbn [bind]. rewrite S0.
  rewrite (load_ok _ _ _ Hc). cbn [bind].
  rewrite (store_ok _ _ _ _ Hc). cbn [bind with_val parent val left right].
  set (h1 := set_nth h c _).
  assert (A1 : nth_error h1 a = Some (Some (mkB p v (root l) (root r))))
    by (unfold h1; rewrite set_neq by trivial; exact Ha).
  assert (C1 : nth_error h1 c = Some (Some (mkB (Some a) v (root cl) (root cr)))) by (eapply set_eq; eassumption).
  rewrite (load_ok _ _ _ A1). cbn [bind]. rewrite (store_ok _ _ _ _ A1). cbn [with_val parent val left right].
  eexists. split; [reflexivity|]. split; [unfold h1; now rewrite !set_nth_length|]. split.
  - assert (Fr : forall u q n, has h q u -> ~ In a (addrs u) -> ~ In c (addrs u) ->
        has (set_nth h1 a (Some n)) q u).
    { intros u q n Hu N1 N2. apply has_frame with h; [|trivial]. intros x Hx.
      unfold h1. rewrite !set_neq by congruence. trivial. }
    assert (Cc : forall n, nth_error (set_nth h1 a (Some n)) c = Some (Some (mkB (Some a) v (root cl) (root cr))))
      by (intro n; rewrite set_neq by congruence; exact C1).
    destruct dir; cbn [child set_child set_val] in *; subst; (split; [|exact ND]); cbn [has root].
    + split; [eapply set_eq; eassumption|]. split.
      * apply Fr; trivial. intro Hx. apply (DJ c Hx). now left.
      * split; [apply Cc|]. split; apply Fr; tauto.
    + split; [eapply set_eq; eassumption|]. split.
      * split; [apply Cc|]. split; apply Fr; tauto.
      * apply Fr; trivial. apply DJ. now left.
  - split; [intros x []|]. intros x Hx _ Ht. unfold h1. rewrite !set_neq; trivial; intros ->; apply Ht; cbn; tauto.
Qed.

Lemma delete_child_at_ok : forall fuel (h : heap) a i, (i < 2 ^ 32)%N ->
  delete_child_at fuel h a i =
    if (i <? 2)%N then delete_child fuel h a (i =? 1)%N else Val (h, false).
Proof.
  intros fuel h a i Hi. unfold delete_child_at. rewrite (N.mod_small _ _ Hi).
  destruct (N.eqb_spec i 0) as [->|H0]; [reflexivity|].
  destruct (N.eqb_spec i 1) as [->|H1]; [reflexivity|].
  destruct (N.ltb_spec i 2); [lia|reflexivity].
Qed.

Lemma clear_and_delete : forall fuel (h : heap) p a v (l r : atree), tree_at h p (ANode a v l r) ->
  depth (ANode a v l r) <= fuel ->
  (exists h', clear fuel h a = Val h' /\ length h' = length h /\
    nth_error h' a = Some (Some (mkB p v None None)) /\ only [a] (addrs l ++ addrs r) h h') /\
  (exists h', delete fuel h a = Val h' /\ length h' = length h /\ only [] (addrs (ANode a v l r)) h h').
Proof.
  intros fuel h p a v l r T F. split.
  - destruct (clear_ok fuel _ _ _ _ _ _ T F) as (h1 & E1 & L1 & A1 & G1 & K1).
    exists h1. split; [trivial|]. split; [trivial|]. split; [trivial|]. split; [trivial|].
    intros x _ Hg Ht. apply K1; [|trivial]. intros ->. apply Ht. now left.
  - destruct (delete_ok _ fuel F h p a T eq_refl) as (h1 & E1 & L1 & G1 & K1).
    exists h1. split; [trivial|]. split; [trivial|]. split; [trivial|]. intros x _ Hg _. now apply K1.
Qed.
End Proofs.
