(** Proofs for SegmentThrowProps.v: what an exception leaves of the elements *)
Require Import List Arith NArith ZArith Bool Lia.
Require Import Verif.Base Verif.HeapModel Verif.SegmentModel Verif.SegmentSpec Verif.SegmentProofs.
Require Import Verif.HeapProofs Verif.SegmentOrderSpec Verif.SegmentOrderProofs Verif.SegmentBracketSpec Verif.SegmentBracketProofs.
Require Import Verif.SegmentThrowModel Verif.SegmentThrowSpec Verif.SegmentThrowProofs.
Import ListNotations.
Local Open Scope N_scope.

Section Proofs.
Context {T R U : Type}.
Variable tr : transform T R U.
Variable den : U -> N -> R -> R.
Local Notation node := (node R U).
Local Notation script := (@script R U).
Local Notation ev := (eval (join tr)).
Implicit Types h : list node.
Implicit Types sc : script.
Implicit Types X Y : N -> R.

(** ** Clean exceptions *)
Lemma clean_later : forall sc, clean sc -> clean (later sc).
Proof. intros sc C. destruct sc; [trivial|]. apply Forall_cons_iff in C. now destruct C. Qed.
Lemma clean_here : forall sc a b c, clean sc -> here sc <> Some (Dirty a b c).
Proof. intros sc a b c C. destruct sc as [|m sc]; [discriminate|]. apply Forall_cons_iff in C. destruct C as (C & _). cbn. intros ->. exact C. Qed.
(** The call ends, the rest of the script is clean, and [P] holds of the nodes and the result. *)
Definition stays {A} (P : list node -> ended A -> Prop) (x : result A) : Prop := exists h r sc, x = Val (h, r, sc) /\ clean sc /\ P h r.
Lemma stays_impl : forall A (P Q : list node -> ended A -> Prop) x, stays P x -> (forall h r, P h r -> Q h r) -> stays Q x.
Proof. intros A P Q x (h & r & sc & E & C & H) K. exists h, r, sc. auto. Qed.
Lemma stays_after : forall A B (P : list node -> ended A -> Prop) (Q : list node -> ended B -> Prop) x (k : list node -> A -> script -> result B),
  stays P x -> (forall h, P h Thrown -> Q h Thrown) -> (forall h a sc, clean sc -> P h (Returned a) -> stays Q (k h a sc)) -> stays Q (after x k).
Proof. intros A B P Q x k (h & r & sc & -> & C & H) KT KR. destruct r as [a|]; cbn [after]; [auto|]. exists h, Thrown, sc. auto. Qed.
Lemma stays_val : forall A (P : list node -> ended A -> Prop) h r sc, clean sc -> P h r -> stays P (Val (h, r, sc)).
Proof. intros A P h r sc C H. exists h, r, sc. auto. Qed.
Lemma stays_point : forall A (P : list node -> ended A -> Prop) h x sc, clean sc -> P h (Returned x) -> P h Thrown -> stays P (point h x sc).
Proof. intros A P h x sc C H K. unfold point. destruct (here sc); apply stays_val; auto using clean_later. Qed.
Lemma stays_write : forall (P : list node -> ended unit -> Prop) h pos n c sc, clean sc -> cell h pos = Some n ->
  P (set_nth h (N.to_nat pos) (with_content n c)) (Returned tt) -> P h Thrown -> stays P (t_write h pos c sc).
Proof.
  intros P h pos n c sc C G H K. unfold t_write. rewrite (get_ok _ _ _ G). cbn [bind]. pose proof (clean_here sc) as CH. destruct (here sc) as [[|a b d]|].
  - apply stays_val; auto using clean_later.
  - exfalso. exact (CH a b d C eq_refl).
  - rewrite (put_ok _ _ _ _ G). cbn [bind]. apply stays_val; auto using clean_later.
Qed.
Lemma stays_pull : forall (P : list node -> ended unit -> Prop) h pos lb rb n l r sc, clean sc -> cell h pos = Some n -> cell h lb = Some l -> cell h rb = Some r ->
  P (set_nth h (N.to_nat pos) (with_value n (join tr (value l) (value r)))) (Returned tt) -> P h Thrown -> stays P (t_pull_up tr h pos lb rb sc).
Proof.
  intros P h pos lb rb n l r sc C G Gl Gr H K. unfold t_pull_up. rewrite (get_ok _ _ _ Gl). cbn [bind]. rewrite (get_ok _ _ _ Gr). cbn [bind]. rewrite (get_ok _ _ _ G). cbn [bind].
  eapply stays_write; eauto.
Qed.
Lemma stays_push : forall (P : list node -> ended unit -> Prop) h h1 pos lb rb sc, clean sc -> push_down tr h pos lb rb = Val h1 ->
  P h1 (Returned tt) -> P h Thrown -> stays P (t_push_down tr h pos lb rb sc).
Proof.
  intros P h h1 pos lb rb sc C E H K. unfold push_down in E. unfold t_push_down.
  apply bind_val in E as (n & -> & E). apply bind_val in E as (l & -> & E). apply bind_val in E as (r & -> & E). cbn [bind].
  destruct (has_lazy_updates tr n); [|injection E as <-; now apply stays_val]. pose proof (clean_here sc) as CH. destruct (here sc) as [[|a b d]|].
  - apply stays_val; auto using clean_later.
  - exfalso. exact (CH a b d C eq_refl).
  - destruct (propagate tr (start n) (end_ n) (content n) (content l) (content r)) as [[cn cl] cr].
    apply bind_val in E as (h2 & -> & E). cbn [bind]. apply bind_val in E as (h3 & -> & E). cbn [bind]. rewrite E. cbn [bind]. apply stays_val; auto using clean_later.
Qed.

(** ** Queries *)
Section Query.
Hypothesis LAW : bracket_lawful tr den.
Hypothesis KEEP : keeps_value tr.
Local Notation holds := (holds tr den).
Lemma push_value : forall h pos n h' n', push_down tr h pos (2 * pos + 1) (2 * pos + 2) = Val h' -> cell h pos = Some n -> cell h' pos = Some n' -> value n' = value n.
Proof.
  intros h pos n h' n' E C C'. unfold push_down in E. rewrite (get_ok _ _ _ C) in E. cbn [bind] in E. apply bind_val in E as (l & _ & E). apply bind_val in E as (r & _ & E).
  destruct (has_lazy_updates tr n); [|injection E as <-; congruence].
  pose proof (KEEP (start n) (end_ n) (content n) (content l) (content r)) as K.
  destruct (propagate tr (start n) (end_ n) (content n) (content l) (content r)) as [[cn cl] cr]. cbn in K.
  apply bind_val in E as (h1 & E1 & E). apply bind_val in E as (h2 & E2 & E). unfold put in *.
  apply bind_val in E1 as (x1 & _ & E1). apply bind_val in E2 as (x2 & _ & E2). apply bind_val in E as (x3 & _ & E). 
  assert (J : forall A (x y : A), Val x = Val y -> y = x) by (intros A x y J; congruence). apply J in E1, E2, E. subst h' h2 h1.
  do 2 rewrite cell_put_neq in C' by lia. erewrite cell_put_eq in C' by eassumption. injection C' as <-. exact K.
Qed.
Definition still h0 pos s e X h : Prop := holds h pos s e X /\ sizeN h = sizeN h0 /\ forall q, ~ under pos q -> cell h q = cell h0 q.
Lemma query_stays : forall fuel h pos s e X a b v sc, clean sc -> holds h pos s e X -> s <= a -> a <= b -> b <= e -> (N.to_nat (e - s) < fuel)%nat ->
  stays (fun h' _ => still h pos s e X h') (t_range_query tr fuel h a b pos v sc).
Proof.
  induction fuel as [|fuel IH]; intros h pos s e X a b v sc CL H SA AB BE F; [lia|].
  cbn [t_range_query]. destruct (holds_cell _ _ _ _ _ _ _ H) as (n & C & S & E & I & V & B). pose proof (holds_le _ _ _ _ _ _ _ H) as LE.
  rewrite (get_ok _ _ _ C). cbn [bind]. rewrite (leaf_eq n s e) by trivial. rewrite S, E.
  assert (SAME : still h pos s e X h) by (split; auto).
  destruct ((s =? a) && (b =? e) && ((s =? e) || negb (has_lazy_updates tr n))) eqn:Q; [now apply stays_point|].
  destruct (N.eqb_spec s e) as [SE|SE]; [now apply stays_val|].
  assert (L : s < e) by lia. clear LE SE Q. cbv zeta.
  destruct (holds_inner _ _ _ _ _ _ _ _ H L C) as (Y & P & Hl & Hr & D). rewrite (center_eq n s e) by (trivial; lia).
  pose proof (center_between s e L) as CB. unfold lower_bound, upper_bound. rewrite I, left_small, right_small by trivial.
  destruct (push_down_holds tr den LAW h pos s e n X Y C S E L Hl Hr D) as (h1 & n1 & E1 & Z1 & K1 & C1 & S1 & N1 & I1 & A1 & Yl & Yr).
  pose proof (push_value _ _ _ _ _ E1 C C1) as V1. set (c := (s + e) / 2) in *.
  pose (O := fun h2 : list node => holds h2 (2 * pos + 1) s c X /\ holds h2 (2 * pos + 2) (c + 1) e X /\ cell h2 pos = Some n1 /\ sizeN h2 = sizeN h /\ forall q, ~ under pos q -> cell h2 q = cell h q).
  assert (OS : forall h2, O h2 -> still h pos s e X h2).
  { intros h2 (Ol & Or & Oc & Oz & Ok). split; [|split; trivial]. apply holds_node with n1 X; trivial; [congruence| |congruence]. intros i Hi. symmetry. now apply (bl_inactive _ _ LAW). }
  assert (OL : forall h2 a' b' v' sc2, O h2 -> clean sc2 -> s <= a' -> a' <= b' -> b' <= c -> stays (fun h' _ => O h') (t_range_query tr fuel h2 a' b' (2 * pos + 1) v' sc2)).
  { intros h2 a' b' v' sc2 (Ol & Or & Oc & Oz & Ok) C2 L1 L2 L3. apply stays_impl with (1 := IH h2 (2 * pos + 1) s c X a' b' v' sc2 C2 Ol L1 L2 L3 ltac:(lia)).
    intros h' _ (G1 & G2 & G3). split; [trivial|]. split; [|split; [|split]].
    - apply holds_frame with h2; [trivial|]. intros q Hq. apply G3. intro. now apply (under_disjoint pos q).
    - rewrite G3; [trivial|]. apply not_under_left.
    - congruence.
    - intros q Hq. rewrite G3; [auto|]. intro. apply Hq. now apply under_left. }
  assert (OR : forall h2 a' b' v' sc2, O h2 -> clean sc2 -> c + 1 <= a' -> a' <= b' -> b' <= e -> stays (fun h' _ => O h') (t_range_query tr fuel h2 a' b' (2 * pos + 2) v' sc2)).
  { intros h2 a' b' v' sc2 (Ol & Or & Oc & Oz & Ok) C2 L1 L2 L3. apply stays_impl with (1 := IH h2 (2 * pos + 2) (c + 1) e X a' b' v' sc2 C2 Or L1 L2 L3 ltac:(lia)).
    intros h' _ (G1 & G2 & G3). split; [|split; [trivial|split; [|split]]].
    - apply holds_frame with h2; [trivial|]. intros q Hq. apply G3. intro. now apply (under_disjoint pos q).
    - rewrite G3; [trivial|]. apply not_under_right.
    - congruence.
    - intros q Hq. rewrite G3; [auto|]. intro. apply Hq. now apply under_right. }
  apply stays_after with (P := fun h2 r => match r with Returned _ => O h2 | Thrown => still h pos s e X h2 end).
  { eapply stays_push; try eassumption. unfold O. auto. }
  { trivial. }
  intros h2 _ sc2 C2 O2. apply stays_after with (P := fun h2 _ => O h2); [|auto|].
  - destruct (N.leb_spec a c) as [ac|ac]; destruct (N.ltb_spec c b) as [cb|cb]; cbn [andb]; [| | |lia].
    + apply stays_after with (P := fun h2 _ => O h2); [apply OL; trivial; lia|auto|]. intros h3 l sc3 C3 O3.
      rewrite wadd1 by lia. apply stays_after with (P := fun h2 _ => O h2); [apply OR; trivial; lia|auto|]. intros h4 r sc4 C4 O4. now apply stays_point.
    + apply OL; trivial.
    + apply OR; trivial; lia.
  - intros h3 x sc3 C3 O3. apply stays_after with (P := fun h' _ => still h pos s e X h'); [|auto|intros; now apply stays_val].
    pose proof O3 as (Ol & Or & Oc & Oz & Ok).
    destruct (holds_cell _ _ _ _ _ _ _ Ol) as (nl & Cl & _ & _ & _ & Vl & _). destruct (holds_cell _ _ _ _ _ _ _ Or) as (nr & Cr & _ & _ & _ & Vr & _).
    eapply stays_pull; try eassumption; [|now apply OS].
    destruct (pull_up_holds tr den LAW h3 pos s e n1 X Oc S1 N1) as (h4 & E4 & Z4 & K4 & R4); trivial; [congruence|].
    unfold pull_up in E4. rewrite (get_ok _ _ _ Cl) in E4. cbn [bind] in E4. rewrite (get_ok _ _ _ Cr) in E4. cbn [bind] in E4. rewrite (get_ok _ _ _ Oc) in E4. cbn [bind] in E4.
    rewrite (put_ok _ _ _ _ Oc) in E4. injection E4 as <-. split; [trivial|]. split; [congruence|]. intros q Hq. rewrite K4; [auto|]. intros ->. apply Hq. constructor.
Qed.
End Query.

(** ** The elements, whatever the values of inner nodes are *)
Section Elements.
Hypothesis LAW : composes tr den.
Inductive elems h : N -> N -> N -> (N -> R) -> Prop :=
| elems_leaf pos s n X :
    cell h pos = Some n -> start n = s -> end_ n = s -> index n = pos -> s < 2 ^ 62 -> value n = X s -> elems h pos s s X
| elems_node pos s e n X Y :
    cell h pos = Some n -> start n = s -> end_ n = e -> index n = pos -> s < e -> pos < 2 ^ 62 -> e < 2 ^ 62 ->
    elems h (2 * pos + 1) s ((s + e) / 2) Y -> elems h (2 * pos + 2) ((s + e) / 2 + 1) e Y ->
    (forall i, s <= i <= e -> X i = den (lazy_update n) i (Y i)) -> elems h pos s e X.
Lemma holds_elems : forall h pos s e X, holds tr den h pos s e X -> elems h pos s e X.
Proof. induction 1; [eapply elems_leaf|eapply elems_node]; eauto. Qed.
Lemma elems_le : forall h pos s e X, elems h pos s e X -> s <= e.
Proof. intros h pos s e X H. inversion H; subst; lia. Qed.
Lemma elems_ext : forall h pos s e X Y, elems h pos s e X -> (forall i, s <= i <= e -> X i = Y i) -> elems h pos s e Y.
Proof.
  intros h pos s e X Y H E. inversion H as [p s0 n X0 C0 S0 E0 I0 B0 V0|p s0 e0 n X0 Z C0 S0 E0 I0 L P B Hl Hr D]; subst.
  - apply elems_leaf with n; trivial. rewrite V0. apply E. lia.
  - apply elems_node with n Z; trivial. intros i I. rewrite <- E by trivial. auto.
Qed.
Lemma elems_cell : forall h pos s e X, elems h pos s e X -> exists n, cell h pos = Some n /\ start n = s /\ end_ n = e /\ index n = pos /\ (s = e -> value n = X s) /\ e < 2 ^ 62.
Proof. intros h pos s e X H. inversion H; subst; exists n; auto 7. split; [trivial|]. do 3 (split; [trivial|]). split; [lia|trivial]. Qed.
Lemma elems_inner : forall h pos s e X n, elems h pos s e X -> s < e -> cell h pos = Some n -> exists Y, pos < 2 ^ 62 /\
  elems h (2 * pos + 1) s ((s + e) / 2) Y /\ elems h (2 * pos + 2) ((s + e) / 2 + 1) e Y /\ forall i, s <= i <= e -> X i = den (lazy_update n) i (Y i).
Proof.
  intros h pos s e X n H L C. inversion H; subst; [lia|]. match goal with K : cell h _ = Some ?m |- _ => rewrite C in K; injection K as <- end. exists Y. auto.
Qed.
Lemma elems_frame : forall h h' pos s e X, elems h pos s e X -> (forall q, under pos q -> cell h' q = cell h q) -> elems h' pos s e X.
Proof.
  induction 1 as [pos s n X C S E I B V|pos s e n X Y C S E I L P B Hl IHl Hr IHr D]; intros F.
  - apply elems_leaf with n; trivial. rewrite F by constructor. trivial.
  - apply elems_node with n Y; trivial.
    + rewrite F by constructor. trivial.
    + apply IHl. intros q Q. apply F. now apply under_left.
    + apply IHr. intros q Q. apply F. now apply under_right.
Qed.
Lemma elems_put : forall h pos n m s e X p, elems h p s e X -> cell h pos = Some m -> ~ under p pos -> elems (set_nth h (N.to_nat pos) n) p s e X.
Proof. intros h pos n m s e X p H C N. apply elems_frame with h; [trivial|]. intros q Q. apply cell_put_neq. intros ->. contradiction. Qed.
Lemma elems_take : forall h pos s e X n f c', elems h pos s e X -> cell h pos = Some n -> passes den f s e (content n) c' ->
  elems (set_nth h (N.to_nat pos) (with_content n c')) pos s e (fun i => f i (X i)).
Proof.
  intros h pos s e X n f c' H C (A1 & A2).
  inversion H as [p s0 n0 X0 C0 S0 E0 I0 B0 V0|p s0 e0 n0 X0 Y C0 S0 E0 I0 L P B Hl Hr D]; subst; rewrite C in C0; injection C0 as <-.
  - apply elems_leaf with (with_content n c'); trivial; [eapply cell_put_eq; eassumption|]. unfold value. cbn [content with_content]. rewrite A1 by trivial. unfold value in V0. now rewrite V0.
  - specialize (A2 L). apply elems_node with (with_content n c') Y; trivial.
    + eapply cell_put_eq; eassumption.
    + eapply elems_put; eauto. apply not_under_left.
    + eapply elems_put; eauto. apply not_under_right.
    + intros i I. unfold lazy_update. cbn [content with_content]. rewrite A2 by trivial. f_equal. auto.
Qed.
Lemma push_elems : forall h pos s e n X Y, cell h pos = Some n -> start n = s -> end_ n = e -> s < e ->
  elems h (2 * pos + 1) s ((s + e) / 2) Y -> elems h (2 * pos + 2) ((s + e) / 2 + 1) e Y -> (forall i, s <= i <= e -> X i = den (lazy_update n) i (Y i)) ->
  exists h' n', push_down tr h pos (2 * pos + 1) (2 * pos + 2) = Val h' /\ sizeN h' = sizeN h /\
    (forall q, ~ under pos q -> cell h' q = cell h q) /\
    cell h' pos = Some n' /\ start n' = s /\ end_ n' = e /\ index n' = index n /\ active tr (lazy_update n') = false /\
    elems h' (2 * pos + 1) s ((s + e) / 2) X /\ elems h' (2 * pos + 2) ((s + e) / 2 + 1) e X.
Proof.
  intros h pos s e n X Y C S E L Hl Hr D. unfold push_down.
  destruct (elems_cell _ _ _ _ _ Hl) as (nl & Cl & Sl & El & Il & Vl & Bl).
  destruct (elems_cell _ _ _ _ _ Hr) as (nr & Cr & Sr & Er & Ir & Vr & Br).
  rewrite (get_ok _ _ _ C). cbn [bind]. rewrite (get_ok _ _ _ Cl). cbn [bind]. rewrite (get_ok _ _ _ Cr). cbn [bind].
  pose proof (center_between s e L) as CB. unfold has_lazy_updates. destruct (active tr (lazy_update n)) eqn:A.
  - destruct (propagate tr (start n) (end_ n) (content n) (content nl) (content nr)) as [[cn cl] cr] eqn:P. rewrite S, E in P.
    destruct (cp_propagate _ _ LAW _ _ _ _ _ _ _ _ L A P) as (An & Al & Ar). rewrite (put_ok _ _ _ _ C). cbn [bind].
    set (h1 := set_nth h (N.to_nat pos) (with_content n cn)).
    assert (Cl1 : cell h1 (2 * pos + 1) = Some nl) by (unfold h1; rewrite cell_put_neq by lia; trivial).
    assert (Cr1 : cell h1 (2 * pos + 2) = Some nr) by (unfold h1; rewrite cell_put_neq by lia; trivial).
    assert (Hl1 : elems h1 (2 * pos + 1) s ((s + e) / 2) Y) by (eapply elems_put; eauto; apply not_under_left).
    assert (Hr1 : elems h1 (2 * pos + 2) ((s + e) / 2 + 1) e Y) by (eapply elems_put; eauto; apply not_under_right).
    rewrite (put_ok _ _ _ _ Cl1). cbn [bind]. pose proof (elems_take _ _ _ _ _ _ _ _ Hl1 Cl1 Al) as Hl2.
    set (h2 := set_nth h1 (N.to_nat (2 * pos + 1)) (with_content nl cl)) in *.
    assert (Cr2 : cell h2 (2 * pos + 2) = Some nr) by (unfold h2; rewrite cell_put_neq by lia; trivial).
    assert (Hr2 : elems h2 (2 * pos + 2) ((s + e) / 2 + 1) e Y).
    { eapply elems_put; eauto. intros Q. apply under_le in Q. lia. }
    rewrite (put_ok _ _ _ _ Cr2). pose proof (elems_take _ _ _ _ _ _ _ _ Hr2 Cr2 Ar) as Hr3.
    set (h3 := set_nth h2 (N.to_nat (2 * pos + 2)) (with_content nr cr)) in *.
    assert (Hl3 : elems h3 (2 * pos + 1) s ((s + e) / 2) (fun i => den (snd (content n)) i (Y i))).
    { eapply elems_put; eauto. intros Q. apply (under_disjoint pos (2 * pos + 2) Q). constructor. }
    exists h3, (with_content n cn). split; [reflexivity|]. split; [unfold h3, h2, h1; now rewrite !sizeN_set|]. split.
    { intros q Q. unfold h3, h2, h1. rewrite !cell_put_neq; trivial; intros ->; apply Q; [constructor|apply under_left; constructor|apply under_right; constructor]. }
    split; [unfold h3, h2; rewrite !cell_put_neq by lia; eapply cell_put_eq; eassumption|]. split; [trivial|]. split; [trivial|]. split; [reflexivity|]. split; [exact An|].
    split; [eapply elems_ext; [exact Hl3|]|eapply elems_ext; [exact Hr3|]]; intros i I; symmetry; apply D; lia.
  - exists h, n. split; [trivial|]. split; [trivial|]. split; [trivial|]. split; [trivial|]. split; [trivial|]. split; [trivial|]. split; [trivial|]. split; [trivial|].
    split; [eapply elems_ext; [exact Hl|]|eapply elems_ext; [exact Hr|]]; intros i I; rewrite D by lia; symmetry; now apply (cp_inactive _ _ LAW).
Qed.
Definition has h0 pos s e X h : Prop := elems h pos s e X /\ sizeN h = sizeN h0 /\ forall q, ~ under pos q -> cell h q = cell h0 q.
(** The children hold [X], the node has nothing pending. *)
Definition opened h0 pos s e (n1 : node) X h : Prop :=
  elems h (2 * pos + 1) s ((s + e) / 2) X /\ elems h (2 * pos + 2) ((s + e) / 2 + 1) e X /\ cell h pos = Some n1 /\ sizeN h = sizeN h0 /\
  forall q, ~ under pos q -> cell h q = cell h0 q.
Lemma opened_has : forall h0 pos s e n1 X h, opened h0 pos s e n1 X h -> start n1 = s -> end_ n1 = e -> index n1 = pos -> active tr (lazy_update n1) = false ->
  s < e -> pos < 2 ^ 62 -> e < 2 ^ 62 -> has h0 pos s e X h.
Proof.
  intros h0 pos s e n1 X h (Ol & Or & Oc & Oz & Ok) S E I A L P B. split; [|split; trivial]. apply elems_node with n1 X; trivial. intros i Hi. symmetry. now apply (cp_inactive _ _ LAW).
Qed.
Lemma opened_put : forall h0 pos s e n1 X h x, opened h0 pos s e n1 X h -> opened h0 pos s e (with_value n1 x) X (set_nth h (N.to_nat pos) (with_value n1 x)).
Proof.
  intros h0 pos s e n1 X h x (Ol & Or & Oc & Oz & Ok). split; [|split; [|split; [|split]]].
  - eapply elems_put; eauto. apply not_under_left.
  - eapply elems_put; eauto. apply not_under_right.
  - eapply cell_put_eq; eassumption.
  - now rewrite sizeN_set.
  - intros q Q. rewrite cell_put_neq; [auto|]. intros ->. apply Q. constructor.
Qed.
Lemma opened_pull : forall (Q : list node -> ended unit -> Prop) h0 pos s e n1 X h sc, opened h0 pos s e n1 X h -> clean sc ->
  start n1 = s -> end_ n1 = e -> index n1 = pos -> active tr (lazy_update n1) = false -> s < e -> pos < 2 ^ 62 -> e < 2 ^ 62 ->
  (forall h' r, has h0 pos s e X h' -> Q h' r) -> stays Q (t_pull_up tr h pos (2 * pos + 1) (2 * pos + 2) sc).
Proof.
  intros Q h0 pos s e n1 X h sc O C S E I A L P B K. pose proof O as (Ol & Or & Oc & Oz & Ok).
  destruct (elems_cell _ _ _ _ _ Ol) as (nl & Cl & _). destruct (elems_cell _ _ _ _ _ Or) as (nr & Cr & _).
  eapply stays_pull; try eassumption; apply K.
  - eapply opened_has; [apply opened_put; exact O|..]; trivial.
  - eapply opened_has; eauto.
Qed.
Lemma opened_left : forall h0 pos s e n1 X X' h h', opened h0 pos s e n1 X h -> has h (2 * pos + 1) s ((s + e) / 2) X' h' ->
  (forall i, (s + e) / 2 + 1 <= i <= e -> X' i = X i) -> opened h0 pos s e n1 X' h'.
Proof.
  intros h0 pos s e n1 X X' h h' (Ol & Or & Oc & Oz & Ok) (G1 & G2 & G3) D. split; [trivial|]. split; [|split; [|split]].
  - apply elems_ext with X; [|intros i Hi; symmetry; auto]. apply elems_frame with h; [trivial|]. intros q Hq. apply G3. intro. now apply (under_disjoint pos q).
  - rewrite G3; [trivial|]. apply not_under_left.
  - congruence.
  - intros q Hq. rewrite G3; [auto|]. intro. apply Hq. now apply under_left.
Qed.
Lemma opened_right : forall h0 pos s e n1 X X' h h', opened h0 pos s e n1 X h -> has h (2 * pos + 2) ((s + e) / 2 + 1) e X' h' ->
  (forall i, s <= i <= (s + e) / 2 -> X' i = X i) -> opened h0 pos s e n1 X' h'.
Proof.
  intros h0 pos s e n1 X X' h h' (Ol & Or & Oc & Oz & Ok) (G1 & G2 & G3) D. split; [|split; [trivial|split; [|split]]].
  - apply elems_ext with X; [|intros i Hi; symmetry; auto]. apply elems_frame with h; [trivial|]. intros q Hq. apply G3. intro. now apply (under_disjoint pos q).
  - rewrite G3; [trivial|]. apply not_under_right.
  - congruence.
  - intros q Hq. rewrite G3; [auto|]. intro. apply Hq. now apply under_right.
Qed.
(** A query keeps the elements; for a single position it answers the element. *)
Lemma query_elems : forall fuel h pos s e X a b v sc, clean sc -> elems h pos s e X -> s <= a -> a <= b -> b <= e -> (N.to_nat (e - s) < fuel)%nat ->
  stays (fun h' r => has h pos s e X h' /\ forall y, r = Returned y -> a = b -> y = X a) (t_range_query tr fuel h a b pos v sc).
Proof.
  induction fuel as [|fuel IH]; intros h pos s e X a b v sc CL H SA AB BE F; [lia|].
  cbn [t_range_query]. destruct (elems_cell _ _ _ _ _ H) as (n & C & S & E & I & V & B). pose proof (elems_le _ _ _ _ _ H) as LE.
  rewrite (get_ok _ _ _ C). cbn [bind]. rewrite (leaf_eq n s e) by trivial. rewrite S, E.
  assert (SAME : has h pos s e X h) by (split; auto).
  destruct ((s =? a) && (b =? e) && ((s =? e) || negb (has_lazy_updates tr n))) eqn:Q.
  { apply andb_prop in Q as (Q & _). apply andb_prop in Q as (Q1 & Q2). apply N.eqb_eq in Q1, Q2. subst a b.
    apply stays_point; trivial; split; trivial; [|discriminate]. intros y J EQ. injection J as <-. auto. }
  destruct (N.eqb_spec s e) as [SE|SE].
  { exfalso. assert (s = a) by lia. assert (b = e) by lia. subst a b. rewrite !N.eqb_refl in Q. discriminate. }
  assert (L : s < e) by lia. clear LE SE Q. cbv zeta.
  destruct (elems_inner _ _ _ _ _ _ H L C) as (Y & P & Hl & Hr & D). rewrite (center_eq n s e) by (trivial; lia).
  pose proof (center_between s e L) as CB. unfold lower_bound, upper_bound. rewrite I, left_small, right_small by trivial.
  destruct (push_elems h pos s e n X Y C S E L Hl Hr D) as (h1 & n1 & E1 & Z1 & K1 & C1 & S1 & N1 & I1 & A1 & Yl & Yr).
  assert (I1' : index n1 = pos) by congruence.
  pose proof (fun h2 (O : opened h pos s e n1 X h2) => opened_has _ _ _ _ _ _ _ O S1 N1 I1' A1 L P B) as OH.
  apply stays_after with (P := fun h2 r => match r with Returned _ => opened h pos s e n1 X h2 | Thrown => h2 = h end).
  { eapply stays_push; try eassumption; [|reflexivity]. unfold opened. auto. }
  { intros h2 ->. split; [trivial|discriminate]. }
  intros h2 _ sc2 C2 O2.
  apply stays_after with (P := fun h2 r => opened h pos s e n1 X h2 /\ forall y, r = Returned y -> a = b -> y = X a).
  - destruct (N.leb_spec a ((s + e) / 2)) as [ac|ac]; destruct (N.ltb_spec ((s + e) / 2) b) as [cb|cb]; cbn [andb]; [| | |lia].
    + pose proof O2 as (Ol & _). apply stays_after with (P := fun h2 _ => opened h pos s e n1 X h2).
      { apply stays_impl with (1 := IH h2 (2 * pos + 1) s ((s + e) / 2) X a (N.min b ((s + e) / 2)) (no_value tr) sc2 C2 Ol SA ltac:(lia) ltac:(lia) ltac:(lia)). intros h' _ (G & _). eapply opened_left; eauto. }
      { intros h3 O3. split; [trivial|discriminate]. }
      intros h3 l sc3 C3 O3. rewrite wadd1 by lia. pose proof O3 as (_ & Or & _). apply stays_after with (P := fun h2 _ => opened h pos s e n1 X h2).
      { apply stays_impl with (1 := IH h3 (2 * pos + 2) ((s + e) / 2 + 1) e X ((s + e) / 2 + 1) b (no_value tr) sc3 C3 Or ltac:(lia) ltac:(lia) ltac:(lia) ltac:(lia)). intros h' _ (G & _). eapply opened_right; eauto. }
      { intros h4 O4. split; [trivial|discriminate]. }
      intros h4 r sc4 C4 O4. apply stays_point; trivial; split; trivial; [lia|discriminate].
    + pose proof O2 as (Ol & _). apply stays_impl with (1 := IH h2 (2 * pos + 1) s ((s + e) / 2) X a b v sc2 C2 Ol SA ltac:(lia) ltac:(lia) ltac:(lia)).
      intros h' r (G & GA). split; [|trivial]. eapply opened_left; eauto.
    + pose proof O2 as (_ & Or & _). apply stays_impl with (1 := IH h2 (2 * pos + 2) ((s + e) / 2 + 1) e X a b v sc2 C2 Or ltac:(lia) ltac:(lia) ltac:(lia) ltac:(lia)).
      intros h' r (G & GA). split; [|trivial]. eapply opened_right; eauto.
  - intros h3 (O3 & _). split; [auto|discriminate].
  - intros h3 x sc3 C3 (O3 & AX). apply stays_after with (P := fun h' _ => has h pos s e X h').
    + eapply opened_pull; eauto.
    + intros h4 G. split; [trivial|discriminate].
    + intros h4 _ sc4 C4 G. apply stays_val; trivial. split; [trivial|]. intros y J. injection J as <-. auto.
Qed.
(** What an update may leave: some of the elements of the range have been changed. *)
Definition partly {A} (u : U) (a b s e : N) X X' (r : ended A) : Prop := forall i, s <= i <= e ->
  (X' i = X i /\ (a <= i <= b -> r = Thrown)) \/ (a <= i <= b /\ X' i = den u i (X i)).
Lemma partly_other : forall A B u a b s e X X' (x : A) (y : B), partly u a b s e X X' (Returned x) -> partly u a b s e X X' (Returned y).
Proof. intros A B u a b s e X X' x y H i Hi. destruct (H i Hi) as [(Q & N)|Q]; [left|now right]. split; [trivial|]. intros J. specialize (N J). discriminate. Qed.
Lemma partly_thrown : forall A B u a b s e X X' (r : ended A), partly u a b s e X X' r -> partly u a b s e X X' (@Thrown B).
Proof. intros A B u a b s e X X' r H i Hi. destruct (H i Hi) as [(Q & N)|Q]; [left|now right]. auto. Qed.
Lemma update_elems : forall fuel h pos s e X a b u v sc, clean sc -> elems h pos s e X -> s <= a -> a <= b -> b <= e -> (N.to_nat (e - s) < fuel)%nat ->
  stays (fun h' r => exists X', has h pos s e X' h' /\ partly u a b s e X X' r) (t_range_update tr fuel h a b pos u v sc).
Proof.
  induction fuel as [|fuel IH]; intros h pos s e X a b u v sc CL H SA AB BE F; [lia|].
  cbn [t_range_update]. destruct (elems_cell _ _ _ _ _ H) as (n & C & S & E & I & V & B). pose proof (elems_le _ _ _ _ _ H) as LE.
  rewrite (get_ok _ _ _ C). cbn [bind]. cbv zeta. rewrite (leaf_eq n s e) by trivial. rewrite S, E.
  assert (SAME : forall B, exists X', has h pos s e X' h /\ partly u a b s e X X' (@Thrown B)) by (intros A0; exists X; split; [split; auto|now left]).
  apply stays_after with (P := fun h' r => h' = h /\ (r = Returned true -> s = a /\ b = e /\ (s = e \/ active tr (lazy_update n) = false \/ criteria tr s e (content n) = true)) /\
      (r = Returned false -> s < e)).
  { destruct (N.eqb_spec s a) as [sa|sa]; destruct (N.eqb_spec b e) as [be|be]; cbn [andb];
      [|apply stays_val; trivial; split; [trivial|]; split; [discriminate|intros _; lia]..].
    unfold has_lazy_updates. destruct (N.eqb_spec s e) as [SE|SE]; cbn [orb negb]; [apply stays_val; trivial; split; [trivial|split; [auto|discriminate]]|].
    destruct (active tr (lazy_update n)) eqn:A; cbn [negb]; [|apply stays_val; trivial; split; [trivial|split; [auto|discriminate]]].
    apply stays_point; trivial; (split; [trivial|]); split; try discriminate; [|intros; lia].
    intros J. injection J as J. auto 6. }
  { intros h2 (-> & _). apply SAME. }
  intros h0 [|] sc0 C0 (-> & HT & HF).
  - destruct (HT eq_refl) as (<- & -> & M). clear HT HF.
    apply stays_after with (P := fun h' r => exists X', has h pos s e X' h' /\ partly u s e s e X X' r).
    + unfold t_apply_change. rewrite (get_ok _ _ _ C). cbn [bind]. rewrite S, E. destruct (active tr u) eqn:A.
      * eapply stays_write; eauto. exists (fun i => den u i (X i)). split; [|intros i Hi; now right].
        split; [|split; [apply sizeN_set|]].
        -- apply elems_take; trivial. now apply (cp_apply _ _ LAW).
        -- intros q Q. apply cell_put_neq. intros ->. apply Q. constructor.
      * apply stays_val; trivial. exists X. split; [split; auto|]. intros i Hi. right. split; [trivial|]. symmetry. now apply (cp_inactive _ _ LAW).
    + intros h2 (X' & G & PA). exists X'. split; [trivial|]. eapply partly_thrown; eassumption.
    + intros h2 [] sc2 C2 (X' & G & PA). pose proof G as (G1 & _). destruct (elems_cell _ _ _ _ _ G1) as (n2 & N2 & _). rewrite (get_ok _ _ _ N2). cbn [bind].
      apply stays_point; trivial; exists X'; (split; [trivial|]); [eapply partly_other|eapply partly_thrown]; eassumption.
  - specialize (HF eq_refl). clear HT. destruct (N.eqb_spec s e) as [SE|SE]; [lia|]. rename HF into L. clear SE LE.
    destruct (elems_inner _ _ _ _ _ _ H L C) as (Y & P & Hl & Hr & D). rewrite (center_eq n s e) by (trivial; lia).
    pose proof (center_between s e L) as CB. unfold lower_bound, upper_bound. rewrite I, left_small, right_small by trivial.
    destruct (push_elems h pos s e n X Y C S E L Hl Hr D) as (h1 & n1 & E1 & Z1 & K1 & C1 & S1 & N1 & I1 & A1 & Yl & Yr).
    assert (I1' : index n1 = pos) by congruence.
    pose proof (fun X' h2 (O : opened h pos s e n1 X' h2) => opened_has _ _ _ _ _ _ _ O S1 N1 I1' A1 L P B) as OH.
    apply stays_after with (P := fun h2 r => match r with Returned _ => opened h pos s e n1 X h2 | Thrown => h2 = h end).
    { eapply stays_push; try eassumption; [|reflexivity]. unfold opened. auto. }
    { intros h2 ->. apply SAME. }
    intros h2 _ sc2 C2 O2. set (c := (s + e) / 2) in *.
    assert (LEFT : forall b' v', a <= b' -> b' <= c -> b' <= b ->
      stays (fun h' r => exists X', opened h pos s e n1 X' h' /\ partly u a b' s e X X' r /\ forall i, c + 1 <= i <= e -> X' i = X i) (t_range_update tr fuel h2 a b' (2 * pos + 1) u v' sc2)).
    { intros b' v' L2 L3 L5. pose proof O2 as (Ol & _). fold c in Ol.
      apply stays_impl with (1 := IH h2 (2 * pos + 1) s c X a b' u v' sc2 C2 Ol SA L2 L3 ltac:(lia)). intros h' r (X2 & G & PA2).
      exists (fun i => if i <=? c then X2 i else X i). split; [|split].
      - eapply opened_left; [exact O2| |]; fold c.
        + destruct G as (G1 & G2 & G3). split; [|auto]. apply elems_ext with X2; [trivial|]. intros i Hi. destruct (N.leb_spec i c); [trivial|lia].
        + intros i Hi. destruct (N.leb_spec i c); [lia|trivial].
      - intros i Hi. destruct (N.leb_spec i c) as [J|J]; [|left; split; [trivial|lia]]. apply PA2. lia.
      - intros i Hi. destruct (N.leb_spec i c); [lia|trivial]. }
    assert (RIGHT : forall h2 X1 a' v' sc2, opened h pos s e n1 X1 h2 -> clean sc2 -> c + 1 <= a' -> a' <= b -> (forall i, c + 1 <= i <= e -> X1 i = X i) ->
      stays (fun h' r => exists X', opened h pos s e n1 X' h' /\ (forall i, s <= i <= c -> X' i = X1 i) /\ partly u a' b (c + 1) e X X' r) (t_range_update tr fuel h2 a' b (2 * pos + 2) u v' sc2)).
    { intros h3 X1 a' v' sc3 O3 C3 L1 L2 EQ. pose proof O3 as (_ & Or & _). fold c in Or.
      apply stays_impl with (1 := IH h3 (2 * pos + 2) (c + 1) e X1 a' b u v' sc3 C3 Or L1 L2 BE ltac:(lia)). intros h' r (X2 & G & PA2).
      exists (fun i => if i <=? c then X1 i else X2 i). split; [|split].
      - eapply opened_right; [exact O3| |]; fold c.
        + destruct G as (G1 & G2 & G3). split; [|auto]. apply elems_ext with X2; [trivial|]. intros i Hi. destruct (N.leb_spec i c); [lia|trivial].
        + intros i Hi. destruct (N.leb_spec i c); [trivial|lia].
      - intros i Hi. destruct (N.leb_spec i c); [trivial|lia].
      - intros i Hi. destruct (N.leb_spec i c) as [J|J]; [lia|]. pose proof (PA2 i Hi) as Q. rewrite EQ in Q by lia. exact Q. }
    apply stays_after with (P := fun h2 r => exists X', opened h pos s e n1 X' h2 /\ partly u a b s e X X' r).
    + destruct (N.leb_spec a c) as [ac|ac]; destruct (N.ltb_spec c b) as [cb|cb]; cbn [andb]; [| | |lia].
      * apply stays_after with (1 := LEFT c (no_value tr) ac ltac:(lia) ltac:(lia)).
        { intros h3 (X1 & O3 & PA & _). exists X1. split; [trivial|]. intros i Hi. destruct (PA i Hi) as [(Q & _)|(Q & Q')]; [now left|right; split; [lia|trivial]]. }
        intros h3 l sc3 C3 (X1 & O3 & PA & EQ). rewrite wadd1 by lia.
        apply stays_after with (P := fun h2 r => exists X', opened h pos s e n1 X' h2 /\ partly u a b s e X X' r).
        { apply stays_impl with (1 := RIGHT h3 X1 (c + 1) (no_value tr) sc3 O3 C3 ltac:(lia) ltac:(lia) EQ). intros h4 r (X2 & O4 & EL & PA2). exists X2. split; [trivial|].
          intros i Hi. destruct (N.leb_spec i c) as [J|J].
          - rewrite EL by lia. destruct (PA i Hi) as [(Q & NQ)|(Q & Q')]; [|right; split; [lia|trivial]]. left. split; [trivial|]. intros AI. discriminate (NQ ltac:(lia)).
          - destruct (PA2 i ltac:(lia)) as [(Q & NQ)|(Q & Q')]; [|right; split; [lia|trivial]]. left. split; [trivial|]. intros AI. apply NQ. lia. }
        { auto. }
        intros h4 r sc4 C4 (X2 & O4 & PA4). apply stays_point; trivial; exists X2; (split; [trivial|]); [eapply partly_other|eapply partly_thrown]; eassumption.
      * apply stays_impl with (1 := LEFT b v AB cb ltac:(lia)). intros h' r (X1 & O3 & PA & _). eauto.
      * apply stays_impl with (1 := RIGHT h2 X a v sc2 O2 C2 ltac:(lia) AB (fun _ _ => eq_refl)). intros h' r (X1 & O3 & EL & PA). exists X1. split; [trivial|].
        intros i Hi. destruct (N.leb_spec i c) as [J|J]; [|apply PA; lia]. left. split; [apply EL; lia|lia].
    + intros h3 (X1 & O3 & PA). eauto.
    + intros h3 x sc3 C3 (X1 & O3 & PA). apply stays_after with (P := fun h' _ => has h pos s e X1 h').
      * eapply opened_pull; eauto.
      * intros h4 G. exists X1. split; [trivial|]. eapply partly_thrown; eassumption.
      * intros h4 _ sc4 C4 G. apply stays_val; eauto.
Qed.
End Elements.

(** ** Calls and histories *)
Section Histories.
Hypothesis LAW : bracket_lawful tr den.
Variable required : N -> N.
Hypothesis ENOUGH : enough required.
Local Notation right := (right tr den).
Lemma clamped : forall (xs : list R) (t : tree R U) s e, size t = sizeN xs -> 0 < sizeN xs < 2 ^ 60 ->
  fixed_start t s e = clamp (sizeN xs) (N.min s e) /\ fixed_end t s e = clamp (sizeN xs) (N.max s e).
Proof. intros xs t s e SZ B. unfold fixed_start, fixed_end, clamp. rewrite SZ. assert (B64 : two64 = 16 * 2 ^ 60) by reflexivity. rewrite wsub1 by lia. auto. Qed.
(** A query that throws leaves the tree right. *)
Lemma query_right : keeps_value tr -> forall fuel t a s e sc t' sc', clean sc -> right fuel t a ->
  t_step tr required fuel t (OQuery s e) sc = Val (t', Thrown, sc') -> right fuel t' a /\ clean sc'.
Proof.
  intros KEEP fuel t a s e sc t' sc' CL IN H. cbn [t_step] in H. cbv zeta in H. destruct a as [xs|]; cbn [SegmentBracketProofs.right] in IN.
  - destruct IN as (BU & SZ & B & F & RE). rewrite BU in H. cbn [negb] in H. destruct (holds_cell _ _ _ _ _ _ _ RE) as (n & C & _).
    unfold head in H. rewrite (at_ok _ _ _ C) in H. cbn [bind] in H. destruct (clamped xs t s e SZ B) as (FS & FE). rewrite FS, FE in H. clear FS FE.
    destruct (query_stays LAW KEEP fuel (heap t) 0 0 (sizeN xs - 1) (element tr xs) (clamp (sizeN xs) (N.min s e))
      (clamp (sizeN xs) (N.max s e)) (no_value tr) sc CL RE) as (h' & r & sc1 & E & C1 & P); [unfold clamp; lia..|unfold sizeN in *; lia|].
    rewrite E in H. destruct r; [discriminate|]. injection H as <- <-. split; [|trivial]. destruct P as (P & _). cbn. auto.
  - rewrite IN in H. discriminate.
Qed.
(** What is left of a clean script is clean. *)
Definition tidy {A} (x : outcome (A * script)) : Prop := match x with Val (_, sc) => clean sc | _ => True end.
Lemma tidy_bind : forall A B (x : outcome A) (k : A -> outcome (B * script)), (forall a, tidy (k a)) -> tidy (bind x k).
Proof. intros A B x k H. destruct x; cbn; trivial. Qed.
Lemma tidy_after : forall A B (x : result A) (k : list node -> A -> script -> result B), tidy x -> (forall h a sc, clean sc -> tidy (k h a sc)) -> tidy (after x k).
Proof. intros A B x k H K. destruct x as [[[h [a|]] sc]| | |]; cbn in *; auto. Qed.
Lemma tidy_point : forall A h (x : A) sc, clean sc -> tidy (point h x sc).
Proof. intros A h x sc C. unfold point. destruct (here sc); cbn; now apply clean_later. Qed.
Lemma tidy_write : forall h pos c sc, clean sc -> tidy (t_write h pos c sc).
Proof. intros h pos c sc C. unfold t_write. apply tidy_bind. intros n. destruct (here sc) as [[|]|]; [cbn; now apply clean_later|..]; apply tidy_bind; intros; cbn; now apply clean_later. Qed.
Lemma tidy_pull : forall h pos lb rb sc, clean sc -> tidy (t_pull_up tr h pos lb rb sc).
Proof. intros. unfold t_pull_up. do 3 (apply tidy_bind; intros). now apply tidy_write. Qed.
Lemma tidy_push : forall h pos lb rb sc, clean sc -> tidy (t_push_down tr h pos lb rb sc).
Proof.
  intros h pos lb rb sc C. unfold t_push_down. apply tidy_bind; intros n. apply tidy_bind; intros l. apply tidy_bind; intros r. destruct (has_lazy_updates tr n); [|exact C].
  destruct (here sc) as [[|]|]; [cbn; now apply clean_later|..]; try destruct (propagate _ _ _ _ _ _) as [[? ?] ?]; do 3 (apply tidy_bind; intros); cbn; now apply clean_later.
Qed.
Lemma tidy_query : forall fuel h a b pos v sc, clean sc -> tidy (t_range_query tr fuel h a b pos v sc).
Proof.
  induction fuel as [|fuel IH]; intros h a b pos v sc C; cbn [t_range_query]; [exact I|]. apply tidy_bind; intros n. destruct (_ && _ && _); [now apply tidy_point|].
  destruct (leaf n); [exact C|]. cbv zeta. apply tidy_after; [now apply tidy_push|]. intros h1 _ sc1 C1. apply tidy_after.
  - destruct (_ && _); [|destruct (_ <=? _); [auto|destruct (_ <? _); [auto|exact C1]]]. apply tidy_after; [auto|]. intros h2 l sc2 C2. apply tidy_after; [auto|]. intros. now apply tidy_point.
  - intros h2 x sc2 C2. apply tidy_after; [now apply tidy_pull|]. intros. trivial.
Qed.
Lemma tidy_update : forall fuel h a b pos u v sc, clean sc -> tidy (t_range_update tr fuel h a b pos u v sc).
Proof.
  induction fuel as [|fuel IH]; intros h a b pos u v sc C; cbn [t_range_update]; [exact I|]. apply tidy_bind; intros n. cbv zeta. apply tidy_after.
  - destruct (_ && negb _); [now apply tidy_point|exact C].
  - intros h0 [|] sc0 C0.
    + apply tidy_after.
      * unfold t_apply_change. apply tidy_bind; intros m. destruct (active tr u); [now apply tidy_write|exact C0].
      * intros h1 _ sc1 C1. apply tidy_bind; intros m. now apply tidy_point.
    + destruct (leaf n); [exact C0|]. apply tidy_after; [now apply tidy_push|]. intros h1 _ sc1 C1. apply tidy_after.
      * destruct (_ && _); [|destruct (_ <=? _); [auto|destruct (_ <? _); [auto|exact C1]]]. apply tidy_after; [auto|]. intros h2 l sc2 C2. apply tidy_after; [auto|]. intros. now apply tidy_point.
      * intros h2 x sc2 C2. apply tidy_after; [now apply tidy_pull|]. intros. trivial.
Qed.
Lemma tidy_build_range : forall fuel h (v : list T) pos sc, clean sc -> tidy (t_build_range tr fuel h v pos sc).
Proof.
  induction fuel as [|fuel IH]; intros h v pos sc C; cbn [t_build_range]; [exact I|]. apply tidy_bind; intros n. cbv zeta. destruct (_ <? _).
  - do 2 (apply tidy_bind; intros). apply tidy_after; [auto|]. intros. apply tidy_after; [auto|]. intros. now apply tidy_pull.
  - destruct (cell v (start n)); [now apply tidy_write|exact I].
Qed.
Lemma tidy_build : forall fuel t (v : list T) k sc, clean sc -> tidy (t_build tr required fuel t v k sc).
Proof.
  intros fuel t v k sc C. unfold t_build. cbv zeta. destruct (_ =? _); [exact C|].
  assert (FILL : forall n h sc0, clean sc0 -> tidy (let* h0 := set_root h (mkNode 0 (wsub n 1) 0 (no_value tr, no_update tr)) in
    let* (h1, r, sc1) := t_build_range tr fuel h0 v 0 sc0 in Val (mkTree n h1 (match r with Returned _ => true | Thrown => built_heap t end), r, sc1))).
  { intros n h sc0 C0. apply tidy_bind; intros h0. pose proof (tidy_build_range fuel h0 v 0 sc0 C0) as Q. destruct (t_build_range tr fuel h0 v 0 sc0) as [[[h1 r] sc1]| | |]; cbn in *; trivial. }
  destruct (_ <? _); [destruct (here sc); [cbn|apply FILL]; now apply clean_later|now apply FILL].
Qed.
Lemma clean_step : forall fuel t o sc t' r sc', clean sc -> t_step tr required fuel t o sc = Val (t', r, sc') -> clean sc'.
Proof.
  intros fuel t o sc t' r sc' C H. destruct o as [s e|s e u|v k]; cbn [t_step] in H; cbv zeta in H.
  - destruct (negb (built_heap t)); [injection H as _ _ <-; exact C|]. destruct (head (heap t)); cbn [bind] in H; try discriminate; [|injection H as _ _ <-; exact C].
    pose proof (tidy_query fuel (heap t) (fixed_start t s e) (fixed_end t s e) 0 (no_value tr) sc C) as Q.
    destruct (t_range_query tr fuel (heap t) (fixed_start t s e) (fixed_end t s e) 0 (no_value tr) sc) as [[[h [x|]] sc1]| | |]; cbn in Q; try discriminate; injection H as _ _ <-; trivial.
  - destruct (negb (built_heap t)); [injection H as _ _ <-; exact C|]. destruct (head (heap t)); cbn [bind] in H; try discriminate; [|injection H as _ _ <-; exact C].
    pose proof (tidy_update fuel (heap t) (fixed_start t s e) (fixed_end t s e) 0 u (no_value tr) sc C) as Q.
    destruct (t_range_update tr fuel (heap t) (fixed_start t s e) (fixed_end t s e) 0 u (no_value tr) sc) as [[[h [x|]] sc1]| | |]; cbn in Q; try discriminate; injection H as _ _ <-; trivial.
  - pose proof (tidy_build fuel t v k sc C) as Q. destruct (t_build tr required fuel t v k sc) as [[[t1 r1] sc1]| | |]; cbn in *; try discriminate. injection H as _ _ <-. trivial.
Qed.
Lemma queries_safe : keeps_value tr -> forall ops fuel t a sc t' l, Forall (fair fuel) ops -> clean sc -> right fuel t a ->
  t_run tr required fuel t ops sc = Val (t', l) -> queries_throw ops l ->
  right fuel t' (fst (bracket_run tr den a ops)) /\ Forall2 (fun r x => r = Thrown \/ r = Returned x) l (snd (bracket_run tr den a ops)).
Proof.
  intros KEEP. induction ops as [|o ops IH]; intros fuel t a sc t' l FA CL IN H Q; cbn [t_run bracket_run] in *.
  - injection H as <- <-. cbn. auto.
  - apply Forall_cons_iff in FA. destruct FA as (Fo & Fr). apply bind_val in H as ([[t1 r] sc1] & E & H). apply bind_val in H as ([t2 l2] & E2 & H). injection H as <- <-.
    inversion Q as [|? ? ? ? Q1 Q2]; subst. pose proof (clean_step _ _ _ _ _ _ _ CL E) as C1.
    assert (ST : right fuel t1 (fst (bracket_step tr den a o)) /\ (r = Thrown \/ r = Returned (snd (bracket_step tr den a o)))).
    { destruct r as [x|].
      - apply step_val in E. destruct (step_right tr den LAW required ENOUGH fuel t a o Fo IN) as (t3 & E3 & I3). rewrite E3 in E. injection E as <- <-. auto.
      - specialize (Q1 eq_refl). destruct o as [s e|s e u|v k]; [|contradiction..]. destruct (query_right KEEP _ _ _ _ _ _ _ _ CL IN E) as (I1 & _).
        cbn [bracket_step]. destruct a; auto. }
    destruct ST as (I1 & X). destruct (bracket_step tr den a o) as (a1 & x). cbn [fst snd] in *. destruct (IH fuel t1 a1 sc1 _ _ Fr C1 I1 E2 Q2) as (I2 & X2).
    destruct (bracket_run tr den a1 ops) as (a2 & l3). cbn [fst snd] in *. split; [trivial|]. now constructor.
Qed.
(** ** Elements *)
Hypothesis COMP : composes tr den.
Definition weakly (fuel : nat) (t : tree R U) (a : knowledge R) : Prop :=
  match a with
  | Unbuilt => built_heap t = false
  | Known xs => built_heap t = true /\ size t = sizeN xs /\ 0 < sizeN xs < 2 ^ 60 /\ (length xs <= fuel)%nat /\ elems (heap t) 0 0 (sizeN xs - 1) (element tr xs)
  | Lost => True
  end.
Definition listed X (n : nat) : list R := map (fun i => X (N.of_nat i)) (seq 0 n).
Lemma listed_element : forall X n i, i < N.of_nat n -> element tr (listed X n) i = X i.
Proof.
  intros X n i H. unfold element, listed. rewrite nth_indep with (d' := X (N.of_nat 0)) by (rewrite map_length, seq_length; lia).
  rewrite (map_nth (fun i => X (N.of_nat i))). rewrite seq_nth by lia. f_equal. lia.
Qed.
Lemma step_weakly : forall fuel t a o sc t' r sc', fair fuel o -> clean sc -> weakly fuel t a -> t_step tr required fuel t o sc = Val (t', r, sc') ->
  exists a', fits tr den a o r a' /\ weakly fuel t' a'.
Proof.
  intros fuel t a o sc t' r sc' FA CL IN H. destruct o as [s e|s e u|v k].
  - cbn [fits]. destruct a as [|xs|]; cbn [weakly] in IN.
    + exists Unbuilt. cbn [t_step] in H. rewrite IN in H. injection H as <- <- _. cbn. auto.
    + cbn [t_step] in H. cbv zeta in H. destruct IN as (BU & SZ & B & F & RE). rewrite BU in H. cbn [negb] in H. destruct (elems_cell _ _ _ _ _ RE) as (n & C & _).
      unfold head in H. rewrite (at_ok _ _ _ C) in H. cbn [bind] in H. destruct (clamped xs t s e SZ B) as (FS & FE). rewrite FS, FE in H. clear FS FE.
      destruct (query_elems COMP fuel (heap t) 0 0 (sizeN xs - 1) (element tr xs) (clamp (sizeN xs) (N.min s e))
        (clamp (sizeN xs) (N.max s e)) (no_value tr) sc CL RE) as (h' & r1 & sc1 & E & C1 & P & A); [unfold clamp; lia..|unfold sizeN in *; lia|].
      rewrite E in H. exists (Known xs). assert (W : forall b, b = true -> weakly fuel (mkTree (size t) h' b) (Known xs)) by (intros b ->; destruct P as (P & _); cbn; auto).
      destruct r1 as [x|]; injection H as <- <- _; (split; [|apply W; trivial]); (split; [trivial|]); intros y J EQ; [|discriminate]. injection J as <-.
      f_equal. rewrite (A x eq_refl).
      * f_equal. unfold clamp in *. lia.
      * unfold clamp in *. lia.
    + exists Lost. split; [destruct r; trivial|exact I].
  - cbn [fits]. destruct a as [|xs|]; cbn [weakly] in IN.
    + exists Unbuilt. cbn [t_step] in H. rewrite IN in H. injection H as <- <- _. cbn. auto.
    + cbn [t_step] in H. cbv zeta in H. destruct IN as (BU & SZ & B & F & RE). rewrite BU in H. cbn [negb] in H. destruct (elems_cell _ _ _ _ _ RE) as (n & C & _).
      unfold head in H. rewrite (at_ok _ _ _ C) in H. cbn [bind] in H. destruct (clamped xs t s e SZ B) as (FS & FE). rewrite FS, FE in H. clear FS FE.
      set (lo := clamp (sizeN xs) (N.min s e)) in *. set (hi := clamp (sizeN xs) (N.max s e)) in *.
      assert (LH : lo <= hi /\ hi <= sizeN xs - 1) by (unfold lo, hi, clamp; lia).
      destruct (update_elems COMP fuel (heap t) 0 0 (sizeN xs - 1) (element tr xs) lo hi u (no_value tr) sc CL RE) as (h' & r1 & sc1 & E & C1 & X' & P & A); [lia..|unfold sizeN in *; lia|].
      rewrite E in H. destruct P as (P & _). destruct r1 as [x|]; injection H as <- <- _.
      * eexists. split; [reflexivity|]. cbn [weakly built_heap size heap]. rewrite change_size.
        assert (LC : length (change_range (den u) 0 lo hi xs) = length xs) by (pose proof (change_size (den u) xs 0 lo hi) as Q; unfold sizeN in Q; lia).
        rewrite LC. repeat (split; [trivial|]). eapply elems_ext; [exact P|]. intros i Hi. rewrite element_change by lia. unfold changed.
        destruct (A i Hi) as [(Q & NQ)|(Q & Q')].
        -- destruct (N.leb_spec lo i), (N.leb_spec i hi); cbn [andb]; trivial. discriminate (NQ ltac:(lia)).
        -- destruct (N.leb_spec lo i), (N.leb_spec i hi); cbn [andb]; trivial; lia.
      * assert (LL : length (listed X' (length xs)) = length xs) by (unfold listed; now rewrite map_length, seq_length).
        assert (SL : sizeN (listed X' (length xs)) = sizeN xs) by (unfold sizeN; now rewrite LL).
        assert (EL : forall i, i < sizeN xs -> element tr (listed X' (length xs)) i = X' i) by (intros i Hi; apply listed_element; exact Hi).
        exists (Known (listed X' (length xs))). split.
        -- eexists. split; [reflexivity|]. split; [trivial|]. intros i Hi. rewrite EL by trivial. destruct (A i ltac:(lia)) as [(Q & _)|Q]; auto.
        -- cbn [weakly built_heap size heap]. rewrite SL, LL. repeat (split; [trivial|]). eapply elems_ext; [exact P|]. intros i Hi. symmetry. apply EL. lia.
    + exists Lost. split; [destruct r; trivial|exact I].
  - cbn [fits]. destruct r as [x|].
    + apply step_val in H. cbn [step] in H. destruct FA as (V & K0 & B & F). destruct (build_right tr den LAW required ENOUGH fuel t v k V K0 B F) as (t1 & E & R1).
      rewrite E in H. cbn [bind] in H. injection H as <- <-. eexists. split; [split; reflexivity|]. cbn [SegmentBracketProofs.right] in R1. destruct R1 as (R1 & R2 & R3 & R4 & R5).
      cbn [weakly]. repeat (split; [trivial|]). now apply holds_elems.
    + destruct a as [|xs|]; [|exists Lost; split; [trivial|exact I]..]. exists Unbuilt. split; [trivial|]. cbn [weakly] in *.
      cbn [t_step] in H. apply bind_val in H as ([[t1 r1] sc1] & E & H). destruct r1; [discriminate|]. injection H as <- _. unfold t_build in E. cbv zeta in E.
      destruct ((if k <? sizeN v then k else sizeN v) =? 0); [discriminate|].
      assert (FILL : forall n h sc0, (let* h0 := set_root h (mkNode 0 (wsub n 1) 0 (no_value tr, no_update tr)) in
        let* (h1, r, sc1) := t_build_range tr fuel h0 v 0 sc0 in
        Val (mkTree n h1 (match r with Returned _ => true | Thrown => built_heap t end), r, sc1)) = Val (t1, Thrown, sc1) -> built_heap t1 = false).
      { intros n h sc0 Q. apply bind_val in Q as (h0 & _ & Q). apply bind_val in Q as ([[h1 r1] sc2] & _ & Q). injection Q as <- -> _. exact IN. }
      destruct (_ <? _) in E; [destruct (here sc); [injection E as <- _; exact IN|]|]; eapply FILL; exact E.
Qed.
Lemma elements_known : forall ops fuel t a sc t' l, Forall (fair fuel) ops -> clean sc -> weakly fuel t a ->
  t_run tr required fuel t ops sc = Val (t', l) -> explains tr den a ops l.
Proof.
  induction ops as [|o ops IH]; intros fuel t a sc t' l FA CL IN H; cbn [t_run explains] in *.
  - injection H as _ <-. exact I.
  - apply Forall_cons_iff in FA. destruct FA as (Fo & Fr). apply bind_val in H as ([[t1 r] sc1] & E & H). apply bind_val in H as ([t2 l2] & E2 & H). injection H as <- <-.
    destruct (step_weakly _ _ _ _ _ _ _ _ Fo CL IN E) as (a' & FI & W). exists a'. split; [trivial|]. apply (IH fuel t1 a' sc1 t2 l2 Fr); trivial. eapply clean_step; eassumption.
Qed.
End Histories.
End Proofs.
Lemma only_queries_throw : forall {T R U} (tr : transform T R U) den, bracket_lawful tr den -> keeps_value tr -> forall required, enough required ->
  forall ops fuel sc t l, Forall (fair fuel) ops -> clean sc -> t_run tr required fuel empty_tree ops sc = Val (t, l) -> queries_throw ops l ->
  Forall2 (fun r x => r = Thrown \/ r = Returned x) l (snd (bracket_run tr den None ops)).
Proof. intros T R U tr den LAW KEEP required EN ops fuel sc t l FA CL H Q. destruct (queries_safe tr den LAW required EN KEEP ops fuel empty_tree None sc t l FA CL eq_refl H Q). trivial. Qed.
Lemma history_explained : forall {T R U} (tr : transform T R U) den, bracket_lawful tr den -> composes tr den -> forall required, enough required ->
  forall ops fuel sc t l, Forall (fair fuel) ops -> clean sc -> t_run tr required fuel empty_tree ops sc = Val (t, l) -> explains tr den Unbuilt ops l.
Proof. intros T R U tr den LAW COMP required EN ops fuel sc t l FA CL H. exact (elements_known tr den LAW required EN COMP ops fuel empty_tree Unbuilt sc t l FA CL eq_refl H). Qed.
Lemma returned_as_ever : forall {T R U} (tr : transform T R U) required fuel t o sc t' a sc', t_step tr required fuel t o sc = Val (t', Returned a, sc') ->
  step tr required fuel t o = Val (t', a) /\ t_step tr required fuel t o [] = Val (t', Returned a, []).
Proof. intros T R U tr required fuel t o sc t' a sc' H. apply step_val in H. split; [trivial|]. rewrite step_quiet, H. reflexivity. Qed.
(** A rebuild that returns makes any tree whatsoever right. *)
Lemma rebuild_repairs : forall {T R U} (tr : transform T R U) den, bracket_lawful tr den -> forall required, enough required ->
  forall fuel t v k sc t' x sc' ops, fair fuel (ORebuild (U := U) v k) -> Forall (fair fuel) ops -> t_step tr required fuel t (ORebuild v k) sc = Val (t', Returned x, sc') ->
  exists t'', run tr required fuel t' ops = Val (t'', snd (bracket_run tr den (Some (leaves tr (firstn (N.to_nat k) v))) ops)).
Proof.
  intros T R U tr den LAW required EN fuel t v k sc t' x sc' ops FA FO H. apply step_val in H. cbn [step] in H. destruct FA as (V & K0 & B & F).
  destruct (build_right tr den LAW required EN fuel t v k V K0 B F) as (t1 & E & R1). rewrite E in H. cbn [bind] in H. injection H as <- <-.
  destruct (run_right tr den LAW required EN ops fuel t1 _ FO R1) as (t2 & E2 & _). eauto.
Qed.
(** size() and is_built() *)
Lemma state_after : forall {T R U} (tr : transform T R U) required fuel t o sc t' r sc', t_step tr required fuel t o sc = Val (t', r, sc') ->
  match o with
  | ORebuild v k => size t' = N.min k (sizeN v) /\ built_heap t' = (built_heap t || match r with Returned _ => 0 <? N.min k (sizeN v) | Thrown => false end)%bool
  | _ => size t' = size t /\ built_heap t' = built_heap t
  end.
Proof.
  intros T R U tr required fuel t o sc t' r sc' H. destruct o as [s e|s e u|v k]; cbn [t_step] in H; cbv zeta in H.
  - destruct (negb (built_heap t)); [injection H as <- _ _; auto|]. destruct (head (heap t)); cbn [bind] in H; try discriminate; [|injection H as <- _ _; auto].
    destruct (t_range_query tr fuel (heap t) (fixed_start t s e) (fixed_end t s e) 0 (no_value tr) sc) as [[[h [x|]] sc1]| | |]; try discriminate; injection H as <- _ _; auto.
  - destruct (negb (built_heap t)); [injection H as <- _ _; auto|]. destruct (head (heap t)); cbn [bind] in H; try discriminate; [|injection H as <- _ _; auto].
    destruct (t_range_update tr fuel (heap t) (fixed_start t s e) (fixed_end t s e) 0 u (no_value tr) sc) as [[[h [x|]] sc1]| | |]; try discriminate; injection H as <- _ _; auto.
  - apply bind_val in H as ([[t1 r1] sc1] & E & H). injection H as <- <- _. unfold t_build in E. cbv zeta in E.
    assert (M : (if k <? sizeN v then k else sizeN v) = N.min k (sizeN v)) by (destruct (N.ltb_spec k (sizeN v)); lia). rewrite M in E. set (n := N.min k (sizeN v)) in *.
    destruct (N.eqb_spec n 0) as [Z|Z].
    + injection E as <- <- _. cbn. rewrite Z. cbn. now rewrite orb_false_r.
    + assert (P : 0 <? n = true) by (apply N.ltb_lt; lia). rewrite P.
      assert (FILL : forall h sc0, (let* h0 := set_root h (mkNode 0 (wsub n 1) 0 (no_value tr, no_update tr)) in
        let* (h1, r, sc1) := t_build_range tr fuel h0 v 0 sc0 in
        Val (mkTree n h1 (match r with Returned _ => true | Thrown => built_heap t end), r, sc1)) = Val (t1, r1, sc1) ->
        size t1 = n /\ built_heap t1 = (built_heap t || match r1 with Returned _ => true | Thrown => false end)%bool).
      { intros h sc0 Q. apply bind_val in Q as (h0 & _ & Q). apply bind_val in Q as ([[h1 r2] sc2] & _ & Q). injection Q as <- -> _. cbn. destruct r1; cbn; rewrite ?orb_true_r, ?orb_false_r; auto. }
      assert (G : size t1 = n /\ built_heap t1 = (built_heap t || match r1 with Returned _ => true | Thrown => false end)%bool).
      { destruct (_ <? _) in E; [destruct (here sc); [injection E as <- <- _; cbn; now rewrite orb_false_r|]|]; eapply FILL; exact E. }
      destruct r1; exact G.
Qed.
(** ** Transforms *)
Lemma range_mean_composes : composes range_mean den_add /\ keeps_value range_mean.
Proof.
  split; [|intros s e n l r; reflexivity]. constructor.
  - intros u H i x. cbn in H. destruct (Z.eqb_spec u 0); [|discriminate]. unfold den_add. lia.
  - intros s e c u L A _. split; intros; cbn; unfold den_add; lia.
  - intros s e n l r n' l' r' L A P. cbn in P. injection P as <- <- <-. split; [reflexivity|]. split; split; intros; cbn; unfold den_add; lia.
Qed.
Lemma range_minus_composes : composes range_minus den_mul /\ keeps_value range_minus.
Proof.
  split; [|intros s e n l r; reflexivity]. constructor.
  - intros u H i x. cbn in H. destruct (Z.eqb_spec u 1); [|discriminate]. unfold den_mul. lia.
  - intros s e c u L A _. split; intros; cbn; unfold den_mul; lia.
  - intros s e n l r n' l' r' L A P. cbn in P. injection P as <- <- <-. split; [reflexivity|]. split; split; intros; cbn; unfold den_mul; lia.
Qed.
Lemma assign_composes : forall R (j : R -> R -> R) d, composes (assign j d) den_assign /\ keeps_value (assign j d).
Proof.
  intros R j d. split; [|intros s e n l r; cbn; destruct (snd n); reflexivity]. constructor.
  - intros [z|] H i x; [discriminate|reflexivity].
  - intros s e c [z|] L A _; [|discriminate]. split; intros; reflexivity.
  - intros s e n l r n' l' r' L A P. cbn in *. destruct (snd n) as [z|]; [|discriminate]. injection P as <- <- <-. split; [reflexivity|]. split; split; intros; reflexivity.
Qed.
Lemma range_add_composes : composes range_add den_add /\ keeps_value range_add.
Proof.
  split; [|intros s e n l r; reflexivity]. constructor.
  - intros u H i x. cbn in H. destruct (Z.eqb_spec u 0); [|discriminate]. unfold den_add. lia.
  - intros s e c u L A _. split; intros; cbn; unfold den_add; [subst; rewrite N.sub_diag; cbn|]; lia.
  - intros s e n l r n' l' r' L A P. cbn in P. injection P as <- <- <-. split; [reflexivity|].
    split; split; cbn; unfold den_add; intros Q; intros; lia.
Qed.
Lemma range_set_composes : composes range_set den_set /\ keeps_value range_set.
Proof.
  split; [|intros s e n l r; reflexivity]. constructor.
  - intros [z|] H i x; [discriminate|reflexivity].
  - intros s e c [z|] L A _; [|discriminate]. split; intros; reflexivity.
  - intros s e n l r n' l' r' L A P. cbn in *. destruct (snd n) as [z|]; [|discriminate]. injection P as <- <- <-. split; [reflexivity|]. split; split; intros; reflexivity.
Qed.
