(** Proofs for SegmentBracketProps.v *)
Require Import List Arith NArith ZArith Bool Lia.
Require Import Verif.Base Verif.HeapModel Verif.SegmentModel Verif.SegmentSpec Verif.SegmentProofs.
Require Import Verif.HeapProofs Verif.SegmentOrderSpec Verif.SegmentOrderProofs Verif.SegmentBracketSpec.
Import ListNotations.
Local Open Scope N_scope.

(** ** The brackets *)
Lemma shape_fuel : forall k m s e a b, s <= e -> (N.to_nat (e - s) <= k)%nat -> (N.to_nat (e - s) <= m)%nat -> shape k s e a b = shape m s e a b.
Proof.
  induction k as [|k IH]; intros m s e a b L K M.
  - assert (s = e) by lia. subst. destruct m; cbn [shape]; [trivial|]. now rewrite N.eqb_refl.
  - destruct m as [|m].
    + assert (s = e) by lia. subst. cbn [shape]. now rewrite N.eqb_refl.
    + cbn [shape]. destruct (N.eqb_spec s e) as [|N]; [trivial|]. pose proof (center_between s e ltac:(lia)).
      rewrite !(IH m) by lia. reflexivity.
Qed.
Lemma brackets_one : forall s a b, brackets s s a b = One s.
Proof. intros s a b. unfold brackets. now rewrite N.sub_diag. Qed.
Lemma brackets_two : forall s e a b, s < e -> brackets s e a b =
  let c := (s + e) / 2 in if b <=? c then brackets s c a b else if c <? a then brackets (c + 1) e a b else Two (brackets s c a c) (brackets (c + 1) e (c + 1) b).
Proof.
  intros s e a b L. pose proof (center_between s e L). unfold brackets at 1. replace (N.to_nat (e - s)) with (1 + N.to_nat (e - s - 1))%nat by lia.
  cbn [Nat.add shape]. destruct (N.eqb_spec s e); [lia|]. unfold brackets. cbv zeta. rewrite !(shape_fuel (N.to_nat (e - s - 1)) (N.to_nat ((s + e) / 2 - s)) s) by lia.
  rewrite !(shape_fuel (N.to_nat (e - s - 1)) (N.to_nat (e - ((s + e) / 2 + 1)))) by lia. reflexivity.
Qed.
Lemma whole_two : forall s e, s < e -> whole s e = Two (whole s ((s + e) / 2)) (whole ((s + e) / 2 + 1) e).
Proof.
  intros s e L. pose proof (center_between s e L). unfold whole. rewrite brackets_two by trivial. cbv zeta.
  destruct (N.leb_spec e ((s + e) / 2)); [lia|]. destruct (N.ltb_spec ((s + e) / 2) s); [lia|]. reflexivity.
Qed.
Lemma brackets_flat : forall k s e a b, (N.to_nat (e - s) <= k)%nat -> s <= a -> a <= b -> b <= e -> flatten (brackets s e a b) = from_to a b.
Proof.
  induction k as [|k IH]; intros s e a b K SA AB BE; (destruct (N.eq_dec s e) as [->|N]; [rewrite brackets_one; replace a with e by lia; replace b with e by lia; unfold from_to; rewrite N.sub_diag; cbn; f_equal; lia|]).
  - lia.
  - pose proof (center_between s e ltac:(lia)) as CB. rewrite brackets_two by lia. cbv zeta. destruct (N.leb_spec b ((s + e) / 2)); [apply IH; lia|].
    destruct (N.ltb_spec ((s + e) / 2) a); [apply IH; lia|]. cbn [flatten]. rewrite !IH by lia. apply from_to_split; lia.
Qed.
Lemma brackets_depth : forall k s e a b, (N.to_nat (e - s) <= k)%nat -> s <= e -> depth (brackets s e a b) <= N.log2_up (e - s + 1).
Proof.
  induction k as [|k IH]; intros s e a b K SE; (destruct (N.eq_dec s e) as [->|N]; [rewrite brackets_one; cbn; lia|]); [lia|].
  pose proof (center_between s e ltac:(lia)) as CB. destruct (log2_up_halves s e ltac:(lia)) as (HL & HR).
  rewrite brackets_two by lia. cbv zeta. pose proof (IH s ((s + e) / 2) a b ltac:(lia) ltac:(lia)). pose proof (IH ((s + e) / 2 + 1) e a b ltac:(lia) ltac:(lia)).
  pose proof (IH s ((s + e) / 2) a ((s + e) / 2) ltac:(lia) ltac:(lia)). pose proof (IH ((s + e) / 2 + 1) e ((s + e) / 2 + 1) b ltac:(lia) ltac:(lia)).
  destruct (N.leb_spec b ((s + e) / 2)); [lia|]. destruct (N.ltb_spec ((s + e) / 2) a); [lia|]. cbn [depth]. lia.
Qed.
Lemma brackets_order : forall s e a b, s <= a -> a <= b -> b <= e -> flatten (brackets s e a b) = from_to a b.
Proof. intros s e a b. exact (brackets_flat _ s e a b (le_n _)). Qed.
Lemma brackets_deep : forall s e a b, s <= e -> depth (brackets s e a b) <= N.log2_up (e - s + 1).
Proof. intros s e a b. exact (brackets_depth _ s e a b (le_n _)). Qed.
Lemma eval_range : forall R (j : R -> R -> R) X Y s e a b, s <= a -> a <= b -> b <= e -> (forall i, a <= i <= b -> X i = Y i) ->
  eval j X (brackets s e a b) = eval j Y (brackets s e a b).
Proof.
  intros R j X Y s e a b SA AB BE H. apply eval_ext. intros i I. rewrite (brackets_flat (N.to_nat (e - s))) in I by lia. apply H. now apply in_from_to in I.
Qed.
Lemma eval_whole : forall R (j : R -> R -> R) X Y s e, s <= e -> (forall i, s <= i <= e -> X i = Y i) -> eval j X (whole s e) = eval j Y (whole s e).
Proof. intros. apply eval_range; auto; lia. Qed.

Section Proofs.
Context {T R U : Type}.
Variable tr : transform T R U.
Variable den : U -> N -> R -> R.
Hypothesis LAW : bracket_lawful tr den.
Local Notation node := (node R U).
Local Notation ev := (eval (join tr)).
Implicit Types h : list node.
Implicit Types X Y : N -> R.

(** The subtree at [pos] stands for the elements [X] at the positions s..e. *)
Inductive holds h : N -> N -> N -> (N -> R) -> Prop :=
| holds_leaf pos s n X :
    cell h pos = Some n -> start n = s -> end_ n = s -> index n = pos -> s < 2 ^ 62 -> value n = X s -> holds h pos s s X
| holds_node pos s e n X Y :
    cell h pos = Some n -> start n = s -> end_ n = e -> index n = pos ->
    s < e -> pos < 2 ^ 62 -> e < 2 ^ 62 ->
    holds h (2 * pos + 1) s ((s + e) / 2) Y -> holds h (2 * pos + 2) ((s + e) / 2 + 1) e Y ->
    (forall i, s <= i <= e -> X i = den (lazy_update n) i (Y i)) -> value n = ev X (whole s e) -> holds h pos s e X.

Lemma holds_le : forall h pos s e X, holds h pos s e X -> s <= e.
Proof. intros h pos s e X H. inversion H; subst; lia. Qed.
Lemma holds_ext : forall h pos s e X Y, holds h pos s e X -> (forall i, s <= i <= e -> X i = Y i) -> holds h pos s e Y.
Proof.
  intros h pos s e X Y H E. inversion H as [p s0 n X0 C0 S0 E0 I0 B0 V0|p s0 e0 n X0 Z C0 S0 E0 I0 L P B Hl Hr D V]; subst.
  - apply holds_leaf with n; trivial. rewrite V0. apply E. lia.
  - apply holds_node with n Z; trivial; [intros i I; rewrite <- E by trivial; auto|]. rewrite V. apply eval_whole; trivial. lia.
Qed.
Lemma holds_cell : forall h pos s e X, holds h pos s e X ->
  exists n, cell h pos = Some n /\ start n = s /\ end_ n = e /\ index n = pos /\ value n = ev X (whole s e) /\ e < 2 ^ 62.
Proof.
  intros h pos s e X H. inversion H; subst; exists n.
  - unfold whole. rewrite brackets_one. cbn [eval]. auto 7.
  - auto 7.
Qed.
Lemma holds_inner : forall h pos s e X n, holds h pos s e X -> s < e -> cell h pos = Some n -> exists Y, pos < 2 ^ 62 /\
  holds h (2 * pos + 1) s ((s + e) / 2) Y /\ holds h (2 * pos + 2) ((s + e) / 2 + 1) e Y /\ forall i, s <= i <= e -> X i = den (lazy_update n) i (Y i).
Proof.
  intros h pos s e X n H L C. inversion H; subst; [lia|]. match goal with K : cell h _ = Some ?m |- _ => rewrite C in K; injection K as <- end. exists Y. auto.
Qed.
Lemma holds_frame : forall h h' pos s e X, holds h pos s e X -> (forall q, under pos q -> cell h' q = cell h q) -> holds h' pos s e X.
Proof.
  induction 1 as [pos s n X C S E I B V|pos s e n X Y C S E I L P B Hl IHl Hr IHr D V]; intros F.
  - apply holds_leaf with n; trivial. rewrite F by constructor. trivial.
  - apply holds_node with n Y; trivial.
    + rewrite F by constructor. trivial.
    + apply IHl. intros q Q. apply F. now apply under_left.
    + apply IHr. intros q Q. apply F. now apply under_right.
Qed.
Lemma holds_put : forall h pos n m s e X p, holds h p s e X -> cell h pos = Some m -> ~ under p pos -> holds (set_nth h (N.to_nat pos) n) p s e X.
Proof. intros h pos n m s e X p H C N. apply holds_frame with h; [trivial|]. intros q Q. apply cell_put_neq. intros ->. contradiction. Qed.
Lemma not_under_left : forall p, ~ under (2 * p + 1) p.
Proof. intros p H. apply under_le in H. lia. Qed.
Lemma not_under_right : forall p, ~ under (2 * p + 2) p.
Proof. intros p H. apply under_le in H. lia. Qed.

Lemma take_in_ok : forall h pos s e X n f c', holds h pos s e X -> cell h pos = Some n -> takes_in tr den f s e (content n) c' ->
  holds (set_nth h (N.to_nat pos) (with_content n c')) pos s e (fun i => f i (X i)).
Proof.
  intros h pos s e X n f c' H C (A1 & A2).
  inversion H as [p s0 n0 X0 C0 S0 E0 I0 B0 V0|p s0 e0 n0 X0 Y C0 S0 E0 I0 L P B Hl Hr D V]; subst; rewrite C in C0; injection C0 as <-.
  - apply holds_leaf with (with_content n c'); trivial; [eapply cell_put_eq; eassumption|]. unfold value. cbn [content with_content]. rewrite A1 by trivial. unfold value in V0. now rewrite V0.
  - destruct (A2 L X V) as (V' & D'). apply holds_node with (with_content n c') Y; trivial.
    + eapply cell_put_eq; eassumption.
    + eapply holds_put; eauto. apply not_under_left.
    + eapply holds_put; eauto. apply not_under_right.
    + intros i I. unfold lazy_update. cbn [content with_content]. rewrite D' by trivial. f_equal. auto.
Qed.
Lemma push_down_holds : forall h pos s e n X Y, cell h pos = Some n -> start n = s -> end_ n = e -> s < e ->
  holds h (2 * pos + 1) s ((s + e) / 2) Y -> holds h (2 * pos + 2) ((s + e) / 2 + 1) e Y -> (forall i, s <= i <= e -> X i = den (lazy_update n) i (Y i)) ->
  exists h' n', push_down tr h pos (2 * pos + 1) (2 * pos + 2) = Val h' /\ sizeN h' = sizeN h /\
    (forall q, ~ under pos q -> cell h' q = cell h q) /\
    cell h' pos = Some n' /\ start n' = s /\ end_ n' = e /\ index n' = index n /\ active tr (lazy_update n') = false /\
    holds h' (2 * pos + 1) s ((s + e) / 2) X /\ holds h' (2 * pos + 2) ((s + e) / 2 + 1) e X.
Proof.
  intros h pos s e n X Y C S E L Hl Hr D. unfold push_down.
  destruct (holds_cell _ _ _ _ _ Hl) as (nl & Cl & Sl & El & Il & Vl & Bl).
  destruct (holds_cell _ _ _ _ _ Hr) as (nr & Cr & Sr & Er & Ir & Vr & Br).
  rewrite (get_ok _ _ _ C). cbn [bind]. rewrite (get_ok _ _ _ Cl). cbn [bind]. rewrite (get_ok _ _ _ Cr). cbn [bind].
  pose proof (center_between s e L) as CB. unfold has_lazy_updates. destruct (active tr (lazy_update n)) eqn:A.
  - destruct (propagate tr (start n) (end_ n) (content n) (content nl) (content nr)) as [[cn cl] cr] eqn:P. rewrite S, E in P.
    destruct (bl_propagate _ _ LAW _ _ _ _ _ _ _ _ L A P) as (An & Al & Ar). rewrite (put_ok _ _ _ _ C). cbn [bind].
    set (h1 := set_nth h (N.to_nat pos) (with_content n cn)).
    assert (Cl1 : cell h1 (2 * pos + 1) = Some nl) by (unfold h1; rewrite cell_put_neq by lia; trivial).
    assert (Cr1 : cell h1 (2 * pos + 2) = Some nr) by (unfold h1; rewrite cell_put_neq by lia; trivial).
    assert (Hl1 : holds h1 (2 * pos + 1) s ((s + e) / 2) Y) by (eapply holds_put; eauto; apply not_under_left).
    assert (Hr1 : holds h1 (2 * pos + 2) ((s + e) / 2 + 1) e Y) by (eapply holds_put; eauto; apply not_under_right).
    rewrite (put_ok _ _ _ _ Cl1). cbn [bind]. pose proof (take_in_ok _ _ _ _ _ _ _ _ Hl1 Cl1 Al) as Hl2.
    set (h2 := set_nth h1 (N.to_nat (2 * pos + 1)) (with_content nl cl)) in *.
    assert (Cr2 : cell h2 (2 * pos + 2) = Some nr) by (unfold h2; rewrite cell_put_neq by lia; trivial).
    assert (Hr2 : holds h2 (2 * pos + 2) ((s + e) / 2 + 1) e Y).
    { eapply holds_put; eauto. intros Q. apply under_le in Q. lia. }
    rewrite (put_ok _ _ _ _ Cr2). pose proof (take_in_ok _ _ _ _ _ _ _ _ Hr2 Cr2 Ar) as Hr3.
    set (h3 := set_nth h2 (N.to_nat (2 * pos + 2)) (with_content nr cr)) in *.
    assert (Hl3 : holds h3 (2 * pos + 1) s ((s + e) / 2) (fun i => den (snd (content n)) i (Y i))).
    { eapply holds_put; eauto. intros Q. apply (under_disjoint pos (2 * pos + 2) Q). constructor. }
    exists h3, (with_content n cn). split; [reflexivity|]. split; [unfold h3, h2, h1; now rewrite !sizeN_set|]. split.
    { intros q Q. unfold h3, h2, h1. rewrite !cell_put_neq; trivial; intros ->; apply Q; [constructor|apply under_left; constructor|apply under_right; constructor]. }
    split; [unfold h3, h2; rewrite !cell_put_neq by lia; eapply cell_put_eq; eassumption|]. split; [trivial|]. split; [trivial|]. split; [reflexivity|]. split; [exact An|].
    split; [eapply holds_ext; [exact Hl3|]|eapply holds_ext; [exact Hr3|]]; intros i I; symmetry; apply D; lia.
  - exists h, n. split; [trivial|]. split; [trivial|]. split; [trivial|]. split; [trivial|]. split; [trivial|]. split; [trivial|]. split; [trivial|]. split; [trivial|].
    split; [eapply holds_ext; [exact Hl|]|eapply holds_ext; [exact Hr|]]; intros i I; rewrite D by lia; symmetry; now apply (bl_inactive _ _ LAW).
Qed.
Lemma pull_up_holds : forall h pos s e n X, cell h pos = Some n -> start n = s -> end_ n = e -> index n = pos ->
  s < e -> pos < 2 ^ 62 -> e < 2 ^ 62 -> active tr (lazy_update n) = false ->
  holds h (2 * pos + 1) s ((s + e) / 2) X -> holds h (2 * pos + 2) ((s + e) / 2 + 1) e X ->
  exists h', pull_up tr h pos (2 * pos + 1) (2 * pos + 2) = Val h' /\ sizeN h' = sizeN h /\
    (forall q, q <> pos -> cell h' q = cell h q) /\ holds h' pos s e X.
Proof.
  intros h pos s e n X C S E I L P B A Hl Hr. unfold pull_up.
  destruct (holds_cell _ _ _ _ _ Hl) as (nl & Cl & Sl & El & Il & Vl & Bl).
  destruct (holds_cell _ _ _ _ _ Hr) as (nr & Cr & Sr & Er & Ir & Vr & Br).
  rewrite (get_ok _ _ _ Cl). cbn [bind]. rewrite (get_ok _ _ _ Cr). cbn [bind]. rewrite (get_ok _ _ _ C). cbn [bind].
  rewrite (put_ok _ _ _ _ C). eexists. split; [reflexivity|]. split; [apply sizeN_set|]. split; [intros; now apply cell_put_neq|].
  apply holds_node with (n := with_value n (join tr (value nl) (value nr))) (Y := X); trivial.
  - eapply cell_put_eq; eassumption.
  - eapply holds_put; eauto. apply not_under_left.
  - eapply holds_put; eauto. apply not_under_right.
  - intros i Hi. symmetry. apply (bl_inactive _ _ LAW). exact A.
  - rewrite (whole_two s e L). cbn [eval]. rewrite <- Vl, <- Vr. reflexivity.
Qed.

Lemma range_query_holds : forall fuel h pos s e X a b v, holds h pos s e X -> s <= a -> a <= b -> b <= e -> (N.to_nat (e - s) < fuel)%nat ->
  exists h', range_query tr fuel h a b pos v = Val (h', ev X (brackets s e a b)) /\ holds h' pos s e X /\
    sizeN h' = sizeN h /\ forall q, ~ under pos q -> cell h' q = cell h q.
Proof.
  induction fuel as [|fuel IH]; intros h pos s e X a b v H SA AB BE F; [lia|].
  cbn [range_query]. destruct (holds_cell _ _ _ _ _ H) as (n & C & S & E & I & V & B). pose proof (holds_le _ _ _ _ _ H) as LE.
  rewrite (get_ok _ _ _ C). cbn [bind]. rewrite (leaf_eq n s e) by trivial. rewrite S, E.
  destruct ((s =? a) && (b =? e) && ((s =? e) || negb (has_lazy_updates tr n))) eqn:Q.
  { apply andb_prop in Q as (Q & _). apply andb_prop in Q as (Q1 & Q2). apply N.eqb_eq in Q1, Q2. subst a b. exists h. rewrite V. auto. }
  destruct (N.eqb_spec s e) as [SE|SE].
  { exfalso. assert (s = a) by lia. assert (b = e) by lia. subst a b. rewrite !N.eqb_refl in Q. discriminate. }
  assert (L : s < e) by lia. clear LE SE.
  destruct (holds_inner _ _ _ _ _ _ H L C) as (Y & P & Hl & Hr & D). rewrite (center_eq n s e) by (trivial; lia).
  pose proof (center_between s e L) as CB. pose proof (brackets_two s e a b L) as BT. cbv zeta in BT. rewrite BT. clear BT. unfold lower_bound, upper_bound. rewrite I, left_small, right_small by trivial.
  destruct (push_down_holds h pos s e n X Y C S E L Hl Hr D) as (h1 & n1 & E1 & Z1 & K1 & C1 & S1 & N1 & I1 & A1 & Yl & Yr).
  set (c := (s + e) / 2) in *. rewrite E1. cbn [bind].
  assert (FIN : forall h2 (r : R), holds h2 (2 * pos + 1) s c X -> holds h2 (2 * pos + 2) (c + 1) e X -> cell h2 pos = Some n1 ->
     sizeN h2 = sizeN h -> (forall q, ~ under pos q -> cell h2 q = cell h q) ->
     exists h', (let* h4 := pull_up tr h2 pos (2 * pos + 1) (2 * pos + 2) in Val (h4, r)) = Val (h', r) /\
       holds h' pos s e X /\ sizeN h' = sizeN h /\ forall q, ~ under pos q -> cell h' q = cell h q).
  { intros h2 r Rl Rr C2 Z2 K2. destruct (pull_up_holds h2 pos s e n1 X C2 S1 N1) as (h4 & E4 & Z4 & K4 & R4); trivial; [congruence|].
    rewrite E4. cbn [bind]. exists h4. split; [trivial|]. split; [trivial|]. split; [congruence|]. intros q Hq. rewrite K4; [auto|]. intros ->. apply Hq. constructor. }
  destruct (N.leb_spec a c) as [ac|ac]; destruct (N.ltb_spec c b) as [cb|cb]; cbn [andb].
  - destruct (IH h1 (2 * pos + 1) s c X a (N.min b c) (no_value tr) Yl) as (h2 & E2 & R2 & Z2 & K2); [lia..|]. rewrite E2. cbn [bind].
    assert (Yr2 : holds h2 (2 * pos + 2) (c + 1) e X).
    { apply holds_frame with h1; [trivial|]. intros q Hq. apply K2. intro. now apply (under_disjoint pos q). }
    rewrite wadd1 by lia. destruct (IH h2 (2 * pos + 2) (c + 1) e X (c + 1) b (no_value tr) Yr2) as (h3 & E3 & R3 & Z3 & K3); [lia..|].
    rewrite E3. cbn [bind]. destruct (N.leb_spec b c); [lia|]. destruct (N.ltb_spec c a); [lia|]. cbn [eval]. rewrite N.min_r by lia. apply FIN; trivial.
    + apply holds_frame with h2; [trivial|]. intros q Hq. apply K3. intro. now apply (under_disjoint pos q).
    + rewrite K3, K2; trivial; [apply not_under_left|apply not_under_right].
    + congruence.
    + intros q Hq. rewrite K3, K2; [auto| |]; intro U1; apply Hq; [now apply under_left|now apply under_right].
  - destruct (IH h1 (2 * pos + 1) s c X a b v Yl) as (h2 & E2 & R2 & Z2 & K2); [lia..|]. rewrite E2. cbn [bind]. destruct (N.leb_spec b c); [|lia]. apply FIN; trivial.
    + apply holds_frame with h1; [trivial|]. intros q Hq. apply K2. intro. now apply (under_disjoint pos q).
    + rewrite K2; trivial. apply not_under_left.
    + congruence.
    + intros q Hq. rewrite K2; [auto|]. intro. apply Hq. now apply under_left.
  - destruct (IH h1 (2 * pos + 2) (c + 1) e X a b v Yr) as (h2 & E2 & R2 & Z2 & K2); [lia..|]. rewrite E2. cbn [bind].
    destruct (N.leb_spec b c); [lia|]. destruct (N.ltb_spec c a); [|lia]. apply FIN; trivial.
    + apply holds_frame with h1; [trivial|]. intros q Hq. apply K2. intro. now apply (under_disjoint pos q).
    + rewrite K2; trivial. apply not_under_right.
    + congruence.
    + intros q Hq. rewrite K2; [auto|]. intro. apply Hq. now apply under_right.
  - lia.
Qed.

Definition changed (f : N -> R -> R) (a b : N) X : N -> R := fun i => if (a <=? i) && (i <=? b) then f i (X i) else X i.
Lemma changed_in : forall f a b X i, a <= i <= b -> changed f a b X i = f i (X i).
Proof. intros f a b X i H. unfold changed. destruct (N.leb_spec a i); [|lia]. destruct (N.leb_spec i b); [|lia]. reflexivity. Qed.
Lemma changed_out : forall f a b X i, i < a \/ b < i -> changed f a b X i = X i.
Proof. intros f a b X i H. unfold changed. destruct (N.leb_spec a i); destruct (N.leb_spec i b); trivial. lia. Qed.
Lemma changed_same : forall f a b c d X i, (a <= i <= b <-> c <= i <= d) -> changed f a b X i = changed f c d X i.
Proof. intros f a b c d X i H. unfold changed. now rewrite (within_ext a b c d i H). Qed.
Lemma apply_change_holds : forall h pos s e X n u, holds h pos s e X -> cell h pos = Some n ->
  s = e \/ active tr (lazy_update n) = false \/ criteria tr s e (content n) = true ->
  exists h', apply_change tr h pos u = Val h' /\ holds h' pos s e (changed (den u) s e X) /\
    sizeN h' = sizeN h /\ forall q, q <> pos -> cell h' q = cell h q.
Proof.
  intros h pos s e X n u H C A. unfold apply_change. rewrite (get_ok _ _ _ C). cbn [bind].
  destruct (holds_cell _ _ _ _ _ H) as (n1 & C1 & S & E & _). rewrite C in C1. injection C1 as <-. pose proof (holds_le _ _ _ _ _ H) as LE.
  destruct (active tr u) eqn:AU.
  - rewrite (put_ok _ _ _ _ C), S, E. eexists. split; [reflexivity|]. split; [|split; [apply sizeN_set|intros; now apply cell_put_neq]].
    apply holds_ext with (fun i => den u i (X i)); [|intros i I; now rewrite changed_in]. apply take_in_ok; trivial. apply (bl_apply _ _ LAW); trivial.
  - exists h. split; [trivial|]. split; [|auto]. apply holds_ext with X; [trivial|]. intros i I. rewrite changed_in by trivial. symmetry. now apply (bl_inactive _ _ LAW).
Qed.
Lemma range_update_holds : forall fuel h pos s e X a b u v, holds h pos s e X -> s <= a -> a <= b -> b <= e -> (N.to_nat (e - s) < fuel)%nat ->
  exists h', range_update tr fuel h a b pos u v = Val (h', ev (changed (den u) a b X) (brackets s e a b)) /\
    holds h' pos s e (changed (den u) a b X) /\ sizeN h' = sizeN h /\ forall q, ~ under pos q -> cell h' q = cell h q.
Proof.
  induction fuel as [|fuel IH]; intros h pos s e X a b u v H SA AB BE F; [lia|].
  cbn [range_update]. destruct (holds_cell _ _ _ _ _ H) as (n & C & S & E & I & V & B). pose proof (holds_le _ _ _ _ _ H) as LE.
  rewrite (get_ok _ _ _ C). cbn [bind]. rewrite (leaf_eq n s e) by trivial. rewrite S, E.
  destruct ((s =? a) && (b =? e) && _) eqn:Q.
  { apply andb_prop in Q as (Q & Q3). apply andb_prop in Q as (Q1 & Q2). apply N.eqb_eq in Q1, Q2. subst a b.
    destruct (apply_change_holds h pos s e X n u H C) as (h1 & E1 & R1 & Z1 & K1).
    { apply orb_prop in Q3 as [Q3|Q3]; [left; now apply N.eqb_eq|right].
      apply orb_prop in Q3 as [Q3|Q3]; [left|now right]. unfold has_lazy_updates in Q3. now destruct (active tr (lazy_update n)). }
    rewrite E1. cbn [bind]. destruct (holds_cell _ _ _ _ _ R1) as (n1 & C1 & _ & _ & _ & V1 & _).
    rewrite (get_ok _ _ _ C1). cbn [bind]. exists h1. rewrite V1. split; [trivial|]. split; [trivial|]. split; [trivial|].
    intros q Hq. apply K1. intros ->. apply Hq. constructor. }
  destruct (N.eqb_spec s e) as [SE|SE].
  { exfalso. assert (s = a) by lia. assert (b = e) by lia. subst a b. rewrite !N.eqb_refl in Q. discriminate. }
  assert (L : s < e) by lia. clear LE SE Q.
  destruct (holds_inner _ _ _ _ _ _ H L C) as (Y & P & Hl & Hr & D). rewrite (center_eq n s e) by (trivial; lia).
  pose proof (center_between s e L) as CB. pose proof (brackets_two s e a b L) as BT. cbv zeta in BT. rewrite BT. clear BT. unfold lower_bound, upper_bound. rewrite I, left_small, right_small by trivial.
  destruct (push_down_holds h pos s e n X Y C S E L Hl Hr D) as (h1 & n1 & E1 & Z1 & K1 & C1 & S1 & N1 & I1 & A1 & Yl & Yr).
  set (c := (s + e) / 2) in *. rewrite E1. cbn [bind]. set (X' := changed (den u) a b X).
  assert (FIN : forall h2 (r r' : R), r = r' -> holds h2 (2 * pos + 1) s c X' -> holds h2 (2 * pos + 2) (c + 1) e X' -> cell h2 pos = Some n1 ->
     sizeN h2 = sizeN h -> (forall q, ~ under pos q -> cell h2 q = cell h q) ->
     exists h', (let* h4 := pull_up tr h2 pos (2 * pos + 1) (2 * pos + 2) in Val (h4, r)) = Val (h', r') /\
       holds h' pos s e X' /\ sizeN h' = sizeN h /\ forall q, ~ under pos q -> cell h' q = cell h q).
  { intros h2 r r' -> Rl Rr C2 Z2 K2. destruct (pull_up_holds h2 pos s e n1 X' C2 S1 N1) as (h4 & E4 & Z4 & K4 & R4); trivial; [congruence|].
    rewrite E4. cbn [bind]. exists h4. split; [trivial|]. split; [trivial|]. split; [congruence|]. intros q Hq. rewrite K4; [auto|]. intros ->. apply Hq. constructor. }
  destruct (N.leb_spec a c) as [ac|ac]; destruct (N.ltb_spec c b) as [cb|cb]; cbn [andb].
  - destruct (IH h1 (2 * pos + 1) s c X a c u (no_value tr) Yl) as (h2 & E2 & R2 & Z2 & K2); [lia..|]. rewrite E2. cbn [bind].
    assert (Yr2 : holds h2 (2 * pos + 2) (c + 1) e X).
    { apply holds_frame with h1; [trivial|]. intros q Hq. apply K2. intro. now apply (under_disjoint pos q). }
    rewrite wadd1 by lia. destruct (IH h2 (2 * pos + 2) (c + 1) e X (c + 1) b u (no_value tr) Yr2) as (h3 & E3 & R3 & Z3 & K3); [lia..|].
    rewrite E3. cbn [bind]. destruct (N.leb_spec b c); [lia|]. destruct (N.ltb_spec c a); [lia|]. cbn [eval]. apply FIN; trivial.
    + f_equal; apply eval_range; try lia; intros i Hi; unfold X'; apply changed_same; lia.
    + apply holds_ext with (changed (den u) a c X); [|intros i Hi; apply changed_same; lia].
      apply holds_frame with h2; [trivial|]. intros q Hq. apply K3. intro. now apply (under_disjoint pos q).
    + apply holds_ext with (changed (den u) (c + 1) b X); [trivial|intros i Hi; apply changed_same; lia].
    + rewrite K3, K2; trivial; [apply not_under_left|apply not_under_right].
    + congruence.
    + intros q Hq. rewrite K3, K2; [auto| |]; intro U1; apply Hq; [now apply under_left|now apply under_right].
  - destruct (IH h1 (2 * pos + 1) s c X a b u v Yl) as (h2 & E2 & R2 & Z2 & K2); [lia..|]. rewrite E2. cbn [bind]. destruct (N.leb_spec b c); [|lia]. apply FIN; trivial.
    + apply holds_ext with X; [|intros i Hi; symmetry; apply changed_out; lia]. apply holds_frame with h1; [trivial|]. intros q Hq. apply K2. intro. now apply (under_disjoint pos q).
    + rewrite K2; trivial. apply not_under_left.
    + congruence.
    + intros q Hq. rewrite K2; [auto|]. intro. apply Hq. now apply under_left.
  - destruct (IH h1 (2 * pos + 2) (c + 1) e X a b u v Yr) as (h2 & E2 & R2 & Z2 & K2); [lia..|]. rewrite E2. cbn [bind].
    destruct (N.leb_spec b c); [lia|]. destruct (N.ltb_spec c a); [|lia]. apply FIN; trivial.
    + apply holds_ext with X; [|intros i Hi; symmetry; apply changed_out; lia]. apply holds_frame with h1; [trivial|]. intros q Hq. apply K2. intro. now apply (under_disjoint pos q).
    + rewrite K2; trivial. apply not_under_right.
    + congruence.
    + intros q Hq. rewrite K2; [auto|]. intro. apply Hq. now apply under_right.
  - lia.
Qed.

(** ** Building *)
Lemma set_range_holds : forall h pos s e, pos < sizeN h ->
  exists n, set_range tr h pos s e = Val (set_nth h (N.to_nat pos) n) /\ start n = s /\ end_ n = e /\ index n = pos /\ active tr (lazy_update n) = false.
Proof.
  intros h pos s e H. destruct (cell_lt h pos H) as (m & C). unfold set_range. rewrite (get_ok _ _ _ C). cbn [bind]. rewrite (put_ok _ _ _ _ C).
  eexists. split; [reflexivity|]. repeat (split; [trivial|]). exact (bl_no_update _ _ LAW).
Qed.
Section Build.
Variable X : N -> R.
Variable input : list T.
Variable size : N.
Hypothesis LEAVES : forall i, i < size -> exists x, cell input i = Some x /\ X i = build_leaf tr x i.
Hypothesis SIZE : size < 2 ^ 60.
Lemma build_range_holds : forall fuel h pos s e n k K, cell h pos = Some n ->
  start n = s -> end_ n = e -> index n = pos -> active tr (lazy_update n) = false ->
  s <= e -> e < size ->
  K <= 61 -> k <= K -> pos + 1 < 2 ^ (k + 1) -> e - s + 1 <= 2 ^ (K - k) -> (forall q, takes pos (e - s + 1) q -> q < sizeN h) ->
  (N.to_nat (e - s) < fuel)%nat ->
  exists h', build_range tr fuel h input pos = Val h' /\ holds h' pos s e X /\ sizeN h' = sizeN h /\ forall q, ~ under pos q -> cell h' q = cell h q.
Proof.
  induction fuel as [|fuel IH]; intros h pos s e n k K C S E I A LE EA K61 KK PK LK HK F; [lia|].
  assert (B60 : 2 ^ 62 = 4 * 2 ^ 60) by reflexivity.
  cbn [build_range]. rewrite (get_ok _ _ _ C). cbn [bind]. rewrite S, E.
  destruct (N.ltb_spec s e) as [L|L].
  - rewrite (center_eq n s e) by (trivial; lia).
    pose proof (center_between s e L) as CB.
    assert (C2 : 2 * ((s + e) / 2) <= s + e) by (apply N.mul_div_le; discriminate).
    assert (C3 : s + e < 2 * ((s + e) / 2) + 2).
    { pose proof (N.mul_succ_div_gt (s + e) 2 ltac:(discriminate)). lia. }
    set (c := (s + e) / 2) in *.
    assert (Kk : k < K).
    { destruct (N.eq_dec k K) as [->|]; [|lia]. rewrite N.sub_diag in LK. cbn in LK. lia. }
    assert (LK' : 2 ^ (K - k) = 2 * 2 ^ (K - (k + 1))).
    { rewrite <- N.pow_succ_r'. f_equal. lia. }
    assert (PK' : 2 ^ (k + 1 + 1) = 2 * 2 ^ (k + 1)).
    { rewrite <- N.pow_succ_r'. f_equal. lia. }
    assert (PKK : 2 ^ (k + 1 + 1) <= 2 ^ (K + 1)) by (apply N.pow_le_mono_r; lia).
    assert (PK1 : 2 ^ (k + 1) <= 2 ^ 61) by (apply N.pow_le_mono_r; lia).
    assert (B61 : 2 ^ 62 = 2 * 2 ^ 61) by reflexivity.
    destruct (halves s e L) as (HL & HR). fold c in HL, HR.
    assert (BL : forall q, takes (2 * pos + 1) (c - s + 1) q -> q < sizeN h) by (intros q Q; apply HK; apply takes_left; [lia|now rewrite HL]).
    assert (BR : forall q, takes (2 * pos + 2) (e - (c + 1) + 1) q -> q < sizeN h) by (intros q Q; apply HK; apply takes_right; [lia|now rewrite HR]).
    pose proof (BL _ (takes_one _ _)) as BL0. pose proof (BR _ (takes_one _ _)) as BR0.
    unfold lower_bound, upper_bound. rewrite I, left_small, right_small by lia.
    destruct (set_range_holds h (2 * pos + 1) s c) as (nl & E1 & Sl & El & Il & Al); [lia|].
    rewrite E1. cbn [bind]. set (h1 := set_nth h (N.to_nat (2 * pos + 1)) nl).
    assert (Z1 : sizeN h1 = sizeN h) by apply sizeN_set.
    rewrite wadd1 by lia.
    destruct (set_range_holds h1 (2 * pos + 2) (c + 1) e) as (nr & E2 & Sr & Er & Ir & Ar); [lia|].
    rewrite E2. cbn [bind]. set (h2 := set_nth h1 (N.to_nat (2 * pos + 2)) nr).
    assert (Z2 : sizeN h2 = sizeN h) by (unfold h2; now rewrite sizeN_set).
    assert (Cl2 : cell h2 (2 * pos + 1) = Some nl).
    { unfold h2. rewrite cell_put_neq by lia. unfold h1. apply cell_set_eq. lia. }
    assert (Cr2 : cell h2 (2 * pos + 2) = Some nr) by (unfold h2; apply cell_set_eq; lia).
    assert (Cp2 : cell h2 pos = Some n) by (unfold h2, h1; rewrite !cell_put_neq by lia; trivial).
    destruct (IH h2 (2 * pos + 1) s c nl (k + 1) K Cl2) as (h3 & E3 & R3 & Z3 & K3); trivial; try lia.
    { intros q Q. rewrite Z2. auto. }
    rewrite E3. cbn [bind].
    assert (Cr3 : cell h3 (2 * pos + 2) = Some nr).
    { rewrite K3; [trivial|]. intro Q. apply (under_disjoint pos (2 * pos + 2) Q). constructor. }
    assert (Cp3 : cell h3 pos = Some n) by (rewrite K3; [trivial|apply not_under_left]).
    destruct (IH h3 (2 * pos + 2) (c + 1) e nr (k + 1) K Cr3) as (h4 & E4 & R4 & Z4 & K4); trivial; try lia.
    { intros q Q. rewrite Z3, Z2. auto. }
    rewrite E4. cbn [bind].
    assert (R3' : holds h4 (2 * pos + 1) s c X).
    { apply holds_frame with h3; [trivial|]. intros q Q. apply K4. intro. now apply (under_disjoint pos q). }
    assert (Cp4 : cell h4 pos = Some n) by (rewrite K4; [trivial|apply not_under_right]).
    destruct (pull_up_holds h4 pos s e n X Cp4 S E I L) as (h5 & E5 & Z5 & K5 & R5); trivial; try lia.
    exists h5. split; [exact E5|]. split; [exact R5|]. split; [congruence|]. intros q Q.
    assert (q <> pos) by (intros ->; apply Q; constructor).
    assert (~ under (2 * pos + 1) q) by (intro; apply Q; now apply under_left).
    assert (~ under (2 * pos + 2) q) by (intro; apply Q; now apply under_right).
    rewrite K5, K4, K3 by trivial. unfold h2, h1. rewrite !cell_put_neq; trivial; intros ->.
    + apply Q. apply under_left. constructor.
    + apply Q. apply under_right. constructor.
  - assert (s = e) by lia. subst s. destruct (LEAVES e EA) as (x & Cx & Ca).
    replace (start n) with e by congruence. rewrite Cx. rewrite (put_ok _ _ _ _ C).
    eexists. split; [reflexivity|]. split; [|split; [apply sizeN_set|]].
    + eapply holds_leaf; [eapply cell_put_eq; eassumption|..]; cbn; trivial; try congruence; lia.
    + intros q Q. apply cell_put_neq. intros ->. apply Q. constructor.
Qed.
End Build.

(** ** Histories *)
Variable required : N -> N.
Hypothesis ENOUGH : enough required.
Local Notation element := (element tr).
Definition right (fuel : nat) (t : tree R U) (a : option (list R)) : Prop :=
  match a with
  | None => built_heap t = false
  | Some xs => built_heap t = true /\ size t = sizeN xs /\ 0 < sizeN xs < 2 ^ 60 /\ (length xs <= fuel)%nat /\
      holds (heap t) 0 0 (sizeN xs - 1) (element xs)
  end.
Lemma build_right : forall fuel t v k, v <> [] -> 0 < k -> sizeN v < 2 ^ 60 -> (length v <= fuel)%nat ->
  exists t', build tr required fuel t v k = Val t' /\ right fuel t' (Some (leaves tr (firstn (N.to_nat k) v))).
Proof.
  intros fuel t v k V K0 B F. unfold build. set (w := firstn (N.to_nat k) v).
  assert (Lw : length w = Nat.min (N.to_nat k) (length v)) by (unfold w; apply firstn_length).
  assert (Lv : length v <> O) by (intro Z; apply V; apply length_zero_iff_nil; exact Z).
  assert (NE : (if k <? sizeN v then k else sizeN v) = sizeN w).
  { unfold sizeN in *. destruct (N.ltb_spec k (N.of_nat (length v))); lia. }
  rewrite NE. assert (W0 : 0 < sizeN w) by (unfold sizeN; lia).
  assert (WB : sizeN w < 2 ^ 60) by (unfold sizeN in *; lia).
  destruct (N.eqb_spec (sizeN w) 0) as [|_]; [lia|].
  assert (SA : sizeN (leaves tr w) = sizeN w) by (unfold sizeN; now rewrite leaves_length).
  pose proof (ENOUGH (sizeN w) (conj W0 WB)) as EN.
  set (h0 := if sizeN (heap t) <? required (sizeN w) then _ else _).
  assert (H0 : sizeN h0 = N.max (sizeN (heap t)) (required (sizeN w))).
  { unfold h0. destruct (N.ltb_spec (sizeN (heap t)) (required (sizeN w))); [rewrite resize_size|]; lia. }
  assert (H0' : 0 < sizeN h0) by (pose proof (EN 0 (takes_one _ _)); lia).
  unfold set_root. rewrite at_put_ok by lia. cbn [bind].
  assert (B64 : two64 = 16 * 2 ^ 60) by reflexivity. rewrite wsub1 by lia.
  set (nr := mkNode 0 (sizeN w - 1) 0 (no_value tr, no_update tr)). set (h1 := set_nth h0 (N.to_nat 0) nr).
  assert (Z1 : sizeN h1 = sizeN h0) by apply sizeN_set.
  assert (C1 : cell h1 0 = Some nr) by (apply cell_set_eq; lia).
  assert (LOG : N.log2 (sizeN w) < 60) by (apply N.log2_lt_pow2; lia).
  destruct (N.log2_spec (sizeN w) W0) as (_ & LG).
  destruct (build_range_holds (element (leaves tr w)) v (sizeN w)) with (fuel := fuel) (h := h1) (pos := 0) (s := 0) (e := sizeN w - 1) (n := nr)
    (k := 0) (K := N.log2 (sizeN w) + 1) as (h2 & E2 & R2 & Z2 & _); trivial; try lia.
  - intros i Hi. destruct (cell_lt w i Hi) as (x & Cx). exists x. split; [|now apply leaf_at_cell].
    unfold w, cell in Cx. rewrite nth_error_firstn_lt in Cx; [exact Cx|]. unfold sizeN in Hi. lia.
  - exact (bl_no_update _ _ LAW).
  - replace (N.log2 (sizeN w) + 1 - 0) with (N.succ (N.log2 (sizeN w))) by lia. lia.
  - intros q Q. replace (sizeN w - 1 - 0 + 1) with (sizeN w) in Q by lia. apply EN in Q. lia.
  - unfold sizeN in *. lia.
  - rewrite E2. cbn [bind]. eexists. split; [reflexivity|]. cbn [right built_heap SegmentModel.size heap]. rewrite SA.
    split; [trivial|]. split; [trivial|]. split; [lia|]. split; [rewrite leaves_length; unfold sizeN in *; lia|]. exact R2.
Qed.
Lemma nth_change : forall f (xs : list R) s a b i d, (i < length xs)%nat ->
  nth i (change_range f s a b xs) d = changed f a b (fun j => nth (N.to_nat (j - s)) xs d) (s + N.of_nat i).
Proof.
  induction xs as [|x xs IH]; intros s a b i d H; cbn [length] in H; [lia|]. destruct i as [|i]; cbn [change_range nth].
  - unfold changed. rewrite N.add_0_r, N.sub_diag. reflexivity.
  - rewrite IH by lia. unfold changed. replace (s + 1 + N.of_nat i) with (s + N.of_nat (S i)) by lia.
    replace (N.to_nat (s + N.of_nat (S i) - s)) with (S (N.to_nat (s + N.of_nat (S i) - (s + 1)))) by lia. reflexivity.
Qed.
Lemma element_change : forall f xs a b i, i < sizeN xs -> element (change_range f 0 a b xs) i = changed f a b (element xs) i.
Proof.
  intros f xs a b i H. unfold SegmentBracketSpec.element. rewrite nth_change by (unfold sizeN in H; lia).
  rewrite N.add_0_l, N2Nat.id. unfold changed. now rewrite N.sub_0_r.
Qed.
Lemma step_right : forall fuel t a o, fair fuel o -> right fuel t a ->
  exists t', step tr required fuel t o = Val (t', snd (bracket_step tr den a o)) /\ right fuel t' (fst (bracket_step tr den a o)).
Proof.
  intros fuel t a o FA IN. destruct o as [s e|s e u|v k].
  - cbn [step bracket_step]. unfold query. destruct a as [xs|]; cbn [right] in IN; cbn [fst snd].
    + destruct IN as (BU & SZ & B & F & RE). rewrite BU. cbn [negb]. destruct (holds_cell _ _ _ _ _ RE) as (n & C & _).
      unfold head. rewrite (at_ok _ _ _ C). cbn [bind]. unfold fixed_start, fixed_end. rewrite SZ.
      assert (B64 : two64 = 16 * 2 ^ 60) by reflexivity. rewrite wsub1 by lia.
      destruct (range_query_holds fuel (heap t) 0 0 (sizeN xs - 1) (element xs) (clamp (sizeN xs) (N.min s e))
        (clamp (sizeN xs) (N.max s e)) (no_value tr) RE) as (h' & E' & R' & Z' & _); [unfold clamp; lia..|unfold sizeN in *; lia|].
      unfold clamp in E' at 1 2. rewrite E'. cbn [bind]. eexists. split; [reflexivity|]. cbn. auto.
    + rewrite IN. cbn. eauto.
  - cbn [step bracket_step]. unfold query_update. destruct a as [xs|]; cbn [right] in IN; cbn [fst snd].
    + destruct IN as (BU & SZ & B & F & RE). rewrite BU. cbn [negb]. destruct (holds_cell _ _ _ _ _ RE) as (n & C & _).
      unfold head. rewrite (at_ok _ _ _ C). cbn [bind]. unfold fixed_start, fixed_end. rewrite SZ.
      assert (B64 : two64 = 16 * 2 ^ 60) by reflexivity. rewrite wsub1 by lia.
      set (lo := clamp (sizeN xs) (N.min s e)). set (hi := clamp (sizeN xs) (N.max s e)). assert (LH : lo <= hi /\ hi <= sizeN xs - 1) by (unfold lo, hi, clamp; lia).
      destruct (range_update_holds fuel (heap t) 0 0 (sizeN xs - 1) (element xs) lo hi u (no_value tr) RE) as (h' & E' & R' & Z' & _); [lia..|unfold sizeN in *; lia|].
      change (N.min (N.min s e) (sizeN xs - 1)) with lo. change (N.min (N.max s e) (sizeN xs - 1)) with hi. rewrite E'. cbn [bind]. eexists. split.
      * do 3 f_equal. unfold joined. rewrite change_size. fold lo hi. apply eval_range; try lia. intros i Hi. symmetry. apply element_change. lia.
      * cbn [right built_heap size heap]. rewrite change_size.
        assert (LC : forall f a b, length (change_range f 0 a b xs) = length xs) by (intros f a b; pose proof (change_size f xs 0 a b) as Q; unfold sizeN in Q; lia).
        rewrite LC. repeat (split; [trivial|]). eapply holds_ext; [exact R'|]. intros i Hi. symmetry. apply element_change. lia.
    + rewrite IN. cbn. eauto.
  - cbn [step bracket_step fst snd]. destruct FA as (V & K0 & B & F). destruct (build_right fuel t v k V K0 B F) as (t' & E & I). rewrite E. cbn [bind]. exists t'. auto.
Qed.
Lemma run_right : forall ops fuel t a, Forall (fair fuel) ops -> right fuel t a ->
  exists t', run tr required fuel t ops = Val (t', snd (bracket_run tr den a ops)) /\ right fuel t' (fst (bracket_run tr den a ops)).
Proof.
  induction ops as [|o ops IH]; intros fuel t a F I; cbn [run bracket_run].
  - exists t. auto.
  - apply Forall_cons_iff in F. destruct F as (Fo & Fr).
    destruct (step_right fuel t a o Fo I) as (t1 & E1 & I1). rewrite E1. cbn [bind].
    destruct (bracket_step tr den a o) as (a1 & x). cbn [fst snd] in *.
    destruct (IH fuel t1 a1 Fr I1) as (t2 & E2 & I2). rewrite E2. cbn [bind].
    destruct (bracket_run tr den a1 ops) as (a2 & l). cbn [fst snd] in *. eauto.
Qed.
Lemma run_brackets : forall ops fuel, Forall (fair fuel) ops -> exists t', run tr required fuel empty_tree ops = Val (t', snd (bracket_run tr den None ops)).
Proof. intros ops fuel F. destruct (run_right ops fuel empty_tree None F eq_refl) as (t' & E & _). eauto. Qed.
End Proofs.

(** ** Consequences *)
Lemma same_history : forall {T R U} (tr : transform T R U) den, bracket_lawful tr den -> forall required, enough required ->
  forall fuel ops1 ops2 ops, Forall (fair fuel) ops1 -> Forall (fair fuel) ops2 -> Forall (fair fuel) ops ->
  fst (bracket_run tr den None ops1) = fst (bracket_run tr den None ops2) ->
  exists t1 l1 t2 l2 t1' t2' l, run tr required fuel empty_tree ops1 = Val (t1, l1) /\ run tr required fuel empty_tree ops2 = Val (t2, l2) /\
    run tr required fuel t1 ops = Val (t1', l) /\ run tr required fuel t2 ops = Val (t2', l).
Proof.
  intros T R U tr den LAW required EN fuel ops1 ops2 ops F1 F2 F E.
  destruct (run_right tr den LAW required EN ops1 fuel empty_tree None F1 eq_refl) as (t1 & E1 & R1).
  destruct (run_right tr den LAW required EN ops2 fuel empty_tree None F2 eq_refl) as (t2 & E2 & R2).
  destruct (run_right tr den LAW required EN ops fuel t1 _ F R1) as (t1' & E3 & _).
  destruct (run_right tr den LAW required EN ops fuel t2 _ F R2) as (t2' & E4 & _).
  rewrite <- E in E4. exists t1, (snd (bracket_run tr den None ops1)), t2, (snd (bracket_run tr den None ops2)), t1', t2', (snd (bracket_run tr den (fst (bracket_run tr den None ops1)) ops)). auto.
Qed.
Lemma eval_total : forall R (j : R -> R -> R) d X b, (forall x y z, j x (j y z) = j (j x y) z) -> eval j X b = total j d (map X (flatten b)).
Proof.
  intros R j d X b A. assert (NE : forall b0, map X (flatten b0) <> []).
  { induction b0 as [i|l IH r _]; intros Q; cbn [flatten map] in Q; [discriminate Q|]. rewrite map_app in Q. apply app_eq_nil in Q as (Q & _). contradiction. }
  induction b as [i|l IHl r IHr]; cbn [eval flatten]; [reflexivity|]. rewrite map_app, total_app by auto. now rewrite IHl, IHr.
Qed.
Lemma joined_total : forall {T R U} (tr : transform T R U), (forall x y z, join tr x (join tr y z) = join tr (join tr x y) z) ->
  forall xs s e, xs <> [] -> let n := sizeN xs in
  joined tr xs s e = total (join tr) (no_value tr) (sub 0 (clamp n (N.min s e)) (clamp n (N.max s e)) xs).
Proof.
  intros T R U tr A xs s e NE n. assert (L : 0 < n) by (unfold n, sizeN; destruct xs; [congruence|cbn [length]; lia]).
  unfold joined. fold n. rewrite (eval_total _ _ (no_value tr)) by exact A. rewrite (brackets_flat (N.to_nat (n - 1 - 0))) by (unfold clamp; lia).
  f_equal. apply (sub_from_to R (no_value tr) xs (N.to_nat (clamp n (N.max s e) - clamp n (N.min s e)))); unfold clamp, n in *; lia.
Qed.

(** With an associative join the laws of SegmentSpec suffice. *)
Lemma change_all : forall R (f : N -> R -> R) X (b : N) (n : nat) (a : N), a + N.of_nat n <= b + 1 ->
  change_range f a a b (map (fun i => X (a + N.of_nat i)) (seq 0 n)) = map (fun i => f (a + N.of_nat i) (X (a + N.of_nat i))) (seq 0 n).
Proof.
  intros R f X b n a H.
  assert (G : forall m k lo, lo <= a + N.of_nat k -> a + N.of_nat k + N.of_nat m <= b + 1 ->
    change_range f (a + N.of_nat k) lo b (map (fun i => X (a + N.of_nat i)) (seq k m)) = map (fun i => f (a + N.of_nat i) (X (a + N.of_nat i))) (seq k m)).
  { induction m as [|m IH]; intros k lo L B; [reflexivity|]. cbn [seq map change_range]. f_equal.
    - destruct (N.leb_spec lo (a + N.of_nat k)); [|lia]. destruct (N.leb_spec (a + N.of_nat k) b); [reflexivity|lia].
    - replace (a + N.of_nat k + 1) with (a + N.of_nat (Datatypes.S k)) by lia. apply IH; lia. }
  replace a with (a + N.of_nat 0) at 1 by lia. apply G; lia.
Qed.
Lemma absorbs_takes : forall {T R U} (tr : transform T R U) den, (forall x y z, join tr x (join tr y z) = join tr (join tr x y) z) ->
  forall f s e c c', absorbs tr den f s e c c' -> takes_in tr den f s e c c'.
Proof.
  intros T R U tr den A f s e c c' (A1 & A2). split; [trivial|]. intros L X V.
  assert (W : forall Z, eval (join tr) Z (whole s e) = total (join tr) (no_value tr) (map Z (from_to s e))).
  { intros Z. rewrite (eval_total _ _ (no_value tr)) by exact A. unfold whole. now rewrite (brackets_flat (N.to_nat (e - s))) by lia. }
  destruct (A2 L (map X (from_to s e))) as (B1 & B2).
  - unfold sizeN. rewrite map_length. unfold from_to. rewrite map_length, seq_length. lia.
  - now rewrite <- W.
  - split; [|trivial]. rewrite B1, W. f_equal. unfold from_to. rewrite !map_map. apply change_all. lia.
Qed.
Lemma lawful_brackets : forall {T R U} (tr : transform T R U) den, lawful tr den -> bracket_lawful tr den.
Proof.
  intros T R U tr den L. pose proof (law_assoc _ _ _ L) as A. constructor.
  - exact (law_inactive _ _ _ L).
  - exact (law_no_update _ _ _ L).
  - intros s e c u SE AC M. apply absorbs_takes; trivial. now apply (law_apply _ _ _ L).
  - intros s e n l r n' l' r' SE AC P. destruct (law_propagate _ _ _ L s e n l r n' l' r' SE AC P) as (B1 & B2 & B3). split; [trivial|]. split; apply absorbs_takes; trivial.
Qed.

(** ** Transforms *)
Lemma eval_raise : forall u X b, eval mean (fun i => (X i + u)%Z) b = (eval mean X b + u)%Z.
Proof.
  intros u X b. induction b as [i|l IHl r IHr]; cbn [eval]; [reflexivity|]. rewrite IHl, IHr. generalize (eval mean X l), (eval mean X r). intros p q. unfold mean.
  replace (p + u + (q + u))%Z with (p + q + u * 2)%Z by lia. now rewrite Z.div_add.
Qed.
Lemma raise_takes : forall u s e c, takes_in range_mean den_add (den_add u) s e c (raise c u).
Proof.
  intros u s e c. split.
  - intros _. reflexivity.
  - intros _ X V. split.
    + cbn [raise fst]. rewrite V. symmetry. apply eval_raise.
    + intros i x _. unfold den_add. cbn. lia.
Qed.
Lemma range_mean_lawful : bracket_lawful range_mean den_add.
Proof.
  constructor.
  - intros u A i x. cbn in A. destruct (Z.eqb_spec u 0); [|discriminate]. unfold den_add. lia.
  - reflexivity.
  - intros. apply raise_takes.
  - intros s e n l r n' l' r' L A P. cbn in P. injection P as <- <- <-. split; [reflexivity|]. split; apply raise_takes.
Qed.
Lemma eval_scale : forall u X b, eval Z.sub (fun i => (X i * u)%Z) b = (eval Z.sub X b * u)%Z.
Proof. intros u X b. induction b as [i|l IHl r IHr]; cbn [eval]; [reflexivity|]. rewrite IHl, IHr. lia. Qed.
Lemma scale_takes : forall u s e c, takes_in range_minus den_mul (den_mul u) s e c (scale c u).
Proof.
  intros u s e c. split.
  - intros _. reflexivity.
  - intros _ X V. split.
    + cbn [scale fst]. rewrite V. symmetry. apply eval_scale.
    + intros i x _. unfold den_mul. cbn. lia.
Qed.
Lemma range_minus_lawful : bracket_lawful range_minus den_mul.
Proof.
  constructor.
  - intros u A i x. cbn in A. destruct (Z.eqb_spec u 1); [|discriminate]. unfold den_mul. lia.
  - reflexivity.
  - intros. apply scale_takes.
  - intros s e n l r n' l' r' L A P. cbn in P. injection P as <- <- <-. split; [reflexivity|]. split; apply scale_takes.
Qed.
Lemma assign_lawful : forall R (j : R -> R -> R) d, (forall x, j x x = x) -> bracket_lawful (assign j d) den_assign.
Proof.
  intros R j d I. assert (EV : forall z b, eval j (fun _ => z) b = z).
  { intros z b. induction b as [i|l IHl r IHr]; cbn [eval]; [reflexivity|]. now rewrite IHl, IHr. }
  assert (TK : forall z s e c, takes_in (assign j d) den_assign (den_assign (Some z)) s e c (z, Some z)).
  { intros z s e c. split; [reflexivity|]. intros _ X _. split; [symmetry; exact (EV z (whole s e))|reflexivity]. }
  constructor.
  - intros [z|] A i x; [discriminate|reflexivity].
  - reflexivity.
  - intros s e c [z|] L A _; [|discriminate]. apply TK.
  - intros s e n l r n' l' r' L A P. cbn in P, A. destruct (snd n) as [z|]; [|discriminate]. injection P as <- <- <-. auto.
Qed.
