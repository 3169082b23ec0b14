(** Proofs about the segment tree when the join is not associative. *)
Require Import List Arith NArith ZArith Bool Lia.
Require Import Floats.SpecFloat.
Require Import Verif.Base Verif.Cint Verif.HeapModel Verif.SegmentModel Verif.SegmentSpec Verif.SegmentProofs.
Require Import Verif.HeapProofs Verif.DoubleModel Verif.DoubleSpec Verif.SegmentOrderSpec.
Import ListNotations.
Local Open Scope N_scope.

(** ** The brackets *)
(** The tree over the positions s..e, and what a query of a..b makes of it. *)
Inductive halved : N -> N -> bracket -> Prop :=
| halved_one s : halved s s (One s)
| halved_two s e l r : s < e -> halved s ((s + e) / 2) l -> halved ((s + e) / 2 + 1) e r -> halved s e (Two l r).
Inductive asked : N -> N -> N -> N -> bracket -> Prop :=
| asked_all s e t : halved s e t -> asked s e s e t
| asked_left s e a b t : s < e -> b <= (s + e) / 2 -> asked s ((s + e) / 2) a b t -> asked s e a b t
| asked_right s e a b t : s < e -> (s + e) / 2 < a -> asked ((s + e) / 2 + 1) e a b t -> asked s e a b t
| asked_both s e a b l r : s < e -> ~ (a = s /\ b = e) -> a <= (s + e) / 2 -> (s + e) / 2 < b ->
    asked s ((s + e) / 2) a ((s + e) / 2) l -> asked ((s + e) / 2 + 1) e ((s + e) / 2 + 1) b r ->
    asked s e a b (Two l r).

Lemma halved_det : forall s e t, halved s e t -> forall t', halved s e t' -> t = t'.
Proof.
  induction 1 as [s|s e l r L Hl IHl Hr IHr]; intros t' H; inversion H; subst; try reflexivity; try lia.
  f_equal; auto.
Qed.
Lemma halved_le : forall s e t, halved s e t -> s <= e.
Proof. induction 1; lia. Qed.
Lemma halved_total : forall k s e, s <= e -> (N.to_nat (e - s) <= k)%nat -> exists t, halved s e t.
Proof.
  induction k as [|k IH]; intros s e L K.
  - assert (s = e) by lia. subst. eexists. constructor.
  - destruct (N.eq_dec s e) as [->|N]; [eexists; constructor|]. assert (LT : s < e) by lia.
    pose proof (center_between s e LT). destruct (IH s ((s + e) / 2)) as (l & Hl); [lia..|].
    destruct (IH ((s + e) / 2 + 1) e) as (r & Hr); [lia..|]. eexists. now apply halved_two; eassumption.
Qed.
Lemma asked_total : forall k s e a b, s <= a -> a <= b -> b <= e -> (N.to_nat (e - s) <= k)%nat -> exists t, asked s e a b t.
Proof.
  induction k as [|k IH]; intros s e a b SA AB BE K.
  - assert (s = e) by lia. assert (a = s) by lia. assert (b = e) by lia. subst. eexists. apply asked_all. constructor.
  - destruct (N.eq_dec a s) as [->|NA]; [destruct (N.eq_dec b e) as [->|NB]|].
    { destruct (halved_total (S k) s e) as (t & H); [lia..|]. exists t. now apply asked_all. }
    all: assert (LT : s < e) by lia; pose proof (center_between s e LT) as CB.
    + destruct (N.le_gt_cases b ((s + e) / 2)) as [B|B].
      * destruct (IH s ((s + e) / 2) s b) as (t & H); [lia..|]. exists t. now apply asked_left.
      * destruct (IH s ((s + e) / 2) s ((s + e) / 2)) as (l & Hl); [lia..|].
        destruct (IH ((s + e) / 2 + 1) e ((s + e) / 2 + 1) b) as (r & Hr); [lia..|]. eexists. apply asked_both; trivial; try eassumption; lia.
    + destruct (N.le_gt_cases b ((s + e) / 2)) as [B|B]; [|destruct (N.le_gt_cases a ((s + e) / 2)) as [A|A]].
      * destruct (IH s ((s + e) / 2) a b) as (t & H); [lia..|]. exists t. now apply asked_left.
      * destruct (IH s ((s + e) / 2) a ((s + e) / 2)) as (l & Hl); [lia..|].
        destruct (IH ((s + e) / 2 + 1) e ((s + e) / 2 + 1) b) as (r & Hr); [lia..|]. eexists. apply asked_both; trivial; try eassumption; lia.
      * destruct (IH ((s + e) / 2 + 1) e a b) as (t & H); [lia..|]. exists t. now apply asked_right.
Qed.
Lemma from_to_split : forall a c b, a <= c -> c < b -> from_to a c ++ from_to (c + 1) b = from_to a b.
Proof.
  intros a c b AC CB. unfold from_to. replace (S (N.to_nat (b - a))) with (S (N.to_nat (c - a)) + S (N.to_nat (b - (c + 1))))%nat by lia.
  rewrite seq_app, map_app. f_equal. rewrite Nat.add_0_l.
  assert (SH : forall m d z, seq (d + z) m = map (fun i => (d + i)%nat) (seq z m)).
  { induction m as [|m IH]; intros d z; cbn; [trivial|]. f_equal. rewrite <- IH. f_equal. lia. }
  rewrite <- (Nat.add_0_r (S (N.to_nat (c - a)))) at 1. rewrite SH, map_map. apply map_ext. intros i. lia.
Qed.
Lemma halved_flat : forall s e t, halved s e t -> flatten t = from_to s e.
Proof.
  induction 1 as [s|s e l r L Hl IHl Hr IHr]; cbn [flatten].
  - unfold from_to. rewrite N.sub_diag. cbn. now rewrite N.add_0_r.
  - rewrite IHl, IHr. pose proof (center_between s e L). apply from_to_split; lia.
Qed.
Lemma asked_flat : forall s e a b t, asked s e a b t -> flatten t = from_to a b.
Proof.
  induction 1 as [s e t H|s e a b t L B H IH|s e a b t L A H IH|s e a b l r L N A B Hl IHl Hr IHr]; trivial.
  - now apply halved_flat.
  - cbn [flatten]. rewrite IHl, IHr. apply from_to_split; lia.
Qed.
Lemma log2_up_halves : forall s e, s < e ->
  1 + N.log2_up ((s + e) / 2 - s + 1) <= N.log2_up (e - s + 1) /\ 1 + N.log2_up (e - ((s + e) / 2 + 1) + 1) <= N.log2_up (e - s + 1).
Proof.
  intros s e L. destruct (halves s e L) as (HL & HR). rewrite <- HL, <- HR. set (m := e - s + 1) in *.
  assert (M : 1 < m) by (unfold m; lia). clearbody m. destruct (N.log2_up_spec m M) as (_ & U).
  set (k := N.log2_up m) in *. assert (K : 0 < k) by (apply N.log2_up_pos; trivial).
  assert (P : 2 ^ k = 2 * 2 ^ (k - 1)) by (rewrite <- N.pow_succ_r'; f_equal; lia).
  pose proof (N.div_mod m 2 ltac:(discriminate)) as E1. pose proof (N.mod_lt m 2 ltac:(discriminate)) as E2.
  assert (G : forall x, x <= 2 ^ (k - 1) -> 1 + N.log2_up x <= k).
  { intros x X. destruct (N.eq_dec x 0) as [->|NX]; [cbn; lia|].
    apply N.log2_up_le_pow2 in X; lia. }
  clearbody k. set (q := m / 2) in *. clearbody q. set (md := m mod 2) in *. clearbody md. set (p := 2 ^ (k - 1)) in *. clearbody p.
  split; apply G; lia.
Qed.
Lemma halved_depth : forall s e t, halved s e t -> depth t <= N.log2_up (e - s + 1).
Proof.
  induction 1 as [s|s e l r L Hl IHl Hr IHr]; cbn [depth]; [lia|]. pose proof (log2_up_halves s e L). lia.
Qed.
Lemma asked_depth : forall s e a b t, asked s e a b t -> depth t <= N.log2_up (e - s + 1).
Proof.
  induction 1 as [s e t H|s e a b t L B H IH|s e a b t L A H IH|s e a b l r L N A B Hl IHl Hr IHr].
  - now apply halved_depth.
  - pose proof (log2_up_halves s e L). lia.
  - pose proof (log2_up_halves s e L). lia.
  - cbn [depth]. pose proof (log2_up_halves s e L). lia.
Qed.

(** ** The tree *)
Section Tree.
Context {T R U : Type}.
Variable tr : transform T R U.
Hypothesis RO : read_only tr.
Variable X : N -> R.
Local Notation node := (node R U).
Implicit Types h : list node.

Inductive made h : N -> N -> N -> bracket -> Prop :=
| made_leaf pos s n :
    cell h pos = Some n -> start n = s -> end_ n = s -> index n = pos -> s < 2 ^ 62 -> value n = X s ->
    made h pos s s (One s)
| made_node pos s e n l r :
    cell h pos = Some n -> start n = s -> end_ n = e -> index n = pos ->
    s < e -> pos < 2 ^ 62 -> e < 2 ^ 62 ->
    made h (2 * pos + 1) s ((s + e) / 2) l -> made h (2 * pos + 2) ((s + e) / 2 + 1) e r ->
    value n = eval (join tr) X (Two l r) -> made h pos s e (Two l r).

Lemma made_halved : forall h pos s e t, made h pos s e t -> halved s e t.
Proof. induction 1; constructor; trivial. Qed.
Lemma made_cell : forall h pos s e t, made h pos s e t ->
  exists n, cell h pos = Some n /\ start n = s /\ end_ n = e /\ index n = pos /\ value n = eval (join tr) X t /\ e < 2 ^ 62.
Proof. intros h pos s e t H. inversion H; subst; exists n; repeat (split; [trivial|]); trivial. Qed.
Lemma made_frame : forall h h' pos s e t, made h pos s e t ->
  (forall q, under pos q -> cell h' q = cell h q) -> made h' pos s e t.
Proof.
  induction 1 as [pos s n C S E I B V|pos s e n l r C S E I L P B Hl IHl Hr IHr V]; intros F.
  - apply made_leaf with n; trivial. rewrite F by constructor. trivial.
  - apply made_node with n; trivial.
    + rewrite F by constructor. trivial.
    + apply IHl. intros q Q. apply F. now apply under_left.
    + apply IHr. intros q Q. apply F. now apply under_right.
Qed.
Lemma set_same : forall A (l : list A) i x, nth_error l i = Some x -> set_nth l i x = l.
Proof.
  induction l as [|y l IH]; intros [|i] x H; cbn in *; try discriminate; [congruence|]. f_equal. auto.
Qed.

Lemma made_inner : forall h pos s e t n, made h pos s e t -> s < e -> cell h pos = Some n ->
  exists l r, pos < 2 ^ 62 /\ t = Two l r /\ made h (2 * pos + 1) s ((s + e) / 2) l /\ made h (2 * pos + 2) ((s + e) / 2 + 1) e r.
Proof. intros h pos s e t n H L C. inversion H; subst; [lia|]. exists l, r. auto. Qed.
Lemma asked_inv : forall s e a b u, asked s e a b u -> ~ (a = s /\ b = e) ->
  let c := (s + e) / 2 in
  (b <= c /\ asked s c a b u) \/ (c < a /\ asked (c + 1) e a b u) \/
  (a <= c /\ c < b /\ exists l r, u = Two l r /\ asked s c a c l /\ asked (c + 1) e (c + 1) b r).
Proof.
  intros s e a b u Q N. inversion Q; subst; [now contradiction N|left; auto|right; left; auto|right; right].
  split; [trivial|split; [trivial|]]. eauto 6.
Qed.
Lemma range_query_made : forall fuel h pos s e t a b u v, made h pos s e t -> asked s e a b u -> s <= a -> a <= b -> b <= e ->
  (N.to_nat (e - s) < fuel)%nat -> range_query tr fuel h a b pos v = Val (h, eval (join tr) X u).
Proof.
  induction fuel as [|fuel IH]; intros h pos s e t a b u v H Q SA AB BE F; [lia|].
  cbn [range_query]. destruct (made_cell _ _ _ _ _ H) as (n & C & S & E & I & V & B).
  rewrite (get_ok _ _ _ C). cbn [bind]. rewrite (leaf_eq n s e) by (trivial; lia). rewrite S, E.
  unfold has_lazy_updates. rewrite RO. cbn [negb]. rewrite orb_true_r, andb_true_r.
  destruct ((s =? a) && (b =? e)) eqn:Z.
  { apply andb_prop in Z as (Z1 & Z2). apply N.eqb_eq in Z1, Z2. subst a b. assert (HH : halved s e u).
    { inversion Q as [? ? ? HQ|? ? ? ? ? L1 B1 HQ|? ? ? ? ? L1 A1 HQ|? ? ? ? ul ur L1 N1 A1 B1 HQl HQr]; subst; trivial.
      - pose proof (center_between _ _ L1). lia.
      - pose proof (center_between _ _ L1). lia.
      - now contradiction N1. }
    now rewrite V, (halved_det _ _ _ (made_halved _ _ _ _ _ H) _ HH). }
  assert (NE : ~ (a = s /\ b = e)) by (intros (-> & ->); rewrite !N.eqb_refl in Z; discriminate). clear Z.
  destruct (N.eqb_spec s e) as [SE|SE]; [lia|]. assert (L : s < e) by lia.
  destruct (made_inner _ _ _ _ _ _ H L C) as (l & r & P & -> & Hl & Hr).
  rewrite (center_eq n s e) by (trivial; lia). pose proof (center_between s e L) as CB.
  unfold lower_bound, upper_bound. rewrite I, left_small, right_small by trivial.
  pose proof (asked_inv _ _ _ _ _ Q NE) as AI. cbv zeta in AI.
  set (c := (s + e) / 2) in *.
  destruct (made_cell _ _ _ _ _ Hl) as (nl & Cl & _ & _ & _ & Vl & _).
  destruct (made_cell _ _ _ _ _ Hr) as (nr & Cr & _ & _ & _ & Vr & _).
  assert (PD : push_down tr h pos (2 * pos + 1) (2 * pos + 2) = Val h).
  { unfold push_down. rewrite (get_ok _ _ _ C), (get_ok _ _ _ Cl), (get_ok _ _ _ Cr). cbn [bind].
    unfold has_lazy_updates. now rewrite RO. }
  assert (PU : pull_up tr h pos (2 * pos + 1) (2 * pos + 2) = Val h).
  { unfold pull_up. rewrite (get_ok _ _ _ Cl), (get_ok _ _ _ Cr), (get_ok _ _ _ C). cbn [bind].
    rewrite (put_ok _ _ _ _ C). f_equal. apply set_same. rewrite Vl, Vr.
    change (join tr (eval (join tr) X l) (eval (join tr) X r)) with (eval (join tr) X (Two l r)). rewrite <- V.
    unfold cell in C. rewrite C. f_equal. destruct n as [? ? ? [? ?]]. reflexivity. }
  rewrite PD. cbn [bind].
  destruct AI as [(B1 & HQ)|[(A1 & HQ)|(A1 & B1 & ul & ur & -> & HQl & HQr)]].
  - destruct (N.leb_spec a c); [|lia]. destruct (N.ltb_spec c b); [lia|]. cbn [andb].
    rewrite (IH h _ _ _ _ _ _ u _ Hl HQ) by lia. cbn [bind]. now rewrite PU.
  - destruct (N.leb_spec a c); [lia|]. destruct (N.ltb_spec c b); [|lia]. cbn [andb].
    rewrite (IH h _ _ _ _ _ _ u _ Hr HQ) by lia. cbn [bind]. now rewrite PU.
  - destruct (N.leb_spec a c); [|lia]. destruct (N.ltb_spec c b); [|lia]. cbn [andb].
    rewrite N.min_r, wadd1 by lia.
    rewrite (IH h _ _ _ _ _ _ ul _ Hl HQl) by lia. cbn [bind]. rewrite (IH h _ _ _ _ _ _ ur _ Hr HQr) by lia. cbn [bind].
    now rewrite PU.
Qed.

Lemma set_range_made : forall h pos s e, pos < sizeN h ->
  exists n m, set_range tr h pos s e = Val (set_nth h (N.to_nat pos) n) /\ cell h pos = Some m /\
    start n = s /\ end_ n = e /\ index n = pos /\ value n = value m.
Proof.
  intros h pos s e H. destruct (cell_lt h pos H) as (m & C). unfold set_range.
  rewrite (get_ok _ _ _ C). cbn [bind]. rewrite (put_ok _ _ _ _ C).
  eexists. exists m. split; [reflexivity|]. repeat (split; [trivial|]). trivial.
Qed.

Section Build.
Variable input : list T.
Variable size : N.
Hypothesis LEAVES : forall i, i < size -> exists x, cell input i = Some x /\ X i = build_leaf tr x i.
Hypothesis SIZE : size < 2 ^ 60.
(** What a cell of the new heap holds: what it held, or the value of a node. *)
Definition old_or_made h h' (s e : N) : Prop := forall q m, cell h' q = Some m ->
  (exists m0, cell h q = Some m0 /\ value m = value m0) \/
  exists a b t, s <= a /\ b <= e /\ halved a b t /\ value m = eval (join tr) X t.
Lemma old_refl : forall h s e, old_or_made h h s e.
Proof. intros h s e q m C. left. eauto. Qed.
Lemma old_trans : forall h1 h2 h3 s1 e1 s2 e2 s e, old_or_made h1 h2 s1 e1 -> old_or_made h2 h3 s2 e2 ->
  s <= s1 -> e1 <= e -> s <= s2 -> e2 <= e -> old_or_made h1 h3 s e.
Proof.
  intros h1 h2 h3 s1 e1 s2 e2 s e H K A1 B1 A2 B2 q m C. destruct (K q m C) as [(m0 & C0 & V)|(a & b & t & ? & ? & ? & ?)].
  - destruct (H q m0 C0) as [(m1 & C1 & V1)|(a & b & t & ? & ? & ? & ?)].
    + left. exists m1. split; [trivial|congruence].
    + right. exists a, b, t. rewrite V. repeat split; trivial; lia.
  - right. exists a, b, t. repeat split; trivial; lia.
Qed.
Lemma old_set : forall h pos n m s e, cell h pos = Some m ->
  value n = value m \/ (exists t, halved s e t /\ value n = eval (join tr) X t) -> old_or_made h (set_nth h (N.to_nat pos) n) s e.
Proof.
  intros h pos n m s e C V q k K. destruct (N.eq_dec q pos) as [->|NE].
  - rewrite (cell_put_eq _ _ _ _ C) in K. injection K as <-. destruct V as [V|(t & H & V)]; [left; eauto|].
    right. exists s, e, t. repeat split; trivial; lia.
  - rewrite cell_put_neq in K by trivial. left. eauto.
Qed.

Lemma build_range_made : forall fuel h pos s e n k K, cell h pos = Some n ->
  start n = s -> end_ n = e -> index n = pos ->
  s <= e -> e < size ->
  K <= 61 -> k <= K -> pos + 1 < 2 ^ (k + 1) -> e - s + 1 <= 2 ^ (K - k) -> (forall q, takes pos (e - s + 1) q -> q < sizeN h) ->
  (N.to_nat (e - s) < fuel)%nat ->
  exists h' t, build_range tr fuel h input pos = Val h' /\ made h' pos s e t /\
    sizeN h' = sizeN h /\ (forall q, ~ under pos q -> cell h' q = cell h q) /\ old_or_made h h' s e.
Proof.
  induction fuel as [|fuel IH]; intros h pos s e n k K C S E I LE EA K61 KK PK LK HK F; [lia|].
  assert (B60 : 2 ^ 62 = 4 * 2 ^ 60) by reflexivity.
  cbn [build_range]. rewrite (get_ok _ _ _ C). cbn [bind]. rewrite S, E.
  destruct (N.ltb_spec s e) as [L|L].
  - rewrite (center_eq n s e) by (trivial; lia).
    pose proof (center_between s e L) as CB.
    assert (C2 : 2 * ((s + e) / 2) <= s + e) by (apply N.mul_div_le; discriminate).
    assert (C3 : s + e < 2 * ((s + e) / 2) + 2).
    { pose proof (N.mul_succ_div_gt (s + e) 2 ltac:(discriminate)). lia. }
    set (c := (s + e) / 2) in *.
    assert (Kk : k < K).
    { destruct (N.eq_dec k K) as [->|]; [|lia]. rewrite N.sub_diag in LK. cbn in LK. lia. }
    assert (LK' : 2 ^ (K - k) = 2 * 2 ^ (K - (k + 1))).
    { rewrite <- N.pow_succ_r'. f_equal. lia. }
    assert (PK' : 2 ^ (k + 1 + 1) = 2 * 2 ^ (k + 1)).
    { rewrite <- N.pow_succ_r'. f_equal. lia. }
    assert (PKK : 2 ^ (k + 1 + 1) <= 2 ^ (K + 1)) by (apply N.pow_le_mono_r; lia).
    assert (PK1 : 2 ^ (k + 1) <= 2 ^ 61) by (apply N.pow_le_mono_r; lia).
    assert (B61 : 2 ^ 62 = 2 * 2 ^ 61) by reflexivity.
    destruct (halves s e L) as (HL & HR). fold c in HL, HR.
    assert (BL : forall q, takes (2 * pos + 1) (c - s + 1) q -> q < sizeN h) by (intros q Q; apply HK; apply takes_left; [lia|now rewrite HL]).
    assert (BR : forall q, takes (2 * pos + 2) (e - (c + 1) + 1) q -> q < sizeN h) by (intros q Q; apply HK; apply takes_right; [lia|now rewrite HR]).
    pose proof (BL _ (takes_one _ _)) as BL0. pose proof (BR _ (takes_one _ _)) as BR0.
    unfold lower_bound, upper_bound. rewrite I, left_small, right_small by lia.
    destruct (set_range_made h (2 * pos + 1) s c) as (nl & ml & E1 & Ml & Sl & El & Il & Vl); [lia|].
    rewrite E1. cbn [bind]. set (h1 := set_nth h (N.to_nat (2 * pos + 1)) nl).
    assert (Z1 : sizeN h1 = sizeN h) by apply sizeN_set.
    rewrite wadd1 by lia.
    destruct (set_range_made h1 (2 * pos + 2) (c + 1) e) as (nr & mr & E2 & Mr & Sr & Er & Ir & Vr); [lia|].
    rewrite E2. cbn [bind]. set (h2 := set_nth h1 (N.to_nat (2 * pos + 2)) nr).
    assert (Z2 : sizeN h2 = sizeN h) by (unfold h2; now rewrite sizeN_set).
    assert (Cl2 : cell h2 (2 * pos + 1) = Some nl).
    { unfold h2. rewrite cell_put_neq by lia. unfold h1. apply cell_set_eq. lia. }
    assert (Cr2 : cell h2 (2 * pos + 2) = Some nr) by (unfold h2; apply cell_set_eq; lia).
    assert (Cp2 : cell h2 pos = Some n) by (unfold h2, h1; rewrite !cell_put_neq by lia; trivial).
    destruct (IH h2 (2 * pos + 1) s c nl (k + 1) K Cl2) as (h3 & tl & E3 & R3 & Z3 & K3 & O3); trivial; try lia.
    { intros q Q. rewrite Z2. auto. }
    rewrite E3. cbn [bind].
    assert (Cr3 : cell h3 (2 * pos + 2) = Some nr).
    { rewrite K3; [trivial|]. intro Q. apply (under_disjoint pos (2 * pos + 2) Q). constructor. }
    assert (Cp3 : cell h3 pos = Some n).
    { rewrite K3; [trivial|]. intro Q. apply under_le in Q. lia. }
    destruct (IH h3 (2 * pos + 2) (c + 1) e nr (k + 1) K Cr3) as (h4 & tr' & E4 & R4 & Z4 & K4 & O4); trivial; try lia.
    { intros q Q. rewrite Z3, Z2. auto. }
    rewrite E4. cbn [bind].
    assert (R3' : made h4 (2 * pos + 1) s c tl).
    { apply made_frame with h3; [trivial|]. intros q Q. apply K4. intro. now apply (under_disjoint pos q). }
    assert (Cp4 : cell h4 pos = Some n).
    { rewrite K4; [trivial|]. intro Q. apply under_le in Q. lia. }
    destruct (made_cell _ _ _ _ _ R3') as (wl & Wl & _ & _ & _ & WVl & _).
    destruct (made_cell _ _ _ _ _ R4) as (wr & Wr & _ & _ & _ & WVr & _).
    unfold pull_up. rewrite (get_ok _ _ _ Wl), (get_ok _ _ _ Wr), (get_ok _ _ _ Cp4). cbn [bind]. rewrite (put_ok _ _ _ _ Cp4), WVl, WVr.
    set (n5 := with_value n _). set (h5 := set_nth h4 (N.to_nat pos) n5).
    assert (F5 : forall q, q <> pos -> cell h5 q = cell h4 q) by (intros q Q; now apply cell_put_neq).
    assert (NL : forall q, under (2 * pos + 1) q -> q <> pos) by (intros q Hq; apply under_le in Hq; lia).
    assert (NR : forall q, under (2 * pos + 2) q -> q <> pos) by (intros q Hq; apply under_le in Hq; lia).
    assert (M5 : made h5 pos s e (Two tl tr')).
    { apply made_node with n5; trivial; try lia.
      - eapply cell_put_eq; eassumption.
      - fold c. apply made_frame with h4; [trivial|]. auto.
      - fold c. apply made_frame with h4; [trivial|]. auto. }
    exists h5, (Two tl tr'). split; [reflexivity|]. split; [trivial|].
    split; [unfold h5; rewrite sizeN_set; congruence|]. split.
    + intros q Q.
      assert (q <> pos) by (intros ->; apply Q; constructor).
      assert (~ under (2 * pos + 1) q) by (intro; apply Q; now apply under_left).
      assert (~ under (2 * pos + 2) q) by (intro; apply Q; now apply under_right).
      rewrite F5, K4, K3 by trivial. unfold h2, h1. rewrite !cell_put_neq; trivial; intros ->.
      * apply Q. apply under_left. constructor.
      * apply Q. apply under_right. constructor.
    + apply (old_trans h h4 h5 s e s e); try lia.
      * apply (old_trans h h3 h4 s e (c + 1) e); trivial; try lia.
        apply (old_trans h h2 h3 s e s c); trivial; try lia.
        apply (old_trans h h1 h2 s e s e); try lia.
        -- apply (old_set h _ _ ml); auto.
        -- apply (old_set h1 _ _ mr); auto.
      * apply (old_set h4 _ _ n); trivial. right. exists (Two tl tr'). split; [exact (made_halved _ _ _ _ _ M5)|reflexivity].
  - assert (s = e) by lia. subst s. destruct (LEAVES e EA) as (x & Cx & Ca).
    replace (start n) with e by congruence. rewrite Cx. rewrite (put_ok _ _ _ _ C).
    eexists. exists (One e). split; [reflexivity|]. split; [|split; [apply sizeN_set|split]].
    + eapply made_leaf; [eapply cell_put_eq; eassumption|..]; cbn; trivial; try congruence; lia.
    + intros q Q. apply cell_put_neq. intros ->. apply Q. constructor.
    + apply (old_set h _ _ n); trivial. right. exists (One e). split; [constructor|]. cbn. congruence.
Qed.
End Build.
End Tree.

Lemma leaf_at_cell : forall T R U (tr : transform T R U) v i x, cell v i = Some x -> leaf_at tr v i = build_leaf tr x i.
Proof.
  intros T R U tr v i x C. unfold leaf_at. apply nth_error_nth. pose proof (leaves_cell tr v i) as L. rewrite C in L. exact L.
Qed.
Lemma build_made : forall T R U (tr : transform T R U), read_only tr -> forall required, enough required ->
  forall fuel t0 v k, let w := firstn (N.to_nat k) v in 0 < sizeN w -> sizeN v < 2 ^ 60 -> (length v <= fuel)%nat ->
  exists t b, build tr required fuel t0 v k = Val t /\ built_heap t = true /\ size t = sizeN w /\
    made tr (leaf_at tr w) (heap t) 0 0 (sizeN w - 1) b /\
    forall q m, cell (heap t) q = Some m ->
      (exists m0, cell (heap t0) q = Some m0 /\ value m = value m0) \/ value m = no_value tr \/
      exists a b t, b < sizeN w /\ halved a b t /\ value m = eval (join tr) (leaf_at tr w) t.
Proof.
  intros T R U tr RO required ENOUGH fuel t0 v k w W0 B F. unfold build.
  assert (Lw : length w = Nat.min (N.to_nat k) (length v)) by (unfold w; apply firstn_length).
  assert (NE : (if k <? sizeN v then k else sizeN v) = sizeN w).
  { unfold sizeN in *. destruct (N.ltb_spec k (N.of_nat (length v))); lia. }
  rewrite NE. assert (WB : sizeN w < 2 ^ 60) by (unfold sizeN in *; lia).
  destruct (N.eqb_spec (sizeN w) 0) as [|_]; [lia|].
  pose proof (ENOUGH (sizeN w) (conj W0 WB)) as EN.
  set (h0 := if sizeN (heap t0) <? required (sizeN w) then _ else _).
  assert (H0 : sizeN h0 = N.max (sizeN (heap t0)) (required (sizeN w))).
  { unfold h0. destruct (N.ltb_spec (sizeN (heap t0)) (required (sizeN w))); [rewrite resize_size|]; lia. }
  assert (V0 : forall q m, cell h0 q = Some m -> (exists m0, cell (heap t0) q = Some m0 /\ value m = value m0) \/ value m = no_value tr).
  { intros q m C. unfold h0 in C. destruct (N.ltb_spec (sizeN (heap t0)) (required (sizeN w))) as [L|L]; [|left; eauto].
    unfold resize in C. destruct (N.ltb_spec q (sizeN (heap t0))) as [Q|Q].
    - left. exists m. split; [|trivial]. unfold cell, sizeN in *.
      rewrite firstn_all2 in C by lia. rewrite nth_error_app1 in C by lia. exact C.
    - right. unfold cell, sizeN in *. rewrite firstn_all2 in C by lia. rewrite nth_error_app2 in C by lia.
      apply nth_error_In, repeat_spec in C. now subst m. }
  assert (H0' : 0 < sizeN h0) by (pose proof (EN 0 (takes_one _ _)); lia).
  unfold set_root. rewrite at_put_ok by lia. cbn [bind].
  assert (B64 : two64 = 16 * 2 ^ 60) by reflexivity.
  rewrite wsub1 by lia.
  set (nr := mkNode 0 (sizeN w - 1) 0 (no_value tr, no_update tr)). set (h1 := set_nth h0 (N.to_nat 0) nr).
  assert (Z1 : sizeN h1 = sizeN h0) by apply sizeN_set.
  assert (C1 : cell h1 0 = Some nr) by (apply cell_set_eq; lia).
  assert (LOG : N.log2 (sizeN w) < 60) by (apply N.log2_lt_pow2; lia).
  destruct (N.log2_spec (sizeN w) W0) as (_ & LG).
  destruct (build_range_made tr (leaf_at tr w) v (sizeN w)) with (fuel := fuel) (h := h1) (pos := 0) (s := 0) (e := sizeN w - 1) (n := nr)
    (k := 0) (K := N.log2 (sizeN w) + 1) as (h2 & b & E2 & R2 & Z2 & _ & O2); trivial; try lia.
  - intros i Hi. destruct (cell_lt w i Hi) as (x & Cx). exists x. split; [|now apply leaf_at_cell].
    unfold w, cell in Cx. rewrite nth_error_firstn_lt in Cx; [exact Cx|]. unfold sizeN in Hi. lia.
  - replace (N.log2 (sizeN w) + 1 - 0) with (N.succ (N.log2 (sizeN w))) by lia. lia.
  - intros q Q. replace (sizeN w - 1 - 0 + 1) with (sizeN w) in Q by lia. apply EN in Q. lia.
  - unfold sizeN in *. lia.
  - rewrite E2. cbn [bind]. eexists. exists b. split; [reflexivity|]. cbn [built_heap size heap].
    split; [trivial|]. split; [trivial|]. split; [exact R2|].
    intros q m C. destruct (O2 q m C) as [(m0 & C0 & V)|(a & c & t & A1 & B1 & H & V)].
    + rewrite V. destruct (N.eq_dec q 0) as [->|NQ].
      * right. left. rewrite C1 in C0. injection C0 as <-. reflexivity.
      * unfold h1 in C0. rewrite cell_put_neq in C0 by trivial. destruct (V0 q m0 C0) as [X|X]; auto.
    + right. right. exists a, c, t. split; [lia|auto].
Qed.
Lemma query_made : forall T R U (tr : transform T R U), read_only tr -> forall fuel t X b s e lo hi u,
  built_heap t = true -> 0 < size t < 2 ^ 60 -> made tr X (heap t) 0 0 (size t - 1) b ->
  clamp (size t) (N.min s e) = lo -> clamp (size t) (N.max s e) = hi -> asked 0 (size t - 1) lo hi u ->
  (N.to_nat (size t) <= fuel)%nat -> query tr fuel t s e = Val (t, eval (join tr) X u).
Proof.
  intros T R U tr RO fuel t X b s e lo hi u BU SZ M LO HI Q F. unfold query. rewrite BU. cbn [negb].
  destruct (made_cell _ _ _ _ _ _ _ M) as (n & C & _). unfold head. rewrite (at_ok _ _ _ C). cbn [bind].
  unfold fixed_start, fixed_end. assert (B64 : two64 = 16 * 2 ^ 60) by reflexivity. rewrite wsub1 by lia.
  unfold clamp in LO, HI. rewrite LO, HI. rewrite (range_query_made tr RO X fuel _ _ _ _ _ _ _ u _ M Q) by lia. cbn [bind].
  destruct t as [sz h bu]. cbn in *. now rewrite BU.
Qed.

Lemma bracketing : forall n lo hi, 0 < n < 2 ^ 60 -> lo <= hi -> hi < n ->
  exists b, flatten b = from_to lo hi /\ depth b <= N.log2_up n /\ always n lo hi b.
Proof.
  intros n lo hi N0 LH HN. destruct (asked_total (N.to_nat (n - 1 - 0)) 0 (n - 1) lo hi) as (b & Q); try lia.
  exists b. split; [exact (asked_flat _ _ _ _ _ Q)|]. split.
  { pose proof (asked_depth _ _ _ _ _ Q) as D. replace (n - 1 - 0 + 1) with n in D by lia. exact D. }
  intros T R U tr RO v k s e w W B LO HI required EN fuel t0 F.
  destruct (build_made T R U tr RO required EN fuel t0 v k) as (t & bb & E & BU & SZ & M & _); [fold w; lia|trivial..|].
  fold w in SZ, M. exists t. split; [exact E|]. rewrite W in SZ. rewrite <- SZ in *.
  apply (query_made T R U tr RO fuel t (leaf_at tr w) bb s e lo hi b); trivial.
  - rewrite W in M. exact M.
  - unfold sizeN in W. assert (length w <= length v)%nat by (unfold w; rewrite firstn_length; lia). lia.
Qed.

(** ** Elements *)
Lemma eval_ext : forall R (j : R -> R -> R) X Y t, (forall i, In i (flatten t) -> X i = Y i) -> eval j X t = eval j Y t.
Proof.
  intros R j X Y. induction t as [i|l IHl r IHr]; intros H; cbn in *; [apply H; now left|].
  f_equal; [apply IHl|apply IHr]; intros i I; apply H; apply in_or_app; auto.
Qed.
Lemma in_from_to : forall lo hi i, lo <= hi -> In i (from_to lo hi) -> lo <= i <= hi.
Proof.
  intros lo hi i L H. unfold from_to in H. apply in_map_iff in H as (k & <- & K). apply in_seq in K. lia.
Qed.
(** What is outside of the range plays no role. *)
Lemma outside : forall T R U (tr : transform T R U), read_only tr -> forall v v' s e, let n := sizeN v in
  0 < n < 2 ^ 60 -> sizeN v' = n ->
  (forall i, clamp n (N.min s e) <= i <= clamp n (N.max s e) -> cell v i = cell v' i) ->
  exists r, answers tr v n s e r /\ answers tr v' n s e r.
Proof.
  intros T R U tr RO v v' s e n N0 N' C. set (lo := clamp n (N.min s e)) in *. set (hi := clamp n (N.max s e)) in *.
  assert (L : lo <= hi /\ hi < n) by (unfold lo, hi, clamp, n in *; lia). destruct L as (L & H).
  destruct (bracketing n lo hi N0 L H) as (b & FL & _ & A). exists (eval (join tr) (leaf_at tr v) b).
  assert (V : firstn (N.to_nat n) v = v) by (apply firstn_all2; unfold n, sizeN; lia).
  assert (V' : firstn (N.to_nat n) v' = v') by (apply firstn_all2; rewrite <- N'; unfold sizeN; lia).
  pose proof (A T R U tr RO v n s e) as A1. pose proof (A T R U tr RO v' n s e) as A2. cbv zeta in A1, A2. rewrite V in A1. rewrite V' in A2.
  split; [apply A1; trivial; unfold n in *; lia|].
  replace (eval (join tr) (leaf_at tr v) b) with (eval (join tr) (leaf_at tr v') b); [apply A2; trivial; lia|].
  symmetry. apply eval_ext. intros i I. rewrite FL in I. apply in_from_to in I; [|trivial]. destruct (cell_lt v i ltac:(unfold n in *; lia)) as (x & Cx).
  rewrite (leaf_at_cell _ _ _ tr v i x Cx). rewrite C in Cx by trivial. now rewrite (leaf_at_cell _ _ _ tr v' i x Cx).
Qed.
(** One computation settles the answer. *)
Lemma computed : forall T R U (tr : transform T R U), read_only tr -> forall v s e r, 0 < sizeN v < 2 ^ 60 ->
  (let* t := build tr (fun n => 4 * n) (length v) empty_tree v (sizeN v) in
   let* (_, r) := query tr (length v) t s e in Val r) = Val r ->
  answers tr v (sizeN v) s e r.
Proof.
  intros T R U tr RO v s e r N0 E. set (n := sizeN v) in *. set (lo := clamp n (N.min s e)). set (hi := clamp n (N.max s e)).
  assert (L : lo <= hi /\ hi < n) by (unfold lo, hi, clamp, n in *; lia). destruct L as (L & H).
  destruct (bracketing n lo hi N0 L H) as (b & _ & _ & A). specialize (A T R U tr RO v n s e). cbv zeta in A.
  assert (V : firstn (N.to_nat n) v = v) by (apply firstn_all2; unfold n, sizeN; lia). rewrite V in A.
  specialize (A eq_refl ltac:(unfold n in *; lia) eq_refl eq_refl).
  destruct (A (fun n => 4 * n) enough_4n (length v) empty_tree (le_n _)) as (t & E1 & E2).
  rewrite E1 in E. cbn [bind] in E. rewrite E2 in E. cbn [bind] in E. injection E as <-. exact A.
Qed.
Lemma sub_from_to : forall R (d : R) v k lo hi, (N.to_nat (hi - lo) <= k)%nat -> lo <= hi -> hi < sizeN v ->
  map (fun i => nth (N.to_nat i) v d) (from_to lo hi) = sub 0 lo hi v.
Proof.
  intros R d v. induction k as [|k IH]; intros lo hi K L H.
  - assert (lo = hi) by lia. subst lo. unfold from_to. rewrite N.sub_diag. cbn. rewrite N.add_0_r.
    destruct (cell_lt v hi H) as (x & C). rewrite (sub_one v 0 hi x); [|lia|now rewrite N.sub_0_r].
    f_equal. now apply nth_error_nth.
  - destruct (N.eq_dec lo hi) as [E|NE]; [apply IH; lia|].
    rewrite <- (from_to_split lo lo hi), map_app, (sub_split v 0 lo lo hi) by lia. f_equal; apply IH; lia.
Qed.
Lemma sub_infix : forall R (v : list R) lo hi, lo <= hi -> hi < sizeN v -> exists a c, v = a ++ sub 0 lo hi v ++ c.
Proof.
  intros R v lo hi L H. assert (E0 : v = sub 0 0 (sizeN v - 1) v) by (symmetry; apply sub_all; lia).
  exists (match lo with 0 => [] | _ => sub 0 0 (lo - 1) v end), (if hi =? sizeN v - 1 then [] else sub 0 (hi + 1) (sizeN v - 1) v).
  assert (E1 : sub 0 lo (sizeN v - 1) v = sub 0 lo hi v ++ (if hi =? sizeN v - 1 then [] else sub 0 (hi + 1) (sizeN v - 1) v)).
  { destruct (N.eqb_spec hi (sizeN v - 1)) as [->|N]; [now rewrite app_nil_r|]. apply sub_split; lia. }
  rewrite <- E1. etransitivity; [exact E0|]. destruct lo as [|p]; [reflexivity|]. rewrite (sub_split v 0 0 (N.pos p - 1) (sizeN v - 1)) by lia.
  now replace (N.pos p - 1 + 1) with (N.pos p) by lia.
Qed.
(** The answer in terms of the elements. *)
Lemma answer_elements : forall T R U (tr : transform T R U) (f : T -> R) v s e, read_only tr -> (forall x i, build_leaf tr x i = f x) ->
  0 < sizeN v < 2 ^ 60 -> let n := sizeN v in let w := sub 0 (clamp n (N.min s e)) (clamp n (N.max s e)) v in
  exists b, depth b <= N.log2_up n /\ flatten b = from_to (clamp n (N.min s e)) (clamp n (N.max s e)) /\ forall d,
    map (fun i => nth (N.to_nat i) v d) (flatten b) = w /\
    answers tr v n s e (eval (join tr) (fun i => f (nth (N.to_nat i) v d)) b).
Proof.
  intros T R U tr f v s e RO BL N0 n w. set (lo := clamp n (N.min s e)) in *. set (hi := clamp n (N.max s e)) in *.
  assert (L : lo <= hi /\ hi < n) by (unfold lo, hi, clamp, n in *; lia). destruct L as (L & H).
  destruct (bracketing n lo hi N0 L H) as (b & FL & D & A). exists b. split; [trivial|]. split; [trivial|]. intros d. rewrite FL. split.
  - apply (sub_from_to T d v (N.to_nat (hi - lo))); trivial.
  - specialize (A T R U tr RO v n s e). cbv zeta in A.
    assert (V : firstn (N.to_nat n) v = v) by (apply firstn_all2; unfold n, sizeN; lia). rewrite V in A.
    rewrite (eval_ext _ _ (fun i => f (nth (N.to_nat i) v d)) (leaf_at tr v)); [apply A; trivial; lia|].
    intros i I. rewrite FL in I. apply in_from_to in I; [|trivial]. destruct (cell_lt v i ltac:(unfold n in *; lia)) as (x & C).
    rewrite (leaf_at_cell _ _ _ tr v i x C), BL. f_equal. symmetry. now apply nth_error_nth with (d := d) in C.
Qed.

(** ** Signed integers *)
Local Open Scope Z_scope.
Lemma zsum_app : forall a b, zsum (a ++ b) = zsum a + zsum b.
Proof. intros a b. unfold zsum. induction a as [|x a IH]; cbn; [reflexivity|]. lia. Qed.
Lemma eval_checked : forall b x t, (forall p w c, flatten t = p ++ w ++ c -> fits b (zsum (map x w))) ->
  eval (join (checked_sum b)) (fun i => Some (x i)) t = Some (zsum (map x (flatten t))).
Proof.
  intros b x. induction t as [i|l IHl r IHr]; intros H; cbn [eval flatten map].
  - cbn. do 2 f_equal. lia.
  - rewrite IHl, IHr.
    + cbn [join checked_sum]. rewrite map_app, zsum_app. rewrite chk_ok; [reflexivity|].
      rewrite <- zsum_app, <- map_app. apply (H [] _ []). cbn. now rewrite app_nil_r.
    + intros p w c E. apply (H (flatten l ++ p) w c). cbn. now rewrite E, <- app_assoc.
    + intros p w c E. apply (H p w (c ++ flatten r)). cbn. now rewrite E, <- !app_assoc.
Qed.
Lemma zsum_abs : forall l, Z.abs (zsum l) <= zsum (map Z.abs l) /\ 0 <= zsum (map Z.abs l).
Proof. intros l. unfold zsum. induction l as [|x l (IH1 & IH2)]; cbn [map fold_right]; lia. Qed.
Lemma infix_abs : forall v a w c, v = a ++ w ++ c -> Z.abs (zsum w) <= zsum (map Z.abs v).
Proof.
  intros v a w c ->. rewrite !map_app, !zsum_app. pose proof (zsum_abs a). pose proof (zsum_abs w). pose proof (zsum_abs c). lia.
Qed.
Lemma fit_abs : forall b v, zsum (map Z.abs v) <= imax b -> all_sums_fit b v.
Proof. intros b v H a w c E. apply infix_abs in E. unfold fits, imin, imax in *. lia. Qed.
Lemma small_abs : forall v, zsum (map Z.abs v) <= 2 ^ 53 -> sums_small v.
Proof. intros v H a w c E. apply infix_abs in E. unfold small. lia. Qed.
Lemma map_infix : forall A B (f : A -> B) l p w c, l = p ++ w ++ c -> map f l = map f p ++ map f w ++ map f c.
Proof. intros A B f l p w c ->. now rewrite !map_app. Qed.
Lemma checked_ok : forall b v, all_sums_fit b v -> forall s e, (0 < sizeN v < 2 ^ 60)%N ->
  let n := sizeN v in
  answers (checked_sum b) v n s e (Some (zsum (sub 0 (clamp n (N.min s e)) (clamp n (N.max s e)) v))).
Proof.
  intros b v FIT s e N0 n.
  destruct (answer_elements Z (option Z) unit (checked_sum b) Some v s e) as (t & _ & _ & A); [now intros []|reflexivity|trivial|].
  destruct (A 0) as (FL & AN). fold n in FL, AN. rewrite <- FL. rewrite <- (eval_checked b); [exact AN|].
  intros p w c E. apply (map_infix _ _ (fun i => nth (N.to_nat i) v 0)) in E. rewrite FL in E.
  destruct (sub_infix Z v (clamp n (N.min s e)) (clamp n (N.max s e))) as (a & d & V); [unfold clamp; lia|unfold clamp, n; lia|].
  rewrite E in V. rewrite <- !app_assoc, app_assoc in V. exact (FIT _ _ _ V).
Qed.
Lemma halved_infix : forall (v : list Z) a b t, halved a b t -> (b < sizeN v)%N ->
  exists p c, v = p ++ map (fun i => nth (N.to_nat i) v 0) (flatten t) ++ c.
Proof.
  intros v a b t H B. pose proof (halved_le _ _ _ H). rewrite (halved_flat _ _ _ H).
  rewrite (sub_from_to Z 0 v (N.to_nat (b - a))) by (trivial; lia). now apply sub_infix.
Qed.
Lemma checked_calm : forall b v, all_sums_fit b v -> (0 < sizeN v < 2 ^ 60)%N ->
  forall required, enough required -> forall fuel t0, (length v <= fuel)%nat -> calm t0 ->
  exists t, build (checked_sum b) required fuel t0 v (sizeN v) = Val t /\ calm t.
Proof.
  intros b v FIT N0 required EN fuel t0 F CA.
  assert (V : firstn (N.to_nat (sizeN v)) v = v) by (apply firstn_all2; unfold sizeN; lia).
  destruct (build_made Z (option Z) unit (checked_sum b) ltac:(now intros []) required EN fuel t0 v (sizeN v)) as (t & bb & E & _ & _ & _ & O); rewrite ?V in *; try lia.
  exists t. split; [exact E|]. unfold calm in *. rewrite Forall_forall in *. intros m I. apply In_nth_error in I as (q & Q).
  destruct (O (N.of_nat q) m) as [(m0 & C0 & ->)|[->|(a & c & u & B & H & ->)]].
  - unfold cell. now rewrite Nat2N.id.
  - apply CA. eapply nth_error_In. exact C0.
  - discriminate.
  - rewrite (eval_ext _ _ _ (fun i => Some (nth (N.to_nat i) v 0))).
    + rewrite eval_checked; [discriminate|]. intros p w d EQ. destruct (halved_infix v a c u H B) as (p' & d' & EV).
      apply (map_infix _ _ (fun i => nth (N.to_nat i) v 0)) in EQ. rewrite EQ in EV. rewrite <- !app_assoc, app_assoc in EV. exact (FIT _ _ _ EV).
    + intros i I. rewrite (halved_flat _ _ _ H) in I. apply in_from_to in I; [|exact (halved_le _ _ _ H)].
      destruct (cell_lt v i ltac:(lia)) as (x & C). rewrite (leaf_at_cell _ _ _ (checked_sum b) v i x C). cbn. f_equal. symmetry.
      now apply nth_error_nth with (d := 0) in C.
Qed.
