(** Proofs about timestamp.h. *)
Require Import ZArith List Lia Bool.
Require Import Verif.StampModel Verif.StampSpec.
Import ListNotations.
Local Open Scope Z_scope.

Lemma run_since : forall cs s d now c, nth_error (run (cs ++ [(now, c)]) s) (length cs) = Some d ->
  d = snd (step c now {| start := since (start s) cs |}).
Proof.
  induction cs as [|[t k] cs IH]; intros s d now c H.
  - cbn in H. destruct (step c now s) as [s' r] eqn:E. cbn in H. injection H as <-. destruct s as [t]. cbn. rewrite E. reflexivity.
  - cbn [app run length nth_error] in H. destruct (step k t s) as [s' r] eqn:E. cbn [nth_error] in H.
    rewrite (IH _ _ _ _ H). unfold since. cbn [fold_left fst snd]. f_equal. f_equal. f_equal.
    destruct k; cbn in E; injection E as <- _; reflexivity.
Qed.
Lemma difference_ok : forall t0 cs unit now d, nth_error (program t0 (cs ++ [(now, Difference unit)])) (length cs) = Some (Some d) ->
  0 < unit -> since t0 cs <= now -> 0 <= d /\ whole unit (now - since t0 cs) d.
Proof.
  intros t0 cs unit now d H U L. unfold program in H. apply run_since in H. cbn in H. injection H as ->. unfold difference, whole. cbn.
  assert (N : 0 <= now - since t0 cs) by lia. rewrite Z.quot_div_nonneg by lia.
  pose proof (Z.div_pos (now - since t0 cs) unit N U). pose proof (Z.mul_div_le (now - since t0 cs) unit U).
  pose proof (Z.mul_succ_div_gt (now - since t0 cs) unit U). split; [lia|]. nia.
Qed.
Lemma whole_unique : forall unit d n m, whole unit d n -> whole unit d m -> n = m.
Proof. unfold whole. intros. nia. Qed.

(** Doubles. *)
Lemma to_double_small : forall z, Z.abs z <= 2 ^ 53 -> to_double z = z.
Proof. intros z L. unfold to_double. rewrite (proj2 (Z.leb_le _ _) L). reflexivity. Qed.
Lemma big_unit : forall z, 2 ^ 53 < z -> let u := 2 ^ (Z.log2 z - 52) in 0 < u /\ 2 ^ 52 * u <= z < 2 ^ 53 * u /\ u = 2 * 2 ^ (Z.log2 z - 53).
Proof.
  intros z L u. assert (G : 53 <= Z.log2 z) by (apply Z.log2_le_pow2; lia).
  pose proof (Z.log2_spec z ltac:(lia)) as [A B]. unfold u.
  split; [apply Z.pow_pos_nonneg; lia|]. split.
  - rewrite <- !Z.pow_add_r by lia. replace (52 + (Z.log2 z - 52)) with (Z.log2 z) by lia. replace (53 + (Z.log2 z - 52)) with (Z.succ (Z.log2 z)) by lia. lia.
  - replace (Z.log2 z - 52) with (1 + (Z.log2 z - 53)) by lia. rewrite Z.pow_add_r by lia. reflexivity.
Qed.
Definition near (z u : Z) : Z :=
  let q := z / u in let r := z mod u in
  if 2 * r <? u then q else if u <? 2 * r then q + 1 else if Z.even q then q else q + 1.
Lemma to_double_big : forall z, 2 ^ 53 < z -> to_double z = near z (2 ^ (Z.log2 z - 52)) * 2 ^ (Z.log2 z - 52).
Proof.
  intros z L. unfold to_double, near. assert (0 < 2 ^ 53) by reflexivity. replace (Z.abs z) with z by lia. rewrite (proj2 (Z.leb_gt _ _) L). rewrite Z.sgn_pos by lia. lia.
Qed.
Lemma near_spec : forall z u, 0 < u -> 2 * Z.abs (near z u * u - z) <= u /\ z / u <= near z u <= z / u + 1.
Proof.
  intros z u U. unfold near. pose proof (Z.div_mod z u ltac:(lia)) as D. pose proof (Z.mod_pos_bound z u U) as B.
  destruct (2 * (z mod u) <? u) eqn:E1; [apply Z.ltb_lt in E1|apply Z.ltb_ge in E1].
  - split; [|lia]. replace (z / u * u - z) with (- (z mod u)) by lia. lia.
  - destruct (u <? 2 * (z mod u)) eqn:E2; [apply Z.ltb_lt in E2|apply Z.ltb_ge in E2].
    + split; [|lia]. replace ((z / u + 1) * u - z) with (u - z mod u) by lia. lia.
    + destruct (Z.even (z / u)); (split; [|lia]).
      * replace (z / u * u - z) with (- (z mod u)) by lia. lia.
      * replace ((z / u + 1) * u - z) with (u - z mod u) by lia. lia.
Qed.
Lemma near_mono : forall u a b, 0 < u -> a <= b -> near a u <= near b u.
Proof.
  intros u a b U L. pose proof (Z.div_le_mono a b u U L) as Q.
  destruct (Z.eq_dec (a / u) (b / u)) as [E|N].
  - unfold near. rewrite <- E. pose proof (Z.div_mod a u ltac:(lia)). pose proof (Z.div_mod b u ltac:(lia)).
    assert (R : a mod u <= b mod u) by (rewrite <- E in *; lia).
    repeat match goal with |- context [if ?c then _ else _] => destruct c eqn:? end;
      repeat match goal with H : (_ <? _) = true |- _ => apply Z.ltb_lt in H | H : (_ <? _) = false |- _ => apply Z.ltb_ge in H end; lia.
  - pose proof (near_spec a u U). pose proof (near_spec b u U). lia.
Qed.
Lemma to_double_mono : forall a b, 0 <= a -> a <= b -> 0 <= to_double a <= to_double b.
Proof.
  intros a b P L.
  assert (P53 : 0 < 2 ^ 53) by reflexivity.
  assert (Pos : forall z, 2 ^ 53 < z -> 2 ^ Z.log2 z <= to_double z <= 2 ^ (Z.log2 z + 1)).
  { intros z G. rewrite (to_double_big z G). destruct (big_unit z G) as (U & [B1 B2] & _). cbn zeta in *. set (u := 2 ^ (Z.log2 z - 52)) in *.
    pose proof (near_spec z u U) as [_ N].
    assert (G' : 53 <= Z.log2 z) by (apply Z.log2_le_pow2; lia).
    assert (E1 : 2 ^ Z.log2 z = 2 ^ 52 * u) by (unfold u; rewrite <- Z.pow_add_r by lia; f_equal; lia).
    assert (E2 : 2 ^ (Z.log2 z + 1) = 2 ^ 53 * u) by (unfold u; rewrite <- Z.pow_add_r by lia; f_equal; lia).
    assert (Q1 : 2 ^ 52 <= z / u) by (apply Z.div_le_lower_bound; lia).
    assert (Q2 : z / u < 2 ^ 53) by (apply Z.div_lt_upper_bound; lia).
    rewrite E1, E2. split; apply Z.mul_le_mono_nonneg_r; lia. }
  assert (Z53 : forall z, 2 ^ 53 < z -> 2 ^ 53 <= 2 ^ Z.log2 z) by (intros z G; apply Z.pow_le_mono_r; [lia|apply Z.log2_le_pow2; lia]).
  destruct (Z.le_gt_cases a (2 ^ 53)) as [A|A]; destruct (Z.le_gt_cases b (2 ^ 53)) as [B|B].
  - rewrite !to_double_small by lia. lia.
  - rewrite (to_double_small a) by lia. specialize (Pos b B). specialize (Z53 b B). lia.
  - lia.
  - pose proof (Pos a A). pose proof (Pos b B). pose proof (Z53 a A). split; [lia|].
    pose proof (Z.log2_le_mono a b L) as Lg. destruct (Z.eq_dec (Z.log2 a) (Z.log2 b)) as [E|N].
    + rewrite (to_double_big a A), (to_double_big b B), <- E. destruct (big_unit a A) as (U & _ & _). cbn zeta in U.
      apply Z.mul_le_mono_nonneg_r; [lia|]. apply near_mono; assumption.
    + assert (2 ^ (Z.log2 a + 1) <= 2 ^ Z.log2 b) by (apply Z.pow_le_mono_r; lia). lia.
Qed.
Lemma to_double_error : forall z, 0 <= z -> Z.abs (to_double z - z) * 2 ^ 53 <= z.
Proof.
  intros z P. destruct (Z.le_gt_cases z (2 ^ 53)) as [A|A].
  - rewrite to_double_small by lia. rewrite Z.sub_diag. cbn. exact P.
  - rewrite (to_double_big z A). destruct (big_unit z A) as (U & [B1 _] & E). cbn zeta in *.
    set (u := 2 ^ (Z.log2 z - 52)) in *. pose proof (near_spec z u U) as [N _]. change (2 ^ 53) with (2 * 2 ^ 52). nia.
Qed.
Lemma elapsed_ok : forall t0 cs unit now x, nth_error (program t0 (cs ++ [(now, Elapsed unit)])) (length cs) = Some (Some x) ->
  0 < unit -> since t0 cs <= now -> 0 <= x /\ exists n, whole unit (now - since t0 cs) n /\ Z.abs (x - n) * 2 ^ 53 <= n /\ (n <= 2 ^ 53 -> x = n).
Proof.
  intros t0 cs unit now x H U L. unfold program in H. apply run_since in H. cbn in H. injection H as ->. unfold elapsed.
  set (d := difference unit now {| start := since t0 cs |}).
  assert (D : 0 <= d /\ whole unit (now - since t0 cs) d).
  { unfold d, difference, whole. cbn. assert (N : 0 <= now - since t0 cs) by lia. rewrite Z.quot_div_nonneg by lia.
    pose proof (Z.div_pos (now - since t0 cs) unit N U). pose proof (Z.mul_div_le (now - since t0 cs) unit U).
    pose proof (Z.mul_succ_div_gt (now - since t0 cs) unit U). split; [lia|]. nia. }
  destruct D as [D0 D]. split; [exact (proj1 (to_double_mono d d D0 (Z.le_refl d)))|]. exists d. split; [exact D|].
  split; [exact (to_double_error d D0)|]. intros S. apply to_double_small. lia.
Qed.
(** Later answers are not smaller. *)
Lemma difference_mono : forall unit s a b, 0 < unit -> start s <= a -> a <= b -> 0 <= difference unit a s <= difference unit b s.
Proof.
  intros unit s a b U A B. unfold difference. rewrite !Z.quot_div_nonneg by lia. split; [apply Z.div_pos; lia|]. apply Z.div_le_mono; lia.
Qed.
Lemma later : forall t0 cs unit now1 mid now2 x y, 0 < unit -> since t0 cs <= now1 <= now2 ->
  (forall t c, In (t, c) mid -> c <> Reset) ->
  nth_error (program t0 (cs ++ [(now1, Elapsed unit)])) (length cs) = Some (Some x) ->
  nth_error (program t0 ((cs ++ [(now1, Elapsed unit)] ++ mid) ++ [(now2, Elapsed unit)])) (length (cs ++ [(now1, Elapsed unit)] ++ mid)) = Some (Some y) ->
  x <= y.
Proof.
  intros t0 cs unit now1 mid now2 x y U [L1 L2] M H1 H2. unfold program in *. apply run_since in H1. apply run_since in H2.
  cbn in H1, H2. injection H1 as ->. injection H2 as ->.
  assert (E : since t0 (cs ++ (now1, Elapsed unit) :: mid) = since t0 cs).
  { unfold since. rewrite fold_left_app. cbn. set (t := fold_left _ cs t0). clearbody t. clear - M. revert t.
    induction mid as [|[a c] mid IH]; intros t; cbn; [reflexivity|]. rewrite IH by (intros ? ? K; eapply M; right; exact K).
    destruct c; [exfalso; apply (M a Reset (or_introl eq_refl)); reflexivity|reflexivity|reflexivity]. }
  rewrite E. unfold elapsed. pose proof (difference_mono unit {| start := since t0 cs |} now1 now2 U L1 L2) as [P Q].
  apply (to_double_mono _ _ P Q).
Qed.
Lemma laps_ok : forall unit times t0, 0 < unit -> steady t0 times ->
  let d := last times t0 - t0 in let n := total (program t0 (laps unit times)) in
  n * unit <= d /\ d <= n * unit + Z.of_nat (length times) * (unit - 1).
Proof.
  intros unit times. cbn zeta. induction times as [|t times IH]; intros t0 U S.
  - cbn. lia.
  - inversion S as [|? ? ? L S']; subst. specialize (IH t U S'). unfold program in *. cbn [laps flat_map app run step fst snd total fold_right length].
    fold (laps unit times). fold (total (run (laps unit times) (reset t (construct t0)))).
    change (reset t (construct t0)) with (construct t). unfold difference. cbn [start construct].
    rewrite Z.quot_div_nonneg by lia. pose proof (Z.div_mod (t - t0) unit ltac:(lia)) as D. pose proof (Z.mod_pos_bound (t - t0) unit U) as B.
    assert (La : last (t :: times) t0 = last times t) by (destruct times; [reflexivity|cbn; clear; revert z; induction times; intros; [reflexivity|cbn; auto]]).
    rewrite La. set (q := (t - t0) / unit) in *. set (r := (t - t0) mod unit) in *. set (m := total _) in *. lia.
Qed.
