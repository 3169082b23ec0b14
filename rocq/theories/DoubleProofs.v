(** Proofs about doubles: the operations of SpecFloat round the exact value to the
    nearest double. *)
Require Import List Arith NArith ZArith Lia Bool Zquot.
Require Import Floats.SpecFloat.
Require Import Verif.Base Verif.DoubleModel Verif.DoubleSpec.
Import ListNotations.
Local Open Scope Z_scope.

(** ** Rounding of integers *)
(** v / 2^k to the nearest integer, ties to even *)
Definition rne (v k : Z) : Z :=
  let q := v / 2 ^ k in
  let r := v mod 2 ^ k in
  if 2 * r <? 2 ^ k then q else if 2 ^ k <? 2 * r then q + 1 else if Z.even q then q else q + 1.
Lemma pow_pos : forall k, 0 <= k -> 0 < 2 ^ k.
Proof. intros. apply Z.pow_pos_nonneg; lia. Qed.
(** lia computes powers; great ones are hidden from it. *)
Ltac hide_power p :=
  try (match goal with
       | |- context [2 ^ p] => idtac
       | H : context [2 ^ p] |- _ => idtac
       end;
       let P := fresh "P" in assert (P : 0 < 2 ^ p) by (apply pow_pos; discriminate);
       let x := fresh "pw" in set (x := 2 ^ p) in *; clearbody x).
Ltac hide_powers := hide_power 1021; hide_power 1074; hide_power 1138; hide_power 2045; hide_power 2098.
Ltac plain_lia := lia.
Ltac plain_nia := nia.
Ltac lia := first [solve [hide_powers; plain_lia] | plain_lia].
Ltac nia := first [solve [hide_powers; plain_nia] | plain_nia].
Lemma pow_add : forall a b, 0 <= a -> 0 <= b -> 2 ^ (a + b) = 2 ^ a * 2 ^ b.
Proof. intros. now apply Z.pow_add_r. Qed.
Lemma pow_pred : forall k, 1 <= k -> 2 ^ k = 2 ^ (k - 1) * 2.
Proof. intros k K. rewrite <- (Z.sub_add 1 k) at 1. rewrite pow_add by lia. reflexivity. Qed.
(** The rounded value is within half a unit. *)
Lemma rne_bounds : forall v k, 0 <= k -> 2 * v - 2 ^ k <= 2 * (rne v k * 2 ^ k) <= 2 * v + 2 ^ k.
Proof.
  intros v k K. pose proof (pow_pos k K) as P. unfold rne. pose proof (Z.div_mod v (2 ^ k) ltac:(lia)) as D.
  pose proof (Z.mod_pos_bound v (2 ^ k) P) as B. set (q := v / 2 ^ k) in *. set (r := v mod 2 ^ k) in *. set (u := 2 ^ k) in *.
  clearbody q r u.
  destruct (Z.ltb_spec (2 * r) u); [lia|]. destruct (Z.ltb_spec u (2 * r)); [lia|]. destruct (Z.even q); lia.
Qed.
(** Anything nearest agrees, unless there are two. *)
Lemma rne_unique : forall v k q, 0 <= k -> 2 * v - 2 ^ k < 2 * (q * 2 ^ k) < 2 * v + 2 ^ k -> rne v k = q.
Proof.
  intros v k q K B. pose proof (rne_bounds v k K) as R. pose proof (pow_pos k K) as P. set (u := 2 ^ k) in *. clearbody u.
  set (p := rne v k) in *. clearbody p. assert (-1 < p - q < 1); [|lia]. nia.
Qed.
Lemma rne_mono : forall v w k, 0 <= k -> v <= w -> rne v k <= rne w k.
Proof.
  intros v w k K L. pose proof (pow_pos k K) as P. unfold rne.
  pose proof (Z.div_mod v (2 ^ k) ltac:(lia)) as D1. pose proof (Z.mod_pos_bound v (2 ^ k) P) as B1.
  pose proof (Z.div_mod w (2 ^ k) ltac:(lia)) as D2. pose proof (Z.mod_pos_bound w (2 ^ k) P) as B2.
  pose proof (Z.div_le_mono v w (2 ^ k) P L) as DL.
  set (q1 := v / 2 ^ k) in *. set (r1 := v mod 2 ^ k) in *. set (q2 := w / 2 ^ k) in *. set (r2 := w mod 2 ^ k) in *.
  set (u := 2 ^ k) in *. clearbody q1 r1 q2 r2 u.
  destruct (Z.eq_dec q1 q2) as [<-|NE].
  - assert (r1 <= r2) by lia.
    destruct (Z.ltb_spec (2 * r1) u), (Z.ltb_spec (2 * r2) u), (Z.ltb_spec u (2 * r1)), (Z.ltb_spec u (2 * r2)), (Z.even q1); lia.
  - destruct (2 * r1 <? u), (u <? 2 * r1), (Z.even q1), (2 * r2 <? u), (u <? 2 * r2), (Z.even q2); lia.
Qed.
Lemma rne_exact : forall q k, 0 <= k -> rne (q * 2 ^ k) k = q.
Proof. intros q k K. pose proof (pow_pos k K). apply rne_unique; [trivial|lia]. Qed.
Lemma rne_nonneg : forall v k, 0 <= k -> 0 <= v -> 0 <= rne v k.
Proof. intros v k K V. rewrite <- (rne_exact 0 k K). apply rne_mono; lia. Qed.
Lemma rne_scale : forall v k j, 0 <= k -> 0 <= j -> rne (v * 2 ^ j) (k + j) = rne v k.
Proof.
  intros v k j K J. unfold rne. pose proof (pow_pos k K) as PK. pose proof (pow_pos j J) as PJ.
  rewrite pow_add by trivial. rewrite Z.div_mul_cancel_r, Z.mul_mod_distr_r by lia.
  set (r := v mod 2 ^ k). set (u := 2 ^ k) in *. set (t := 2 ^ j) in *.
  assert (C : (2 * (r * t) ?= u * t) = (2 * r ?= u)).
  { destruct (Z.compare_spec (2 * r) u).
    - apply Z.compare_eq_iff. nia. - apply Z.compare_lt_iff. nia. - apply Z.compare_gt_iff. nia. }
  assert (C' : (u * t ?= 2 * (r * t)) = (u ?= 2 * r)) by (rewrite (Z.compare_antisym (2 * (r * t))), C, <- Z.compare_antisym; trivial).
  unfold Z.ltb. now rewrite C, C'.
Qed.

(** ** The shifting of SpecFloat *)
(** [mrs] describes v / 2^k: the quotient, the next bit, whether there is more. *)
Definition describes (v k : Z) (mrs : shr_record) : Prop :=
  1 <= k /\ shr_m mrs = v / 2 ^ k /\ shr_r mrs = Z.odd (v / 2 ^ (k - 1)) /\ shr_s mrs = negb (v mod 2 ^ (k - 1) =? 0).
Lemma shr_1_nonneg : forall m r s, 0 <= m -> shr_1 {| shr_m := m; shr_r := r; shr_s := s |} = {| shr_m := m / 2; shr_r := Z.odd m; shr_s := r || s |}.
Proof.
  intros m r s M. destruct m as [|[p|p|]|p]; [reflexivity| | |reflexivity|lia]; cbn [shr_1 Z.odd].
  - f_equal. change (Z.pos p~1) with (2 * Z.pos p + 1). rewrite Z.mul_comm, Z.div_add_l by lia. change (1 / 2) with 0. lia.
  - f_equal. change (Z.pos p~0) with (2 * Z.pos p). rewrite Z.mul_comm, Z.div_mul by lia. lia.
Qed.
Lemma describes_step : forall v k mrs, 0 <= v -> describes v k mrs -> describes v (k + 1) (shr_1 mrs).
Proof.
  intros v k [m r s] V (K & M & R & S). cbn [shr_m shr_r shr_s] in *. subst m.
  pose proof (pow_pos (k - 1) ltac:(lia)) as P. assert (PK : 2 ^ k = 2 ^ (k - 1) * 2) by (apply pow_pred; lia).
  assert (PK1 : 2 ^ (k + 1) = 2 ^ k * 2) by (rewrite pow_add by lia; reflexivity).
  rewrite shr_1_nonneg by (apply Z.div_pos; lia). unfold describes. cbn [shr_m shr_r shr_s]. replace (k + 1 - 1) with k by lia.
  split; [lia|]. split; [rewrite PK1; apply Z.div_div; lia|]. split; [trivial|]. subst r s.
  rewrite PK. rewrite Z.rem_mul_r by lia. pose proof (Z.mod_pos_bound v (2 ^ (k - 1)) P) as B.
  rewrite (Zmod_odd (v / 2 ^ (k - 1))). destruct (Z.odd (v / 2 ^ (k - 1))); cbn [orb].
  - symmetry. apply negb_true_iff, Z.eqb_neq. lia.
  - rewrite Z.mul_0_r, Z.add_0_r. trivial.
Qed.
Lemma describes_iter : forall p v k mrs, 0 <= v -> describes v k mrs -> describes v (k + Z.pos p) (iter_pos shr_1 p mrs).
Proof.
  induction p as [p IH|p IH|]; intros v k mrs V D; cbn [iter_pos].
  - replace (k + Z.pos p~1) with (k + 1 + Z.pos p + Z.pos p) by lia. apply IH; [trivial|]. apply IH; [trivial|]. now apply describes_step.
  - replace (k + Z.pos p~0) with (k + Z.pos p + Z.pos p) by lia. apply IH; [trivial|]. now apply IH.
  - now apply describes_step.
Qed.
Definition code (l : location) : Z :=
  match l with loc_Exact => 0 | loc_Inexact Lt => 1 | loc_Inexact Eq => 2 | loc_Inexact Gt => 3 end.
Lemma code_bounds : forall l, 0 <= code l <= 3.
Proof. intros [|[]]; cbn; lia. Qed.
Lemma describes_loc : forall m l, 0 <= m -> describes (4 * m + code l) 2 (shr_record_of_loc m l).
Proof.
  intros m l M. unfold describes. change (2 ^ 2) with 4. change (2 ^ (2 - 1)) with 2.
  assert (Q : (4 * m + code l) / 4 = m) by (pose proof (code_bounds l); symmetry; apply (Z.div_unique _ _ _ (code l)); lia).
  split; [lia|]. rewrite Q.
  assert (H2 : (4 * m + code l) / 2 = 2 * m + code l / 2) by (replace (4 * m + code l) with (2 * m * 2 + code l) by lia; rewrite Z.div_add_l by lia; lia).
  assert (M2 : (4 * m + code l) mod 2 = code l mod 2) by (replace (4 * m + code l) with (code l + 2 * m * 2) by lia; apply Z.mod_add; lia).
  rewrite H2, M2, Z.odd_add, Z.odd_mul. cbn [Z.odd andb xorb].
  destruct l as [|[]]; cbn [shr_record_of_loc shr_m shr_r shr_s code]; repeat split.
Qed.
Lemma describes_rne : forall v k mrs, 0 <= v -> describes v k mrs -> round_nearest_even (shr_m mrs) (loc_of_shr_record mrs) = rne v k.
Proof.
  intros v k [m r s] V (K & M & R & S). cbn [shr_m shr_r shr_s] in *. subst m.
  pose proof (pow_pos (k - 1) ltac:(lia)) as P. assert (PK : 2 ^ k = 2 ^ (k - 1) * 2) by (apply pow_pred; lia).
  unfold rne. pose proof (Z.rem_mul_r v (2 ^ (k - 1)) 2 ltac:(lia) ltac:(lia)) as RM. rewrite <- PK in RM. rewrite RM.
  rewrite (Zmod_odd (v / 2 ^ (k - 1))), <- R. pose proof (Z.mod_pos_bound v (2 ^ (k - 1)) P) as B. rewrite PK.
  set (q := v / (2 ^ (k - 1) * 2)). set (t := v mod 2 ^ (k - 1)) in *. set (u := 2 ^ (k - 1)) in *. clearbody q t u. clear RM PK. subst s. clear R.
  destruct (Z.eqb_spec t 0) as [->|NZ]; cbn [negb].
  - destruct r; cbn [loc_of_shr_record round_nearest_even];
      (destruct (Z.ltb_spec (2 * (0 + u * 1)) (u * 2)); try lia); try (destruct (Z.ltb_spec (u * 2) (2 * (0 + u * 1))); try lia); trivial.
    destruct (Z.ltb_spec (2 * (0 + u * 0)) (u * 2)); [trivial|lia].
  - destruct r; cbn [loc_of_shr_record round_nearest_even].
    + destruct (Z.ltb_spec (2 * (t + u * 1)) (u * 2)); [lia|]. destruct (Z.ltb_spec (u * 2) (2 * (t + u * 1))); [trivial|lia].
    + destruct (Z.ltb_spec (2 * (t + u * 0)) (u * 2)); [trivial|lia].
Qed.
(** The number of digits. *)
Lemma digits2_log2 : forall p, Z.pos (digits2_pos p) = Z.log2 (Z.pos p) + 1.
Proof.
  induction p as [p IH|p IH|]; cbn [digits2_pos]; [| |reflexivity].
  - change (Z.pos p~1) with (2 * Z.pos p + 1). rewrite Z.log2_succ_double by lia. rewrite Pos2Z.inj_succ, IH. lia.
  - change (Z.pos p~0) with (2 * Z.pos p). rewrite Z.log2_double by lia. rewrite Pos2Z.inj_succ, IH. lia.
Qed.
Lemma Zdigits2_log2 : forall m, 0 < m -> Zdigits2 m = Z.log2 m + 1.
Proof. intros [|p|p] M; [lia| |lia]. apply digits2_log2. Qed.

(** ** Packing *)
(** The double with mantissa [q] (at most 2^53) and exponent [E]. *)
Definition finite_or_inf (s : bool) (q E : Z) : double :=
  match q with
  | Z0 => S754_zero s
  | Z.pos m => if E <=? 971 then S754_finite s m E else S754_infinity s
  | _ => S754_nan
  end.
Definition pack (s : bool) (q E : Z) : double :=
  if q =? 2 ^ 53 then finite_or_inf s (2 ^ 52) (E + 1) else finite_or_inf s q E.
Notation fx := (fexp prec emax).
Lemma fx_spec : forall e, fx e = Z.max (e - 53) (-1074).
Proof. reflexivity. Qed.
Lemma shr_none : forall mrs e n, n <= 0 -> shr mrs e n = (mrs, e).
Proof. intros mrs e [|p|p] N; [reflexivity|lia|reflexivity]. Qed.
Lemma shr_some : forall v k mrs e n, 0 <= v -> describes v k mrs -> 0 <= n ->
  exists mrs', shr mrs e n = (mrs', e + n) /\ describes v (k + n) mrs'.
Proof.
  intros v k mrs e n V D N. destruct n as [|p|p]; [| |lia].
  - exists mrs. rewrite !Z.add_0_r. split; [reflexivity|trivial].
  - exists (iter_pos shr_1 p mrs). split; [reflexivity|]. now apply describes_iter.
Qed.
Lemma shr_m_loc : forall m l, shr_m (shr_record_of_loc m l) = m.
Proof. now intros m [|[]]. Qed.
Lemma log2_lt : forall v k, 0 < v -> 0 <= k -> v < 2 ^ k -> Z.log2 v < k.
Proof. intros v k V K L. apply Z.log2_lt_pow2; lia. Qed.
Lemma second_shift : forall s q E, 0 <= q <= 2 ^ 53 -> -1074 <= E ->
  (let '(mrs, e) := shr_fexp prec emax q E loc_Exact in
   match shr_m mrs with
   | Z0 => S754_zero s
   | Z.pos m => if e <=? emax - prec then S754_finite s m e else S754_infinity s
   | _ => S754_nan
   end) = pack s q E.
Proof.
  intros s q E Q HE. unfold shr_fexp, pack. destruct (Z.eqb_spec q (2 ^ 53)) as [->|NE].
  - replace (fx (Zdigits2 (2 ^ 53) + E) - E) with 1; [reflexivity|].
    rewrite fx_spec. change (Zdigits2 (2 ^ 53)) with 54. lia.
  - rewrite shr_none; [reflexivity|]. rewrite fx_spec. destruct (Z.eq_dec q 0) as [->|NZ]; [cbn [Zdigits2]; lia|].
    rewrite Zdigits2_log2 by lia. pose proof (log2_lt q 53 ltac:(lia) ltac:(lia) ltac:(lia)). lia.
Qed.
(** Rounding: the surrogate 4 m + code l in units of 2^(e-2) stands for the exact
    value. *)
Lemma round_aux : forall s m e l, 0 < m -> e <= fx (Z.log2 m + 1 + e) ->
  let E := fx (Z.log2 m + 1 + e) in
  binary_round_aux prec emax s m e l = pack s (rne (4 * m + code l) (E - e + 2)) E /\
  0 <= rne (4 * m + code l) (E - e + 2) <= 2 ^ 53.
Proof.
  intros s m e l M HE E. change (e <= E) in HE. pose proof (code_bounds l) as CB. unfold binary_round_aux, shr_fexp at 1. rewrite Zdigits2_log2 by lia. fold E.
  destruct (shr_some (4 * m + code l) 2 (shr_record_of_loc m l) e (E - e) ltac:(lia) (describes_loc m l ltac:(lia)) ltac:(lia)) as (mrs & -> & D).
  rewrite (describes_rne (4 * m + code l) (2 + (E - e)) mrs ltac:(lia) D). replace (2 + (E - e)) with (E - e + 2) by lia. replace (e + (E - e)) with E by lia.
  assert (B : 0 <= rne (4 * m + code l) (E - e + 2) <= 2 ^ 53).
  { split; [apply rne_nonneg; lia|]. rewrite <- (rne_exact (2 ^ 53) (E - e + 2) ltac:(lia)). apply rne_mono; [lia|].
    rewrite <- pow_add by lia. assert (m < 2 ^ (53 + (E - e))).
    { apply Z.log2_lt_pow2; [trivial|]. unfold E. rewrite fx_spec. lia. }
    replace (53 + (E - e + 2)) with (2 + (53 + (E - e))) by lia. rewrite (pow_add 2) by lia. change (2 ^ 2) with 4. lia. }
  split; [|trivial]. apply second_shift; [trivial|]. unfold E. rewrite fx_spec. lia.
Qed.

(** ** Values *)
(** [v] in units of 2^-(1074+g) to the nearest double, without the upper limit *)
Definition grain (g v : Z) : Z := Z.max g (Z.log2 v - 52).
Definition rnd (g v : Z) : Z := rne v (grain g v) * 2 ^ grain g v.
Definition rnds (g v : Z) : Z := Z.sgn v * rnd g (Z.abs v).
Lemma rnd_nonneg : forall g v, 0 <= g -> 0 <= v -> 0 <= rnd g v.
Proof. intros g v G V. unfold rnd. assert (0 <= grain g v) by (unfold grain; lia). pose proof (rne_nonneg v (grain g v) H V). pose proof (pow_pos (grain g v) H). nia. Qed.
Lemma log2_bounds : forall v, 0 < v -> 2 ^ Z.log2 v <= v < 2 ^ (Z.log2 v + 1).
Proof. intros v V. apply Z.log2_spec in V. lia. Qed.
Lemma rnd_fix : forall g q k, 0 <= g <= k -> 0 <= q <= 2 ^ 53 -> rnd g (q * 2 ^ k) = q * 2 ^ k.
Proof.
  intros g q k K Q. pose proof (pow_pos k ltac:(lia)) as PK. destruct (Z.eq_dec q 0) as [->|NZ].
  { rewrite Z.mul_0_l. unfold rnd. rewrite <- (Z.mul_0_l (2 ^ grain g 0)) at 1. rewrite rne_exact; [reflexivity|]. unfold grain. cbn. lia. }
  set (v := q * 2 ^ k). assert (V : 0 < v) by (unfold v; nia). unfold rnd. set (j := grain g v).
  assert (J : 0 <= j) by (unfold j, grain; lia).
  assert (JD : exists t, v = t * 2 ^ j).
  { destruct (Z.le_gt_cases j k) as [L|G].
    - exists (q * 2 ^ (k - j)). unfold v. rewrite <- Z.mul_assoc, <- pow_add by lia. do 2 f_equal. lia.
    - (* then q = 2^53 *)
      assert (L2 : Z.log2 v = j + 52) by (unfold j, grain in *; lia).
      pose proof (log2_bounds v V) as (B1 & B2). rewrite L2 in B1, B2.
      assert (Q' : q < 2 ^ 53 \/ q = 2 ^ 53) by lia. destruct Q' as [Q'|Q'].
      + exfalso. assert (v < 2 ^ (k + 53)) by (unfold v; rewrite pow_add by lia; nia).
        assert (2 ^ (k + 53) <= 2 ^ (j + 52)) by (apply Z.pow_le_mono_r; lia). lia.
      + exists (2 ^ (53 + k - j)). unfold v. rewrite Q'. rewrite <- !pow_add; [f_equal; lia| |lia|lia|lia].
        destruct (Z.le_gt_cases j (53 + k)); [lia|exfalso]. unfold v in B1. rewrite Q', <- pow_add in B1 by lia.
        apply Z.pow_le_mono_r_iff in B1; lia. }
  destruct JD as (t & T). clearbody j v. rewrite T. now rewrite rne_exact.
Qed.
Lemma rnd_pow : forall g k, 0 <= g <= k -> rnd g (2 ^ k) = 2 ^ k.
Proof. intros g k K. rewrite <- (Z.mul_1_l (2 ^ k)). apply rnd_fix; lia. Qed.
Lemma rnd_mono : forall g v w, 0 <= g -> 0 <= v <= w -> rnd g v <= rnd g w.
Proof.
  intros g v w G (V & L). pose proof (Z.log2_le_mono v w L) as LL.
  destruct (Z.eq_dec (grain g v) (grain g w)) as [E|NE].
  - unfold rnd. rewrite <- E. pose proof (pow_pos (grain g v) ltac:(unfold grain; lia)).
    apply Z.mul_le_mono_nonneg_r; [lia|]. apply rne_mono; [unfold grain; lia|trivial].
  - assert (LT : grain g v < grain g w) by (unfold grain in *; lia).
    assert (GW : grain g w = Z.log2 w - 52) by (unfold grain in *; lia).
    assert (W : 0 < w) by (destruct (Z.eq_dec w 0) as [->|]; [cbn in GW; unfold grain in *; lia|lia]).
    pose proof (log2_bounds w W) as (B1 & B2). set (lw := Z.log2 w) in *.
    (* 2^lw is between *)
    assert (U : rnd g v <= 2 ^ lw).
    { unfold rnd. set (k := grain g v) in *. assert (K : 0 <= k) by (unfold k, grain; lia).
      assert (v < 2 ^ (k + 53)).
      { destruct (Z.eq_dec v 0) as [->|]; [apply pow_pos; lia|]. pose proof (log2_bounds v ltac:(lia)) as (_ & B).
        assert (2 ^ (Z.log2 v + 1) <= 2 ^ (k + 53)) by (apply Z.pow_le_mono_r; [lia|unfold k, grain; lia]). lia. }
      assert (R : rne v k <= 2 ^ 53).
      { rewrite <- (rne_exact (2 ^ 53) k K). apply rne_mono; [trivial|]. rewrite <- pow_add by lia. replace (53 + k) with (k + 53) by lia. lia. }
      pose proof (pow_pos k K). assert (rne v k * 2 ^ k <= 2 ^ 53 * 2 ^ k) by nia.
      rewrite <- pow_add in H1 by lia. assert (2 ^ (53 + k) <= 2 ^ lw) by (apply Z.pow_le_mono_r; lia). lia. }
    assert (D : 2 ^ lw <= rnd g w).
    { unfold rnd. rewrite GW. set (k := lw - 52) in *. assert (K : 0 <= k) by (unfold grain in *; lia).
      replace (2 ^ lw) with (2 ^ 52 * 2 ^ k) by (rewrite <- pow_add by lia; f_equal; lia).
      pose proof (pow_pos k K). apply Z.mul_le_mono_nonneg_r; [lia|]. rewrite <- (rne_exact (2 ^ 52) k K).
      apply rne_mono; [trivial|]. rewrite <- pow_add by lia. replace (52 + k) with lw by lia. lia. }
    lia.
Qed.
Lemma rnd_scale : forall g v j, 0 <= g -> 0 <= j -> 0 <= v -> rnd (g + j) (v * 2 ^ j) = rnd g v * 2 ^ j.
Proof.
  intros g v j G J V. destruct (Z.eq_dec v 0) as [->|NZ].
  - rewrite Z.mul_0_l. rewrite <- (Z.mul_0_l (2 ^ (g + j))), rnd_fix by lia. rewrite <- (Z.mul_0_l (2 ^ g)), rnd_fix by lia. lia.
  - unfold rnd. assert (E : grain (g + j) (v * 2 ^ j) = grain g v + j) by (unfold grain; rewrite Z.log2_mul_pow2 by lia; lia).
    rewrite E. assert (0 <= grain g v) by (unfold grain; lia). rewrite rne_scale, pow_add by lia. lia.
Qed.
(** The error is at most half a unit in the last place. *)
Lemma rnd_near : forall g v, 0 <= g -> 0 <= v -> 2 * Z.abs (rnd g v - v) <= 2 ^ grain g v.
Proof. intros g v G V. unfold rnd. pose proof (rne_bounds v (grain g v) ltac:(unfold grain; lia)). lia. Qed.

(** ** Values of the results *)
Definition sg (s : bool) (v : Z) : Z := (if s then -1 else 1) * v.
Lemma units_finite : forall s m e, units (S754_finite s m e) = sg s (Z.pos m * 2 ^ (e + 1074)).
Proof. reflexivity. Qed.
Lemma valid_finite : forall s m e, valid (S754_finite s m e) <->
  (-1074 <= e <= 971 /\ Z.pos m < 2 ^ 53 /\ (2 ^ 52 <= Z.pos m \/ e = -1074)).
Proof.
  intros s m e. unfold valid, valid_binary, bounded, canonical_mantissa. rewrite andb_true_iff, digits2_log2.
  change (fexp 53 1024) with fx. rewrite fx_spec. change (1024 - 53) with 971. rewrite Z.leb_le, <- Zeq_is_eq_bool.
  pose proof (log2_bounds (Z.pos m) ltac:(lia)) as (B1 & B2). set (l := Z.log2 (Z.pos m)) in *.
  assert (L : 0 <= l) by apply Z.log2_nonneg. split.
  - intros (A & B). assert (l <= 52) by lia. assert (2 ^ (l + 1) <= 2 ^ 53) by (apply Z.pow_le_mono_r; lia).
    split; [lia|]. split; [lia|]. destruct (Z.eq_dec l 52) as [E|]; [left; rewrite E in B1; lia|right; lia].
  - intros (A & B & C). assert (l < 53) by (apply log2_lt; lia).
    split; [|lia]. destruct C as [C| ->]; [|lia]. assert (52 <= l) by (apply Z.log2_le_pow2; lia). lia.
Qed.
Lemma pack_ok : forall s q E, 0 <= q <= 2 ^ 53 -> -1074 <= E -> (2 ^ 52 <= q \/ E = -1074) ->
  valid (pack s q E) /\
  (q * 2 ^ (E + 1074) < 2 ^ 2098 -> is_finite (pack s q E) /\ units (pack s q E) = sg s (q * 2 ^ (E + 1074))) /\
  (2 ^ 2098 <= q * 2 ^ (E + 1074) -> pack s q E = S754_infinity s).
Proof.
  intros s q E Q HE C. pose proof (pow_pos (E + 1074) ltac:(lia)) as P. unfold pack.
  destruct (Z.eqb_spec q (2 ^ 53)) as [->|NE].
  - rewrite <- pow_add by lia. unfold finite_or_inf. change (2 ^ 52) with (Z.pos 4503599627370496).
    destruct (Z.leb_spec (E + 1) 971) as [L|G].
    + split; [apply valid_finite; change (Z.pos 4503599627370496) with (2 ^ 52); split; [lia|]; split; [reflexivity|left; reflexivity]|].
      split.
      * intros _. split; [exact Logic.I|]. rewrite units_finite. change (Z.pos 4503599627370496) with (2 ^ 52). f_equal. rewrite <- pow_add by lia. f_equal. lia.
      * intros H. apply Z.pow_le_mono_r_iff in H; lia.
    + split; [reflexivity|]. split; [|trivial]. intros H. apply Z.pow_lt_mono_r_iff in H; lia.
  - destruct q as [|m|m]; [| |lia].
    + cbn [finite_or_inf]. split; [reflexivity|]. split; [|rewrite Z.mul_0_l; intros H; pose proof (pow_pos 2098 ltac:(lia)); lia].
      intros _. split; [exact Logic.I|]. destruct s; reflexivity.
    + cbn [finite_or_inf]. destruct (Z.leb_spec E 971) as [L|G].
      * split; [apply valid_finite; lia|]. split; [intros _; split; [exact Logic.I|apply units_finite]|].
        intros H. exfalso. assert (Z.pos m * 2 ^ (E + 1074) < 2 ^ 53 * 2 ^ (E + 1074)) by nia.
        rewrite <- pow_add in H0 by lia. assert (2 ^ (53 + (E + 1074)) <= 2 ^ 2098) by (apply Z.pow_le_mono_r; lia). lia.
      * split; [reflexivity|]. split; [|trivial]. intros H. exfalso. destruct C as [C|C]; [|lia].
        assert (2 ^ 52 * 2 ^ (E + 1074) <= Z.pos m * 2 ^ (E + 1074)) by nia. rewrite <- pow_add in H0 by lia.
        assert (2 ^ 2098 <= 2 ^ (52 + (E + 1074))) by (apply Z.pow_le_mono_r; lia). lia.
Qed.
(** The rounding of an exact value. *)
Lemma aux_value : forall s m e g, 0 < m -> e <= fx (Z.log2 m + 1 + e) -> 0 <= g -> 0 <= e + 1074 + g ->
  let v := m * 2 ^ (e + 1074 + g) in
  let d := binary_round_aux prec emax s m e loc_Exact in
  valid d /\
  (rnd g v < 2 ^ (2098 + g) -> is_finite d /\ units d * 2 ^ g = sg s (rnd g v)) /\
  (2 ^ (2098 + g) <= rnd g v -> d = S754_infinity s).
Proof.
  intros s m e g M HE G EG v d. destruct (round_aux s m e loc_Exact M HE) as (D & B). unfold d. rewrite D. clear d D.
  set (E := fx (Z.log2 m + 1 + e)) in *. change (code loc_Exact) with 0 in *. rewrite Z.add_0_r in *.
  replace (4 * m) with (m * 2 ^ 2) in * by (change (2 ^ 2) with 4; lia). rewrite rne_scale in * by lia.
  assert (FE : E = Z.max (Z.log2 m + 1 + e - 53) (-1074)) by reflexivity.
  assert (GR : grain g v = E + 1074 + g) by (unfold grain, v; rewrite Z.log2_mul_pow2 by lia; lia).
  assert (R : rnd g v = rne m (E - e) * 2 ^ (E + 1074) * 2 ^ g).
  { unfold rnd. rewrite GR. unfold v. replace (E + 1074 + g) with (E - e + (e + 1074 + g)) at 1 by lia. rewrite rne_scale by lia.
    rewrite <- Z.mul_assoc, <- pow_add by lia. reflexivity. }
  assert (C : 2 ^ 52 <= rne m (E - e) \/ E = -1074).
  { destruct (Z.eq_dec E (-1074)) as [|NE]; [now right|left]. rewrite <- (rne_exact (2 ^ 52) (E - e)) by lia. apply rne_mono; [lia|].
    rewrite <- pow_add by lia. replace (52 + (E - e)) with (Z.log2 m) by lia. now apply log2_bounds. }
  destruct (pack_ok s (rne m (E - e)) E B ltac:(lia) C) as (P1 & P2 & P3). split; [exact P1|]. rewrite R, (pow_add 2098 g) by lia.
  pose proof (pow_pos g G) as PG. set (t := rne m (E - e) * 2 ^ (E + 1074)) in *. clearbody t.
  split; intros H.
  - destruct (P2 ltac:(nia)) as (F & U). split; [exact F|]. rewrite U. unfold sg. lia.
  - apply P3. nia.
Qed.
(** [d] is the double nearest to [v] units of 2^-(1074+g). *)
Definition nearest (g v : Z) (s0 : bool) (d : double) : Prop :=
  valid d /\ (rnd g (Z.abs v) < 2 ^ (2098 + g) -> is_finite d /\ units d * 2 ^ g = rnds g v) /\
  (2 ^ (2098 + g) <= rnd g (Z.abs v) -> d = S754_infinity (v <? 0)) /\ (v = 0 -> d = S754_zero s0).
Lemma rnd_0 : forall g, 0 <= g -> rnd g 0 = 0.
Proof. intros g G. rewrite <- (Z.mul_0_l (2 ^ g)), rnd_fix by lia. reflexivity. Qed.
Lemma nearest_zero : forall g s, 0 <= g -> nearest g 0 s (S754_zero s).
Proof.
  intros g s G. unfold nearest, rnds. change (Z.abs 0) with 0. rewrite rnd_0 by trivial. split; [reflexivity|]. split; [|split].
  - intros _. split; [exact Logic.I|reflexivity].
  - intros H. pose proof (pow_pos (2098 + g) ltac:(lia)). lia.
  - reflexivity.
Qed.
Lemma aux_nearest : forall s m e g s0, 0 < m -> e <= fx (Z.log2 m + 1 + e) -> 0 <= g -> 0 <= e + 1074 + g ->
  nearest g (sg s (m * 2 ^ (e + 1074 + g))) s0 (binary_round_aux prec emax s m e loc_Exact).
Proof.
  intros s m e g s0 M HE G EG. pose proof (pow_pos _ EG) as P. destruct (aux_value s m e g M HE G EG) as (A & B & C).
  set (v := m * 2 ^ (e + 1074 + g)) in *. assert (V : 0 < v) by (unfold v; nia). clearbody v.
  assert (AB : Z.abs (sg s v) = v) by (destruct s; unfold sg; lia). unfold nearest, rnds. rewrite AB.
  split; [exact A|]. split; [|split].
  - intros H. destruct (B H) as (F & U). split; [exact F|]. rewrite U. destruct s; unfold sg.
    + rewrite (Z.sgn_neg (-1 * v)) by lia. reflexivity.
    + rewrite (Z.sgn_pos (1 * v)) by lia. reflexivity.
  - intros H. rewrite (C H). f_equal. symmetry. destruct s; unfold sg; [apply Z.ltb_lt|apply Z.ltb_ge]; lia.
  - intros H. destruct s; unfold sg in H; lia.
Qed.
Lemma shift_pos_value : forall d m, Z.pos (shift_pos d m) = Z.pos m * 2 ^ Z.pos d.
Proof. intros. rewrite shift_pos_correct. change (Z.pow_pos 2 d) with (2 ^ Z.pos d). lia. Qed.
Lemma shl_align_value : forall m e e', exists d, shl_align m e e' = (d, Z.min e e') /\ Z.pos d = Z.pos m * 2 ^ (e - Z.min e e').
Proof.
  intros m e e'. unfold shl_align. destruct (e' - e) as [|p|p] eqn:E.
  - exists m. replace (Z.min e e') with e by lia. rewrite Z.sub_diag. split; [reflexivity|cbn; lia].
  - exists m. replace (Z.min e e') with e by lia. rewrite Z.sub_diag. split; [reflexivity|cbn; lia].
  - exists (shift_pos p m). replace (Z.min e e') with e' by lia. split; [reflexivity|]. rewrite shift_pos_value. do 2 f_equal. lia.
Qed.
Lemma round_nearest : forall s m e g s0, 0 <= g -> 0 <= e + 1074 + g ->
  nearest g (sg s (Z.pos m * 2 ^ (e + 1074 + g))) s0 (binary_round prec emax s m e).
Proof.
  intros s m e g s0 G EG. unfold binary_round. rewrite digits2_log2. set (f := fx (Z.log2 (Z.pos m) + 1 + e)).
  destruct (shl_align_value m e f) as (d & -> & D). set (e' := Z.min e f) in *.
  assert (EL : Z.log2 (Z.pos d) + e' = Z.log2 (Z.pos m) + e) by (rewrite D, Z.log2_mul_pow2 by lia; lia).
  assert (FF : f >= -1074) by (unfold f; rewrite fx_spec; lia).
  assert (EG' : 0 <= e' + 1074 + g) by lia.
  replace (Z.pos m * 2 ^ (e + 1074 + g)) with (Z.pos d * 2 ^ (e' + 1074 + g)).
  - apply aux_nearest; [lia| |trivial|trivial].
    replace (Z.log2 (Z.pos d) + 1 + e') with (Z.log2 (Z.pos m) + 1 + e) by lia. fold f. lia.
  - rewrite D, <- Z.mul_assoc, <- pow_add by lia. do 2 f_equal. lia.
Qed.
Lemma normalize_nearest : forall m e g s0, 0 <= g -> 0 <= e + 1074 + g ->
  nearest g (m * 2 ^ (e + 1074 + g)) s0 (binary_normalize prec emax m e s0).
Proof.
  intros m e g s0 G EG. destruct m as [|p|p]; cbn [binary_normalize].
  - now apply nearest_zero.
  - pose proof (round_nearest false p e g s0 G EG) as H. unfold sg in H. now rewrite Z.mul_1_l in H.
  - pose proof (round_nearest true p e g s0 G EG) as H. unfold sg in H. replace (Z.neg p * 2 ^ (e + 1074 + g)) with (-1 * (Z.pos p * 2 ^ (e + 1074 + g))) by lia. exact H.
Qed.

(** ** The operators *)
Lemma of_int_nearest : forall z, nearest 0 (z * 2 ^ 1074) false (of_int z).
Proof. intros z. apply (normalize_nearest z 0 0 false); lia. Qed.
(** A finite double is a signed multiple of a power of two. *)
Lemma is_finite_dfinite : forall d, dfinite d = true <-> is_finite d.
Proof. intros []; cbn; split; trivial; try discriminate; tauto. Qed.
Lemma cond_sg : forall s m, cond_Zopp s m = sg s m.
Proof. intros [] m; unfold sg, cond_Zopp; lia. Qed.
Lemma valid_exp : forall s m e, valid (S754_finite s m e) -> -1074 <= e <= 971.
Proof. intros s m e V. apply valid_finite in V. tauto. Qed.
Lemma rnd_units : forall d, valid d -> rnd 0 (Z.abs (units d)) = Z.abs (units d) /\ Z.abs (units d) < 2 ^ 2098.
Proof.
  intros d V. destruct d as [s|s| |s m e]; try (cbn [units]; change (Z.abs 0) with 0; rewrite rnd_0 by lia; split; [trivial|apply pow_pos; lia]).
  apply valid_finite in V. destruct V as (E & M & _). rewrite units_finite.
  pose proof (pow_pos (e + 1074) ltac:(lia)). replace (Z.abs (sg s (Z.pos m * 2 ^ (e + 1074)))) with (Z.pos m * 2 ^ (e + 1074)) by (destruct s; unfold sg; nia).
  split; [apply rnd_fix; lia|]. assert (Z.pos m * 2 ^ (e + 1074) < 2 ^ 53 * 2 ^ (e + 1074)) by nia.
  rewrite <- pow_add in H0 by lia. assert (2 ^ (53 + (e + 1074)) <= 2 ^ 2098) by (apply Z.pow_le_mono_r; lia). lia.
Qed.
(** Any finite double is nearest to its own value, the sign of zero apart. *)
Lemma nearest_self : forall d s0, valid d -> is_finite d -> units d <> 0 -> nearest 0 (units d) s0 d.
Proof.
  intros d s0 V F N. destruct (rnd_units d V) as (R & B). unfold nearest, rnds. rewrite R. split; [exact V|]. split; [|split; [|congruence]].
  - intros _. split; [exact F|]. change (2 ^ 0) with 1. destruct (Z.lt_total (units d) 0) as [L|[L|L]]; [rewrite Z.sgn_neg by lia|lia|rewrite Z.sgn_pos by lia]; lia.
  - intros H. change (2098 + 0) with 2098 in H. lia.
Qed.
Lemma finite_zero : forall d, valid d -> is_finite d -> units d = 0 -> exists s, d = S754_zero s.
Proof.
  intros [s|s| |s m e] V F U; try contradiction; [now exists s|]. exfalso. apply valid_exp in V. rewrite units_finite in U.
  pose proof (pow_pos (e + 1074) ltac:(lia)). destruct s; unfold sg in U; nia.
Qed.
Definition some_zero (d : double) : Prop := exists s, d = S754_zero s.
(** [d] is the double nearest to [v] units, whichever zero. *)
Definition rounded (g v : Z) (d : double) : Prop := exists s, nearest g v s d.
Lemma add_aligned : forall s1 m1 e1 s2 m2 e2, -1074 <= e1 -> -1074 <= e2 -> let ez := Z.min e1 e2 in
  (cond_Zopp s1 (Z.pos (fst (shl_align m1 e1 ez))) + cond_Zopp s2 (Z.pos (fst (shl_align m2 e2 ez)))) * 2 ^ (ez + 1074 + 0) =
  sg s1 (Z.pos m1 * 2 ^ (e1 + 1074)) + sg s2 (Z.pos m2 * 2 ^ (e2 + 1074)).
Proof.
  intros s1 m1 e1 s2 m2 e2 E1 E2 ez. destruct (shl_align_value m1 e1 ez) as (d1 & -> & D1). destruct (shl_align_value m2 e2 ez) as (d2 & -> & D2).
  cbn [fst]. rewrite !cond_sg. replace (Z.min e1 ez) with ez in D1 by lia. replace (Z.min e2 ez) with ez in D2 by lia.
  replace (e1 + 1074) with (e1 - ez + (ez + 1074)) by lia. replace (e2 + 1074) with (e2 - ez + (ez + 1074)) by lia.
  rewrite (pow_add (e1 - ez)), (pow_add (e2 - ez)) by lia. rewrite !Z.mul_assoc, <- D1, <- D2. rewrite Z.add_0_r. unfold sg. ring.
Qed.
Lemma units_zero : forall s, units (S754_zero s) = 0.
Proof. reflexivity. Qed.
Lemma dadd_rounded : forall a b, valid a -> valid b -> is_finite a -> is_finite b -> rounded 0 (units a + units b) (dadd a b).
Proof.
  intros a b VA VB FA FB. destruct a as [sa|sa| |sa ma ea]; try contradiction; destruct b as [sb|sb| |sb mb eb]; try contradiction.
  - cbn [dadd SFadd]. rewrite !units_zero. unfold dadd, SFadd. destruct (Bool.eqb sa sb); [exists sa|exists false]; now apply nearest_zero.
  - rewrite units_zero, Z.add_0_l. exists false. apply nearest_self; [trivial|trivial|]. intros E. destruct (finite_zero _ VB FB E) as (s & H). discriminate.
  - rewrite units_zero, Z.add_0_r. exists false. apply nearest_self; [trivial|trivial|]. intros E. destruct (finite_zero _ VA FA E) as (s & H). discriminate.
  - apply valid_exp in VA, VB. exists false. unfold dadd, SFadd. rewrite !units_finite.
    rewrite <- (add_aligned sa ma ea sb mb eb) by lia. apply normalize_nearest; lia.
Qed.
Lemma sg_neg : forall s v, sg (negb s) v = - sg s v.
Proof. intros [] v; unfold sg, negb; lia. Qed.
Lemma dsub_rounded : forall a b, valid a -> valid b -> is_finite a -> is_finite b -> rounded 0 (units a - units b) (dsub a b).
Proof.
  intros a b VA VB FA FB. destruct a as [sa|sa| |sa ma ea]; try contradiction; destruct b as [sb|sb| |sb mb eb]; try contradiction.
  - rewrite !units_zero. unfold dsub, SFsub. destruct (Bool.eqb sa (negb sb)); [exists sa|exists false]; now apply nearest_zero.
  - rewrite units_zero, Z.sub_0_l. exists false. unfold dsub, SFsub. rewrite units_finite, <- sg_neg, <- units_finite.
    assert (V' : valid (S754_finite (negb sb) mb eb)) by exact VB.
    apply nearest_self; [trivial|exact Logic.I|]. intros E. destruct (finite_zero _ V' Logic.I E) as (s & H). discriminate.
  - rewrite units_zero, Z.sub_0_r. exists false. apply nearest_self; [trivial|trivial|]. intros E. destruct (finite_zero _ VA FA E) as (s & H). discriminate.
  - apply valid_exp in VA, VB. exists false. unfold dsub, SFsub. rewrite !units_finite.
    rewrite <- Z.add_opp_r, <- sg_neg, <- (add_aligned sa ma ea (negb sb) mb eb) by lia.
    replace (cond_Zopp (negb sb) (Z.pos (fst (shl_align mb eb (Z.min ea eb))))) with (- cond_Zopp sb (Z.pos (fst (shl_align mb eb (Z.min ea eb))))) by (destruct sb; cbn [cond_Zopp negb]; lia).
    rewrite Z.add_opp_r. apply normalize_nearest; lia.
Qed.
Lemma dmul_rounded : forall a b, valid a -> valid b -> is_finite a -> is_finite b -> rounded 1074 (units a * units b) (dmul a b).
Proof.
  intros a b VA VB FA FB. destruct a as [sa|sa| |sa ma ea]; try contradiction; destruct b as [sb|sb| |sb mb eb]; try contradiction.
  - rewrite !units_zero, Z.mul_0_l. exists (xorb sa sb). now apply nearest_zero.
  - rewrite units_zero, Z.mul_0_l. exists (xorb sa sb). now apply nearest_zero.
  - rewrite units_zero, Z.mul_0_r. exists (xorb sa sb). now apply nearest_zero.
  - apply valid_finite in VA, VB. destruct VA as (EA & MA & CA), VB as (EB & MB & CB). exists false. unfold dmul, SFmul. rewrite !units_finite.
    replace (sg sa (Z.pos ma * 2 ^ (ea + 1074)) * sg sb (Z.pos mb * 2 ^ (eb + 1074)))
      with (sg (xorb sa sb) (Z.pos (ma * mb) * 2 ^ (ea + eb + 1074 + 1074))).
    + apply aux_nearest; [lia| |lia|lia]. rewrite fx_spec.
      destruct (Z.le_gt_cases (ea + eb) (-1074)) as [|G]; [lia|].
      assert (52 <= Z.log2 (Z.pos (ma * mb))); [|lia]. apply Z.log2_le_pow2; [lia|]. rewrite Pos2Z.inj_mul. nia.
    + rewrite Pos2Z.inj_mul. replace (ea + eb + 1074 + 1074) with (ea + 1074 + (eb + 1074)) by lia. rewrite pow_add by lia.
      destruct sa, sb; unfold sg, xorb; ring.
Qed.

(** ** Comparison *)
Lemma magnitude_lt : forall m1 e1 m2 e2, valid (S754_finite false m1 e1) -> valid (S754_finite false m2 e2) -> e1 < e2 ->
  Z.pos m1 * 2 ^ (e1 + 1074) < Z.pos m2 * 2 ^ (e2 + 1074).
Proof.
  intros m1 e1 m2 e2 V1 V2 L. apply valid_finite in V1, V2. destruct V1 as (E1 & M1 & _), V2 as (E2 & M2 & [C|C]); [|lia].
  pose proof (pow_pos (e1 + 1074) ltac:(lia)). pose proof (pow_pos (e2 + 1074) ltac:(lia)).
  assert (Z.pos m1 * 2 ^ (e1 + 1074) < 2 ^ 53 * 2 ^ (e1 + 1074)) by nia.
  assert (2 ^ 52 * 2 ^ (e2 + 1074) <= Z.pos m2 * 2 ^ (e2 + 1074)) by nia.
  rewrite <- pow_add in H1, H2 by lia. assert (2 ^ (53 + (e1 + 1074)) <= 2 ^ (52 + (e2 + 1074))) by (apply Z.pow_le_mono_r; lia). lia.
Qed.
Lemma magnitude_compare : forall m1 e1 m2 e2, valid (S754_finite false m1 e1) -> valid (S754_finite false m2 e2) ->
  match Z.compare e1 e2 with Lt => Lt | Gt => Gt | Eq => Pos.compare_cont Eq m1 m2 end = (Z.pos m1 * 2 ^ (e1 + 1074) ?= Z.pos m2 * 2 ^ (e2 + 1074)).
Proof.
  intros m1 e1 m2 e2 V1 V2. destruct (Z.compare_spec e1 e2) as [<-|L|L].
  - change (Pos.compare_cont Eq m1 m2) with (Z.pos m1 ?= Z.pos m2). apply valid_exp in V1. pose proof (pow_pos (e1 + 1074) ltac:(lia)).
    symmetry. rewrite !(Z.mul_comm _ (2 ^ (e1 + 1074))). symmetry. apply Zmult_compare_compat_l. lia.
  - symmetry. apply Z.compare_lt_iff. now apply magnitude_lt.
  - symmetry. apply Z.compare_gt_iff. now apply magnitude_lt.
Qed.
Lemma compare_ok : forall a b, valid a -> valid b -> is_finite a -> is_finite b -> SFcompare a b = Some (units a ?= units b).
Proof.
  intros a b VA VB FA FB. destruct a as [sa|sa| |sa ma ea]; try contradiction; destruct b as [sb|sb| |sb mb eb]; try contradiction.
  - reflexivity.
  - apply valid_exp in VB. rewrite units_zero, units_finite. pose proof (pow_pos (eb + 1074) ltac:(lia)). cbn [SFcompare]. f_equal. symmetry.
    destruct sb; unfold sg; [apply Z.compare_gt_iff|apply Z.compare_lt_iff]; nia.
  - apply valid_exp in VA. rewrite units_zero, units_finite. pose proof (pow_pos (ea + 1074) ltac:(lia)). cbn [SFcompare]. f_equal. symmetry.
    destruct sa; unfold sg; [apply Z.compare_lt_iff|apply Z.compare_gt_iff]; nia.
  - rewrite !units_finite. pose proof (valid_exp _ _ _ VA). pose proof (valid_exp _ _ _ VB).
    pose proof (pow_pos (ea + 1074) ltac:(lia)) as PA. pose proof (pow_pos (eb + 1074) ltac:(lia)) as PB.
    pose proof (magnitude_compare ma ea mb eb VA VB) as MC. cbn [SFcompare]. f_equal.
    destruct sa, sb; unfold sg.
    + replace (match ea ?= eb with Eq => CompOpp (Pos.compare_cont Eq ma mb) | Lt => Gt | Gt => Lt end)
        with (CompOpp (match Z.compare ea eb with Lt => Lt | Gt => Gt | Eq => Pos.compare_cont Eq ma mb end)) by (destruct (ea ?= eb); reflexivity).
      rewrite MC, <- Z.compare_antisym. set (x := Z.pos ma * _). set (y := Z.pos mb * _). replace (-1 * x) with (- x) by lia. replace (-1 * y) with (- y) by lia. now rewrite Z.compare_opp.
    + symmetry. apply Z.compare_lt_iff. nia.
    + symmetry. apply Z.compare_gt_iff. nia.
    + rewrite !Z.mul_1_l. exact MC.
Qed.
Lemma dle_units : forall a b, valid a -> valid b -> is_finite a -> is_finite b -> dle a b = (units a <=? units b).
Proof. intros a b VA VB FA FB. unfold dle, SFleb. rewrite compare_ok by trivial. unfold Z.leb. now destruct (units a ?= units b). Qed.
Lemma dlt_units : forall a b, valid a -> valid b -> is_finite a -> is_finite b -> dlt a b = (units a <? units b).
Proof. intros a b VA VB FA FB. unfold dlt, SFltb. rewrite compare_ok by trivial. unfold Z.ltb. now destruct (units a ?= units b). Qed.

(** ** Monotony of signed rounding *)
Lemma rnds_abs : forall v, Z.abs (rnds 0 v) = rnd 0 (Z.abs v).
Proof.
  intros v. unfold rnds. pose proof (rnd_nonneg 0 (Z.abs v) ltac:(lia) ltac:(lia)).
  destruct (Z.lt_total v 0) as [L|[->|L]]; [rewrite Z.sgn_neg by lia; lia| |rewrite Z.sgn_pos by lia; lia].
  change (Z.abs 0) with 0. rewrite rnd_0 by lia. reflexivity.
Qed.
Lemma rnds_mono : forall g v w, 0 <= g -> v <= w -> rnds g v <= rnds g w.
Proof.
  intros g v w G L. unfold rnds. pose proof (rnd_nonneg g (Z.abs v) G ltac:(lia)) as NV. pose proof (rnd_nonneg g (Z.abs w) G ltac:(lia)) as NW.
  destruct (Z.lt_total v 0) as [LV|[->|LV]].
  - rewrite (Z.sgn_neg v) by lia. destruct (Z.lt_total w 0) as [LW|[->|LW]].
    + rewrite (Z.sgn_neg w) by lia. pose proof (rnd_mono g (Z.abs w) (Z.abs v) G ltac:(lia)). lia.
    + cbn [Z.sgn]. lia.
    + rewrite (Z.sgn_pos w) by lia. lia.
  - cbn [Z.sgn]. destruct (Z.eq_dec w 0) as [->|]; [reflexivity|]. rewrite (Z.sgn_pos w) by lia. lia.
  - rewrite (Z.sgn_pos v), (Z.sgn_pos w) by lia. pose proof (rnd_mono g (Z.abs v) (Z.abs w) G ltac:(lia)). lia.
Qed.
Lemma rnds_units : forall d, valid d -> rnds 0 (units d) = units d.
Proof.
  intros d V. unfold rnds. rewrite (proj1 (rnd_units d V)).
  destruct (Z.lt_total (units d) 0) as [L|[->|L]]; [rewrite Z.sgn_neg by lia; lia|reflexivity|rewrite Z.sgn_pos by lia; lia].
Qed.
(** A sum between two doubles rounds to a double between them. *)
Lemma rounded_between : forall a b v d, valid a -> valid b -> units a <= v <= units b -> rounded 0 v d ->
  valid d /\ is_finite d /\ units a <= units d <= units b.
Proof.
  intros a b v d VA VB (L & U) (s & D1 & D2 & _). split; [exact D1|]. change (2098 + 0) with 2098 in D2. change (2 ^ 0) with 1 in D2. rewrite Z.mul_1_r in D2.
  pose proof (rnds_mono 0 _ _ ltac:(lia) L) as ML. pose proof (rnds_mono 0 _ _ ltac:(lia) U) as MU. rewrite rnds_units in ML, MU by trivial.
  pose proof (rnd_units a VA) as (_ & BA). pose proof (rnd_units b VB) as (_ & BB).
  destruct D2 as (F & E); [rewrite <- rnds_abs; lia|]. split; [exact F|]. rewrite E. lia.
Qed.

(** ** next_random_double *)
(** Below one a factor takes a rounded-up width below itself. *)
Lemma shrink : forall C W, 0 <= C <= 2 ^ 1074 - 2 ^ 1021 -> (exists q j, W = q * 2 ^ j /\ 0 < j /\ 2 ^ 52 <= q < 2 ^ 53) ->
  rnd 1074 (C * W) < W * 2 ^ 1074.
Proof.
  intros C W HC (q & j & -> & J & Q). pose proof (pow_pos j ltac:(lia)) as PJ.
  set (x := (2 ^ 1074 - 2 ^ 1021) * (q * 2 ^ j)).
  assert (W0 : 0 < q * 2 ^ j) by nia.
  assert (X : rnd 1074 (C * (q * 2 ^ j)) <= rnd 1074 x).
  { apply rnd_mono; [lia|]. unfold x. set (W := q * 2 ^ j) in *. clearbody W. split; [apply Z.mul_nonneg_nonneg; lia|]. apply Z.mul_le_mono_nonneg_r; lia. }
  eapply Z.le_lt_trans; [exact X|]. clear X.
  assert (P21 : 2 ^ 1074 = 2 ^ 53 * 2 ^ 1021) by (rewrite <- pow_add by lia; reflexivity).
  assert (XE : x = (q * (2 ^ 53 - 1)) * 2 ^ (j + 1021)).
  { unfold x. rewrite P21, (pow_add j 1021) by lia. ring. }
  assert (WE : q * 2 ^ j * 2 ^ 1074 = q * 2 ^ 53 * 2 ^ (j + 1021)) by (rewrite P21, (pow_add j 1021) by lia; ring).
  pose proof (pow_pos (j + 1021) ltac:(lia)) as P.
  destruct (Z.eq_dec q (2 ^ 52)) as [->|NE].
  - replace x with ((2 ^ 53 - 1) * 2 ^ (j + 1073)).
    + rewrite rnd_fix by lia. rewrite WE. replace (j + 1073) with (52 + (j + 1021)) by lia. rewrite (pow_add 52) by lia. nia.
    + rewrite XE. replace (j + 1073) with (52 + (j + 1021)) by lia. rewrite (pow_add 52) by lia. ring.
  - assert (GX : grain 1074 x = j + 1074).
    { unfold grain. assert (L : Z.log2 x = 52 + 53 + (j + 1021)).
      { apply Z.log2_unique; [lia|]. rewrite <- Z.add_1_r. rewrite XE, !pow_add by lia. set (t := 2 ^ (j + 1021)) in *. clearbody t.
        change (2 ^ 1) with 2. split; nia. }
      lia. }
    unfold rnd. rewrite GX. pose proof (rne_bounds x (j + 1074) ltac:(lia)) as (_ & B).
    assert (PE : 2 ^ (j + 1074) = 2 ^ 53 * 2 ^ (j + 1021)) by (rewrite <- pow_add by lia; f_equal; lia).
    rewrite PE in *. rewrite WE. rewrite XE in B. rewrite XE. set (t := 2 ^ (j + 1021)) in *. clearbody t. set (r := rne _ _) in *. clearbody r.
    assert (r * 2 ^ 53 * 2 < (2 * q) * 2 ^ 53) by nia. nia.
Qed.
Lemma rnd_inexact : forall v, 0 <= v -> rnd 0 v <> v -> exists q j, rnd 0 v = q * 2 ^ j /\ 0 < j /\ 2 ^ 52 <= q < 2 ^ 53.
Proof.
  intros v V N. destruct (Z.eq_dec v 0) as [->|NZ]; [now rewrite rnd_0 in N by lia|].
  unfold rnd in *. set (k := grain 0 v) in *. assert (K : 0 < k).
  { assert (0 <= k) by (unfold k, grain; lia). destruct (Z.eq_dec k 0) as [E|]; [|lia]. exfalso. apply N. rewrite E. change (2 ^ 0) with 1. rewrite Z.mul_1_r.
    rewrite <- (Z.mul_1_r v) at 1. change 1 with (2 ^ 0) at 1. apply rne_exact. lia. }
  assert (KE : k = Z.log2 v - 52) by (unfold k, grain in *; lia). pose proof (log2_bounds v ltac:(lia)) as (B1 & B2).
  assert (R1 : 2 ^ 52 <= rne v k).
  { rewrite <- (rne_exact (2 ^ 52) k) by lia. apply rne_mono; [lia|]. rewrite <- pow_add by lia. replace (52 + k) with (Z.log2 v) by lia. lia. }
  assert (R2 : rne v k <= 2 ^ 53).
  { rewrite <- (rne_exact (2 ^ 53) k) by lia. apply rne_mono; [lia|]. rewrite <- pow_add by lia. replace (53 + k) with (Z.log2 v + 1) by lia. lia. }
  destruct (Z.eq_dec (rne v k) (2 ^ 53)) as [E|].
  - exists (2 ^ 52), (k + 1). rewrite E, (pow_add k 1) by lia. split; [ring|lia].
  - exists (rne v k), k. split; [reflexivity|lia].
Qed.
Lemma of_int_0 : of_int 0 = S754_zero false.
Proof. reflexivity. Qed.
Lemma of_int_1 : of_int 1 = S754_finite false 4503599627370496 (-52).
Proof. vm_compute. reflexivity. Qed.
Lemma units_one : units (of_int 1) = 2 ^ 1074.
Proof. rewrite of_int_1, units_finite. change (Z.pos 4503599627370496) with (2 ^ 52). unfold sg. rewrite <- pow_add by lia. lia. Qed.
Lemma valid_one : valid (of_int 1).
Proof. rewrite of_int_1. reflexivity. Qed.
(** A double from 0 to below 1 is at most 1 - 2^-53. *)
Lemma below_one : forall c, valid c -> dle (of_int 0) c = true -> dlt c (of_int 1) = true -> is_finite c /\ 0 <= units c <= 2 ^ 1074 - 2 ^ 1021.
Proof.
  intros c V L U. assert (F : is_finite c).
  { destruct c as [s|[]| |s m e]; try exact Logic.I; [discriminate L|discriminate U|discriminate L]. }
  split; [exact F|]. rewrite dle_units in L by (trivial; reflexivity || exact Logic.I).
  rewrite dlt_units in U by (trivial; try exact valid_one; rewrite of_int_1; exact Logic.I).
  apply Z.leb_le in L. apply Z.ltb_lt in U. rewrite units_one in U. rewrite of_int_0, units_zero in L. split; [trivial|].
  destruct c as [s|s| |s m e]; try contradiction; [rewrite units_zero; assert (2 ^ 1021 <= 2 ^ 1074) by (apply Z.pow_le_mono_r; lia); lia|].
  apply valid_finite in V. destruct V as (E & M & C). rewrite units_finite in *. pose proof (pow_pos (e + 1074) ltac:(lia)).
  destruct s; [unfold sg in L; nia|]. unfold sg in *. rewrite Z.mul_1_l in *.
  assert (E53 : e <= -53).
  { destruct (Z.le_gt_cases e (-53)); [trivial|exfalso]. destruct C as [C|C]; [|lia].
    assert (2 ^ 52 * 2 ^ (e + 1074) <= Z.pos m * 2 ^ (e + 1074)) by nia. rewrite <- pow_add in H1 by lia.
    assert (2 ^ 1074 <= 2 ^ (52 + (e + 1074))) by (apply Z.pow_le_mono_r; lia). lia. }
  assert (Z.pos m * 2 ^ (e + 1074) <= (2 ^ 53 - 1) * 2 ^ (e + 1074)) by nia.
  assert (2 ^ (e + 1074) <= 2 ^ 1021) by (apply Z.pow_le_mono_r; lia).
  assert (T : 2 ^ 1074 = 2 ^ 53 * 2 ^ 1021) by (rewrite <- pow_add by lia; reflexivity). rewrite T.
  set (t := 2 ^ (e + 1074)) in *. set (u := 2 ^ 1021) in *. clearbody t u. nia.
Qed.
(** dle of anything that is not NaN *)
Lemma dsub_finite : forall a b, dle b a = true -> dfinite (dsub a b) = true -> is_finite a /\ is_finite b.
Proof.
  intros a b L F. destruct a as [sa|sa| |sa ma ea], b as [sb|sb| |sb mb eb]; try (split; exact Logic.I); try discriminate F; try discriminate L;
    try (destruct sa, sb; discriminate F); try (destruct sb; discriminate F).
Qed.
Lemma random_between : forall start end_ c r, valid start -> valid end_ -> valid c -> dle (of_int 0) c = true -> dlt c (of_int 1) = true ->
  next_random_double start end_ c = Val r -> valid r /\ dle start r = true /\ dle r end_ = true.
Proof.
  intros start end_ c r VS VE VC C0 C1 N. unfold next_random_double in N.
  destruct (dle start end_) eqn:LE; [|discriminate]. cbn [andb] in N. destruct (dfinite (dsub end_ start)) eqn:FW; [|discriminate].
  injection N as <-. destruct (dsub_finite _ _ LE FW) as (FE & FS). destruct (below_one c VC C0 C1) as (FC & CL & CU).
  rewrite dle_units in LE by trivial. apply Z.leb_le in LE.
  destruct (dsub_rounded end_ start VE VS FE FS) as (s & W1 & W2 & W3 & _). set (w := dsub end_ start) in *. clearbody w.
  apply is_finite_dfinite in FW. set (D := units end_ - units start) in *. assert (D0 : 0 <= D) by (unfold D; lia).
  change (2098 + 0) with 2098 in *. change (2 ^ 0) with 1 in *. rewrite Z.mul_1_r in *. rewrite (Z.abs_eq D D0) in *.
  assert (WE : units w = rnd 0 D).
  { destruct (Z.le_gt_cases (2 ^ 2098) (rnd 0 D)) as [G|L]; [rewrite (W3 G) in FW; contradiction|].
    rewrite (proj2 (W2 L)). unfold rnds. rewrite (Z.abs_eq D D0). destruct (Z.eq_dec D 0) as [->|]; [now rewrite rnd_0 by lia|]. rewrite Z.sgn_pos by lia. lia. }
  clear W2 W3. pose proof (rnd_nonneg 0 D ltac:(lia) D0) as WN.
  destruct (dmul_rounded c w VC W1 FC FW) as (s1 & P1 & P2 & _). set (p := dmul c w) in *. clearbody p.
  rewrite (Z.abs_eq (units c * units w)) in P2 by (apply Z.mul_nonneg_nonneg; lia).
  pose proof (rnd_units w W1) as (RW & BW). rewrite (Z.abs_eq (units w)) in RW, BW by lia.
  assert (T21 : 0 < 2 ^ 1021) by (apply pow_pos; lia).
  assert (PU : rnd 1074 (units c * units w) <= units w * 2 ^ 1074).
  { rewrite <- RW at 2. rewrite <- (rnd_scale 0 (units w) 1074) by lia. change (0 + 1074) with 1074. apply rnd_mono; [lia|].
    split; [apply Z.mul_nonneg_nonneg; lia|]. rewrite (Z.mul_comm (units w)). apply Z.mul_le_mono_nonneg_r; lia. }
  pose proof (pow_pos 1074 ltac:(lia)) as T74.
  destruct P2 as (FP & PE). { rewrite (pow_add 2098 1074) by lia. eapply Z.le_lt_trans; [exact PU|]. apply Z.mul_lt_mono_pos_r; lia. }
  assert (PN : units p * 2 ^ 1074 = rnd 1074 (units c * units w)).
  { rewrite PE. unfold rnds. pose proof (Z.mul_nonneg_nonneg (units c) (units w) ltac:(lia) ltac:(lia)) as MN. rewrite (Z.abs_eq _ MN).
    destruct (Z.eq_dec (units c * units w) 0) as [E|]; [rewrite E, rnd_0 by lia; reflexivity|]. rewrite Z.sgn_pos by lia. lia. }
  clear PE. pose proof (rnd_nonneg 1074 (units c * units w) ltac:(lia) ltac:(apply Z.mul_nonneg_nonneg; lia)) as PP.
  assert (P0 : 0 <= units p).
  { destruct (Z.le_gt_cases 0 (units p)) as [|G]; [trivial|exfalso]. assert (units p * 2 ^ 1074 < 0) by (apply Z.mul_neg_pos; lia). lia. }
  assert (PW : units p <= units w).
  { apply (Z.mul_le_mono_pos_r _ _ (2 ^ 1074)); [trivial|]. lia. }
  assert (PD : units p <= D).
  { destruct (Z.le_gt_cases (units p) D) as [|G]; [trivial|exfalso].
    pose proof (rnd_units p P1) as (RP & _). rewrite (Z.abs_eq _ P0) in RP.
    pose proof (rnd_mono 0 D (units p) ltac:(lia) ltac:(lia)) as M. rewrite RP, <- WE in M.
    destruct (Z.eq_dec (rnd 0 D) D) as [E|NE]; [lia|].
    pose proof (rnd_inexact D D0 NE) as X. rewrite <- WE in X. pose proof (shrink (units c) (units w) ltac:(lia) X) as Y.
    assert (units p = units w) by lia. rewrite <- PN, H in Y. lia. }
  destruct (rounded_between start end_ (units p + units start) (dadd p start) VS VE) as (V & F & B1 & B2); [unfold D in PD; lia|now apply dadd_rounded|].
  split; [exact V|]. rewrite !dle_units by trivial. split; apply Z.leb_le; lia.
Qed.

(** ** The square root *)
Lemma of_int_shape : forall n, 0 < n < 2 ^ 64 -> exists m e, of_int n = S754_finite false m e /\ 2 ^ 52 <= Z.pos m < 2 ^ 53 /\
  Z.log2 n - 52 <= e <= 12 /\ Z.pos m * 2 ^ (e + 1074) = rnd 0 (n * 2 ^ 1074) /\ (e = 12 -> Z.pos m = 2 ^ 52).
Proof.
  intros n N. destruct (of_int_nearest n) as (V & F & _). pose proof (pow_pos 1074 ltac:(lia)) as T.
  rewrite Z.abs_eq in F by nia. change (2098 + 0) with 2098 in F. change (2 ^ 0) with 1 in F. rewrite Z.mul_1_r in F.
  pose proof (log2_bounds n ltac:(lia)) as (L1 & L2). pose proof (Z.log2_nonneg n) as L0. set (l := Z.log2 n) in *.
  assert (R1 : 2 ^ (l + 1074) <= rnd 0 (n * 2 ^ 1074)).
  { rewrite <- (rnd_pow 0 (l + 1074)) by lia. apply rnd_mono; [lia|]. rewrite pow_add by lia. split; [|nia]. pose proof (pow_pos l L0). nia. }
  assert (R2 : rnd 0 (n * 2 ^ 1074) <= 2 ^ 1138).
  { rewrite <- (rnd_pow 0 1138) by lia. apply rnd_mono; [lia|]. change 1138 with (64 + 1074). rewrite (pow_add 64) by lia. nia. }
  destruct F as (F & U). { eapply Z.le_lt_trans; [exact R2|]. apply Z.pow_lt_mono_r; lia. }
  unfold rnds in U. rewrite Z.abs_eq, Z.sgn_pos, Z.mul_1_l in U by nia.
  pose proof (pow_pos (l + 1074) ltac:(lia)) as P74.
  destruct (of_int n) as [s|s| |s m e]; try contradiction; [rewrite units_zero in U; lia|].
  apply valid_finite in V. destruct V as (E & M & C). rewrite units_finite in U. pose proof (pow_pos (e + 1074) ltac:(lia)) as PE.
  destruct s; [unfold sg in U; nia|]. unfold sg in U. rewrite Z.mul_1_l in U. exists m, e. split; [reflexivity|].
  assert (EL : l - 52 <= e).
  { destruct (Z.le_gt_cases (l - 52) e); [trivial|exfalso]. assert (Z.pos m * 2 ^ (e + 1074) < 2 ^ 53 * 2 ^ (e + 1074)) by nia.
    rewrite <- pow_add in H0 by lia. assert (2 ^ (53 + (e + 1074)) <= 2 ^ (l + 1074)) by (apply Z.pow_le_mono_r; lia). lia. }
  assert (M52 : 2 ^ 52 <= Z.pos m) by lia.
  assert (X : 2 ^ 52 * 2 ^ (e + 1074) <= Z.pos m * 2 ^ (e + 1074)) by nia.
  assert (EU : e <= 12).
  { rewrite <- pow_add in X by lia. assert (Y : 2 ^ (52 + (e + 1074)) <= 2 ^ 1138) by lia. apply Z.pow_le_mono_r_iff in Y; lia. }
  split; [lia|]. split; [lia|]. split; [exact U|]. intros ->. change (12 + 1074) with 1086 in *.
  change 1138 with (52 + 1086) in R2. rewrite (pow_add 52) in R2 by lia. nia.
Qed.
(** What the double square root of m 2^e is. *)
Lemma sqrt_shape : forall m e, 2 ^ 52 <= Z.pos m < 2 ^ 53 -> -52 <= e <= 12 ->
  let D := 2 ^ (26 - Z.div2 e) in
  exists q r, q * q + r = Z.pos m * 2 ^ (52 + e mod 2) /\ 0 <= r <= 2 * q /\ 2 ^ 52 <= q < 2 ^ 53 /\
    to_uint64 (dsqrt (S754_finite false m e)) = Val (Z.to_N ((if r <=? q then q else q + 1) / D)).
Proof.
  intros m e M E D. unfold dsqrt, SFsqrt, SFsqrt_core_binary.
  assert (LM : Z.log2 (Z.pos m) = 52) by (apply Z.log2_unique; lia).
  rewrite Zdigits2_log2 by lia. rewrite LM.
  pose proof (Z.div_mod e 2 ltac:(lia)) as DM. pose proof (Z.mod_pos_bound e 2 ltac:(lia)) as MB. rewrite <- Z.div2_div in DM.
  set (h := Z.div2 e) in *.
  assert (E' : Z.min (fexp prec emax (Z.div2 (52 + 1 + e + 1))) h = h - 26).
  { replace (Z.div2 (52 + 1 + e + 1)) with (27 + h); [rewrite fx_spec; lia|].
    unfold h. rewrite !Z.div2_div. replace (52 + 1 + e + 1) with (e + 27 * 2) by lia. rewrite Z.div_add by lia. lia. }
  rewrite E'. replace (e - 2 * (h - 26)) with (52 + e mod 2) by lia.
  destruct (52 + e mod 2) as [|p|p] eqn:SP; [lia| |lia]. rewrite <- SP. clear p SP.
  rewrite Z.shiftl_mul_pow2 by lia. set (M' := Z.pos m * 2 ^ (52 + e mod 2)).
  assert (MB1 : 2 ^ 104 <= M' < 2 ^ 106).
  { unfold M'. assert (EM : e mod 2 = 0 \/ e mod 2 = 1) by lia. destruct EM as [-> | ->]; [change (2 ^ (52 + 0)) with (2 ^ 52)|change (2 ^ (52 + 1)) with (2 ^ 53)]; lia. }
  pose proof (Z.sqrtrem_spec M' ltac:(lia)) as SS. destruct (Z.sqrtrem M') as (q, r). destruct SS as (SE & SR).
  exists q, r. split; [lia|]. split; [lia|].
  assert (QB : 2 ^ 52 <= q < 2 ^ 53) by (split; nia). split; [exact QB|].
  assert (LQ : Z.log2 q = 52) by (apply Z.log2_unique; lia).
  set (loc := if Zeq_bool r 0 then loc_Exact else loc_Inexact (if r <=? q then Lt else Gt)).
  destruct (round_aux false q (h - 26) loc ltac:(lia)) as (RA & _). { rewrite LQ, fx_spec. lia. }
  rewrite RA. rewrite LQ, fx_spec. replace (Z.max (52 + 1 + (h - 26) - 53) (-1074)) with (h - 26) by lia.
  rewrite Z.sub_diag. change (0 + 2) with 2.
  set (c := if r <=? q then q else q + 1).
  assert (RC : rne (4 * q + code loc) 2 = c).
  { apply rne_unique; [lia|]. change (2 ^ 2) with 4. unfold loc, c. destruct (Zeq_bool r 0) eqn:R0.
    - apply Zeq_bool_eq in R0. subst r. destruct (Z.leb_spec 0 q); cbn [code]; lia.
    - destruct (Z.leb_spec r q); cbn [code]; lia. }
  rewrite RC. clear RC RA. unfold pack. assert (D26 : 20 <= 26 - h) by lia. pose proof (pow_pos (26 - h) ltac:(lia)) as DP. fold D in DP.
  assert (DB : 2 ^ 20 <= D) by (apply Z.pow_le_mono_r; lia).
  assert (CB : 2 ^ 52 <= c <= 2 ^ 53) by (unfold c; destruct (r <=? q); lia).
  assert (QD : c / D < 2 ^ 64) by (apply Z.div_lt_upper_bound; nia).
  destruct (Z.eqb_spec c (2 ^ 53)) as [CE|NE].
  - unfold finite_or_inf. change (2 ^ 52) with (Z.pos 4503599627370496) at 1. destruct (Z.leb_spec (h - 26 + 1) 971); [|lia]. unfold to_uint64.
    destruct (Z.leb_spec 0 (h - 26 + 1)); [lia|].
    replace (Z.pos 4503599627370496 / 2 ^ (- (h - 26 + 1))) with (c / D).
    + rewrite (proj2 (Z.ltb_lt _ _) QD). reflexivity.
    + rewrite CE. unfold D. replace (26 - h) with (25 - h + 1) by lia. rewrite (pow_add (25 - h)) by lia. change (2 ^ 53) with (Z.pos 4503599627370496 * 2 ^ 1).
      pose proof (pow_pos (25 - h) ltac:(lia)). rewrite Z.div_mul_cancel_r by lia. f_equal. f_equal. lia.
  - unfold finite_or_inf. destruct c as [|pc|pc] eqn:CC; [lia| |lia]. destruct (Z.leb_spec (h - 26) 971); [|lia]. unfold to_uint64.
    destruct (Z.leb_spec 0 (h - 26)); [lia|]. replace (- (h - 26)) with (26 - h) by lia. fold D. rewrite (proj2 (Z.ltb_lt _ _) QD). reflexivity.
Qed.

(** ** More on next_random_double *)
Lemma units_max : units max_double = (2 ^ 53 - 1) * 2 ^ 2045.
Proof. unfold units, max_double. change (971 + 1074) with 2045. rewrite Z.mul_1_l. apply Z.mul_cancel_r; [|reflexivity]. apply Z.pow_nonzero; lia. Qed.
Lemma valid_max : valid max_double.
Proof. reflexivity. Qed.
Lemma random_defined : forall start end_ c, valid start -> valid end_ -> is_finite start -> is_finite end_ ->
  dle start end_ = true -> units end_ - units start <= units max_double -> exists r, next_random_double start end_ c = Val r.
Proof.
  intros start end_ c VS VE FS FE LE D. unfold next_random_double. rewrite LE. cbn [andb].
  assert (F : is_finite (dsub end_ start)).
  { destruct (dsub_rounded end_ start VE VS FE FS) as (s & _ & F & _). apply F. clear F. rewrite dle_units in LE by trivial. apply Z.leb_le in LE.
    rewrite Z.abs_eq by lia. pose proof (rnd_mono 0 _ _ ltac:(lia) (conj (proj2 (Z.le_0_sub _ _) LE) D)) as M.
    pose proof (rnd_units max_double valid_max) as (R & B). rewrite Z.abs_eq in R, B by (rewrite units_max; apply Z.mul_nonneg_nonneg; [lia|apply Z.pow_nonneg; lia]).
    change (2098 + 0) with 2098. rewrite R in M. lia. }
  apply is_finite_dfinite in F. rewrite F. eauto.
Qed.
Lemma rounded_le : forall g v w a b, 0 <= g -> rounded g v a -> rounded g w b -> is_finite a -> is_finite b -> v <= w -> units a <= units b.
Proof.
  intros g v w a b G (s & _ & A2 & A3 & _) (t & _ & B2 & B3 & _) FA FB L. pose proof (pow_pos g G).
  assert (EA : units a * 2 ^ g = rnds g v). { destruct (Z.le_gt_cases (2 ^ (2098 + g)) (rnd g (Z.abs v))) as [O|O]; [rewrite (A3 O) in FA; contradiction|now apply A2]. }
  assert (EB : units b * 2 ^ g = rnds g w). { destruct (Z.le_gt_cases (2 ^ (2098 + g)) (rnd g (Z.abs w))) as [O|O]; [rewrite (B3 O) in FB; contradiction|now apply B2]. }
  pose proof (rnds_mono g v w G L). apply (Z.mul_le_mono_pos_r _ _ (2 ^ g)); lia.
Qed.
Lemma random_finite : forall start end_ c r, valid start -> valid end_ -> valid c -> dle (of_int 0) c = true -> dlt c (of_int 1) = true ->
  next_random_double start end_ c = Val r -> is_finite r /\ is_finite (dmul c (dsub end_ start)) /\ valid (dmul c (dsub end_ start)) /\ is_finite start /\ is_finite end_.
Proof.
  intros start end_ c r VS VE VC C0 C1 N. pose proof (random_between _ _ _ _ VS VE VC C0 C1 N) as (V & L & U). unfold next_random_double in N.
  destruct (dle start end_) eqn:LE; [|discriminate]. cbn [andb] in N. destruct (dfinite (dsub end_ start)) eqn:FW; [|discriminate].
  injection N as E. destruct (dsub_finite _ _ LE FW) as (FE & FS). destruct (below_one c VC C0 C1) as (FC & CL & CU).
  assert (FR : is_finite r).
  { destruct r as [|[]| |]; try exact Logic.I; [|destruct end_ as [|[]| |[]]; try discriminate U; contradiction|destruct start as [|[]| |[]]; discriminate L].
    destruct start as [|[]| |[]]; try discriminate L. contradiction. }
  split; [exact FR|]. assert (VM : valid (dmul c (dsub end_ start))).
  { destruct (dsub_rounded end_ start VE VS FE FS) as (s & W1 & _). apply is_finite_dfinite in FW. now destruct (dmul_rounded c _ VC W1 FC FW) as (s1 & P1 & _). }
  split; [|split; [exact VM|split; trivial]].
  rewrite <- E in FR. destruct (dmul c (dsub end_ start)) as [|[]| |]; try exact Logic.I; destruct start; try contradiction; contradiction FR.
Qed.
Lemma random_monotone : forall start end_ c c' r r', valid start -> valid end_ -> valid c -> valid c' ->
  dle (of_int 0) c = true -> dle c c' = true -> dlt c' (of_int 1) = true ->
  next_random_double start end_ c = Val r -> next_random_double start end_ c' = Val r' -> dle r r' = true.
Proof.
  intros start end_ c c' r r' VS VE VC VC' C0 CC C1 N N'.
  assert (FC' : is_finite c').
  { destruct c' as [s|[]| |s m e]; try exact Logic.I; [destruct c as [|[]| |]; try discriminate CC; discriminate C0|discriminate C1|discriminate C1]. }
  assert (FC : is_finite c).
  { destruct c as [s|[]| |s m e]; try exact Logic.I; [discriminate C0|destruct c' as [|[]| |]; try discriminate CC; contradiction|discriminate C0]. }
  assert (U1 : is_finite (of_int 1)) by (rewrite of_int_1; exact Logic.I).
  assert (U0 : is_finite (of_int 0)) by exact Logic.I. assert (V0 : valid (of_int 0)) by reflexivity.
  rewrite dle_units in C0, CC by trivial. rewrite dlt_units in C1 by (trivial; exact valid_one).
  apply Z.leb_le in C0, CC. apply Z.ltb_lt in C1.
  assert (C0' : dle (of_int 0) c' = true) by (rewrite dle_units by trivial; apply Z.leb_le; lia).
  assert (C1' : dlt c (of_int 1) = true) by (rewrite dlt_units by (trivial; exact valid_one); apply Z.ltb_lt; lia).
  assert (C0e : dle (of_int 0) c = true) by (rewrite dle_units by trivial; apply Z.leb_le; lia).
  assert (C1e : dlt c' (of_int 1) = true) by (rewrite dlt_units by (trivial; exact valid_one); apply Z.ltb_lt; lia).
  destruct (random_between _ _ _ _ VS VE VC C0e C1' N) as (V & _). destruct (random_between _ _ _ _ VS VE VC' C0' C1e N') as (V' & _).
  destruct (random_finite _ _ _ _ VS VE VC C0e C1' N) as (F & FM & VM & FS & FE).
  destruct (random_finite _ _ _ _ VS VE VC' C0' C1e N') as (F' & FM' & VM' & _).
  rewrite dle_units by trivial. apply Z.leb_le. unfold next_random_double in N, N'.
  destruct (dle start end_) eqn:LE; [|discriminate]. cbn [andb] in N, N'. destruct (dfinite (dsub end_ start)) eqn:FW; [|discriminate].
  injection N as <-. injection N' as <-. apply is_finite_dfinite in FW.
  pose proof (dsub_rounded end_ start VE VS FE FS) as W. pose proof (rounded_le 0 0 (units end_ - units start) (of_int 0) (dsub end_ start) ltac:(lia)) as WP.
  rewrite dle_units in LE by trivial. apply Z.leb_le in LE.
  assert (W0 : 0 <= units (dsub end_ start)). { apply WP; trivial; [exists false; apply nearest_zero; lia|lia]. }
  assert (VW : valid (dsub end_ start)) by (destruct W as (s & W & _); exact W).
  eapply (rounded_le 0); [lia|now apply dadd_rounded|now apply dadd_rounded|trivial|trivial|].
  assert (units (dmul c (dsub end_ start)) <= units (dmul c' (dsub end_ start))); [|lia].
  eapply (rounded_le 1074); [lia|now apply dmul_rounded|now apply dmul_rounded|trivial|trivial|]. apply Z.mul_le_mono_nonneg_r; lia.
Qed.
