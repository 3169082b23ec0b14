(** Proofs about the square root in divisors.h. *)
Require Import List Arith NArith ZArith Lia Bool.
Require Import Floats.SpecFloat.
Require Import Verif.Base Verif.DoubleModel Verif.DoubleSpec Verif.DoubleProofs.
Import ListNotations.
Local Open Scope Z_scope.

(** The rounded argument, scaled as in the computation of the root. *)
Lemma scaled : forall n m e, 0 < n < 2 ^ 64 -> Z.log2 n - 52 <= e <= 12 -> Z.pos m * 2 ^ (e + 1074) = rnd 0 (n * 2 ^ 1074) ->
  let D := 2 ^ (26 - Z.div2 e) in let M := Z.pos m * 2 ^ (52 + e mod 2) in
  (Z.log2 n <= 52 -> M = n * (D * D)) /\ (53 <= Z.log2 n -> 2 * Z.abs (M - n * (D * D)) <= 2 ^ (Z.log2 n - 52) * (D * D)).
Proof.
  intros n m e N E R D M. pose proof (pow_pos 1074 ltac:(lia)) as T. pose proof (Z.log2_nonneg n) as L0.
  pose proof (Z.div_mod e 2 ltac:(lia)) as DM. pose proof (Z.mod_pos_bound e 2 ltac:(lia)) as MB. rewrite <- Z.div2_div in DM.
  set (h := Z.div2 e) in *. pose proof (pow_pos (26 - h) ltac:(lia)) as DP. fold D in DP.
  assert (S : Z.pos m * 2 ^ (e + 1074) * (D * D) = M * 2 ^ 1074).
  { unfold M, D. rewrite <- Z.mul_assoc, <- !pow_add by lia. rewrite <- Z.mul_assoc, <- pow_add by lia. do 2 f_equal. lia. }
  split; intros L.
  - rewrite rnd_fix in R; [|lia|]. 2: { pose proof (log2_bounds n ltac:(lia)) as (_ & B). assert (2 ^ (Z.log2 n + 1) <= 2 ^ 53) by (apply Z.pow_le_mono_r; lia). lia. }
    rewrite R in S. apply (Z.mul_reg_r _ _ (2 ^ 1074)); [lia|]. rewrite <- S. ring.
  - pose proof (rnd_near 0 (n * 2 ^ 1074) ltac:(lia) ltac:(nia)) as B. rewrite <- R in B.
    unfold grain in B. rewrite Z.log2_mul_pow2 in B by lia. replace (Z.max 0 (1074 + Z.log2 n - 52)) with (Z.log2 n - 52 + 1074) in B by lia.
    rewrite (pow_add (Z.log2 n - 52)) in B by lia.
    apply (Z.mul_le_mono_pos_r _ _ (2 ^ 1074)); [trivial|].
    assert (DD : 0 < D * D) by nia.
    replace (2 * Z.abs (M - n * (D * D)) * 2 ^ 1074) with (2 * Z.abs (Z.pos m * 2 ^ (e + 1074) - n * 2 ^ 1074) * (D * D)).
    + replace (2 ^ (Z.log2 n - 52) * (D * D) * 2 ^ 1074) with (2 ^ (Z.log2 n - 52) * 2 ^ 1074 * (D * D)) by ring. apply Z.mul_le_mono_nonneg_r; lia.
    + rewrite <- (Z.abs_eq (D * D)) at 1 by lia. rewrite <- (Z.abs_eq (2 ^ 1074)) at 2 by lia.
      rewrite <- !Z.mul_assoc, <- !Z.abs_mul. f_equal. f_equal. rewrite !Z.mul_sub_distr_r, S. ring.
Qed.
Lemma square_core : forall n q r D k, 0 < n -> 0 <= k -> k * k <= n < (k + 1) * (k + 1) -> 0 < D -> 0 <= r <= 2 * q -> 2 ^ 52 <= q < 2 ^ 53 ->
  let M := q * q + r in let c := if r <=? q then q else q + 1 in
  (c < k * D -> M <= n * (D * D) - k * D) /\
  (M = n * (D * D) -> n < 2 ^ 52 -> c / D < k + 1) /\
  (c / D) * (c / D) * (D * D) <= M + (if r <=? q then 0 else q).
Proof.
  intros n q r D k N K KN DP R Q M c. set (t := c / D).
  assert (TL : t * D <= c) by (unfold t; rewrite Z.mul_comm; apply Z.mul_div_le; lia).
  assert (T0 : 0 <= t) by (unfold t; apply Z.div_pos; [unfold c; destruct (r <=? q); lia|lia]).
  split; [|split].
  - intros L. unfold M, c in *. assert (k * D * (k * D) <= n * (D * D)) by nia. destruct (Z.leb_spec r q).
    + assert (q * (q + 1) <= (k * D - 1) * (k * D)) by (apply Z.mul_le_mono_nonneg; lia). lia.
    + assert ((q + 1) * (q + 1) <= (k * D - 1) * (k * D - 1)) by (apply Z.mul_le_mono_nonneg; lia). lia.
  - intros ME NB. destruct (Z.lt_ge_cases t (k + 1)) as [|G]; [trivial|exfalso].
    assert (KD : (k + 1) * D <= c) by nia.
    assert (Q1 : q < (k + 1) * D).
    { destruct (Z.lt_ge_cases q ((k + 1) * D)); [trivial|exfalso].
      assert ((k + 1) * D * ((k + 1) * D) <= q * q) by (apply Z.mul_le_mono_nonneg; nia).
      assert (n * (D * D) < (k + 1) * (k + 1) * (D * D)) by (apply Z.mul_lt_mono_pos_r; nia). unfold M in ME. lia. }
    unfold c in KD. destruct (Z.leb_spec r q); [lia|]. assert (QE : q = (k + 1) * D - 1) by lia. unfold M in ME.
    assert (K26 : k + 1 <= 2 ^ 26) by nia.
    assert (n * (D * D) <= ((k + 1) * (k + 1) - 1) * (D * D)) by (apply Z.mul_le_mono_nonneg_r; nia).
    assert (DK : D * D < (k + 1) * D) by nia. apply Z.mul_lt_mono_pos_r in DK; [|trivial].
    assert (KD2 : (k + 1) * D <= 2 ^ 26 * 2 ^ 26) by (apply Z.mul_le_mono_nonneg; lia). rewrite <- Z.pow_add_r in KD2 by lia. change (26 + 26) with 52 in KD2. lia.
  - assert (t * D * (t * D) <= c * c) by (apply Z.mul_le_mono_nonneg; nia). unfold M. unfold c in H. destruct (Z.leb_spec r q); nia.
Qed.
Lemma square_ok : forall n, (n < 2 ^ 64)%N -> exists s, square n = Val s /\
  ((n < 2 ^ 52)%N -> s = N.sqrt n) /\ (N.sqrt n <= s)%N /\ (s * s < n + 3072)%N.
Proof.
  intros n NB. destruct (N.eq_dec n 0) as [->|NZ]; [exists 0%N; now repeat split|].
  assert (NP : 0 < Z.of_N n < 2 ^ 64). { split; [lia|]. change (2 ^ 64) with (Z.of_N (2 ^ 64)). lia. }
  destruct (of_int_shape (Z.of_N n) NP) as (m & e & OF & MB & EB & U & E12).
  destruct (sqrt_shape m e MB ltac:(pose proof (Z.log2_nonneg (Z.of_N n)); lia)) as (q & r & QR & RB & QB & SV).
  destruct (scaled (Z.of_N n) m e NP EB U) as (SC1 & SC2). rewrite <- QR in SC1, SC2. cbv zeta in *. clear U.
  pose proof (Z.log2_nonneg (Z.of_N n)) as L0.
  assert (DP : 0 < 2 ^ (26 - Z.div2 e)).
  { apply pow_pos. pose proof (Z.div2_spec e). rewrite Z.shiftr_div_pow2 in H by lia. change (2 ^ 1) with 2 in H. assert (e / 2 <= 6) by (apply Z.div_le_upper_bound; lia). lia. }
  assert (KS : 0 <= Z.of_N (N.sqrt n) /\ Z.of_N (N.sqrt n) * Z.of_N (N.sqrt n) <= Z.of_N n < (Z.of_N (N.sqrt n) + 1) * (Z.of_N (N.sqrt n) + 1)).
  { pose proof (N.sqrt_spec n ltac:(lia)) as (SL & SU). clear - SL SU. set (x := N.sqrt n) in *. clearbody x. split; [lia|]. split; lia. }
  unfold square. rewrite OF, SV. eexists. split; [reflexivity|]. clear OF SV MB.
  set (k := Z.of_N (N.sqrt n)) in *. destruct KS as (K0 & KN).
  pose proof (square_core (Z.of_N n) q r (2 ^ (26 - Z.div2 e)) k ltac:(lia) K0 KN DP RB QB) as (C1 & C2 & C3). cbv zeta in *.
  set (c := if r <=? q then q else q + 1) in *. set (t := c / 2 ^ (26 - Z.div2 e)) in *.
  assert (CP : 0 <= c) by (unfold c; destruct (r <=? q); lia). assert (T0 : 0 <= t) by (apply Z.div_pos; lia).
  assert (LOW : k <= t).
  { apply Z.div_le_lower_bound; [trivial|]. destruct (Z.le_gt_cases (2 ^ (26 - Z.div2 e) * k) c) as [|G]; [trivial|exfalso].
    specialize (C1 ltac:(lia)). pose proof (log2_bounds (Z.of_N n) ltac:(lia)) as (B1 & B2).
    assert (KP : 1 <= k) by (clear - K0 KN NP; clearbody k; nia).
    destruct (Z.le_gt_cases (Z.log2 (Z.of_N n)) 52) as [L|L].
    { specialize (SC1 L). assert (0 < k * 2 ^ (26 - Z.div2 e)) by (apply Z.mul_pos_pos; lia). lia. }
    specialize (SC2 ltac:(lia)). assert (L63 : Z.log2 (Z.of_N n) < 64) by (apply log2_lt; lia).
    set (D := 2 ^ (26 - Z.div2 e)) in *.
    assert (X : 2 * k <= 2 ^ (Z.log2 (Z.of_N n) - 52) * D).
    { assert (2 * (k * D) <= 2 ^ (Z.log2 (Z.of_N n) - 52) * (D * D)) by lia. apply (Z.mul_le_mono_pos_r _ _ D); [exact DP|]. clear - H. lia. }
    assert (LE : Z.log2 (Z.of_N n) - 52 <= e) by lia. set (l := Z.log2 (Z.of_N n)) in *. clearbody l.
    assert (DU : D <= 2 ^ (26 - Z.div2 (l - 52))).
    { apply Z.pow_le_mono_r; [lia|]. rewrite !Z.div2_div. pose proof (Z.div_le_mono (l - 52) e 2 ltac:(lia) LE). lia. }
    clearbody D. clear - B1 KN X DU L L63 K0 KP DP.
    assert (LL : l = 53 \/ l = 54 \/ l = 55 \/ l = 56 \/ l = 57 \/ l = 58 \/ l = 59 \/ l = 60 \/ l = 61 \/ l = 62 \/ l = 63) by lia.
    assert (X2 : 2 * k <= 2 ^ (l - 52) * 2 ^ (26 - Z.div2 (l - 52))) by (pose proof (pow_pos (l - 52) ltac:(lia)); nia).
    clear X DU DP.
    decompose [or] LL; subst l; match type of X2 with ?a <= ?b => let v := eval vm_compute in b in change b with v in X2 end;
      match type of B1 with ?a <= ?b => let v := eval vm_compute in a in change a with v in B1 end; nia. }
  split; [|split].
  - intros N52. assert (Z.of_N n < 2 ^ 52) by (change (2 ^ 52) with (Z.of_N (2 ^ 52)); lia).
    assert (L52 : Z.log2 (Z.of_N n) <= 52) by (pose proof (log2_lt (Z.of_N n) 52 ltac:(lia) ltac:(lia) ltac:(lia)); lia).
    specialize (C2 (SC1 L52) H). lia.
  - lia.
  - assert (ZT : t * t < Z.of_N n + 3072); [|lia].
    set (D := 2 ^ (26 - Z.div2 e)) in *.
    assert (ME : q * q + r <= (Z.of_N n + 1024) * (D * D)).
    { destruct (Z.le_gt_cases (Z.log2 (Z.of_N n)) 52) as [L|L]; [rewrite (SC1 L); apply Z.mul_le_mono_nonneg_r; [apply Z.mul_nonneg_nonneg|]; lia|].
      specialize (SC2 ltac:(lia)). assert (L63 : Z.log2 (Z.of_N n) < 64) by (apply log2_lt; lia).
      assert (2 ^ (Z.log2 (Z.of_N n) - 52) <= 2 ^ 11) by (apply Z.pow_le_mono_r; lia). change (2 ^ 11) with 2048 in H.
      assert (2 ^ (Z.log2 (Z.of_N n) - 52) * (D * D) <= 2048 * (D * D)) by (apply Z.mul_le_mono_nonneg_r; [apply Z.mul_nonneg_nonneg|]; lia). lia. }
    assert (QD : (if r <=? q then 0 else q) < 2048 * (D * D)).
    { destruct (Z.leb_spec r q); [apply Z.mul_pos_pos; [lia|apply Z.mul_pos_pos; lia]|]. destruct (Z.eq_dec e 12) as [->|NE].
      - exfalso. specialize (E12 eq_refl). change (12 mod 2) with 0 in QR. rewrite E12 in QR. change (2 ^ 52 * 2 ^ (52 + 0)) with (2 ^ 52 * 2 ^ 52) in QR.
        assert (2 ^ 52 * 2 ^ 52 <= q * q) by (apply Z.mul_le_mono_nonneg; lia). lia.
      - assert (2 ^ 21 <= D).
        { apply Z.pow_le_mono_r; [lia|]. rewrite Z.div2_div. assert (e / 2 < 6) by (apply Z.div_lt_upper_bound; lia). lia. }
        assert (2 ^ 21 * 2 ^ 21 <= D * D) by (apply Z.mul_le_mono_nonneg; lia). change (2 ^ 21 * 2 ^ 21) with 4398046511104 in H1. change (2 ^ 53) with 9007199254740992 in QB. lia. }
    apply (Z.mul_lt_mono_pos_r (D * D)); [apply Z.mul_pos_pos; lia|]. lia.
Qed.

(** ** divisors_of *)
Require Import Verif.ToolsSpec.
Require Verif.ToolsModel Verif.ToolsProofs.
Definition root (n : N) : N := match square n with Val s => s | _ => 0%N end.
Lemma root_square : forall n, (n < 2 ^ 64)%N -> square n = Val (root n).
Proof. intros n B. destruct (square_ok n B) as (s & E & _). unfold root. now rewrite E. Qed.
Lemma root_ok : square_root root.
Proof. intros n B. destruct (square_ok n B) as (s & E & H). unfold root. now rewrite E. Qed.
Lemma divisors_root : forall n sorting, (n < 2 ^ 64)%N -> divisors_of n sorting = Val (ToolsModel.divisors_of root n sorting).
Proof. intros n sorting B. unfold divisors_of. rewrite root_square by trivial. reflexivity. Qed.
Lemma double_divisors : forall n sorting, (0 < n < 2 ^ 64)%N -> exists l, divisors_of n sorting = Val l /\
  (forall d, In d l <-> N.divide d n /\ (1 < d < n)%N) /\ NoDup l /\ (sorting = true -> ascending l).
Proof.
  intros n sorting B. exists (ToolsModel.divisors_of root n sorting). split; [apply divisors_root; lia|].
  exact (ToolsProofs.divisors_ok root n sorting root_ok B).
Qed.
Lemma double_primes : forall n sorting, (0 < n < 2 ^ 64)%N ->
  (divisors_of n sorting = Val [] <-> forall d, N.divide d n -> d = 1%N \/ d = n).
Proof.
  intros n sorting B. rewrite divisors_root by lia. rewrite <- (ToolsProofs.divisors_prime root n sorting root_ok B).
  split; [now intros [= ->]|now intros ->].
Qed.
Lemma double_zero : forall sorting, divisors_of 0 sorting = Val [].
Proof. intros sorting. rewrite divisors_root by reflexivity. f_equal. exact (ToolsProofs.divisors_zero root sorting root_ok). Qed.
