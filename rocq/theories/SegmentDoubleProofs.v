(** Proofs about sums of doubles, however they are bracketed. *)
Require Import List Arith NArith ZArith Lia Bool.
Require Import Floats.SpecFloat.
Require Import Verif.Base Verif.DoubleModel Verif.DoubleSpec Verif.DoubleProofs Verif.DoubleSumProofs.
Require Import Verif.SegmentModel Verif.SegmentSpec Verif.SegmentOrderSpec Verif.SegmentOrderProofs.
Import ListNotations.
Local Open Scope Z_scope.

(** ** One addition *)
Lemma rnds_error : forall v, 2 ^ 53 * Z.abs (rnds 0 v - v) <= Z.abs v.
Proof.
  intros v. assert (H : forall w, 0 <= w -> 2 ^ 53 * Z.abs (rnd 0 w - w) <= w).
  { intros w W. pose proof (rnd_near 0 w ltac:(lia) W) as R. unfold grain in R.
    destruct (Z.le_gt_cases (Z.log2 w) 52) as [L|L].
    - rewrite Z.max_l in R by lia. change (2 ^ 0) with 1 in R. lia.
    - rewrite Z.max_r in R by lia. assert (P : 2 ^ Z.log2 w <= w) by (apply Z.log2_spec; destruct (Z.eq_dec w 0); subst; cbn in *; lia).
      replace (Z.log2 w) with (52 + (Z.log2 w - 52)) in P by lia. rewrite Z.pow_add_r in P by lia.
      set (g := 2 ^ (Z.log2 w - 52)) in *. change (2 ^ 52) with 4503599627370496 in P. change (2 ^ 53) with 9007199254740992. lia. }
  specialize (H (Z.abs v) ltac:(lia)). unfold rnds. destruct (Z.lt_trichotomy v 0) as [N|[->|P]].
  - rewrite Z.sgn_neg by lia. rewrite (Z.abs_neq v) in * by lia. replace (-1 * rnd 0 (- v) - v) with (- (rnd 0 (- v) - - v)) by lia.
    rewrite Z.abs_opp. exact H.
  - cbn. lia.
  - rewrite Z.sgn_pos by lia. rewrite (Z.abs_eq v) in * by lia. rewrite Z.mul_1_l. exact H.
Qed.
Lemma dadd_error : forall a b, fin a -> fin b -> is_finite (dadd a b) ->
  2 ^ 53 * Z.abs (units (dadd a b) - (units a + units b)) <= Z.abs (units a + units b).
Proof.
  intros a b (VA & FA) (VB & FB) F. destruct (dadd_rounded a b VA VB FA FB) as (s & V & O & I & _).
  change (2098 + 0) with 2098 in *.
  destruct (Z.lt_ge_cases (rnd 0 (Z.abs (units a + units b))) (2 ^ 2098)) as [L|L].
  - destruct (O L) as (_ & U). change (2 ^ 0) with 1 in U. rewrite Z.mul_1_r in U. rewrite U. apply rnds_error.
  - rewrite (I L) in F. contradiction.
Qed.
Lemma dadd_operands : forall a b, is_finite (dadd a b) -> is_finite a /\ is_finite b.
Proof.
  intros [s|s| |s m e] [s'|s'| |s' m' e'] F; split; try exact Logic.I; try contradiction; unfold dadd, SFadd in F; try (destruct (Bool.eqb s s')); contradiction.
Qed.
Lemma dadd_valid : forall a b, fin a -> fin b -> valid (dadd a b).
Proof. intros a b (VA & FA) (VB & FB). now destruct (dadd_rounded a b VA VB FA FB) as (s & V & _). Qed.
Lemma dadd_is_finite : forall M, M = 2 ^ 2098 -> forall a b, fin a -> fin b -> (2 ^ 53 + 1) * Z.abs (units a + units b) < 2 ^ 53 * M -> is_finite (dadd a b).
Proof.
  intros M EM a b (VA & FA) (VB & FB) B. destruct (dadd_rounded a b VA VB FA FB) as (s & V & O & _). change (2098 + 0) with 2098 in *.
  apply O. pose proof (rnds_error (units a + units b)) as R. rewrite <- rnds_abs. set (v := units a + units b) in *. set (r := rnds 0 v) in *.
  rewrite <- EM. clear EM O V. clearbody r v. change (2 ^ 53) with 9007199254740992 in *. lia.
Qed.

(** ** A bracketed sum *)
Lemma fin_eval : forall x t, (forall i, In i (flatten t) -> fin (x i)) -> is_finite (eval dadd x t) -> fin (eval dadd x t).
Proof.
  intros x. induction t as [i|l IHl r IHr]; intros X F; cbn [eval] in *; [apply X; now left|].
  destruct (dadd_operands _ _ F) as (Fl & Fr). split; [|exact F]. apply dadd_valid; [apply IHl|apply IHr]; trivial; intros i I; apply X; apply in_or_app; auto.
Qed.
Definition grown (d : Z) : Z := (2 ^ 53 + 1) ^ d.
Definition kept (d : Z) : Z := (2 ^ 53) ^ d.
Lemma grown_kept : forall d, 0 <= d -> 0 < kept d <= grown d.
Proof. intros d D. unfold kept, grown. split; [apply Z.pow_pos_nonneg; lia|apply Z.pow_le_mono_l; lia]. Qed.
Lemma grown_succ : forall d, 0 <= d -> grown (d + 1) = (2 ^ 53 + 1) * grown d.
Proof. intros d D. unfold grown. rewrite Z.pow_add_r, Z.pow_1_r by lia. ring. Qed.
Lemma kept_succ : forall d, 0 <= d -> kept (d + 1) = 2 ^ 53 * kept d.
Proof. intros d D. unfold kept. rewrite Z.pow_add_r, Z.pow_1_r by lia. ring. Qed.
Local Notation tsum x t := (zsum (map (fun i => units (x i)) (flatten t))).
Local Notation tmag x t := (zsum (map (fun i => Z.abs (units (x i))) (flatten t))).
Lemma mag_nonneg : forall (x : N -> double) l, 0 <= zsum (map (fun i => Z.abs (units (x i))) l) /\
  Z.abs (zsum (map (fun i => units (x i)) l)) <= zsum (map (fun i => Z.abs (units (x i))) l).
Proof. intros x l. unfold zsum. induction l as [|i l (IH1 & IH2)]; cbn [map fold_right]; lia. Qed.
Lemma tree_step : forall K G A1 A2 S1 S2 u1 u2, 0 < K <= G -> 0 <= A1 -> 0 <= A2 -> Z.abs S1 <= A1 -> Z.abs S2 <= A2 ->
  K * Z.abs (u1 - S1) <= (G - K) * A1 -> K * Z.abs (u2 - S2) <= (G - K) * A2 ->
  K * Z.abs (u1 + u2) <= G * (A1 + A2) /\
  forall w, 2 ^ 53 * Z.abs (w - (u1 + u2)) <= Z.abs (u1 + u2) ->
    2 ^ 53 * K * Z.abs (w - (S1 + S2)) <= ((2 ^ 53 + 1) * G - 2 ^ 53 * K) * (A1 + A2).
Proof.
  intros K G A1 A2 S1 S2 u1 u2 KG P1 P2 B1 B2 E1 E2.
  assert (V : K * Z.abs (u1 + u2) <= G * (A1 + A2)).
  { assert (Z.abs (u1 + u2) <= Z.abs (u1 - S1) + Z.abs (u2 - S2) + A1 + A2) by lia.
    assert (K * Z.abs (u1 + u2) <= K * (Z.abs (u1 - S1) + Z.abs (u2 - S2) + A1 + A2)) by (apply Z.mul_le_mono_nonneg_l; lia). nia. }
  split; [exact V|]. intros w W. set (P := 2 ^ 53) in *. assert (PP : 0 < P) by reflexivity. clearbody P.
  assert (T : Z.abs (w - (S1 + S2)) <= Z.abs (w - (u1 + u2)) + Z.abs (u1 - S1) + Z.abs (u2 - S2)) by lia.
  set (x := Z.abs (w - (S1 + S2))) in *. set (y := Z.abs (w - (u1 + u2))) in *. set (e1 := Z.abs (u1 - S1)) in *. set (e2 := Z.abs (u2 - S2)) in *.
  set (v := Z.abs (u1 + u2)) in *. clearbody x y e1 e2 v.
  assert (Q1 : P * K * x <= P * K * (y + e1 + e2)) by (apply Z.mul_le_mono_nonneg_l; [|exact T]; apply Z.mul_nonneg_nonneg; lia).
  assert (Q2 : K * (P * y) <= K * v) by (apply Z.mul_le_mono_nonneg_l; lia).
  assert (Q3 : P * (K * e1) <= P * ((G - K) * A1)) by (apply Z.mul_le_mono_nonneg_l; lia).
  assert (Q4 : P * (K * e2) <= P * ((G - K) * A2)) by (apply Z.mul_le_mono_nonneg_l; lia).
  replace (P * K * (y + e1 + e2)) with (K * (P * y) + P * (K * e1) + P * (K * e2)) in Q1 by ring.
  replace (((P + 1) * G - P * K) * (A1 + A2)) with (G * (A1 + A2) + P * ((G - K) * A1) + P * ((G - K) * A2)) by ring. lia.
Qed.
Lemma tree_error : forall x t d, (forall i, In i (flatten t) -> fin (x i)) -> is_finite (eval dadd x t) -> Z.of_N (depth t) <= d ->
  kept d * Z.abs (units (eval dadd x t) - tsum x t) <= (grown d - kept d) * tmag x t.
Proof.
  intros x. induction t as [i|l IHl r IHr]; intros d X F D; cbn [eval flatten] in *.
  - pose proof (grown_kept d ltac:(cbn in D; lia)). cbn [map]. unfold zsum. cbn [fold_right]. rewrite !Z.add_0_r, Z.sub_diag. change (Z.abs 0) with 0.
    rewrite Z.mul_0_r. apply Z.mul_nonneg_nonneg; lia.
  - cbn [depth] in D. destruct (dadd_operands _ _ F) as (Fl & Fr).
    assert (Xl : forall i, In i (flatten l) -> fin (x i)) by (intros i I; apply X; apply in_or_app; auto).
    assert (Xr : forall i, In i (flatten r) -> fin (x i)) by (intros i I; apply X; apply in_or_app; auto).
    specialize (IHl (d - 1) Xl Fl ltac:(lia)). specialize (IHr (d - 1) Xr Fr ltac:(lia)).
    rewrite !map_app, !zsum_app. replace d with (d - 1 + 1) by lia. rewrite grown_succ, kept_succ by lia.
    pose proof (grown_kept (d - 1) ltac:(lia)) as GK. destruct (mag_nonneg x (flatten l)) as (M1 & N1). destruct (mag_nonneg x (flatten r)) as (M2 & N2).
    destruct (tree_step _ _ _ _ _ _ _ _ GK M1 M2 N1 N2 IHl IHr) as (_ & T). apply T.
    apply dadd_error; [now apply fin_eval|now apply fin_eval|exact F].
Qed.
Lemma tree_finite : forall M, M = 2 ^ 2098 -> 0 < M -> forall x t d, (forall i, In i (flatten t) -> fin (x i)) -> Z.of_N (depth t) <= d ->
  grown d * tmag x t < kept d * M -> is_finite (eval dadd x t).
Proof.
  intros M EM MP x. induction t as [i|l IHl r IHr]; intros d X D B; cbn [eval flatten] in *.
  - apply X. now left.
  - cbn [depth] in D. 
    assert (Xl : forall i, In i (flatten l) -> fin (x i)) by (intros i I; apply X; apply in_or_app; auto).
    assert (Xr : forall i, In i (flatten r) -> fin (x i)) by (intros i I; apply X; apply in_or_app; auto).
    rewrite !map_app, !zsum_app in B. replace d with (d - 1 + 1) in B by lia. rewrite grown_succ, kept_succ in B by lia.
    pose proof (grown_kept (d - 1) ltac:(lia)) as GK. destruct (mag_nonneg x (flatten l)) as (M1 & N1). destruct (mag_nonneg x (flatten r)) as (M2 & N2).
    pose proof (tree_error x l (d - 1) Xl) as El. pose proof (tree_error x r (d - 1) Xr) as Er.
    specialize (IHl (d - 1) Xl ltac:(lia)). specialize (IHr (d - 1) Xr ltac:(lia)).
    set (K := kept (d - 1)) in *. set (G := grown (d - 1)) in *. set (A1 := tmag x l) in *. set (A2 := tmag x r) in *.
    assert (GA : G * (A1 + A2) < K * M).
    { clearbody K G A1 A2. change (2 ^ 53) with 9007199254740992 in B. 
      assert (0 <= G * (A1 + A2)) by (apply Z.mul_nonneg_nonneg; lia). set (p := G * (A1 + A2)) in *.
      replace ((9007199254740992 + 1) * G * (A1 + A2)) with (9007199254740992 * p + p) in B by (unfold p; ring). rewrite <- Z.mul_assoc in B. lia. }
    assert (Fl : is_finite (eval dadd x l)) by (apply IHl; assert (0 <= G * A2) by (apply Z.mul_nonneg_nonneg; lia); lia).
    assert (Fr : is_finite (eval dadd x r)) by (apply IHr; assert (0 <= G * A1) by (apply Z.mul_nonneg_nonneg; lia); lia).
    specialize (El Fl ltac:(lia)). specialize (Er Fr ltac:(lia)).
    destruct (tree_step _ _ _ _ _ _ _ _ GK M1 M2 N1 N2 El Er) as (V & _).
    apply (dadd_is_finite M EM); [now apply fin_eval|now apply fin_eval|].
    set (v := Z.abs (units (eval dadd x l) + units (eval dadd x r))) in *. clearbody v. clear El Er IHl IHr EM.
    apply (Zmult_lt_reg_r _ _ K); [lia|]. replace (2 ^ 53 * M * K) with (2 ^ 53 * K * M) by ring.
    replace ((2 ^ 53 + 1) * v * K) with ((2 ^ 53 + 1) * (K * v)) by ring.
    apply Z.le_lt_trans with (2 := B). rewrite <- Z.mul_assoc. apply Z.mul_le_mono_nonneg_l; [discriminate|exact V].
Qed.
(** Up to depth 60 the bound is simple. *)
Lemma grown_simple : forall d, 0 <= d <= 60 -> 2 ^ 52 * (grown d - kept d) <= d * kept d.
Proof.
  intros d (D & D60). revert D60. apply (natlike_ind (fun d => d <= 60 -> 2 ^ 52 * (grown d - kept d) <= d * kept d)); [intros _; vm_compute; discriminate| |exact D].
  clear d D. intros d D IH D60. specialize (IH ltac:(lia)). rewrite <- Z.add_1_r, grown_succ, kept_succ by lia.
  pose proof (grown_kept d D) as GK. set (G := grown d) in *. set (K := kept d) in *. clearbody G K.
  change (2 ^ 52) with 4503599627370496 in *. change (2 ^ 53) with 9007199254740992 in *.
  assert (d * K <= 60 * K) by (apply Z.mul_le_mono_nonneg_r; lia). lia.
Qed.

(** ** Queries *)
Lemma map_nth_units : forall (f : double -> Z) (v : list double) d l,
  map (fun i => f (nth (N.to_nat i) v d)) l = map f (map (fun i => nth (N.to_nat i) v d) l).
Proof. intros. now rewrite map_map. Qed.
Lemma sub_incl : forall T (v : list T) s a b, incl (sub s a b v) v.
Proof.
  intros T. induction v as [|x v IH]; intros s a b y I; cbn [sub] in I; [exact I|].
  destruct ((a <=? s)%N && (s <=? b)%N); [destruct I as [->|I]; [now left|]|]; right; eapply IH; exact I.
Qed.
Lemma depth_60 : forall n, (0 < n < 2 ^ 60)%N -> (N.log2_up n <= 60)%N.
Proof. intros n N0. apply N.log2_up_le_pow2; lia. Qed.
Lemma double_query : forall v s e, Forall fin v -> (0 < sizeN v < 2 ^ 60)%N ->
  let n := sizeN v in let w := sub 0 (clamp n (N.min s e)) (clamp n (N.max s e)) v in
  exists r, answers double_sum v n s e r /\ (is_finite r -> nearly n w r) /\ (magnitudes w < 2 ^ 2097 -> fin r).
Proof.
  intros v s e FV N0 n w.
  destruct (answer_elements double double unit double_sum (fun x => x) v s e) as (b & D & _ & A); [now intros []|reflexivity|trivial|].
  change (depth b <= N.log2_up n)%N in D. destruct (A (S754_zero false)) as (FL0 & AN). set (x := fun i => nth (N.to_nat i) v (S754_zero false)) in *.
  assert (FL : map x (flatten b) = w) by exact FL0. clear FL0.
  change (join double_sum) with dadd in AN. exists (eval dadd x b). split; [exact AN|].
  assert (X : forall i, In i (flatten b) -> fin (x i)).
  { intros i I. rewrite Forall_forall in FV. apply FV, (sub_incl _ v 0 (clamp n (N.min s e)) (clamp n (N.max s e))). fold w. rewrite <- FL.
    now apply in_map. }
  assert (S1 : map (fun i => units (x i)) (flatten b) = map units w) by (rewrite <- FL, map_map; reflexivity).
  assert (S2 : map (fun i => Z.abs (units (x i))) (flatten b) = map (fun y => Z.abs (units y)) w) by (rewrite <- FL, map_map; reflexivity).
  set (d := Z.of_N (N.log2_up n)). assert (D60 : 0 <= d <= 60) by (pose proof (depth_60 n N0); unfold d; lia).
  assert (Db : Z.of_N (depth b) <= d) by (unfold d; lia).
  pose proof (grown_kept d ltac:(lia)) as GK. pose proof (grown_simple d D60) as GS.
  destruct (mag_nonneg x (flatten b)) as (M0 & _). 
  split.
  - intros F. pose proof (tree_error x b d X F Db) as TE. unfold nearly, magnitudes. fold d. rewrite S1, S2 in TE. rewrite S2 in M0.
    set (A0 := zsum (map (fun y => Z.abs (units y)) w)) in *. set (err := Z.abs _) in *. clearbody err A0.
    set (K := kept d) in *. set (G := grown d) in *. clearbody K G d.
    apply (Zmult_le_reg_r _ _ K); [lia|].
    assert (Q1 : 2 ^ 52 * (K * err) <= 2 ^ 52 * ((G - K) * A0)) by (apply Z.mul_le_mono_nonneg_l; [discriminate|exact TE]).
    assert (Q2 : 2 ^ 52 * (G - K) * A0 <= d * K * A0) by (apply Z.mul_le_mono_nonneg_r; [exact M0|exact GS]).
    replace (2 ^ 52 * err * K) with (2 ^ 52 * (K * err)) by ring. replace (d * A0 * K) with (d * K * A0) by ring.
    apply Z.le_trans with (1 := Q1). rewrite Z.mul_assoc. exact Q2.
  - intros B. apply fin_eval; [exact X|]. apply (tree_finite (2 ^ 2098) eq_refl (pow_pos 2098 ltac:(discriminate)) x b d X Db). rewrite S2 in *. unfold magnitudes in B.
    set (A0 := zsum (map (fun y => Z.abs (units y)) w)) in *. assert (P1 : 2 ^ 2098 = 2 * 2 ^ 2097) by reflexivity. rewrite P1.
    assert (0 < 2 ^ 2097) by (apply pow_pos; discriminate). set (M := 2 ^ 2097) in *. clearbody M A0.
    set (K := kept d) in *. set (G := grown d) in *. clearbody K G d.
    assert (G2 : G <= 2 * K) by (change (2 ^ 52) with 4503599627370496 in GS; nia).
    apply Z.le_lt_trans with (2 * K * A0); [apply Z.mul_le_mono_nonneg_r; lia|].
    replace (2 * K * A0) with (2 * (K * A0)) by ring. replace (K * (2 * M)) with (2 * (K * M)) by ring.
    apply Zmult_lt_compat_l; [lia|]. apply Zmult_lt_compat_l; lia.
Qed.
(** Integers. *)
Lemma eval_int : forall x t, (forall p w c, flatten t = p ++ w ++ c -> small (zsum (map x w))) ->
  eval dadd (fun i => of_int (x i)) t = of_int (zsum (map x (flatten t))).
Proof.
  intros x. induction t as [i|l IHl r IHr]; intros H; cbn [eval flatten map].
  - unfold zsum. cbn [fold_right]. f_equal. lia.
  - assert (Hl : forall p w c, flatten l = p ++ w ++ c -> small (zsum (map x w))).
    { intros p w c E. apply (H p w (c ++ flatten r)). cbn [flatten]. now rewrite E, <- !app_assoc. }
    assert (Hr : forall p w c, flatten r = p ++ w ++ c -> small (zsum (map x w))).
    { intros p w c E. apply (H (flatten l ++ p) w c). cbn [flatten]. now rewrite E, <- app_assoc. }
    rewrite IHl, IHr by trivial. rewrite map_app, zsum_app. apply dadd_int.
    + apply (Hl [] _ []). cbn. now rewrite app_nil_r.
    + apply (Hr [] _ []). cbn. now rewrite app_nil_r.
    + rewrite <- zsum_app, <- map_app. apply (H [] _ []). cbn [flatten app]. now rewrite app_nil_r.
Qed.
Lemma sub_map : forall A B (f : A -> B) v s a b, sub s a b (map f v) = map f (sub s a b v).
Proof.
  intros A B f. induction v as [|x v IH]; intros s a b; cbn [map sub]; [trivial|]. destruct (_ && _); cbn [map]; now rewrite IH.
Qed.
Lemma integer_query : forall v s e, sums_small v -> (0 < sizeN v < 2 ^ 60)%N ->
  let n := sizeN v in
  answers double_sum (map of_int v) n s e (of_int (zsum (sub 0 (clamp n (N.min s e)) (clamp n (N.max s e)) v))).
Proof.
  intros v s e SM N0 n. assert (SZ : sizeN (map of_int v) = n) by (unfold n, sizeN; now rewrite map_length).
  destruct (answer_elements double double unit double_sum (fun x => x) (map of_int v) s e) as (b & _ & FT & A); [now intros []|reflexivity|now rewrite SZ|].
  rewrite SZ in A, FT. destruct (A (of_int 0)) as (FL & AN). change (join double_sum) with dadd in AN.
  set (x := fun i => nth (N.to_nat i) v 0). assert (E : forall i, nth (N.to_nat i) (map of_int v) (of_int 0) = of_int (x i)) by (intros; apply map_nth).
  rewrite (eval_ext _ _ _ (fun i => of_int (x i))) in AN by (intros; apply E).
  set (lo := clamp n (N.min s e)) in *. set (hi := clamp n (N.max s e)) in *.
  assert (L : (lo <= hi < n)%N) by (unfold lo, hi, clamp, n in *; lia).
  assert (FV : map x (flatten b) = sub 0 lo hi v).
  { rewrite FT. apply (sub_from_to Z 0 v (N.to_nat (hi - lo))); unfold n in *; lia. }
  rewrite <- FV. rewrite <- eval_int; [exact AN|].
  intros p w c EQ. apply (map_infix _ _ x) in EQ. rewrite FV in EQ. destruct (sub_infix Z v lo hi) as (a & d & V); [lia|exact (proj2 L)|].
  rewrite EQ in V. rewrite <- !app_assoc, app_assoc in V. exact (SM _ _ _ V).
Qed.
(** NaN. *)
Lemma dadd_nan : forall a b, a = S754_nan \/ b = S754_nan -> dadd a b = S754_nan.
Proof. intros a b [->| ->]; [reflexivity|]. now destruct a. Qed.
Lemma eval_nan : forall x t, In S754_nan (map x (flatten t)) -> eval dadd x t = S754_nan.
Proof.
  intros x. induction t as [i|l IHl r IHr]; intros I; cbn [eval flatten map] in *.
  - destruct I as [E|[]]. exact E.
  - rewrite map_app in I. apply dadd_nan. apply in_app_or in I. destruct I; auto.
Qed.
Lemma nan_query : forall v s e, (0 < sizeN v < 2 ^ 60)%N -> let n := sizeN v in
  In S754_nan (sub 0 (clamp n (N.min s e)) (clamp n (N.max s e)) v) -> answers double_sum v n s e S754_nan.
Proof.
  intros v s e N0 n I.
  destruct (answer_elements double double unit double_sum (fun x => x) v s e) as (b & _ & _ & A); [now intros []|reflexivity|trivial|].
  destruct (A (S754_zero false)) as (FL & AN). unfold double in *. assert (I' : In S754_nan (map (fun i => nth (N.to_nat i) v (S754_zero false)) (flatten b))) by (rewrite FL; exact I).
  rewrite <- (eval_nan _ _ I'). exact AN.
Qed.
(** Minima. *)
Lemma dmin_spec : forall a b, number a -> number b -> number (dmin a b) /\ ext (dmin a b) = Z.min (ext a) (ext b) /\ (dmin a b = a \/ dmin a b = b).
Proof.
  intros a b A B. unfold dmin. rewrite dlt_ext by trivial. destruct (Z.ltb_spec (ext b) (ext a)); (split; [trivial|split; [lia|auto]]).
Qed.
Lemma eval_min : forall x t, (forall i, In i (flatten t) -> number (x i)) ->
  number (eval dmin x t) /\ In (eval dmin x t) (map x (flatten t)) /\ forall i, In i (flatten t) -> ext (eval dmin x t) <= ext (x i).
Proof.
  intros x. induction t as [i|l IHl r IHr]; intros X; cbn [eval flatten map] in *.
  - split; [apply X; now left|]. split; [now left|]. intros j [<-|[]]. lia.
  - destruct IHl as (Nl & Il & Bl); [intros; apply X; apply in_or_app; auto|]. destruct IHr as (Nr & Ir & Br); [intros; apply X; apply in_or_app; auto|].
    destruct (dmin_spec _ _ Nl Nr) as (NM & EM & CM). split; [trivial|]. rewrite map_app. split.
    + apply in_or_app. destruct CM as [-> | ->]; auto.
    + intros i I. rewrite EM. apply in_app_or in I. destruct I as [I|I]; [specialize (Bl i I)|specialize (Br i I)]; lia.
Qed.
Lemma min_query : forall v s e, Forall (fun x => valid x /\ x <> S754_nan) v -> (0 < sizeN v < 2 ^ 60)%N -> let n := sizeN v in
  let w := sub 0 (clamp n (N.min s e)) (clamp n (N.max s e)) v in
  exists r, answers double_min v n s e r /\ In r w /\ forall x, In x w -> dle r x = true.
Proof.
  intros v s e V N0 n w.
  destruct (answer_elements double double unit double_min (fun x => x) v s e) as (b & _ & _ & A); [now intros []|reflexivity|trivial|].
  destruct (A (S754_zero false)) as (FL0 & AN). set (x := fun i => nth (N.to_nat i) v (S754_zero false)) in *.
  assert (FL : map x (flatten b) = w) by exact FL0. clear FL0.
  change (join double_min) with dmin in AN.
  assert (X : forall i, In i (flatten b) -> number (x i)).
  { intros i I. rewrite Forall_forall in V. apply V, (sub_incl _ v 0 (clamp n (N.min s e)) (clamp n (N.max s e))). fold w. rewrite <- FL.
    now apply in_map. }
  destruct (eval_min x b X) as (NM & IM & BM). exists (eval dmin x b). split; [exact AN|]. rewrite <- FL. split; [exact IM|].
  intros y I. apply in_map_iff in I as (i & <- & I). rewrite dle_ext; [|trivial|now apply X]. apply Z.leb_le. now apply BM.
Qed.
