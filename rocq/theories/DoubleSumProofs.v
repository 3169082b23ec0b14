(** Proofs about max_sum_of for doubles. *)
Require Import List Arith NArith ZArith Lia Bool.
Require Import Floats.SpecFloat.
Require Import Verif.Base Verif.Cint Verif.DoubleModel Verif.DoubleSpec Verif.DoubleProofs.
Require Verif.SubModel.
Import ListNotations.
Local Open Scope Z_scope.

(** ** The order of the doubles other than NaN *)
Definition number (d : double) : Prop := valid d /\ d <> S754_nan.
Definition ext (d : double) : Z :=
  match d with S754_infinity s => if s then - 2 ^ 2098 else 2 ^ 2098 | _ => units d end.
Lemma finite_number : forall d, valid d -> is_finite d -> number d.
Proof. intros d V F. split; [exact V|]. intros ->. contradiction. Qed.
Lemma ext_finite : forall d, valid d -> is_finite d -> ext d = units d /\ - 2 ^ 2098 < ext d < 2 ^ 2098.
Proof.
  intros d V F. pose proof (rnd_units d V) as (_ & B). assert (E : ext d = units d) by (destruct d; try reflexivity; contradiction).
  split; [exact E|]. rewrite E. lia.
Qed.
Lemma dcompare_ext : forall a b, number a -> number b -> SFcompare a b = Some (ext a ?= ext b).
Proof.
  intros a b (VA & NA) (VB & NB). pose proof (pow_pos 2098 ltac:(lia)) as P.
  destruct (dfinite a) eqn:FA, (dfinite b) eqn:FB.
  - apply is_finite_dfinite in FA, FB. rewrite compare_ok by trivial.
    now rewrite (proj1 (ext_finite a VA FA)), (proj1 (ext_finite b VB FB)).
  - destruct b as [|sb| |]; try discriminate FB; [|congruence]. apply is_finite_dfinite in FA. destruct (ext_finite a VA FA) as (_ & B).
    destruct a as [| | |sa ma ea]; try contradiction; cbn [SFcompare]; f_equal; symmetry; cbn [ext] in *; destruct sb;
      (apply Z.compare_gt_iff; lia) || (apply Z.compare_lt_iff; lia).
  - destruct a as [|sa| |]; try discriminate FA; [|congruence]. apply is_finite_dfinite in FB. destruct (ext_finite b VB FB) as (_ & B).
    destruct b as [| | |sb mb eb]; try contradiction; cbn [SFcompare]; f_equal; symmetry; cbn [ext] in *; destruct sa;
      (apply Z.compare_gt_iff; lia) || (apply Z.compare_lt_iff; lia).
  - destruct a as [|sa| |], b as [|sb| |]; try discriminate; try congruence. cbn [SFcompare ext]. f_equal. symmetry.
    destruct sa, sb; (apply Z.compare_eq_iff; lia) || (apply Z.compare_gt_iff; lia) || (apply Z.compare_lt_iff; lia).
Qed.
Lemma dle_ext : forall a b, number a -> number b -> dle a b = (ext a <=? ext b).
Proof. intros a b A B. unfold dle, SFleb. rewrite dcompare_ext by trivial. unfold Z.leb. now destruct (ext a ?= ext b). Qed.
Lemma dlt_ext : forall a b, number a -> number b -> dlt a b = (ext a <? ext b).
Proof. intros a b A B. unfold dlt, SFltb. rewrite dcompare_ext by trivial. unfold Z.ltb. now destruct (ext a ?= ext b). Qed.
Lemma dmax_spec : forall a b, number a -> number b -> number (dmax a b) /\ ext (dmax a b) = Z.max (ext a) (ext b) /\ (dmax a b = a \/ dmax a b = b).
Proof.
  intros a b A B. unfold dmax. rewrite dlt_ext by trivial. destruct (Z.ltb_spec (ext a) (ext b)); (split; [trivial|split; [lia|auto]]).
Qed.
(** Adding a finite double. *)
Definition clamp (v : Z) : Z := Z.max (- 2 ^ 2098) (Z.min (2 ^ 2098) v).
Lemma dadd_ext : forall a x, number a -> valid x -> is_finite x ->
  number (dadd a x) /\ ext (dadd a x) = (if dfinite a then clamp (rnds 0 (units a + units x)) else ext a).
Proof.
  intros a x (VA & NA) VX FX. pose proof (pow_pos 2098 ltac:(lia)) as P. destruct (dfinite a) eqn:FA.
  - apply is_finite_dfinite in FA. destruct (dadd_rounded a x VA VX FA FX) as (s & V & F & I & _).
    change (2098 + 0) with 2098 in *. change (2 ^ 0) with 1 in F. rewrite Z.mul_1_r in F. rewrite <- rnds_abs in F, I. set (v := units a + units x) in *.
    destruct (Z.lt_ge_cases (Z.abs (rnds 0 v)) (2 ^ 2098)) as [L|G].
    + destruct (F L) as (FD & U). split; [now apply finite_number|]. rewrite (proj1 (ext_finite _ V FD)), U. unfold clamp. lia.
    + rewrite (I G). split; [split; [reflexivity|discriminate]|]. cbn [ext]. unfold clamp.
      assert (S : (v <? 0) = (rnds 0 v <? 0)).
      { unfold rnds in *. pose proof (rnd_nonneg 0 (Z.abs v) ltac:(lia) ltac:(lia)) as R. destruct (Z.lt_total v 0) as [Lv|[Ev|Lv]].
        - rewrite (Z.sgn_neg v Lv) in *. rewrite (proj2 (Z.ltb_lt v 0) Lv). symmetry. apply Z.ltb_lt. lia.
        - rewrite Ev in *. reflexivity.
        - rewrite (Z.sgn_pos v Lv) in *. rewrite (proj2 (Z.ltb_ge v 0)) by lia. symmetry. apply Z.ltb_ge. lia. }
      rewrite S. destruct (Z.ltb_spec (rnds 0 v) 0); lia.
  - destruct a as [|sa| |]; try discriminate; [|congruence]. destruct x; try contradiction; (split; [split; [reflexivity|discriminate]|reflexivity]).
Qed.
Lemma dadd_mono : forall a b x, number a -> number b -> valid x -> is_finite x -> ext a <= ext b -> ext (dadd a x) <= ext (dadd b x).
Proof.
  intros a b x A B VX FX L. rewrite (proj2 (dadd_ext a x A VX FX)), (proj2 (dadd_ext b x B VX FX)). pose proof (pow_pos 2098 ltac:(lia)) as P.
  destruct A as (VA & NA), B as (VB & NB).
  destruct (dfinite a) eqn:FA, (dfinite b) eqn:FB.
  - apply is_finite_dfinite in FA, FB. rewrite (proj1 (ext_finite a VA FA)), (proj1 (ext_finite b VB FB)) in L.
    pose proof (rnds_mono 0 (units a + units x) (units b + units x) ltac:(lia) ltac:(lia)). unfold clamp. lia.
  - apply is_finite_dfinite in FA. destruct (ext_finite a VA FA) as (_ & BA). destruct b as [|[]| |]; try discriminate; try congruence; cbn [ext] in *; unfold clamp; lia.
  - apply is_finite_dfinite in FB. destruct (ext_finite b VB FB) as (_ & BB). destruct a as [|[]| |]; try discriminate; try congruence; cbn [ext] in *; unfold clamp; lia.
  - exact L.
Qed.

(** ** The loop of max_sum_of *)
Lemma running_snoc : forall w x, w <> [] -> running dadd (w ++ [x]) = dadd (running dadd w) x.
Proof. intros [|y w] x N; [congruence|]. cbn [app running]. now rewrite fold_left_app. Qed.
Lemma part_snoc : forall w p x, dpart w (p ++ [x]) -> dpart w p \/ w = [x] \/ exists v, w = v ++ [x] /\ v <> [] /\ exists a, p = a ++ v.
Proof.
  intros w p x (N & a & c & E). destruct (exists_last N) as (v & y & ->).
  destruct c as [|z c] using rev_ind.
  - rewrite app_nil_r, app_assoc in E. apply app_inj_tail in E. destruct E as (-> & ->). right. destruct v as [|u v]; [now left|right].
    exists (u :: v). split; [reflexivity|]. split; [discriminate|]. now exists a.
  - left. rewrite !app_assoc in E. apply app_inj_tail in E. destruct E as (-> & _). split; [trivial|]. exists a, c. now rewrite !app_assoc.
Qed.
Lemma part_grow : forall w p x, dpart w p -> dpart w (p ++ [x]).
Proof. intros w p x (N & a & c & ->). split; [trivial|]. exists a, (c ++ [x]). now rewrite !app_assoc. Qed.
Lemma suffix_part : forall v a, v <> [] -> dpart v (a ++ v).
Proof. intros v a N. split; [trivial|]. exists a, []. now rewrite app_nil_r. Qed.
Lemma running_number : forall w x, number x -> Forall fin w -> number (fold_left dadd w x).
Proof.
  induction w as [|y w IH]; intros x X F; [exact X|]. inversion F as [|? ? (VY & FY) F']; subst. cbn [fold_left]. apply IH; [|trivial]. now apply dadd_ext.
Qed.
Lemma part_number : forall w f l, number f -> Forall fin l -> dpart w (f :: l) -> number (running dadd w).
Proof.
  intros w f l N F (NE & a & c & E). destruct w as [|x w]; [congruence|]. cbn [running].
  destruct a as [|y a]; cbn [app] in E; injection E as -> ->.
  - apply running_number; [trivial|]. now apply Forall_app in F.
  - apply Forall_app in F. destruct F as (_ & F). inversion F as [|? ? (VX & FX) F']; subst. apply Forall_app in F'. apply running_number; [now apply finite_number|tauto].
Qed.
(** After the prefix [p]: [cm] is the greatest sum of a part at the end of [p], [ms]
    of any part. *)
Definition reached (p : list double) (cm ms : double) : Prop :=
  (number cm /\ (exists a v, p = a ++ v /\ v <> [] /\ running dadd v = cm) /\
   forall a v, p = a ++ v -> v <> [] -> number (running dadd v) /\ ext (running dadd v) <= ext cm) /\
  (number ms /\ (exists w, dpart w p /\ running dadd w = ms) /\ forall w, dpart w p -> number (running dadd w) /\ ext (running dadd w) <= ext ms).
Lemma reached_one : forall f, number f -> reached [f] f f.
Proof.
  intros f N. split.
  - split; [trivial|]. split; [now exists [], [f]|]. intros a v E NE. destruct a as [|y a]; [cbn in E; subst v; cbn; split; [trivial|lia]|].
    injection E as _ E. destruct a; [cbn in E; congruence|discriminate].
  - split; [trivial|]. split; [exists [f]; split; [now apply (suffix_part [f] [])|reflexivity]|].
    intros w P. apply (part_snoc w [] f) in P. destruct P as [(NE & a & c & E)|[->|(v & -> & NE & a & E)]].
    + destruct a; [|discriminate]. destruct w; [congruence|discriminate].
    + cbn. split; [trivial|lia].
    + destruct a; [|discriminate]. cbn in E. congruence.
Qed.
Lemma reached_step : forall p cm ms x, reached p cm ms -> fin x ->
  reached (p ++ [x]) (dmax x (dadd cm x)) (dmax (dmax x (dadd cm x)) ms).
Proof.
  intros p cm ms x ((NC & (a & v & PE & VN & CE) & CU) & (NM & (w & WP & WE) & MU)) (VX & FX).
  pose proof (finite_number x VX FX) as NX. destruct (dadd_ext cm x NC VX FX) as (NA & _).
  destruct (dmax_spec x (dadd cm x) NX NA) as (N1 & E1 & C1). set (cm' := dmax x (dadd cm x)) in *.
  destruct (dmax_spec cm' ms N1 NM) as (N2 & E2 & C2). set (ms' := dmax cm' ms) in *.
  assert (CX : exists a v, p ++ [x] = a ++ v /\ v <> [] /\ running dadd v = cm').
  { destruct C1 as [-> | ->]; [exists p, [x]; now repeat split|]. exists a, (v ++ [x]). rewrite PE, app_assoc. split; [reflexivity|]. split; [now destruct v|].
    rewrite running_snoc, CE by trivial. reflexivity. }
  assert (CB : forall a v, p ++ [x] = a ++ v -> v <> [] -> number (running dadd v) /\ ext (running dadd v) <= ext cm').
  { intros b u E NU. destruct (exists_last NU) as (u' & y & ->). rewrite app_assoc in E. apply app_inj_tail in E. destruct E as (E & <-).
    destruct u' as [|z u']; [cbn; split; [trivial|lia]|]. rewrite running_snoc by discriminate.
    destruct (CU b (z :: u') E ltac:(discriminate)) as (NU' & LU). split; [now apply dadd_ext|].
    pose proof (dadd_mono _ _ x NU' NC VX FX LU). lia. }
  split; [split; [exact N1|]; split; [exact CX|exact CB]|]. split; [exact N2|]. split.
  - destruct C2 as [-> | ->].
    + destruct CX as (b & u & E & NU & R). exists u. split; [rewrite E; now apply suffix_part|exact R].
    + exists w. split; [now apply part_grow|exact WE].
  - intros u P. apply part_snoc in P. destruct P as [P|[->|(v' & -> & NV & b & E)]].
    + destruct (MU u P) as (NU & LU). split; [trivial|lia].
    + destruct (CB p [x] eq_refl ltac:(discriminate)) as (NU & LU). split; [trivial|]. cbn [running fold_left] in *. lia.
    + destruct (CB b (v' ++ [x])) as (NU & LU); [now rewrite E, app_assoc|now destruct v'|]. split; [trivial|eapply Z.le_trans; [exact LU|lia]].
Qed.
Lemma loop_reached : forall l p cm ms, reached p cm ms -> Forall fin l -> exists c, reached (p ++ l) c (sum_loop l cm ms).
Proof.
  induction l as [|x l IH]; intros p cm ms R F; cbn [sum_loop]; [exists cm; now rewrite app_nil_r|].
  inversion F; subst. destruct (IH (p ++ [x]) _ _ (reached_step p cm ms x R ltac:(trivial)) ltac:(trivial)) as (c & H'). exists c. now rewrite <- app_assoc in H'.
Qed.
Lemma reached_greatest : forall p c r, reached p c r -> dgreatest dadd p r.
Proof.
  intros p c r (_ & N & (w & P & E) & U). split; [now exists w|]. intros u Q. destruct (U u Q) as (NU & L).
  change (dle (running dadd u) r = true). rewrite dle_ext by trivial. now apply Z.leb_le.
Qed.
Lemma sum_loop_greatest : forall f l, number f -> Forall fin l -> dgreatest dadd (f :: l) (sum_loop l f f) /\ number (sum_loop l f f).
Proof.
  intros f l N F. destruct (loop_reached l [f] f f (reached_one f N) F) as (c & R). split; [exact (reached_greatest _ _ _ R)|apply R].
Qed.
Lemma max_sum_first : forall f l, fin f -> max_sum_of (f :: l) = sum_loop l (dmax f (dadd f f)) (dmax f (dadd f f)) /\ number (dmax f (dadd f f)).
Proof.
  intros f l (V & F). pose proof (finite_number f V F) as N. destruct (dadd_ext f f N V F) as (NA & _).
  destruct (dmax_spec f (dadd f f) N NA) as (N1 & E1 & _). split; [|exact N1]. cbn [max_sum_of sum_loop]. f_equal.
  unfold dmax at 1. rewrite dlt_ext by trivial. destruct (Z.ltb_spec (ext (dmax f (dadd f f))) (ext f)); [lia|reflexivity].
Qed.
Lemma max_sum_doubled : forall f l, fin f -> Forall fin l -> dgreatest dadd (dmax f (dadd f f) :: l) (max_sum_of (f :: l)).
Proof. intros f l FF FL. destruct (max_sum_first f l FF) as (-> & N). now apply sum_loop_greatest. Qed.
Lemma rnds_sign : forall v, (v <= 0 -> rnds 0 v <= 0) /\ (0 <= v -> 0 <= rnds 0 v).
Proof.
  intros v. pose proof (rnds_mono 0 v 0 ltac:(lia)). pose proof (rnds_mono 0 0 v ltac:(lia)). change (rnds 0 0) with 0 in *. tauto.
Qed.
Lemma max_sum_right : forall f l, fin f -> Forall fin l -> dle f (of_int 0) = true -> dgreatest dadd (f :: l) (max_sum_of (f :: l)).
Proof.
  intros f l (V & F) FL L. rewrite dle_units in L by (trivial; reflexivity || exact Logic.I). apply Z.leb_le in L. change (units (of_int 0)) with 0 in L.
  pose proof (max_sum_doubled f l (conj V F) FL) as H. replace (dmax f (dadd f f)) with f in H; [exact H|].
  unfold dmax. pose proof (finite_number f V F) as N. destruct (dadd_ext f f N V F) as (NA & EA). rewrite dlt_ext, EA by trivial.
  rewrite (proj2 (is_finite_dfinite f) F). rewrite (proj1 (ext_finite f V F)).
  destruct (Z.ltb_spec (units f) (clamp (rnds 0 (units f + units f)))) as [G|]; [exfalso|reflexivity].
  pose proof (rnds_mono 0 (units f + units f) (units f) ltac:(lia) ltac:(lia)) as M. rewrite rnds_units in M by trivial.
  destruct (ext_finite f V F) as (EF & BF). rewrite EF in BF. unfold clamp in G. lia.
Qed.
(** NaN hides what comes before it. *)
Lemma loop_app : forall a l cm ms, exists cm' ms', sum_loop (a ++ l) cm ms = sum_loop l cm' ms'.
Proof. induction a as [|x a IH]; intros l cm ms; [now exists cm, ms|]. cbn [app sum_loop]. apply IH. Qed.
Lemma loop_nan : forall l cm ms, sum_loop (S754_nan :: l) cm ms = sum_loop l S754_nan S754_nan.
Proof. intros. cbn [sum_loop]. reflexivity. Qed.
Lemma max_sum_nan_loop : forall a l, max_sum_of (a ++ S754_nan :: l) = sum_loop l S754_nan S754_nan.
Proof.
  intros a l. assert (E : exists f, max_sum_of (a ++ S754_nan :: l) = sum_loop (a ++ S754_nan :: l) f f) by (destruct a; cbn [app max_sum_of]; eauto).
  destruct E as (f & ->). destruct (loop_app a (S754_nan :: l) f f) as (cm & ms & H). etransitivity; [exact H|apply loop_nan].
Qed.
Lemma max_sum_nan : forall a x l, fin x -> Forall fin l -> dgreatest dadd (x :: l) (max_sum_of (a ++ S754_nan :: x :: l)).
Proof.
  intros a x l (V & F) FL. rewrite max_sum_nan_loop. cbn [sum_loop].
  assert (E : dmax x (dadd S754_nan x) = x) by (destruct x; try contradiction; reflexivity). rewrite E.
  assert (E2 : dmax x S754_nan = x) by (destruct x; try contradiction; reflexivity). rewrite E2.
  apply sum_loop_greatest; [now apply finite_number|trivial].
Qed.
Lemma max_sum_ends_nan : forall a, max_sum_of (a ++ [S754_nan]) = S754_nan.
Proof. intros a. now rewrite max_sum_nan_loop. Qed.

(** ** Integers are added exactly *)
Lemma of_int_small : forall z, small z -> valid (of_int z) /\ is_finite (of_int z) /\ units (of_int z) = z * 2 ^ 1074.
Proof.
  intros z S. destruct (of_int_nearest z) as (V & F & _). pose proof (pow_pos 1074 ltac:(lia)) as P.
  assert (A : Z.abs (z * 2 ^ 1074) = Z.abs z * 2 ^ 1074) by (rewrite Z.abs_mul, (Z.abs_eq (2 ^ 1074)) by lia; reflexivity).
  assert (R : rnd 0 (Z.abs (z * 2 ^ 1074)) = Z.abs z * 2 ^ 1074) by (rewrite A; apply rnd_fix; [lia|unfold small in S; lia]).
  change (2098 + 0) with 2098 in F. change (2 ^ 0) with 1 in F. rewrite Z.mul_1_r in F. destruct F as (F & U).
  - rewrite R. assert (Z.abs z * 2 ^ 1074 <= 2 ^ 53 * 2 ^ 1074) by (apply Z.mul_le_mono_nonneg_r; unfold small in S; lia). rewrite <- pow_add in H by lia.
    eapply Z.le_lt_trans; [exact H|]. apply Z.pow_lt_mono_r; lia.
  - split; [exact V|]. split; [exact F|]. rewrite U. unfold rnds. rewrite R. destruct (Z.lt_total z 0) as [L|[->|L]]; [|reflexivity|].
    + rewrite Z.sgn_neg by nia. lia.
    + rewrite Z.sgn_pos by nia. lia.
Qed.
Lemma finite_eq : forall a b, valid a -> valid b -> is_finite a -> is_finite b -> units a = units b -> units a <> 0 -> a = b.
Proof.
  intros a b VA VB FA FB U N. destruct a as [?|?| |sa ma ea]; try contradiction.
  destruct b as [?|?| |sb mb eb]; try contradiction; try (exfalso; apply N; rewrite U; apply units_zero). rewrite !units_finite in *.
  pose proof (valid_exp _ _ _ VA) as EA. pose proof (valid_exp _ _ _ VB) as EB.
  pose proof (pow_pos (ea + 1074) ltac:(lia)) as PA. pose proof (pow_pos (eb + 1074) ltac:(lia)) as PB.
  assert (S : sa = sb) by (destruct sa, sb; trivial; unfold sg in U; nia). subst sb.
  assert (M : Z.pos ma * 2 ^ (ea + 1074) = Z.pos mb * 2 ^ (eb + 1074)) by (destruct sa; unfold sg in U; lia).
  assert (E : ea = eb).
  { destruct (Z.lt_total ea eb) as [L|[E|L]]; [pose proof (magnitude_lt ma ea mb eb VA VB L); lia|exact E|pose proof (magnitude_lt mb eb ma ea VB VA L); lia]. }
  subst eb. f_equal. apply Z.mul_reg_r in M; [congruence|lia].
Qed.
Lemma of_int_unique : forall z d, small z -> z <> 0 -> valid d -> is_finite d -> units d = z * 2 ^ 1074 -> d = of_int z.
Proof.
  intros z d S N V F U. destruct (of_int_small z S) as (V' & F' & U'). pose proof (pow_pos 1074 ltac:(lia)).
  apply finite_eq; trivial; [congruence|]. rewrite U. nia.
Qed.
Lemma nearest_int : forall z d, small z -> nearest 0 (z * 2 ^ 1074) false d -> d = of_int z.
Proof.
  intros z d S (V & F & _ & Z0). destruct (Z.eq_dec z 0) as [->|N]; [exact (Z0 eq_refl)|].
  destruct (of_int_nearest z) as (V' & F' & _). destruct (of_int_small z S) as (_ & FI & UI).
  change (2098 + 0) with 2098 in *. change (2 ^ 0) with 1 in *. rewrite Z.mul_1_r in *.
  assert (L : rnd 0 (Z.abs (z * 2 ^ 1074)) < 2 ^ 2098).
  { rewrite <- UI. pose proof (rnd_units _ V') as (-> & B). exact B. }
  destruct (F L) as (FD & UD). destruct (F' L) as (_ & UD'). apply of_int_unique; trivial. congruence.
Qed.
Lemma dadd_zero_l : forall d, is_finite d -> units d <> 0 -> dadd (S754_zero false) d = d.
Proof. intros [s|s| |s m e] F U; try contradiction; try reflexivity. Qed.
Lemma dadd_zero_r : forall d, is_finite d -> units d <> 0 -> dadd d (S754_zero false) = d.
Proof. intros [s|s| |s m e] F U; try contradiction; try reflexivity. Qed.
Lemma dadd_int : forall a b, small a -> small b -> small (a + b) -> dadd (of_int a) (of_int b) = of_int (a + b).
Proof.
  intros a b A B AB. destruct (of_int_small a A) as (VA & FA & UA). destruct (of_int_small b B) as (VB & FB & UB). pose proof (pow_pos 1074 ltac:(lia)) as P.
  destruct (Z.eq_dec a 0) as [->|NA].
  { rewrite Z.add_0_l. destruct (Z.eq_dec b 0) as [->|NB]; [reflexivity|]. apply dadd_zero_l; [trivial|nia]. }
  destruct (Z.eq_dec b 0) as [->|NB]; [rewrite Z.add_0_r; apply dadd_zero_r; [trivial|nia]|].
  apply nearest_int; [trivial|]. rewrite Z.mul_add_distr_r, <- UA, <- UB.
  destruct (of_int a) as [?|?| |sa ma ea]; try contradiction; try (exfalso; rewrite units_zero in UA; nia).
  destruct (of_int b) as [?|?| |sb mb eb]; try contradiction; try (exfalso; rewrite units_zero in UB; nia).
  apply valid_exp in VA, VB. unfold dadd, SFadd. rewrite !units_finite.
  rewrite <- (add_aligned sa ma ea sb mb eb) by lia. apply normalize_nearest; lia.
Qed.
Lemma dlt_int : forall a b, small a -> small b -> dlt (of_int a) (of_int b) = (a <? b).
Proof.
  intros a b A B. destruct (of_int_small a A) as (VA & FA & UA). destruct (of_int_small b B) as (VB & FB & UB). pose proof (pow_pos 1074 ltac:(lia)) as P.
  rewrite dlt_units by trivial. rewrite UA, UB. destruct (Z.ltb_spec a b); [apply Z.ltb_lt|apply Z.ltb_ge]; nia.
Qed.
Lemma dmax_int : forall a b, small a -> small b -> dmax (of_int a) (of_int b) = of_int (Z.max a b).
Proof. intros a b A B. unfold dmax. rewrite dlt_int by trivial. destruct (Z.ltb_spec a b); f_equal; lia. Qed.
Lemma chk_small : forall z w, chk 54 z = Val w -> w = z /\ small z.
Proof.
  intros z w C. apply chk_val in C. destruct C as (-> & F). split; [trivial|]. unfold fits, imin, imax, small in *.
  change (54 - 1) with 53 in F. revert F. generalize (2 ^ 53). lia.
Qed.
Lemma loop_int : forall l cm ms r, Forall small l -> small cm -> small ms -> SubModel.sum_loop 54 l cm ms = Val r ->
  sum_loop (map of_int l) (of_int cm) (of_int ms) = of_int r /\ small r.
Proof.
  induction l as [|x l IH]; intros cm ms r F C M E; cbn [SubModel.sum_loop] in E.
  - injection E as <-. now split.
  - inversion F; subst. destruct (chk 54 (cm + x)) as [s| | |] eqn:CK; try discriminate. apply chk_small in CK. destruct CK as (-> & S). cbn [bind] in E.
    cbn [map sum_loop]. rewrite dadd_int, dmax_int, dmax_int by (trivial; unfold small in *; lia).
    apply IH; trivial; unfold small in *; lia.
Qed.
Lemma max_sum_int : forall l r, Forall small l -> SubModel.max_sum_of 54 l = Val r -> max_sum_of (map of_int l) = of_int r.
Proof.
  intros [|f l] r F E; cbn [SubModel.max_sum_of] in E; [now injection E as <-|]. inversion F; subst.
  change (max_sum_of (map of_int (f :: l))) with (sum_loop (map of_int (f :: l)) (of_int f) (of_int f)). now apply (loop_int (f :: l) f f r).
Qed.
