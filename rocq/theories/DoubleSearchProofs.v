(** Proofs about the geometric search over doubles. *)
Require Import List Arith NArith ZArith Lia Bool.
Require Import Floats.SpecFloat.
Require Import Verif.Base Verif.Cint Verif.MissingModel Verif.MissingSpec Verif.MissingProofs.
Require Import Verif.DoubleModel Verif.DoubleSpec Verif.DoubleProofs Verif.DoubleSumProofs.
Require Import Verif.DoubleSearchModel Verif.DoubleSearchSpec.
Import ListNotations.
Local Open Scope Z_scope.

(** ** Within the tolerance *)
Lemma dsub_opp : forall a b, dsub a b = dadd a (SFopp b).
Proof.
  intros [sa|sa| |sa ma ea] [sb|sb| |sb mb eb]; try reflexivity; try (destruct sa, sb; reflexivity).
Qed.
Lemma opp_fin : forall e, fin e -> fin (SFopp e) /\ units (SFopp e) = - units e.
Proof.
  intros [s|s| |s m e] (V & F); try contradiction.
  - split; [split; [reflexivity|exact Logic.I]|reflexivity].
  - split; [split; [exact V|exact Logic.I]|]. change (SFopp (S754_finite s m e)) with (S754_finite (negb s) m e).
    rewrite !units_finite. now rewrite sg_neg.
Qed.
Lemma tolerance_units : forall e, tolerance e -> fin e /\ 0 <= units e.
Proof.
  intros e ((V & F) & L). split; [now split|]. change (dle (S754_zero false) e = true) in L.
  rewrite dle_units in L by (trivial; reflexivity || exact Logic.I). apply Z.leb_le in L. exact L.
Qed.
Lemma dadd_up : forall d e, number d -> fin e -> 0 <= units e -> ext d <= ext (dadd d e).
Proof.
  intros d e D (V & F) U. rewrite (proj2 (dadd_ext d e D V F)). destruct (dfinite d) eqn:FD; [|lia].
  apply is_finite_dfinite in FD. destruct D as (VD & _). destruct (ext_finite d VD FD) as (-> & B).
  pose proof (rnds_mono 0 (units d) (units d + units e) ltac:(lia) ltac:(lia)) as R. rewrite rnds_units in R by trivial.
  pose proof (proj2 (rnd_units d VD)). unfold clamp. lia.
Qed.
Lemma dadd_down : forall d e, number d -> fin e -> units e <= 0 -> ext (dadd d e) <= ext d.
Proof.
  intros d e D (V & F) U. rewrite (proj2 (dadd_ext d e D V F)). destruct (dfinite d) eqn:FD; [|lia].
  apply is_finite_dfinite in FD. destruct D as (VD & _). destruct (ext_finite d VD FD) as (-> & B).
  pose proof (rnds_mono 0 (units d + units e) (units d) ltac:(lia) ltac:(lia)) as R. rewrite rnds_units in R by trivial.
  pose proof (proj2 (rnd_units d VD)). unfold clamp. lia.
Qed.
Lemma within : forall d e, number d -> tolerance e ->
  number (dadd d e) /\ number (dsub d e) /\ ext (dsub d e) <= ext d <= ext (dadd d e).
Proof.
  intros d e D T. apply tolerance_units in T. destruct T as (FE & U). destruct (opp_fin e FE) as (FO & UO). rewrite dsub_opp.
  split; [apply (dadd_ext d e D); apply FE|]. split; [apply (dadd_ext d (SFopp e) D); apply FO|].
  split; [apply dadd_down; trivial; lia|now apply dadd_up].
Qed.
Lemma nan_l : forall d e, dlt (dadd S754_nan e) d = false /\ dlt d (dsub S754_nan e) = false.
Proof. intros d e. unfold dlt, SFltb, dadd, dsub. cbn. destruct d as [?|?| |? ? ?]; split; reflexivity. Qed.
Lemma dnear : forall d e, valid d -> tolerance e -> dlt (dadd d e) d || dlt d (dsub d e) = false.
Proof.
  intros d e V T. assert (C : d = S754_nan \/ d <> S754_nan) by (destruct d; (now left) || (right; discriminate)).
  destruct C as [->|N]; [now destruct (nan_l S754_nan e) as (-> & ->)|].
  assert (D : number d) by (now split). destruct (within d e D T) as (A & S & L).
  rewrite !dlt_ext by trivial. apply orb_false_iff. split; apply Z.ltb_ge; lia.
Qed.
Lemma dalways : forall m d e, number m -> number d -> tolerance e -> dle m (dadd d e) || dle (dsub d e) m = true.
Proof.
  intros m d e M D T. destruct (within d e D T) as (A & S & L). rewrite !dle_ext by trivial.
  apply orb_true_iff. rewrite !Z.leb_le. lia.
Qed.
Lemma dmul_valid : forall a b, valid a -> valid b -> valid (dmul a b).
Proof.
  intros a b VA VB. destruct (dfinite a) eqn:FA, (dfinite b) eqn:FB.
  - apply is_finite_dfinite in FA, FB. destruct (dmul_rounded a b VA VB FA FB) as (s & V & _). exact V.
  - destruct b as [|?| |]; try discriminate FB; destruct a; reflexivity.
  - destruct a as [|?| |]; try discriminate FA; destruct b; reflexivity.
  - destruct a as [|?| |]; try discriminate FA; destruct b; reflexivity.
Qed.
Lemma dterm_valid : forall lower factor i, valid lower -> valid factor -> valid (dterm dmul lower factor i).
Proof. intros lower factor i L F. induction i as [|i IH]; [exact L|]. cbn. now apply dmul_valid. Qed.
Lemma deq_refl : forall d, number d -> deq d d = true.
Proof. intros d D. unfold deq, SFeqb. rewrite dcompare_ext by trivial. now rewrite Z.compare_refl. Qed.

(** ** The loop *)
Section Loop.
Variable pow : double -> nat -> double.
Variables (lower factor e : double) (n m : nat).
Hypothesis VL : valid lower.
Hypothesis VF : valid factor.
Hypothesis TE : tolerance e.
Hypothesis M : (m <= n)%nat.
Let l : list double := dgap dmul lower factor n m.
Let t : nat -> double := dterm dmul lower factor.
Let at_ i := (if (i <? m)%nat then i else S i).

Lemma d_length : length l = n.
Proof. apply gap_length. lia. Qed.
Lemma d_at : forall i, (i < n)%nat -> deref l i = Val (t (at_ i)).
Proof. intros i I. unfold l, dgap. now rewrite gap_deref by lia. Qed.
Lemma d_out : forall i, (n <= i)%nat -> deref l i = UB.
Proof. intros i I. unfold l, dgap. now rewrite gap_deref_out by lia. Qed.
Definition jump : bool := dlt (dadd (t m) e) (t (S m)) || dlt (t (S m)) (dsub (t m) e).
(** One test: a neighbour is the product unless the gap is between them. *)
Lemma test : forall i, dlt (dadd (dmul (t (at_ i)) factor) e) (t (at_ (i + 1))) || dlt (t (at_ (i + 1))) (dsub (dmul (t (at_ i)) factor) e) =
  if (i + 1 =? m)%nat then jump else false.
Proof.
  intros i. change (dmul (t (at_ i)) factor) with (t (S (at_ i))). unfold at_. destruct (Nat.eqb_spec (i + 1) m) as [E|NE].
  - destruct (Nat.ltb_spec i m); [|lia]. destruct (Nat.ltb_spec (i + 1) m); [lia|]. replace (S (i + 1)) with (S m) by lia.
    now replace (S i) with m by lia.
  - assert (E : (if (i + 1 <? m)%nat then i + 1 else S (i + 1))%nat = S (if (i <? m)%nat then i else S i)).
    { destruct (Nat.ltb_spec (i + 1) m), (Nat.ltb_spec i m); lia. }
    rewrite E. apply dnear; [now apply dterm_valid|exact TE].
Qed.
Lemma answer : forall i, (i + 1 = m)%nat -> dmul (t (at_ i)) factor = t m.
Proof. intros i E. unfold at_. destruct (Nat.ltb_spec i m); [|lia]. change (dmul (t i) factor) with (t (S i)). f_equal. lia. Qed.
Lemma loop_step : forall fuel it c, (it < n)%nat -> (0 < c)%nat ->
  let mid := (c / 2)%nat in (1 <= mid)%nat -> (mid + 1 < n)%nat ->
  search_loop pow (S fuel) l factor lower e it c =
  if (mid + 1 =? m)%nat && jump || (mid =? m)%nat && jump then Val (true, t m)
  else if dle (t (at_ mid)) (dadd (dmul lower (pow factor mid)) e) || dle (dsub (dmul lower (pow factor mid)) e) (t (at_ mid))
  then search_loop pow fuel l factor lower e (S it) (c + mid)
  else search_loop pow fuel l factor lower e (S it) (c - mid).
Proof.
  intros fuel it c IT C mid M1 M2. cbn [search_loop]. rewrite d_length. fold mid.
  destruct (Nat.eqb_spec c 0); [lia|]. destruct (Nat.leb_spec n it); [lia|].
  destruct (Nat.ltb_spec n mid); [lia|].
  destruct (Nat.eqb_spec mid 0); [lia|]. destruct (Nat.eqb_spec mid n); [lia|]. cbn [orb].
  rewrite !d_at by lia. cbn [bind]. rewrite test.
  pose proof (test (mid - 1)) as T. replace (mid - 1 + 1)%nat with mid in T by lia. rewrite T. clear T.
  destruct (Nat.eqb_spec (mid + 1) m) as [E|NE].
  - destruct (Nat.eqb_spec mid m); [lia|]. destruct jump; cbn [andb orb]; [now rewrite answer|reflexivity].
  - destruct (Nat.eqb_spec mid m) as [E|]; [|reflexivity]. destruct jump; cbn [andb orb]; [|reflexivity].
    now rewrite answer by lia.
Qed.
(** The other ways a turn can go. *)
Lemma loop_stop : forall fuel it c, (n <= it)%nat \/ (c / 2 = 0)%nat \/ (n <= c / 2 + 1)%nat ->
  (forall b x, search_loop pow (S fuel) l factor lower e it c = Val (b, x) -> b = false).
Proof.
  intros fuel it c H b x R. cbn [search_loop] in R. rewrite d_length in R.
  destruct (Nat.eqb_spec c 0); [congruence|]. destruct (Nat.leb_spec n it); [discriminate|].
  set (mid := (c / 2)%nat) in *. clearbody mid.
  destruct (Nat.ltb_spec n mid); [discriminate|].
  destruct (Nat.eqb_spec mid 0); [cbn [orb] in R; congruence|].
  destruct (Nat.eqb_spec mid n); [cbn [orb] in R; congruence|]. cbn [orb] in R.
  rewrite d_at in R by lia. rewrite d_out in R by lia. discriminate.
Qed.
Lemma loop_sound : forall fuel it c x, search_loop pow fuel l factor lower e it c = Val (true, x) -> (1 <= m < n)%nat /\ x = t m.
Proof.
  induction fuel as [|fuel IH]; intros it c x H; [discriminate|]. pose proof (half_bounds c) as HB.
  destruct (Nat.lt_ge_cases it n) as [L|G]; [|now apply loop_stop in H; [|left]].
  destruct (Nat.eq_dec (c / 2) 0) as [E|NE]; [now apply loop_stop in H; [|right; left]|].
  destruct (Nat.lt_ge_cases (c / 2 + 1) n) as [L2|G2]; [|now apply loop_stop in H; [|right; right]].
  rewrite loop_step in H by lia.
  destruct ((c / 2 + 1 =? m)%nat && jump || (c / 2 =? m)%nat && jump) eqn:J.
  - injection H as <-. split; [|reflexivity]. apply orb_true_iff in J. rewrite !andb_true_iff, !Nat.eqb_eq in J. lia.
  - destruct (dle _ _ || dle _ _) in H; exact (IH _ _ _ H).
Qed.
Hypothesis NT : numbers t (S n).
Hypothesis NP : numbers (fun i => dmul lower (pow factor i)) n.
Lemma loop_right : forall fuel it c, (it < n)%nat -> (0 < c)%nat -> let mid := (c / 2)%nat in (1 <= mid)%nat -> (mid + 1 < n)%nat ->
  search_loop pow (S fuel) l factor lower e it c =
  if ((mid + 1 =? m)%nat || (mid =? m)%nat) && jump then Val (true, t m)
  else search_loop pow fuel l factor lower e (S it) (c + mid).
Proof.
  intros fuel it c IT C mid M1 M2. rewrite loop_step by trivial. fold mid.
  replace ((mid + 1 =? m)%nat && jump || (mid =? m)%nat && jump) with (((mid + 1 =? m)%nat || (mid =? m)%nat) && jump)
    by (destruct (mid + 1 =? m)%nat, (mid =? m)%nat, jump; reflexivity).
  destruct (((mid + 1 =? m)%nat || (mid =? m)%nat) && jump); [reflexivity|]. rewrite dalways; [reflexivity| | |exact TE].
  - apply NT. unfold at_. destruct (mid <? m)%nat; lia.
  - apply NP. lia.
Qed.
Lemma jump_apart : jump = true <-> apart dadd dsub e (t m) (t (S m)).
Proof. unfold jump, apart. apply orb_true_iff. Qed.
Lemma search_loop_start : (1 <= m)%nat -> (1 <= n)%nat -> search pow l factor lower e = search_loop pow (S n) l factor lower e 0 n.
Proof.
  intros M1 N1. unfold search. rewrite d_at by lia. cbn [bind]. unfold at_. destruct (Nat.ltb_spec 0 m); [|lia].
  change (t 0) with lower. rewrite deq_refl; [now rewrite d_length|]. apply (NT 0%nat). lia.
Qed.
Lemma search_value : (10 <= n)%nat -> (1 <= m)%nat ->
  search pow l factor lower e =
  if ((n / 2 + 1 =? m)%nat || (n / 2 =? m)%nat || ((n + n / 2) / 2 + 1 =? m)%nat || ((n + n / 2) / 2 =? m)%nat) && jump
  then Val (true, t m) else UB.
Proof.
  intros N M1. rewrite search_loop_start by lia. pose proof (half_bounds n) as H1. pose proof (half_bounds (n + n / 2)) as H2.
  assert (FU : exists k, n = S (S k)) by (exists (n - 2)%nat; lia). destruct FU as (k & FU). rewrite FU at 1. clear FU.
  rewrite loop_right by lia.
  set (a := (n / 2)%nat) in *. set (q := ((n + a) / 2)%nat) in *.
  destruct (((a + 1 =? m)%nat || (a =? m)%nat) && jump) eqn:J1.
  { apply andb_true_iff in J1. destruct J1 as (J1 & ->). rewrite J1. reflexivity. }
  rewrite loop_right by (fold q; lia). fold q.
  destruct (((q + 1 =? m)%nat || (q =? m)%nat) && jump) eqn:J2.
  { apply andb_true_iff in J2. destruct J2 as (J2 & ->). rewrite <- orb_assoc, J2, orb_true_r. reflexivity. }
  replace (((a + 1 =? m)%nat || (a =? m)%nat || (q + 1 =? m)%nat || (q =? m)%nat) && jump) with false.
  - pose proof (half_bounds (n + a + q)) as H3. cbn [search_loop]. rewrite d_length.
    destruct (Nat.eqb_spec (n + a + q) 0); [lia|]. destruct (Nat.leb_spec n 2); [lia|].
    destruct (Nat.ltb_spec n ((n + a + q) / 2)); [reflexivity|lia].
  - symmetry. destruct jump; [|apply andb_false_r]. rewrite andb_true_r in *. rewrite J1. cbn [orb]. exact J2.
Qed.
End Loop.

Lemma search_sound : forall pow lower factor e n m x, valid lower -> valid factor -> tolerance e -> (m <= n)%nat ->
  search pow (dgap dmul lower factor n m) factor lower e = Val (true, x) -> (m < n)%nat /\ x = dterm dmul lower factor m.
Proof.
  intros pow lower factor e n m x VL VF TE M H. unfold search in H.
  destruct (Nat.eq_dec n 0) as [->|N]; [rewrite d_out in H by lia; discriminate|].
  rewrite d_at in H by lia. cbn [bind] in H.
  destruct (deq _ lower) eqn:D in H.
  - rewrite d_length in H by trivial. apply loop_sound in H; trivial. split; [lia|apply H].
  - destruct (deq _ (dmul lower factor)) eqn:D2 in H; [|discriminate]. injection H as <-.
    destruct (Nat.ltb_spec 0 m) as [L|L].
    + change (dterm dmul lower factor 0) with lower in *.
      assert (C : lower = S754_nan \/ lower <> S754_nan) by (destruct lower; (now left) || (right; discriminate)).
      destruct C as [->|NL]; [discriminate D2|]. rewrite deq_refl in D by (now split). discriminate.
    + replace m with 0%nat by lia. split; [lia|reflexivity].
Qed.
Lemma search_first : forall pow lower factor e n, (0 < n)%nat -> valid (dmul lower factor) -> dmul lower factor <> S754_nan ->
  deq (dmul lower factor) lower = false -> search pow (dgap dmul lower factor n 0) factor lower e = Val (true, lower).
Proof.
  intros pow lower factor e n N V NN D. unfold search. rewrite d_at by lia. cbn [bind Nat.ltb Nat.leb].
  change (dterm dmul lower factor 1) with (dmul lower factor). rewrite D, deq_refl by (now split). reflexivity.
Qed.
Lemma search_found : forall pow lower factor e n m, valid lower -> valid factor -> tolerance e -> (10 <= n)%nat -> (1 <= m <= n)%nat ->
  numbers (dterm dmul lower factor) (S n) -> numbers (fun i => dmul lower (pow factor i)) n ->
  looked_at n m -> apart dadd dsub e (dterm dmul lower factor m) (dterm dmul lower factor (S m)) ->
  search pow (dgap dmul lower factor n m) factor lower e = Val (true, dterm dmul lower factor m).
Proof.
  intros pow lower factor e n m VL VF TE N M NT NP LA A. apply jump_apart in A. rewrite search_value by (trivial; lia). rewrite A, andb_true_r.
  match goal with |- (if ?b then _ else _) = _ => assert (B : b = true); [|now rewrite B] end.
  rewrite !orb_true_iff, !Nat.eqb_eq. unfold looked_at in LA. lia.
Qed.
Lemma search_lost : forall pow lower factor e n m, valid lower -> valid factor -> tolerance e -> (10 <= n)%nat -> (1 <= m <= n)%nat ->
  numbers (dterm dmul lower factor) (S n) -> numbers (fun i => dmul lower (pow factor i)) n ->
  ~ (looked_at n m /\ apart dadd dsub e (dterm dmul lower factor m) (dterm dmul lower factor (S m))) ->
  search pow (dgap dmul lower factor n m) factor lower e = UB.
Proof.
  intros pow lower factor e n m VL VF TE N M NT NP A. rewrite search_value by (trivial; lia).
  match goal with |- (if ?b then _ else _) = _ => destruct b eqn:B; [|reflexivity] end. exfalso. apply A.
  apply andb_true_iff in B. destruct B as (B & J). apply jump_apart in J. split; [|exact J].
  rewrite !orb_true_iff, !Nat.eqb_eq in B. unfold looked_at. lia.
Qed.

(** ** Integers *)
Lemma dmul_int : forall a b, a <> 0 -> b <> 0 -> small a -> small b -> small (a * b) -> dmul (of_int a) (of_int b) = of_int (a * b).
Proof.
  intros a b NA NB A B AB. destruct (of_int_small a A) as (VA & FA & UA). destruct (of_int_small b B) as (VB & FB & UB).
  destruct (dmul_rounded _ _ VA VB FA FB) as (s & V & F & _). rewrite UA, UB in F.
  pose proof (pow_pos 1074 ltac:(lia)) as P. pose proof (pow_pos 2098 ltac:(lia)) as P2.
  set (p := 2 ^ 1074) in *.
  assert (E : a * p * (b * p) = a * b * p * p) by ring. rewrite E in F.
  assert (AE : Z.abs (a * b * p * p) = Z.abs (a * b) * 2 ^ (1074 + 1074)).
  { rewrite !(Z.abs_mul (_ * p) p), !(Z.abs_mul (_ * _) p), (Z.abs_eq p) by lia. rewrite pow_add by lia. fold p. ring. }
  assert (R : rnd 1074 (Z.abs (a * b * p * p)) = Z.abs (a * b) * 2 ^ (1074 + 1074)).
  { rewrite AE. apply rnd_fix; [lia|]. unfold small in AB. lia. }
  assert (SG : rnds 1074 (a * b * p * p) = a * b * p * p).
  { unfold rnds. rewrite R, <- AE. rewrite Z.mul_comm. apply Z.abs_sgn. }
  destruct F as (FD & U).
  - rewrite R. unfold small in AB. apply Z.le_lt_trans with (2 ^ 53 * 2 ^ (1074 + 1074)).
    + apply Z.mul_le_mono_nonneg_r; [|exact AB]. pose proof (pow_pos (1074 + 1074) ltac:(lia)). lia.
    + rewrite <- pow_add by lia. apply Z.pow_lt_mono_r; lia.
  - rewrite SG in U. apply of_int_unique; trivial; [nia|]. fold p in U |- *. apply Z.mul_reg_r in U; [exact U|lia].
Qed.
Lemma geometric_S : forall lower factor i, geometric_term lower factor (S i) = geometric_term lower factor i * factor.
Proof. intros. unfold geometric_term. rewrite Nat2Z.inj_succ, Z.pow_succ_r by lia. ring. Qed.
Lemma dterm_int : forall lower factor n, lower <> 0 -> factor <> 0 -> small factor -> (forall i, (i <= n)%nat -> small (geometric_term lower factor i)) ->
  forall i, (i <= n)%nat -> dterm dmul (of_int lower) (of_int factor) i = of_int (geometric_term lower factor i) /\ geometric_term lower factor i <> 0.
Proof.
  intros lower factor n NL NF SF S. induction i as [|i IH]; intros I.
  - assert (E : geometric_term lower factor 0 = lower) by (unfold geometric_term; cbn; lia). rewrite E. now split.
  - destruct IH as (IH & NZ); [lia|]. pose proof (S (Datatypes.S i) I) as S'. rewrite geometric_S in *. split; [|nia].
    change (dterm dmul (of_int lower) (of_int factor) (Datatypes.S i)) with (dmul (dterm dmul (of_int lower) (of_int factor) i) (of_int factor)).
    rewrite IH. apply dmul_int; trivial. apply S. lia.
Qed.
(** Two integers that differ are apart by more than the default tolerance. *)
Lemma default_tolerance : tolerance default_error /\ 0 < units default_error <= 2 ^ 1073.
Proof. split; [split; [split; [reflexivity|exact Logic.I]|reflexivity]|]. split; vm_compute; [reflexivity|discriminate]. Qed.
Lemma int_apart : forall a b, Z.abs a < 2 ^ 52 -> small b -> a < b -> dlt (dadd (of_int a) default_error) (of_int b) = true.
Proof.
  intros a b A B L. destruct (of_int_small a) as (VA & FA & UA); [unfold small in *; lia|]. destruct (of_int_small b B) as (VB & FB & UB).
  destruct default_tolerance as (T & U1 & U2). apply tolerance_units in T. destruct T as ((VE & FE) & _).
  rewrite dlt_ext; [|now apply dadd_ext; [apply finite_number|..]|now apply finite_number].
  rewrite (proj2 (dadd_ext _ _ (finite_number _ VA FA) VE FE)). rewrite (proj2 (is_finite_dfinite _) FA).
  destruct (ext_finite _ VB FB) as (-> & BB). apply Z.ltb_lt.
  assert (P : 0 < 2 ^ 1073) by (apply pow_pos; lia).
  assert (E : 2 ^ 1074 = 2 ^ 1073 * 2) by (apply (pow_pred 1074); lia).
  assert (R : rnds 0 ((2 * a + 1) * 2 ^ 1073) = (2 * a + 1) * 2 ^ 1073).
  { unfold rnds. rewrite Z.abs_mul, (Z.abs_eq (2 ^ 1073)) by lia.
    rewrite rnd_fix by lia. rewrite Z.mul_assoc, (Z.mul_comm (Z.sgn _)).
    rewrite Z.sgn_mul, (Z.sgn_pos (2 ^ 1073)) by lia. rewrite Z.mul_1_r. f_equal. apply Z.abs_sgn. }
  pose proof (rnds_mono 0 (units (of_int a) + units default_error) ((2 * a + 1) * 2 ^ 1073) ltac:(lia)) as MO.
  rewrite R in MO. clear R. rewrite UA in *. rewrite UB in *. unfold clamp. rewrite E in *. set (x := rnds 0 _) in *. clearbody x.
  set (p := 2 ^ 1073) in *. clearbody p. clear E UA VA FA VB FB VE FE UB.
  set (u := units default_error) in *. clearbody u.
  assert (MO' : x <= (2 * a + 1) * p) by (apply MO; nia). pose proof (pow_pos 2098 ltac:(lia)). nia.
Qed.
Lemma int_apart_below : forall a b, Z.abs a < 2 ^ 52 -> small b -> b < a -> dlt (of_int b) (dsub (of_int a) default_error) = true.
Proof.
  intros a b A B L. destruct (of_int_small a) as (VA & FA & UA); [unfold small in *; lia|]. destruct (of_int_small b B) as (VB & FB & UB).
  destruct default_tolerance as (T & U1 & U2). apply tolerance_units in T. destruct T as (F & _). destruct (opp_fin _ F) as ((VE & FE) & UE).
  rewrite dsub_opp. rewrite dlt_ext; [|now apply finite_number|now apply dadd_ext; [apply finite_number|..]].
  rewrite (proj2 (dadd_ext _ _ (finite_number _ VA FA) VE FE)). rewrite (proj2 (is_finite_dfinite _) FA).
  destruct (ext_finite _ VB FB) as (-> & BB). apply Z.ltb_lt.
  assert (P : 0 < 2 ^ 1073) by (apply pow_pos; lia).
  assert (E : 2 ^ 1074 = 2 ^ 1073 * 2) by (apply (pow_pred 1074); lia).
  assert (R : rnds 0 ((2 * a - 1) * 2 ^ 1073) = (2 * a - 1) * 2 ^ 1073).
  { unfold rnds. rewrite Z.abs_mul, (Z.abs_eq (2 ^ 1073)) by lia.
    rewrite rnd_fix by lia. rewrite Z.mul_assoc, (Z.mul_comm (Z.sgn _)).
    rewrite Z.sgn_mul, (Z.sgn_pos (2 ^ 1073)) by lia. rewrite Z.mul_1_r. f_equal. apply Z.abs_sgn. }
  pose proof (rnds_mono 0 ((2 * a - 1) * 2 ^ 1073) (units (of_int a) + units (SFopp default_error)) ltac:(lia)) as MO.
  rewrite R in MO. clear R. rewrite UE in *. rewrite UA in *. rewrite UB in *. unfold clamp. rewrite E in *. set (x := rnds 0 _) in *. clearbody x.
  set (p := 2 ^ 1073) in *. clearbody p. clear E UA VA FA VB FB VE FE UE UB F.
  set (u := units default_error) in *. clearbody u.
  assert (MO' : (2 * a - 1) * p <= x) by (apply MO; nia). pose proof (pow_pos 2098 ltac:(lia)). nia.
Qed.
Lemma int_number : forall z, small z -> number (of_int z).
Proof. intros z S. destruct (of_int_small z S) as (V & F & _). now apply finite_number. Qed.
Lemma search_int : forall pow lower factor n m, lower <> 0 -> 2 <= Z.abs factor -> (10 <= n)%nat -> (1 <= m <= n)%nat ->
  (forall i, (i <= n)%nat -> Z.abs (geometric_term lower factor i) < 2 ^ 52) ->
  numbers (fun i => dmul (of_int lower) (pow (of_int factor) i)) n ->
  search pow (map of_int (geometric_gap lower factor n m)) (of_int factor) (of_int lower) default_error =
  if ((n / 2 =? m)%nat || (n / 2 + 1 =? m)%nat || ((n + n / 2) / 2 =? m)%nat || ((n + n / 2) / 2 + 1 =? m)%nat)
  then Val (true, of_int (geometric_term lower factor m)) else UB.
Proof.
  intros pow lower factor n m NL F N M S NP.
  assert (SM : forall i, (i <= n)%nat -> small (geometric_term lower factor i)).
  { intros i I. specialize (S i I). unfold small. lia. }
  assert (SF : small factor).
  { pose proof (S 1%nat ltac:(lia)) as S1. unfold geometric_term in S1. change (Z.of_nat 1) with 1 in S1. rewrite Z.pow_1_r, Z.abs_mul in S1. unfold small.
    set (a := Z.abs lower) in *. assert (1 <= a) by lia. set (f := Z.abs factor) in *. clearbody a f. nia. }
  assert (NF : factor <> 0) by lia.
  pose proof (dterm_int lower factor n NL NF SF SM) as D.
  assert (L0 : small lower) by (pose proof (SM 0%nat ltac:(lia)) as X; unfold geometric_term in X; cbn in X; now rewrite Z.mul_1_r in X).
  destruct (int_number lower L0) as (VL & _). destruct (int_number factor SF) as (VF & _).
  assert (G : map of_int (geometric_gap lower factor n m) = dgap dmul (of_int lower) (of_int factor) n m).
  { unfold geometric_gap, dgap. rewrite map_map. apply map_ext_in. intros i I. symmetry. apply D. unfold without in I.
    apply in_app_or in I. rewrite !in_seq in I. lia. }
  rewrite G. assert (NT : numbers (dterm dmul (of_int lower) (of_int factor)) (Datatypes.S n)).
  { intros i I. destruct (D i ltac:(lia)) as (-> & _). apply int_number. apply SM. lia. }
  pose proof default_tolerance as (TE & _). pose proof (half_bounds n). pose proof (half_bounds (n + n / 2)).
  destruct (_ || _) eqn:B.
  - rewrite !orb_true_iff, !Nat.eqb_eq in B. rewrite <- (proj1 (D m ltac:(lia))). apply search_found; trivial; [unfold looked_at; lia|].
    assert (MN : (m < n)%nat) by lia. destruct (D m ltac:(lia)) as (-> & NZ). destruct (D (Datatypes.S m) ltac:(lia)) as (-> & _).
    specialize (S m ltac:(lia)). specialize (SM (Datatypes.S m) ltac:(lia)). unfold apart.
    assert (NE : geometric_term lower factor (Datatypes.S m) <> geometric_term lower factor m).
    { rewrite geometric_S. set (x := geometric_term lower factor m) in *. clearbody x. nia. }
    destruct (Z.lt_total (geometric_term lower factor m) (geometric_term lower factor (Datatypes.S m))) as [L|[E|L]]; [left|congruence|right].
    + now apply int_apart.
    + now apply int_apart_below.
  - apply search_lost; trivial. intros (LA & _). rewrite !orb_false_iff, !Nat.eqb_neq in B. unfold looked_at in LA. lia.
Qed.
Lemma search_int_found : forall pow lower factor n m, lower <> 0 -> 2 <= Z.abs factor -> (10 <= n)%nat -> (1 <= m <= n)%nat ->
  (forall i, (i <= n)%nat -> Z.abs (geometric_term lower factor i) < 2 ^ 52) ->
  numbers (fun i => dmul (of_int lower) (pow (of_int factor) i)) n -> looked_at n m ->
  search pow (map of_int (geometric_gap lower factor n m)) (of_int factor) (of_int lower) default_error =
  Val (true, of_int (geometric_term lower factor m)).
Proof.
  intros pow lower factor n m NL F N M S NP LA. rewrite search_int by trivial.
  destruct (_ || _) eqn:B; [reflexivity|]. rewrite !orb_false_iff, !Nat.eqb_neq in B. unfold looked_at in LA. lia.
Qed.
Lemma search_int_lost : forall pow lower factor n m, lower <> 0 -> 2 <= Z.abs factor -> (10 <= n)%nat -> (1 <= m <= n)%nat ->
  (forall i, (i <= n)%nat -> Z.abs (geometric_term lower factor i) < 2 ^ 52) ->
  numbers (fun i => dmul (of_int lower) (pow (of_int factor) i)) n -> ~ looked_at n m ->
  search pow (map of_int (geometric_gap lower factor n m)) (of_int factor) (of_int lower) default_error = UB.
Proof.
  intros pow lower factor n m NL F N M S NP LA. rewrite search_int by trivial.
  destruct (_ || _) eqn:B; [|reflexivity]. rewrite !orb_true_iff, !Nat.eqb_eq in B. unfold looked_at in LA. lia.
Qed.

(** ** The search in integers, its power computed in doubles *)
Lemma trunc_int : forall z, small z -> z <> 0 -> trunc (of_int z) = z.
Proof.
  intros z S N. destruct (of_int_small z S) as (V & F & U). destruct (of_int z) as [s|s| |s m e]; try contradiction.
  - rewrite units_zero in U. pose proof (pow_pos 1074 ltac:(lia)). nia.
  - rewrite units_finite in U. apply valid_exp in V. cbn [trunc].
    assert (T : (if 0 <=? e then Z.pos m * 2 ^ e else Z.pos m / 2 ^ (- e)) = Z.abs z).
    { pose proof (pow_pos 1074 ltac:(lia)) as P.
      assert (A : Z.pos m * 2 ^ (e + 1074) = Z.abs z * 2 ^ 1074).
      { pose proof (pow_pos (e + 1074) ltac:(lia)) as P2. rewrite <- (Z.abs_eq (2 ^ 1074)) at 1 by lia. rewrite <- Z.abs_mul, <- U.
        unfold sg. set (x := 2 ^ (e + 1074)) in *. clearbody x. destruct s; nia. }
      destruct (Z.leb_spec 0 e) as [L|L].
      - rewrite pow_add in A by lia. rewrite Z.mul_assoc in A. apply Z.mul_reg_r in A; [exact A|lia].
      - assert (Q : 2 ^ 1074 = 2 ^ (e + 1074) * 2 ^ (- e)) by (rewrite <- pow_add by lia; f_equal; lia). rewrite Q in A. clear Q.
        pose proof (pow_pos (e + 1074) ltac:(lia)) as P2. pose proof (pow_pos (- e) ltac:(lia)) as P3.
        assert (B : Z.pos m = Z.abs z * 2 ^ (- e)).
        { apply (Z.mul_reg_r _ _ (2 ^ (e + 1074))); [lia|]. rewrite A. ring. }
        rewrite B. apply Z.div_mul. lia. }
    rewrite T. pose proof (pow_pos 1074 ltac:(lia)) as P. pose proof (pow_pos (e + 1074) ltac:(lia)) as P2. unfold sg in U.
    set (x := 2 ^ (e + 1074)) in *. clearbody x. set (p := 2 ^ 1074) in *. clearbody p.
    destruct s; nia.
Qed.
Lemma power_exact : forall pow lower factor n, lower <> 0 -> factor <> 0 -> (forall i, (i <= n)%nat -> small (geometric_term lower factor i)) ->
  (forall i, (i <= n)%nat -> pow (of_int factor) i = of_int (factor ^ Z.of_nat i)) ->
  forall i, (i <= n)%nat -> power pow lower factor i = geometric_term lower factor i.
Proof.
  intros pow lower factor n NL NF S P i I. unfold power. rewrite P by trivial. pose proof (S i I) as SI. pose proof (S 0%nat ltac:(lia)) as S0.
  unfold geometric_term in *. change (Z.of_nat 0) with 0 in S0. rewrite Z.pow_0_r, Z.mul_1_r in S0.
  assert (NZ : factor ^ Z.of_nat i <> 0) by (apply Z.pow_nonzero; lia).
  assert (SP : small (factor ^ Z.of_nat i)).
  { unfold small in *. rewrite Z.abs_mul in SI. set (a := Z.abs lower) in *. assert (1 <= a) by lia.
    set (f := Z.abs (factor ^ Z.of_nat i)) in *. assert (0 <= f) by lia. clearbody a f. nia. }
  rewrite dmul_int by trivial. apply trunc_int; [trivial|nia].
Qed.
Lemma power_sane : forall pow b lower factor n, lower <> 0 -> 2 <= Z.abs factor -> representable b (geometric_term lower factor) n ->
  (forall i, (i <= n)%nat -> small (geometric_term lower factor i)) ->
  (forall i, (i <= n)%nat -> pow (of_int factor) i = of_int (factor ^ Z.of_nat i)) -> sane_geometric b (power pow) lower factor n.
Proof.
  intros pow b lower factor n NL F R S P. split; [trivial|]. split; [trivial|]. split; [trivial|].
  apply power_exact; trivial. lia.
Qed.
Lemma fits_small : forall b z, 0 < b <= 54 -> fits b z -> small z.
Proof.
  intros b z B F. unfold fits, imin, imax in F. unfold small. assert (H : 2 ^ (b - 1) <= 2 ^ 53) by (apply Z.pow_le_mono_r; lia). set (x := 2 ^ (b - 1)) in *. clearbody x. lia.
Qed.
Lemma narrow_sane : forall pow b lower factor n, 0 < b <= 54 -> lower <> 0 -> 2 <= Z.abs factor -> representable b (geometric_term lower factor) n ->
  (forall i, (i <= n)%nat -> pow (of_int factor) i = of_int (factor ^ Z.of_nat i)) -> sane_geometric b (power pow) lower factor n.
Proof.
  intros pow b lower factor n B NL F R P. apply power_sane; trivial. intros i I. exact (fits_small b _ B (R i I)).
Qed.
Lemma narrow_short : forall pow b lower factor n m, 0 < b <= 54 -> lower <> 0 -> 2 <= Z.abs factor -> representable b (geometric_term lower factor) n ->
  (forall i, (i <= n)%nat -> pow (of_int factor) i = of_int (factor ^ Z.of_nat i)) -> (m < n)%nat -> (3 <= n <= 8)%nat ->
  find_missing_geometric b (power pow) (geometric_gap lower factor n m) factor lower = Val (true, geometric_term lower factor m).
Proof. intros. apply geometric_short; trivial. now apply narrow_sane. Qed.
Lemma narrow_halving : forall pow b lower factor n m j, 0 < b <= 54 -> lower <> 0 -> 2 <= Z.abs factor -> representable b (geometric_term lower factor) n ->
  (forall i, (i <= n)%nat -> pow (of_int factor) i = of_int (factor ^ Z.of_nat i)) -> (3 <= n)%nat ->
  let p := (Nat.iter j (fun c => c - c / 2) n / 2)%nat in (1 <= p)%nat -> (m = p \/ m = S p) -> (m < n)%nat ->
  find_missing_geometric b (power pow) (geometric_gap lower factor n m) factor lower = Val (true, geometric_term lower factor m).
Proof. intros. eapply geometric_down; try eassumption. now apply narrow_sane. Qed.
(** Whatever the power is, an answer is right. *)
Lemma any_power_loop : forall b pw lower factor n m, (m <= n)%nat -> forall fuel it c x,
  geometric_loop b pw fuel (geometric_gap lower factor n m) factor lower it c = Val (true, x) ->
  (1 <= m < n)%nat /\ x = geometric_term lower factor m.
Proof.
  intros b pw lower factor n m M. set (l := geometric_gap lower factor n m). set (t := geometric_term lower factor).
  assert (LEN : length l = n) by (apply gap_length; lia).
  assert (AT : forall i, (i < n)%nat -> deref l i = Val (t (if (i <? m)%nat then i else S i))) by (intros i I; unfold l, geometric_gap; now rewrite gap_deref by lia).
  assert (OUT : forall i, (n <= i)%nat -> deref l i = UB) by (intros i I; unfold l, geometric_gap; now rewrite gap_deref_out by lia).
  induction fuel as [|fuel IH]; intros it c x H; [discriminate|]. cbn [geometric_loop] in H. rewrite LEN in H.
  destruct (Nat.eqb_spec c 0); [discriminate|]. destruct (Nat.leb_spec n it); [discriminate|].
  set (mid := (c / 2)%nat) in *. clearbody mid.
  destruct (Nat.ltb_spec n mid); [discriminate|].
  destruct (Nat.eqb_spec mid 0); [discriminate|]. destruct (Nat.eqb_spec mid n); [discriminate|]. cbn [orb] in H.
  rewrite AT in H by lia. cbn [bind] in H.
  destruct (chk b _) as [e1| | |] eqn:C1 in H; try discriminate. apply chk_val in C1. destruct C1 as (-> & _). cbn [bind] in H.
  destruct (Nat.lt_ge_cases (mid + 1) n) as [L|G]; [|rewrite OUT in H by lia; discriminate].
  rewrite !AT in H by lia. cbn [bind] in H.
  assert (ST : forall i, t i * factor = t (S i)) by (intros i; symmetry; apply geometric_S). rewrite !ST in H.
  destruct (Nat.eqb_spec (mid + 1) m) as [E1|N1].
  - destruct (Nat.ltb_spec mid m); [|lia]. replace (S mid) with m in H by lia. destruct (negb _) in H.
    + injection H as <-. split; [lia|reflexivity].
    + destruct (chk b _) as [e2| | |] eqn:C2 in H; try discriminate. apply chk_val in C2. destruct C2 as (-> & _). cbn [bind] in H.
      destruct (Nat.ltb_spec (mid - 1) m); [|lia]. replace (S (mid - 1)) with mid in H by lia. rewrite Z.eqb_refl in H. cbn [negb] in H.
      destruct (chk b (pw _ _ _)) as [e3| | |] in H; try discriminate. cbn [bind] in H. destruct (t mid =? e3) in H; exact (IH _ _ _ H).
  - replace (if (mid + 1 <? m)%nat then (mid + 1)%nat else S (mid + 1)) with (S (if (mid <? m)%nat then mid else S mid)) in H
      by (destruct (Nat.ltb_spec (mid + 1) m), (Nat.ltb_spec mid m); lia).
    rewrite Z.eqb_refl in H. cbn [negb] in H.
    destruct (chk b _) as [e2| | |] eqn:C2 in H; try discriminate. apply chk_val in C2. destruct C2 as (-> & _). cbn [bind] in H.
    destruct (negb _) eqn:NE in H.
    + injection H as <-. apply negb_true_iff, Z.eqb_neq in NE. destruct (Nat.eq_dec mid m) as [E2|N2].
      * destruct (Nat.ltb_spec (mid - 1) m); [|lia]. split; [lia|]. f_equal. lia.
      * exfalso. apply NE. f_equal. destruct (Nat.ltb_spec mid m), (Nat.ltb_spec (mid - 1) m); lia.
    + destruct (chk b (pw _ _ _)) as [e3| | |] in H; try discriminate. cbn [bind] in H. destruct (_ =? e3) in H; exact (IH _ _ _ H).
Qed.
Lemma any_power_sound : forall b pw lower factor n m x, (m <= n)%nat ->
  find_missing_geometric b pw (geometric_gap lower factor n m) factor lower = Val (true, x) -> (m < n)%nat /\ x = geometric_term lower factor m.
Proof.
  intros b pw lower factor n m x M H. unfold find_missing_geometric in H. destruct (Nat.eq_dec n 0) as [->|N].
  { replace m with 0%nat in H by lia. discriminate. }
  rewrite geometric_first_deref in H by lia. cbn [bind] in H. destruct (Nat.eqb_spec m 0) as [->|NM].
  - destruct (Z.eqb_spec (lower * factor) lower) as [E|NE]; [apply any_power_loop in H; lia|].
    destruct (chk b _) as [y| | |] in H; try discriminate. cbn [bind] in H. destruct (_ =? y) in H; [|discriminate]. injection H as <-.
    split; [lia|]. unfold geometric_term. cbn. lia.
  - rewrite Z.eqb_refl in H. apply any_power_loop in H; [|trivial]. split; [lia|apply H].
Qed.
