(** Proofs about the rounding error of max_sum_of over doubles. *)
Require Import List Arith NArith ZArith Lia Bool.
Require Import Floats.SpecFloat.
Require Import Verif.Base Verif.DoubleModel Verif.DoubleSpec Verif.DoubleProofs Verif.DoubleSumProofs.
Require Import Verif.SegmentDoubleProofs.
Require Import Verif.FenwickModel Verif.FenwickErrorSpec Verif.FenwickErrorProofs.
Import ListNotations.
Local Open Scope Z_scope.
Local Ltac lia0 := lia.
Local Ltac lia := try match goal with H : _ = 2 ^ 2096 |- _ => clear H end; lia0.

Definition paired (c : double) (z : Z) : Prop := near 1 (Z.abs z) z c.
Lemma running_near : forall B, B = 2 ^ 2096 -> forall w zs x z d M, near d M z x -> 1 <= d -> Forall2 paired w zs -> d + Z.of_nat (length w) <= 2 ^ 52 ->
  M + total (map Z.abs zs) < B -> near (d + Z.of_nat (length w)) (M + total (map Z.abs zs)) (z + total zs) (fold_left dadd w x).
Proof.
  intros B EB. induction w as [|c w IH]; intros zs x z d M N D F L T; inversion F as [|? z' ? zs' P F' E1 E2]; subst zs; cbn [map fold_left length] in *.
  - change (total []) with 0. rewrite !Z.add_0_r. exact N.
  - assert (TA : forall x w, total (x :: w) = x + total w) by reflexivity. rewrite !TA in *.
    assert (0 <= total (map Z.abs zs')) by (apply total_nonneg, Forall_map, Forall_forall; intros; lia).
    rewrite !Z.add_assoc. replace (d + Z.of_nat (S (length w))) with (d + 1 + Z.of_nat (length w)) by lia.
    apply IH; trivial; try lia. apply (near_add B); trivial; try lia. apply (near_mono 1); [exact P|lia].
Qed.
Lemma near_units : forall d M z c, near d M z c -> ext c = units c /\ number c.
Proof. intros d M z c ((V & F) & _). split; [now apply ext_finite|now apply finite_number]. Qed.
Lemma first_near : forall B, B = 2 ^ 2096 -> forall f, fin f -> 2 * Z.abs (units f) < B -> paired (dmax f (dadd f f)) (Z.max (units f) (2 * units f)).
Proof.
  intros B EB f F L. pose proof (near_exact f F) as N. unfold magnitude in N.
  destruct (near_add B EB 0 _ _ _ _ f f N N ltac:(lia) ltac:(lia)) as (F2 & E & _).
  assert (N2 : near 1 (Z.abs (units f) + Z.abs (units f)) (units f + units f) (dadd f f)) by (split; [exact F2|split; [exact E|lia]]).
  destruct (near_units _ _ _ _ N) as (X1 & M1). destruct (near_units _ _ _ _ N2) as (X2 & M2).
  destruct (dmax_spec f (dadd f f) M1 M2) as (_ & MX & C). rewrite X1, X2 in MX. unfold paired.
  change (2 ^ 52) with 4503599627370496 in E. set (u := units f) in *. set (v := units (dadd f f)) in *.
  assert (U : units (dmax f (dadd f f)) = Z.max u v).
  { rewrite <- MX. destruct C as [->| ->]; symmetry; assumption. }
  destruct (Z.le_gt_cases u 0) as [K|K].
  - rewrite (Z.max_l u (2 * u)) by lia. split; [destruct C as [->| ->]; assumption|]. rewrite U. rewrite Z.max_l by lia. rewrite Z.sub_diag. change (Z.abs 0) with 0. split; lia.
  - rewrite (Z.max_r u (2 * u)) by lia. split; [destruct C as [->| ->]; assumption|]. rewrite U. rewrite Z.max_r by lia.
    split; [|lia]. change (2 ^ 52) with 4503599627370496. lia.
Qed.
Lemma exact_paired : forall l, Forall fin l -> Forall2 paired l (map units l).
Proof. induction 1 as [|x l F _ IH]; constructor; trivial. apply (near_mono 0); [exact (near_exact x F)|lia]. Qed.
Lemma part_near : forall B, B = 2 ^ 2096 -> forall l zs, Forall2 paired l zs -> Z.of_nat (length l) <= 2 ^ 52 -> total (map Z.abs zs) < B ->
  forall a w c za zw zc, zs = za ++ zw ++ zc -> Forall2 paired w zw -> l = a ++ w ++ c -> w <> [] ->
  near (Z.of_nat (length l)) (total (map Z.abs zs)) (total zw) (running dadd w).
Proof.
  intros B EB l zs F L T a w c za zw zc EZ FW EL NW. destruct w as [|x w]; [contradiction|]. clear NW. inversion FW as [|? z ? zw' P FW' E1 E2]; subst zw.
  assert (NN : forall y, 0 <= total (map Z.abs y)) by (intros y; apply total_nonneg, Forall_map, Forall_forall; intros; lia).
  assert (TS : total (map Z.abs zs) = total (map Z.abs za) + (Z.abs z + total (map Z.abs zw')) + total (map Z.abs zc)).
  { rewrite EZ. rewrite !map_app, !total_app. change (map Z.abs (z :: zw')) with (Z.abs z :: map Z.abs zw'). change (total (Z.abs z :: map Z.abs zw')) with (Z.abs z + total (map Z.abs zw')). lia. }
  pose proof (NN za). pose proof (NN zc). pose proof (NN zw').
  assert (LW : 1 + Z.of_nat (length w) <= Z.of_nat (length l)) by (rewrite EL, !app_length; cbn [length]; lia).
  destruct (running_near B EB w zw' x z 1 (Z.abs z) P ltac:(lia) FW' ltac:(lia) ltac:(lia)) as (FR & ER & BR).
  change (total (z :: zw')) with (z + total zw'). split; [exact FR|]. split; [|lia].
  apply Z.le_trans with (1 := ER). apply Z.mul_le_mono_nonneg; lia.
Qed.
Lemma greatest_error : forall B, B = 2 ^ 2096 -> forall l zs r g, Forall2 paired l zs -> Z.of_nat (length l) <= 2 ^ 52 -> total (map Z.abs zs) < B ->
  dgreatest dadd l r -> best_sum zs g -> off_by (Z.of_nat (length l)) (total (map Z.abs zs)) g r.
Proof.
  intros B EB l zs r g F L T ((w & (NW & a & c & E) & R) & GR) ((zw & (NZ & za & zc & EZ) & TG) & GG).
  assert (P1 : exists z, total z <= g /\ near (Z.of_nat (length l)) (total (map Z.abs zs)) (total z) r).
  { pose proof F as F'. rewrite E in F'. apply Forall2_app_inv_l in F'. destruct F' as (ya & y1 & _ & F1 & EY). apply Forall2_app_inv_l in F1. destruct F1 as (yw & yc & FW & _ & EY1).
    exists yw. subst y1. split.
    - apply GG. split; [intros ->; inversion FW; subst; contradiction|]. now exists ya, yc.
    - subst r. apply (part_near B EB l zs F L T a w c ya yw yc); trivial. }
  assert (P2 : exists v, SFleb v r = true /\ near (Z.of_nat (length l)) (total (map Z.abs zs)) g v).
  { pose proof F as F'. rewrite EZ in F'. apply Forall2_app_inv_r in F'. destruct F' as (ya & y1 & _ & F1 & EY). apply Forall2_app_inv_r in F1. destruct F1 as (yw & yc & FW & _ & EY1).
    subst y1. assert (NY : yw <> []) by (intros ->; inversion FW; subst; contradiction).
    exists (running dadd yw). split; [apply GR; split; [exact NY|now exists ya, yc]|]. rewrite <- TG. apply (part_near B EB l zs F L T ya yw yc za zw zc); trivial. }
  destruct P1 as (z & ZG & N1). destruct P2 as (v & V & N2). destruct (near_units _ _ _ _ N1) as (X1 & M1). destruct (near_units _ _ _ _ N2) as (X2 & M2).
  change (SFleb v r) with (dle v r) in V. rewrite dle_ext in V by trivial. rewrite X1, X2 in V. apply Z.leb_le in V.
  destruct N1 as (FR & E1 & _). destruct N2 as (_ & E2 & _). split; [exact FR|]. clear - ZG E1 E2 V.
  set (q := Z.of_nat (length l) * total (map Z.abs zs)) in *. clearbody q. change (2 ^ 52) with 4503599627370496 in *. lia.
Qed.
Lemma max_sum_error : forall B, B = 2 ^ 2096 -> forall f l g, fin f -> Forall fin l -> Z.of_nat (length (f :: l)) <= 2 ^ 52 ->
  2 * total (map Z.abs (counted (f :: l))) < B -> best_sum (counted (f :: l)) g ->
  off_by (Z.of_nat (length (f :: l))) (total (map Z.abs (counted (f :: l)))) g (max_sum_of (f :: l)).
Proof.
  intros B EB f l g F FL L T G.
  assert (0 <= total (map Z.abs (map units l))) by (apply total_nonneg, Forall_map, Forall_forall; intros; lia).
  assert (TC : total (map Z.abs (counted (f :: l))) = Z.abs (Z.max (units f) (2 * units f)) + total (map Z.abs (map units l))) by reflexivity.
  apply (greatest_error B EB (dmax f (dadd f f) :: l) (counted (f :: l)) (max_sum_of (f :: l)) g); trivial.
  - cbn [counted] in *. constructor; [|now apply exact_paired]. apply (first_near B EB f F). lia.
  - lia.
  - now apply max_sum_doubled.
Qed.
