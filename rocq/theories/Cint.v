(** Signed integer arithmetic of C++ ([b] bits, int or wider): overflow is UB,
    conversion to a narrower type wraps around (what gcc and clang define).
    Nothing here models a particular function of /repo. *)
Require Import List Arith ZArith Lia Bool.
Require Import Verif.Base.
Import ListNotations.
Local Open Scope Z_scope.

Definition imin (b : Z) : Z := - 2 ^ (b - 1).
Definition imax (b : Z) : Z := 2 ^ (b - 1) - 1.
Definition fits (b x : Z) : Prop := imin b <= x <= imax b.
Definition fitsb (b x : Z) : bool := (imin b <=? x) && (x <=? imax b).
(** The result of a signed operation. *)
Definition chk (b x : Z) : outcome Z := if fitsb b x then Val x else UB.
(** Conversion to the [b] bit type. *)
Definition narrow (b x : Z) : Z := (x + 2 ^ (b - 1)) mod 2 ^ b - 2 ^ (b - 1).

Lemma fitsb_spec : forall b x, fitsb b x = true <-> fits b x.
Proof.
  intros b x. unfold fitsb, fits. rewrite andb_true_iff, !Z.leb_le. tauto.
Qed.
Lemma chk_ok : forall b x, fits b x -> chk b x = Val x.
Proof. intros b x H. unfold chk. apply fitsb_spec in H. now rewrite H. Qed.
Lemma chk_val : forall b x y, chk b x = Val y -> y = x /\ fits b x.
Proof.
  intros b x y. unfold chk. destruct (fitsb b x) eqn:E; [|discriminate]. intros H. injection H as <-.
  split; [trivial|now apply fitsb_spec].
Qed.
Lemma chk_ub : forall b x, ~ fits b x -> chk b x = UB.
Proof.
  intros b x H. unfold chk. destruct (fitsb b x) eqn:E; [|trivial]. apply fitsb_spec in E. contradiction.
Qed.
Lemma chk_cases : forall b x, chk b x = Val x \/ chk b x = UB.
Proof. intros b x. unfold chk. destruct (fitsb b x); auto. Qed.
Lemma narrow_ok : forall b x, 0 < b -> fits b x -> narrow b x = x.
Proof.
  intros b x B H. unfold narrow, fits, imin, imax in *.
  assert (E : 2 ^ b = 2 * 2 ^ (b - 1)).
  { replace b with (Z.succ (b - 1)) at 1 by lia. rewrite Z.pow_succ_r by lia. reflexivity. }
  rewrite Z.mod_small; lia.
Qed.
Lemma fits_wider : forall b c x, 0 < b <= c -> fits b x -> fits c x.
Proof.
  intros b c x B H. unfold fits, imin, imax in *.
  assert (2 ^ (b - 1) <= 2 ^ (c - 1)) by (apply Z.pow_le_mono_r; lia). lia.
Qed.
