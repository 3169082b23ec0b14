(** Specification of the geometric search over doubles. *)
Require Import List Arith ZArith Bool.
Require Import Floats.SpecFloat.
Require Import Verif.DoubleSpec Verif.MissingSpec.
Import ListNotations.

(** The progression as one computes it: every term is the one before times the
    factor, rounded ([mul]). *)
Definition dterm (mul : spec_float -> spec_float -> spec_float) (lower factor : spec_float) (i : nat) : spec_float :=
  Nat.iter i (fun x => mul x factor) lower.
(** Its first n terms. *)
Definition dterms (mul : spec_float -> spec_float -> spec_float) (lower factor : spec_float) (n : nat) : list spec_float :=
  map (dterm mul lower factor) (seq 0 n).
(** Its first n+1 terms without the one at position m. *)
Definition dgap (mul : spec_float -> spec_float -> spec_float) (lower factor : spec_float) (n m : nat) : list spec_float :=
  map (dterm mul lower factor) (without n m).
(** A tolerance: finite and not negative. *)
Definition tolerance (e : spec_float) : Prop := fin e /\ SFleb (S754_zero false) e = true.
(** [y] is beyond [x] by more than the tolerance, the sum and the difference rounded. *)
Definition apart (add sub : spec_float -> spec_float -> spec_float) (e x y : spec_float) : Prop :=
  SFltb (add x e) y = true \/ SFltb y (sub x e) = true.
(** All these are numbers. *)
Definition numbers (f : nat -> spec_float) (n : nat) : Prop := forall i, (i < n)%nat -> valid (f i) /\ f i <> S754_nan.
(** The positions at which the search looks, apart from the first: the middle, the
    middle of the right half, and the ones after them. *)
Definition looked_at (n m : nat) : Prop :=
  m = (n / 2)%nat \/ m = (n / 2 + 1)%nat \/ m = ((n + n / 2) / 2)%nat \/ m = ((n + n / 2) / 2 + 1)%nat.
(** The double nearest to 0.0001, the default tolerance. *)
Definition default_error : spec_float := S754_finite false 7378697629483821 (-66).
