(** Specification for computations with double. *)
Require Import List NArith ZArith Bool.
Require Import Floats.SpecFloat.
Import ListNotations.
Local Open Scope Z_scope.

(** The doubles that exist: SpecFloat's representation is unique on them. *)
Definition valid (d : spec_float) : Prop := valid_binary 53 1024 d = true.
(** The value of a finite double, in units of the least positive one, 2^-1074. *)
Definition units (d : spec_float) : Z :=
  match d with
  | S754_finite s m e => (if s then -1 else 1) * (Z.pos m * 2 ^ (e + 1074))
  | _ => 0
  end.
Definition is_finite (d : spec_float) : Prop :=
  match d with S754_zero _ | S754_finite _ _ _ => True | _ => False end.
(** std::numeric_limits<double>::max() *)
Definition max_double : spec_float := S754_finite false 9007199254740991 971.
(** The greatest double below one. *)
Definition almost_one : spec_float := S754_finite false 9007199254740991 (-53).

(** ** Sums of parts of a sequence *)
(** [w] is a non-empty contiguous part of [l]. *)
Definition dpart (w l : list spec_float) : Prop := w <> [] /\ exists a c, l = a ++ w ++ c.
(** The sum from left to right, every addition rounded. *)
Definition running (add : spec_float -> spec_float -> spec_float) (w : list spec_float) : spec_float :=
  match w with [] => S754_zero false | x :: w => fold_left add w x end.
(** [r] is the greatest of these sums. *)
Definition dgreatest (add : spec_float -> spec_float -> spec_float) (l : list spec_float) (r : spec_float) : Prop :=
  (exists w, dpart w l /\ running add w = r) /\ forall w, dpart w l -> SFleb (running add w) r = true.
(** A finite double that exists. *)
Definition fin (x : spec_float) : Prop := valid x /\ is_finite x.
(** An integer up to which all integers are doubles. *)
Definition small (z : Z) : Prop := Z.abs z <= 2 ^ 53.
