(** The functions of the library that compute with double, over IEEE 754 binary64
    numbers: Coq's SpecFloat (executable, no axioms) with 53 bits of precision and
    exponents below 1024, rounding to nearest, ties to even; one NaN.  Assumed:
    no wider intermediate results and no fused multiply-add. *)
Require Import List Arith NArith ZArith Bool.
Require Import Floats.SpecFloat.
Require Import Verif.Base Verif.ToolsModel.
Import ListNotations.
Local Open Scope Z_scope.

Definition double := spec_float.
Definition prec := 53.
Definition emax := 1024.
(** The operators of double, and std::sqrt, which IEEE 754 requires to be rounded
    correctly. *)
Definition dadd : double -> double -> double := SFadd prec emax.
Definition dsub : double -> double -> double := SFsub prec emax.
Definition dmul : double -> double -> double := SFmul prec emax.
Definition ddiv : double -> double -> double := SFdiv prec emax.
Definition dsqrt : double -> double := SFsqrt prec emax.
Definition dlt : double -> double -> bool := SFltb.
Definition dle : double -> double -> bool := SFleb.
Definition dfinite (d : double) : bool :=
  match d with S754_zero _ | S754_finite _ _ _ => true | _ => false end.
(** Conversion of an integer to double: to nearest. *)
Definition of_int (z : Z) : double := binary_normalize prec emax z 0 false.
(** static_cast<uint64_t> of a double: truncation; undefined if the truncated value
    is not a uint64_t. *)
Definition to_uint64 (d : double) : outcome N :=
  match d with
  | S754_zero _ => Val 0%N
  | S754_finite s m e =>
      let t := if 0 <=? e then Z.pos m * 2 ^ e else Z.pos m / 2 ^ (- e) in
      if s then if t =? 0 then Val 0%N else UB
      else if t <? 2 ^ 64 then Val (Z.to_N t) else UB
  | _ => UB
  end.

(** divisors.h:19: static_cast<uint64_t>(std::sqrt(n)) *)
Definition square (n : N) : outcome N := to_uint64 (dsqrt (of_int (Z.of_N n))).
(** divisors.h:16-32: divisors_of *)
Definition divisors_of (n : N) (sorting : bool) : outcome (list N) :=
  let* s := square n in
  Val (ToolsModel.divisors_of (fun _ => s) n sorting).

(** random.h:52-60: next_random_double.  [c] is what std::generate_canonical gives, a
    double from 0 to below 1; the distribution answers c * (end - start) + start, as
    in libstdc++.  Its precondition is start <= end and that their difference is not
    beyond the greatest double. *)
Definition next_random_double (start end_ c : double) : outcome double :=
  let w := dsub end_ start in
  if dle start end_ && dfinite w then Val (dadd (dmul c w) start) else UB.

(** std::max of two doubles *)
Definition dmax (a b : double) : double := if dlt a b then b else a.
(** subarray.h:68-71: the loop of max_sum_of for doubles *)
Fixpoint sum_loop (l : list double) (current_max max_sum : double) : double :=
  match l with
  | [] => max_sum
  | x :: l =>
      let current_max := dmax x (dadd current_max x) in
      sum_loop l current_max (dmax current_max max_sum)
  end.
(** subarray.h:62-73: max_sum_of for doubles *)
Definition max_sum_of (l : list double) : double :=
  match l with
  | [] => of_int 0
  | first :: _ => sum_loop l first first
  end.
