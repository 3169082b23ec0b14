(** missing_element.h: the geometric search over doubles, every operation rounded
    (see DoubleModel.v). *)
Require Import List Arith NArith ZArith Bool.
Require Import Floats.SpecFloat.
Require Import Verif.Base Verif.MissingModel Verif.DoubleModel.
Import ListNotations.

(** operator== of double *)
Definition deq : double -> double -> bool := SFeqb.

Section Search.
(** std::pow(factor, k): whatever the platform computes, it need not be rounded
    correctly. *)
Variable pow : double -> nat -> double.

(** missing_element.h:187-220: the loop of the geometric search.  The iterators are
    random access; forming first + step beyond last is undefined. *)
Fixpoint search_loop (fuel : nat) (l : list double) (factor lower float_error : double) (iteration count : nat)
  : outcome (bool * double) :=
  match fuel with
  | O => NoFuel
  | S fuel =>
      if (count =? 0)%nat then Val (false, lower)
      else if (length l <=? iteration)%nat then Exn InvalidSequence
      else
        let step := (count / 2)%nat in
        let mid := step in
        if (length l <? mid)%nat then UB
        else if (mid =? 0)%nat || (mid =? length l)%nat then Val (false, lower)
        else
          let* m := deref l mid in
          let expected := dmul m factor in
          let* n := deref l (mid + 1) in
          if dlt (dadd expected float_error) n || dlt n (dsub expected float_error) then Val (true, expected)
          else
            let* p := deref l (mid - 1) in
            let expected := dmul p factor in
            if dlt (dadd expected float_error) m || dlt m (dsub expected float_error) then Val (true, expected)
            else
              let expected := dmul lower (pow factor mid) in
              if dle m (dadd expected float_error) || dle (dsub expected float_error) m
              then search_loop fuel l factor lower float_error (S iteration) (count + step)
              else search_loop fuel l factor lower float_error (S iteration) (count - step)
  end.
(** missing_element.h:155-222: find_missing_geometric_in_sorted for double *)
Definition search (l : list double) (factor lower float_error : double) : outcome (bool * double) :=
  let* x := deref l 0 in
  if deq x lower then search_loop (S (length l)) l factor lower float_error 0 (length l)
  else if deq x (dmul lower factor) then Val (true, lower) else Exn InvalidSequence.
End Search.

(** Conversion of a double to an integer type: truncation.  What has no integer value
    gets one beyond all types, [chk] makes it undefined. *)
Definition trunc (d : double) : Z :=
  match d with
  | S754_zero _ => 0%Z
  | S754_finite s m e =>
      let t := (if 0 <=? e then Z.pos m * 2 ^ e else Z.pos m / 2 ^ (- e))%Z in
      if s then (- t)%Z else t
  | _ => (2 ^ 1100)%Z
  end.
(** missing_element.h:133: expected = lower * std::pow(factor, distance) of the search
    in integers: the operands are converted to double, the product to an integer. *)
Definition power (pow : double -> nat -> double) (lower factor : Z) (k : nat) : Z :=
  trunc (dmul (of_int lower) (pow (of_int factor) k)).
