(** Model of classic/sequences/missing_element.h.  A range [first, last) is the
    list of its elements; an iterator is its distance from [first]; advancing
    beyond [last] or reading at [last] is UB.  [b] is the number of bits of
    int_type_t (32 for the default, int), the elements have the same type;
    ptrdiff_t has 64 bits.  Left out: types narrower than int, element types
    other than int_type_t, ranges of more than 2^60 elements. *)
Require Import List Arith ZArith QArith Bool.
Require Import Verif.Base Verif.Cint.
Import ListNotations.
Local Open Scope Z_scope.

Section Missing.
Variable b : Z.

Definition deref {A} (l : list A) (i : nat) : outcome A :=
  match nth_error l i with Some x => Val x | None => UB end.

(** missing_element.h:46-70: the loop of the arithmetic search *)
Fixpoint arithmetic_loop (fuel : nat) (l : list Z) (factor lower : Z) (iteration count : nat)
  : outcome (bool * Z) :=
  match fuel with
  | O => NoFuel
  | S fuel =>
      if (length l <=? iteration)%nat then Exn InvalidSequence
      else
        let step := (count / 2)%nat in
        let mid := step in
        if (length l <? mid)%nat then UB
        else
          let* d := chk 64 (Z.of_nat mid * factor) in
          let* e := chk 64 (lower + d) in
          let expected := narrow b e in
          if (mid =? 0)%nat then Val (false, lower)
          else
            let* x := deref l mid in
            if expected =? x then arithmetic_loop fuel l factor lower (S iteration) (count + step)
            else
              let* p := deref l (mid - 1) in
              let* before := chk b (expected - factor) in
              if p =? before then Val (true, expected)
              else arithmetic_loop fuel l factor lower (S iteration) (count - step)
  end.
(** missing_element.h:22-72: find_missing_arithmetic_in_sorted *)
Definition find_missing_arithmetic (l : list Z) (factor lower : Z) : outcome (bool * Z) :=
  let* x := deref l 0 in
  if x =? lower then arithmetic_loop (S (length l)) l factor lower 0 (length l)
  else
    let* second := chk b (lower + factor) in
    if x =? second then Val (true, lower) else Exn InvalidSequence.

(** [power lower factor k] is what lower * std::pow(factor, k), a double, is
    after truncation (missing_element.h:133). *)
Variable power : Z -> Z -> nat -> Z.

(** missing_element.h:111-144: the loop of the geometric search; [step] is never
    negative. *)
Fixpoint geometric_loop (fuel : nat) (l : list Z) (factor lower : Z) (iteration count : nat)
  : outcome (bool * Z) :=
  match fuel with
  | O => NoFuel
  | S fuel =>
      if (count =? 0)%nat then Val (false, lower)
      else if (length l <=? iteration)%nat then Exn InvalidSequence
      else
        let step := (count / 2)%nat in
        let mid := step in
        if (length l <? mid)%nat then UB
        else if (mid =? 0)%nat || (mid =? length l)%nat then Val (false, lower)
        else
          let* m := deref l mid in
          let* expected := chk b (m * factor) in
          let* n := deref l (mid + 1) in
          if negb (n =? expected) then Val (true, expected)
          else
            let* p := deref l (mid - 1) in
            let* expected := chk b (p * factor) in
            if negb (m =? expected) then Val (true, expected)
            else
              let* expected := chk b (power lower factor mid) in
              if m =? expected then geometric_loop fuel l factor lower (S iteration) (count + step)
              else geometric_loop fuel l factor lower (S iteration) (count - step)
  end.
(** missing_element.h:80-146: find_missing_geometric_in_sorted for integers *)
Definition find_missing_geometric (l : list Z) (factor lower : Z) : outcome (bool * Z) :=
  let* x := deref l 0 in
  if x =? lower then geometric_loop (S (length l)) l factor lower 0 (length l)
  else
    let* second := chk b (lower * factor) in
    if x =? second then Val (true, lower) else Exn InvalidSequence.

(** missing_element.h:187-220: the loop of the geometric search for floating
    point, over exact rationals. *)
Definition Qltb (x y : Q) : bool := negb (Qle_bool y x).
Fixpoint geometric_float_loop (fuel : nat) (l : list Q) (factor lower error : Q) (iteration count : nat)
  : outcome (bool * Q) :=
  match fuel with
  | O => NoFuel
  | S fuel =>
      if (count =? 0)%nat then Val (false, lower)
      else if (length l <=? iteration)%nat then Exn InvalidSequence
      else
        let step := (count / 2)%nat in
        let mid := step in
        if (length l <? mid)%nat then UB
        else if (mid =? 0)%nat || (mid =? length l)%nat then Val (false, lower)
        else
          let* m := deref l mid in
          let expected := (m * factor)%Q in
          let* n := deref l (mid + 1) in
          if Qltb (expected + error) n || Qltb n (expected - error) then Val (true, expected)
          else
            let* p := deref l (mid - 1) in
            let expected := (p * factor)%Q in
            if Qltb (expected + error) m || Qltb m (expected - error) then Val (true, expected)
            else
              let expected := (lower * Qpower factor (Z.of_nat mid))%Q in
              if Qle_bool m (expected + error) || Qle_bool (expected - error) m
              then geometric_float_loop fuel l factor lower error (S iteration) (count + step)
              else geometric_float_loop fuel l factor lower error (S iteration) (count - step)
  end.
(** missing_element.h:155-222: find_missing_geometric_in_sorted for floating
    point, over exact rationals (over doubles in DoubleSearchModel.v). *)
Definition find_missing_geometric_float (l : list Q) (factor lower error : Q) : outcome (bool * Q) :=
  let* x := deref l 0 in
  if Qeq_bool x lower then geometric_float_loop (S (length l)) l factor lower error 0 (length l)
  else if Qeq_bool x (lower * factor)%Q then Val (true, lower) else Exn InvalidSequence.

(** missing_element.h:241-243, 272-274, 278-280, 294-296: XOR over a range *)
Fixpoint xor_range (elem : Z) (l : list Z) : Z :=
  match l with [] => elem | x :: r => xor_range (Z.lxor elem x) r end.
(** missing_element.h:246-248: for (ii = lower; ii <= max; ii++); [ii] has [b]
    bits, [max] at least 64. *)
Fixpoint xor_counting (fuel : nat) (ii max elem : Z) : outcome Z :=
  match fuel with
  | O => NoFuel
  | S fuel =>
      if ii <=? max then
        let elem := Z.lxor elem ii in
        let* ii := chk b (ii + 1) in
        xor_counting fuel ii max elem
      else Val elem
  end.
(** missing_element.h:229-254: find_missing_sequential_range *)
Definition find_missing_sequential_range (l : list Z) (lower : Z) : outcome (bool * Z) :=
  match l with
  | [] => Val (false, 0)
  | x :: r =>
      let elem := xor_range x r in
      let* max := chk 64 (lower + Z.of_nat (length l)) in
      let* elem := xor_counting (length l + 2) lower max elem in
      Val (true, elem)
  end.
(** missing_element.h:261-282: find_not_common_element *)
Definition find_not_common_element (l1 l2 : list Z) : outcome Z :=
  match l1 with
  | [] => UB
  | x :: r => Val (xor_range (xor_range x r) l2)
  end.
(** missing_element.h:289-298: find_non_repeated_element *)
Definition find_non_repeated_element (l : list Z) : outcome Z :=
  match l with
  | [] => UB
  | x :: r => Val (xor_range x r)
  end.
End Missing.
