(** Models of tools/divisors.h, enum_factory.h, random.h and math_operation.h. *)
Require Import List Arith NArith ZArith Bool.
Require Import Verif.Base Verif.Cint.
Import ListNotations.
Local Open Scope N_scope.

(** ** divisors.h *)
(** divisors.h:39-42: gcd *)
Fixpoint gcd (fuel : nat) (a b : N) : outcome N :=
  match fuel with
  | O => NoFuel
  | S fuel => if b =? 0 then Val a else gcd fuel b (a mod b)
  end.
(** divisors.h:20-27: the loop of divisors_of, once per [fuel] from [ii] on;
    [divisors] in the order of the vector. *)
Fixpoint divisor_loop (fuel : nat) (ii n : N) (divisors : list N) : list N :=
  match fuel with
  | O => divisors
  | S fuel =>
      let divisors :=
        if n mod ii =? 0 then
          let divisors := divisors ++ [ii] in
          if negb (wmul ii ii =? n) then divisors ++ [n / ii] else divisors
        else divisors in
      divisor_loop fuel (ii + 1) n divisors
  end.
(** divisors.h:28-30: std::sort; there is only one sorted list of the same numbers *)
Fixpoint insert (x : N) (l : list N) : list N :=
  match l with
  | [] => [x]
  | y :: r => if x <=? y then x :: l else y :: insert x r
  end.
Definition sort (l : list N) : list N := fold_right insert [] l.
(** divisors.h:16-32: divisors_of; [square] is static_cast<uint64_t>(std::sqrt(n)),
    ii runs from 2 to [square]. *)
Definition divisors_of (square : N -> N) (n : N) (sorting : bool) : list N :=
  let divisors := divisor_loop (N.to_nat (square n - 1)) 2 n [] in
  if sorting then sort divisors else divisors.

(** ** enum_factory.h *)
(** A std::string is the list of its bytes. *)
Definition str := list N.
Definition str_eqb (s t : str) : bool := if list_eq_dec N.eq_dec s t then true else false.
(** enum_factory.h:58: static_cast<T>(static_cast<size_t>(value)+1), the underlying
    type of T being signed with [b] bits *)
Definition next_value (b : Z) (value : Z) : Z := narrow b ((value mod 2 ^ 64 + 1) mod 2 ^ 64)%Z.
(** enum_factory.h:56-65: the loop of from_string *)
Fixpoint from_string_loop (fuel : nat) (b : Z) (to_string : Z -> str) (s : str) (value maximum : Z) : outcome Z :=
  match fuel with
  | O => NoFuel
  | S fuel =>
      if (value <? maximum)%Z then
        if str_eqb s (to_string value) then Val value
        else from_string_loop fuel b to_string s (next_value b value) maximum
      else Val maximum
  end.
(** enum_factory.h:51-67: from_string *)
Definition from_string (b : Z) (to_string : Z -> str) (minimum maximum : Z) (s : str) : outcome Z :=
  from_string_loop (S (Z.to_nat (maximum - minimum))) b to_string s minimum maximum.

(** ** random.h *)
(** std::uniform_int_distribution(lo, hi): [raw] is whatever the generator gives;
    hi < lo violates the precondition.  [w] is the number of bits of
    std::mt19937::result_type (64 or 32), to which the bounds are converted. *)
Definition dist (w lo hi raw : N) : outcome N :=
  let lo := lo mod 2 ^ w in
  let hi := hi mod 2 ^ w in
  if hi <? lo then UB else Val (lo + raw mod (hi - lo + 1)).
(** random.h:34-43: next_random; int_type has [k] bits and may be signed *)
Definition next_random (w : N) (k : Z) (sgn : bool) (start end_ raw : N) : outcome Z :=
  let* d := dist w start end_ raw in
  Val (if sgn then narrow k (Z.of_N d) else Z.of_N d mod 2 ^ k)%Z.
(** random.h:100-115: next_random_char; '~' is 126, ' ' is 32 *)
Definition next_random_char (w : N) (set : str) (raw : N) : outcome N :=
  match set with
  | [] => dist w 32 126 raw
  | _ =>
      let* i := dist w 0 (sizeN set - 1) raw in
      match nth_error set (N.to_nat i) with Some c => Val c | None => UB end
  end.
(** random.h:77-88: the loops of next_random_string; [raws ii] is the draw for the
    character at [ii] *)
Fixpoint random_chars (w : N) (count : nat) (set : str) (raws : nat -> N) (ii : nat) : outcome str :=
  match count with
  | O => Val []
  | S count =>
      let* c := next_random_char w set (raws ii) in
      let* r := random_chars w count set raws (S ii) in
      Val (c :: r)
  end.
(** random.h:70-90: next_random_string; both branches draw like next_random_char,
    the second from one distribution (made even if [count] is 0). *)
Definition next_random_string (w : N) (count : nat) (set : str) (raws : nat -> N) : outcome str :=
  random_chars w count set raws 0.

(** ** math_operation.h *)
Section Math.
Context {T : Type}.
(** math_operation.h:24-35 (sum_t), 71-82 (multiplication_t): operator() with one,
    two and more arguments; [op] is the operator of T. *)
Fixpoint variadic (op : T -> T -> outcome T) (first : T) (others : list T) : outcome T :=
  match others with
  | [] => Val first
  | [rhs] => op first rhs
  | rhs :: others => let* r := variadic op rhs others in op first r
  end.
(** math_operation.h:122-129: minimum_t; std::min of two and of an initializer_list
    both return the first one that no other is less than. *)
Definition min2 (less : T -> T -> bool) (a b : T) : T := if less b a then b else a.
Definition minimum (less : T -> T -> bool) (first : T) (others : list T) : T := fold_left (min2 less) others first.
(** math_operation.h:140-147: maximum_t *)
Definition max2 (less : T -> T -> bool) (a b : T) : T := if less a b then b else a.
Definition maximum (less : T -> T -> bool) (first : T) (others : list T) : T := fold_left (max2 less) others first.
End Math.
(** The operators of a signed type with [b] bits (at least int) and of uint64_t. *)
Definition plus (b x y : Z) : outcome Z := chk b (x + y)%Z.
Definition minus (b x y : Z) : outcome Z := chk b (x - y)%Z.
Definition times (b x y : Z) : outcome Z := chk b (x * y)%Z.
Definition divide (b x y : Z) : outcome Z := if (y =? 0)%Z then UB else chk b (Z.quot x y).
Definition plus_u (x y : N) : outcome N := Val (wadd x y).
Definition times_u (x y : N) : outcome N := Val (wmul x y).
(** math_operation.h:22-48: sum_t *)
Definition sum_t (b : Z) := variadic (plus b).
Definition sum_u := variadic plus_u.
(** math_operation.h:56-61: subtraction_t *)
Definition subtraction_t (b : Z) := minus b.
(** math_operation.h:69-95: multiplication_t *)
Definition multiplication_t (b : Z) := variadic (times b).
Definition multiplication_u := variadic times_u.
(** math_operation.h:103-112: division_t *)
Definition division_t (b : Z) := divide b.
(** math_operation.h:37-41, 84-88: null_value of scalars *)
Definition sum_null : Z := 0.
Definition multiplication_null : Z := 1.
(** math_operation.h:90-94: null_value of multiplication_t for a class: T{} *)
Definition multiplication_null_class {T} (dflt : T) : T := dflt.
