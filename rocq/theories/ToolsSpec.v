(** Specification for divisors.h, enum_factory.h, random.h and math_operation.h. *)
Require Import List Arith NArith ZArith Bool.
Import ListNotations.

(** [g] is the greatest common divisor (with respect to divisibility). *)
Definition is_gcd (g a b : N) : Prop :=
  N.divide g a /\ N.divide g b /\ forall d, N.divide d a -> N.divide d b -> N.divide d g.
(** What IEEE double arithmetic guarantees of the integer part of the square root
    of a 64-bit number (C135 derives it): exact below 2^52; above, converting the
    number to double may move it by 1024 and the root may round up to an integer. *)
Definition square_root (square : N -> N) : Prop := forall n, (n < 2 ^ 64)%N ->
  ((n < 2 ^ 52)%N -> square n = N.sqrt n) /\ (N.sqrt n <= square n)%N /\ (square n * square n < n + 3072)%N.
Fixpoint ascending (l : list N) : Prop :=
  match l with [] => True | x :: r => (forall y, In y r -> (x < y)%N) /\ ascending r end.

(** [r] is what the name [s] stands for among [minimum, maximum). *)
Definition named {A} (to_string : Z -> A) (minimum maximum : Z) (s : A) (r : Z) : Prop :=
  (minimum <= r < maximum /\ to_string r = s /\ forall u, minimum <= u < r -> to_string u <> s)%Z.
Definition unnamed {A} (to_string : Z -> A) (minimum maximum : Z) (s : A) : Prop :=
  forall u, (minimum <= u < maximum)%Z -> to_string u <> s.

Definition sumZ (l : list Z) : Z := fold_right Z.add 0%Z l.
Definition prodZ (l : list Z) : Z := fold_right Z.mul 1%Z l.
Definition sumN (l : list N) : N := fold_right N.add 0%N l.
Definition prodN (l : list N) : N := fold_right N.mul 1%N l.

(** A strict weak order. *)
Definition weak_order {T} (less : T -> T -> bool) : Prop :=
  (forall x, less x x = false) /\ (forall x y z, less x y = true -> less y z = true -> less x z = true) /\
  (forall x y z, less x z = true -> less x y = true \/ less y z = true).
(** [m] is the first element of [l] that no other is less than. *)
Definition first_least {T} (less : T -> T -> bool) (l : list T) (m : T) : Prop :=
  exists a c, l = a ++ m :: c /\ (forall x, In x a -> less m x = true) /\ (forall x, In x c -> less x m = false).
