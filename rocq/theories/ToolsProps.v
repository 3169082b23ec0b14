(** C71-C73, C77, C78: divisors.h, enum_factory.h, random.h, math_operation.h. *)
Require Import List Arith NArith ZArith Lia Bool.
Require Import Verif.Base Verif.Cint Verif.ToolsModel Verif.ToolsSpec Verif.ToolsProofs.
Import ListNotations.
Local Ltac run := repeat (apply conj); (vm_compute; reflexivity).

(** C71: for every pair of 64-bit numbers gcd ends after at most 129 calls with
    the greatest common divisor. *)
Theorem C71_gcd : forall a b, (b < 2 ^ 64)%N -> exists g, gcd 129 a b = Val g /\ is_gcd g a b.
Proof. exact gcd_ok. Qed.
Print Assumptions C71_gcd.
Example C71_case : (36 < 2 ^ 64)%N /\ gcd 129 48 36 = Val 12%N /\ gcd 129 36 48 = Val 12%N /\ gcd 129 0 0 = Val 0%N /\
  gcd 129 12200160415121876738 7540113804746346429 = Val 1%N.
Proof. run. Qed.

(** C72: the result has exactly the divisors other than 1 and n, each once, in
    ascending order if asked for. *)
Theorem C72_proper_divisors_partial : forall square n sorting, square_root square -> (0 < n < 2 ^ 64)%N ->
  let l := divisors_of square n sorting in
  (forall d, In d l <-> N.divide d n /\ (1 < d < n)%N) /\ NoDup l /\ (sorting = true -> ascending l).
Proof. exact divisors_ok. Qed.
Print Assumptions C72_proper_divisors_partial.
Theorem C72_nothing_for_primes : forall square n sorting, square_root square -> (0 < n < 2 ^ 64)%N ->
  (divisors_of square n sorting = [] <-> forall d, N.divide d n -> d = 1%N \/ d = n).
Proof. exact divisors_prime. Qed.
Print Assumptions C72_nothing_for_primes.
Theorem C72_zero : forall square sorting, square_root square -> divisors_of square 0 sorting = [].
Proof. exact divisors_zero. Qed.
Print Assumptions C72_zero.
Example C72_case : square_root N.sqrt /\ divisors_of N.sqrt 36 false = [2; 18; 3; 12; 4; 9; 6]%N /\
  divisors_of N.sqrt 36 true = [2; 3; 4; 6; 9; 12; 18]%N /\ divisors_of N.sqrt 13 true = [].
Proof. split; [exact exact_square_root|run]. Qed.
Theorem C72_all_divisors_refuted : exists n, (0 < n < 2 ^ 64)%N /\ forall square sorting, square_root square ->
  ~ In 1%N (divisors_of square n sorting) /\ ~ In n (divisors_of square n sorting).
Proof.
  exists 6%N. split; [lia|]. intros square sorting SQ.
  destruct (divisors_ok square 6 sorting SQ ltac:(lia)) as (H & _). split; intros I; apply H in I; lia.
Qed.
Print Assumptions C72_all_divisors_refuted.

(** C73: with distinct names every value from minimum to maximum comes back; a
    name used twice stands for its first value; other names give maximum. *)
Theorem C73_round_trip : forall b to_string minimum maximum v, (0 < b <= 64)%Z -> fits b minimum -> fits b maximum ->
  (forall x y, minimum <= x <= maximum -> minimum <= y <= maximum -> to_string x = to_string y -> x = y)%Z ->
  (minimum <= v <= maximum)%Z -> from_string b to_string minimum maximum (to_string v) = Val v.
Proof. exact from_string_round_trip. Qed.
Print Assumptions C73_round_trip.
Theorem C73_first_match : forall b to_string minimum maximum s r, (0 < b <= 64)%Z -> fits b minimum -> fits b maximum ->
  named to_string minimum maximum s r -> from_string b to_string minimum maximum s = Val r.
Proof. exact from_string_first. Qed.
Print Assumptions C73_first_match.
Theorem C73_unknown : forall b to_string minimum maximum s, (0 < b <= 64)%Z -> fits b minimum -> fits b maximum ->
  unnamed to_string minimum maximum s -> from_string b to_string minimum maximum s = Val maximum.
Proof. exact from_string_unknown. Qed.
Print Assumptions C73_unknown.
(** Values -1, 0, 1, 2 named [9], [], [1], [2]. *)
Local Definition name (v : Z) : str := if (v <? 0)%Z then [9%N] else if (v =? 0)%Z then [] else [Z.to_N v].
Example C73_case : (forall x y, -1 <= x <= 2 -> -1 <= y <= 2 -> name x = name y -> x = y)%Z /\
  from_string 32 name (-1) 2 [9%N] = Val (-1)%Z /\ from_string 32 name (-1) 2 [] = Val 0%Z /\
  from_string 32 name (-1) 2 [7%N] = Val 2%Z /\ from_string 32 (fun _ => [5%N]) 3 7 [5%N] = Val 3%Z.
Proof.
  split; [|run]. intros x y X Y.
  assert (HX : (x = -1 \/ x = 0 \/ x = 1 \/ x = 2)%Z) by lia. assert (HY : (y = -1 \/ y = 0 \/ y = 1 \/ y = 2)%Z) by lia.
  destruct HX as [->|[->|[->| ->]]], HY as [->|[->|[->| ->]]]; cbn; congruence.
Qed.

(** C77: whatever the generator does, the number lies in the range if that fits
    the generator's and the requested type, and every number can occur. *)
Theorem C77_in_range_partial : forall w k sgn start end_ raw, (0 < k)%Z -> (start <= end_)%N -> (end_ < 2 ^ w)%N ->
  target k sgn end_ -> exists r, next_random w k sgn start end_ raw = Val (Z.of_N r) /\ (start <= r <= end_)%N.
Proof. exact next_random_ok. Qed.
Print Assumptions C77_in_range_partial.
Theorem C77_every_number : forall w k sgn start end_ r, (0 < k)%Z -> (end_ < 2 ^ w)%N -> target k sgn end_ ->
  (start <= r <= end_)%N -> exists raw, next_random w k sgn start end_ raw = Val (Z.of_N r).
Proof. exact next_random_onto. Qed.
Print Assumptions C77_every_number.
Theorem C77_characters : forall w set raw, (7 <= w)%N -> (sizeN set <= 2 ^ w)%N ->
  exists c, next_random_char w set raw = Val c /\ (set <> [] -> In c set) /\ (set = [] -> 32 <= c <= 126)%N.
Proof. exact random_char_ok. Qed.
Print Assumptions C77_characters.
Theorem C77_strings : forall w set raws count, (7 <= w)%N -> (sizeN set <= 2 ^ w)%N ->
  exists s, next_random_string w count set raws = Val s /\ length s = count /\
    forall c, In c s -> (set <> [] -> In c set) /\ (set = [] -> 32 <= c <= 126)%N.
Proof. exact (fun w set raws count => random_string_ok w set raws count 0). Qed.
Print Assumptions C77_strings.
Theorem C77_every_string : forall w set s, set <> [] -> (sizeN set <= 2 ^ w)%N -> (forall c, In c s -> In c set) ->
  exists raws, next_random_string w (length s) set raws = Val s.
Proof. exact (fun w set s => random_string_onto w set s 0). Qed.
Print Assumptions C77_every_string.
Theorem C77_empty_range_is_UB : forall w k sgn start end_ raw, (start < 2 ^ w)%N -> (end_ < start)%N ->
  next_random w k sgn start end_ raw = UB.
Proof. exact next_random_empty. Qed.
Print Assumptions C77_empty_range_is_UB.
Example C77_case : target 32 true 20 /\ next_random 64 32 true 10 20 12345 = Val 13%Z /\
  next_random_char 64 [97; 98; 99]%N 7 = Val 98%N /\
  next_random_string 64 3 [97; 98]%N (fun i => N.of_nat i) = Val [97; 98; 97]%N.
Proof. split; [cbv; discriminate|run]. Qed.
(** Beyond the types the number is cut down: for int8_t, and where the generator's
    result type has 32 bits. *)
Theorem C77_every_range_refuted : exists start end_ raw r, (start <= end_)%N /\
  next_random 64 8 true start end_ raw = Val r /\ (r < Z.of_N start)%Z /\
  exists start' end' raw' r', (start' <= end')%N /\ next_random 32 64 false start' end' raw' = Val r' /\
    (r' < Z.of_N start')%Z.
Proof.
  exists 0%N, 200%N, 200%N, (-56)%Z. split; [lia|]. split; [vm_compute; reflexivity|]. split; [lia|].
  exists (2 ^ 32)%N, (2 ^ 32 + 5)%N, 3%N, 3%Z. split; [lia|]. split; [vm_compute; reflexivity|]. reflexivity.
Qed.
Print Assumptions C77_every_range_refuted.

(** C78: sums and products of one or more arguments; they are computed from the
    right, so all the sums (products) of the last arguments have to fit. *)
Theorem C78_sum_partial : forall b first others, (forall a c, first :: others = a ++ c -> c <> [] -> fits b (sumZ c)) ->
  sum_t b first others = Val (sumZ (first :: others)).
Proof. exact sum_total. Qed.
Print Assumptions C78_sum_partial.
Theorem C78_sum_never_wrong : forall b first others r, sum_t b first others = Val r -> r = sumZ (first :: others).
Proof. exact sum_sound. Qed.
Print Assumptions C78_sum_never_wrong.
Theorem C78_product_partial : forall b first others, (forall a c, first :: others = a ++ c -> c <> [] -> fits b (prodZ c)) ->
  multiplication_t b first others = Val (prodZ (first :: others)).
Proof. exact product_total. Qed.
Print Assumptions C78_product_partial.
Theorem C78_product_never_wrong : forall b first others r, multiplication_t b first others = Val r ->
  r = prodZ (first :: others).
Proof. exact product_sound. Qed.
Print Assumptions C78_product_never_wrong.
(** Unsigned types: modulo 2^64, always. *)
Theorem C78_unsigned : forall first others, Forall (fun x => (x < two64)%N) (first :: others) ->
  sum_u first others = Val (sumN (first :: others) mod two64)%N /\
  multiplication_u first others = Val (prodN (first :: others) mod two64)%N.
Proof. exact (fun f o H => conj (sum_u_ok o f H) (product_u_ok o f H)). Qed.
Print Assumptions C78_unsigned.
(** Minimum and maximum: the first argument that no other is less (greater) than,
    for every strict weak order. *)
Theorem C78_minimum : forall T (less : T -> T -> bool) first others, weak_order less ->
  first_least less (first :: others) (minimum less first others).
Proof. exact (fun T less f o W => minimum_ok less W o f). Qed.
Print Assumptions C78_minimum.
Theorem C78_maximum : forall T (less : T -> T -> bool) first others, weak_order less ->
  first_least (fun x y => less y x) (first :: others) (maximum less first others).
Proof. exact (fun T less f o W => maximum_ok T less o f W). Qed.
Print Assumptions C78_maximum.
(** The reverse operations; a division is undone if it has no remainder. *)
Theorem C78_reverse_partial : forall b x y r, fits b x ->
  (sum_t b x [y] = Val r -> subtraction_t b r y = Val x) /\
  (subtraction_t b x y = Val r -> sum_t b r [y] = Val x) /\
  (y <> 0%Z -> multiplication_t b x [y] = Val r -> division_t b r y = Val x) /\
  (Z.divide y x -> division_t b x y = Val r -> multiplication_t b r [y] = Val x).
Proof.
  exact (fun b x y r F => conj (sum_undone b x y r F) (conj (subtraction_undone b x y r F)
    (conj (product_undone b x y r F) (division_undone b x y r F)))).
Qed.
Print Assumptions C78_reverse_partial.
Example C78_case : sum_t 32 1 [2; 3; 4]%Z = Val 10%Z /\ multiplication_t 32 2 [3; 4]%Z = Val 24%Z /\
  sum_u 1 [two64 - 1; 5]%N = Val 5%N /\ minimum Z.ltb 5%Z [3; 9; 3]%Z = 3%Z /\ maximum Z.ltb 5%Z [3; 9; 3]%Z = 9%Z /\
  minimum (fun x y => Z.ltb (fst x) (fst y)) (5, 1)%Z [(3, 2); (9, 3); (3, 4)]%Z = (3, 2)%Z /\
  division_t 32 24 4 = Val 6%Z /\ weak_order Z.ltb.
Proof. repeat (apply conj); try (vm_compute; reflexivity). all: apply less_weak. Qed.
(** Not in general: an overflow although the sum and the sums from the left fit;
    a division with remainder; INT_MIN / -1. *)
Theorem C78_sum_refuted : exists first others, Forall (fits 32) (first :: others) /\
  (forall a c, first :: others = a ++ c -> fits 32 (sumZ a)) /\ sum_t 32 first others = UB.
Proof.
  exists (-5)%Z, [2147483647; 3]%Z. split; [|split; [|vm_compute; reflexivity]].
  - repeat constructor; vm_compute; discriminate.
  - intros a c H. destruct a as [|x a]; [split; vm_compute; discriminate|]. injection H as <- H.
    destruct a as [|x a]; [split; vm_compute; discriminate|]. injection H as <- H.
    destruct a as [|x a]; [split; vm_compute; discriminate|]. injection H as <- H.
    destruct a as [|x a]; [split; vm_compute; discriminate|discriminate].
Qed.
Print Assumptions C78_sum_refuted.
Theorem C78_division_undone_refuted : exists x y r, fits 32 x /\ y <> 0%Z /\ division_t 32 x y = Val r /\
  multiplication_t 32 r [y] <> Val x /\ division_t 32 (imin 32) (-1) = UB.
Proof.
  exists 7%Z, 2%Z, 3%Z. split; [split; vm_compute; discriminate|]. split; [discriminate|].
  split; [vm_compute; reflexivity|]. split; [vm_compute; discriminate|vm_compute; reflexivity].
Qed.
Print Assumptions C78_division_undone_refuted.
(** The neutral values of scalars are neutral. *)
Theorem C78_null_values : forall b x, fits b x ->
  sum_t b sum_null [x] = Val x /\ sum_t b x [sum_null] = Val x /\
  multiplication_t b multiplication_null [x] = Val x /\ multiplication_t b x [multiplication_null] = Val x.
Proof. exact null_values_ok. Qed.
Print Assumptions C78_null_values.
(** For a class null_value of multiplication_t is T{}: not neutral for a number
    class whose default is 0, like std::complex. *)
Theorem C78_null_value_of_class_refuted : exists (dflt : Z) (mul : Z -> Z -> outcome Z) x,
  mul = times 64 /\ dflt = 0%Z /\ mul (multiplication_null_class dflt) x <> Val x.
Proof. exists 0%Z, (times 64), 1%Z. split; [trivial|]. split; [trivial|]. vm_compute. discriminate. Qed.
Print Assumptions C78_null_value_of_class_refuted.
