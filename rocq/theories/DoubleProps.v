(** C135, C136: computations with double, see DoubleModel.v. *)
Require Import List Arith NArith ZArith Lia Bool.
Require Import Floats.SpecFloat.
Require Import Verif.Base Verif.DoubleModel Verif.DoubleSpec Verif.ToolsSpec Verif.DoubleProofs Verif.DoubleRootProofs.
Import ListNotations.
Local Open Scope Z_scope.
Local Ltac run := repeat (apply conj); (vm_compute; reflexivity).

(** C135: the integer part of the double square root of a 64-bit number is defined, is
    never below the integer root, equals it below 2^52 and is otherwise off by less
    than what 3072 more would give. *)
Theorem C135_root : forall n, (n < 2 ^ 64)%N -> exists s, square n = Val s /\
  ((n < 2 ^ 52)%N -> s = N.sqrt n) /\ (N.sqrt n <= s)%N /\ (s * s < n + 3072)%N.
Proof. exact square_ok. Qed.
Print Assumptions C135_root.
(** From 2^52 + 2^27 on it can be too great by one; near 2^64 its square is beyond
    the number by more than 2048. *)
Theorem C135_exact_root_refuted : exists n s, (n < 2 ^ 52 + 2 ^ 27 + 1)%N /\ square n = Val s /\ s <> N.sqrt n.
Proof. exists 4503599761588224%N, 67108865%N. split; [reflexivity|]. split; [vm_compute; reflexivity|vm_compute; discriminate]. Qed.
Print Assumptions C135_exact_root_refuted.
Theorem C135_rounding_refuted : exists n s, (n < 2 ^ 64)%N /\ square n = Val s /\ (n + 2048 < s * s)%N.
Proof. exists 18446743687162493952%N, 4294967251%N. split; [reflexivity|]. split; [vm_compute; reflexivity|reflexivity]. Qed.
Print Assumptions C135_rounding_refuted.
(** divisors_of with that square root: all divisors but 1 and n, each once. *)
Theorem C135_divisors : forall n sorting, (0 < n < 2 ^ 64)%N -> exists l, divisors_of n sorting = Val l /\
  (forall d, In d l <-> N.divide d n /\ (1 < d < n)%N) /\ NoDup l /\ (sorting = true -> ascending l).
Proof. exact double_divisors. Qed.
Print Assumptions C135_divisors.
Theorem C135_primes : forall n sorting, (0 < n < 2 ^ 64)%N ->
  (divisors_of n sorting = Val [] <-> forall d, N.divide d n -> d = 1%N \/ d = n).
Proof. exact double_primes. Qed.
Print Assumptions C135_primes.
Theorem C135_zero : forall sorting, divisors_of 0 sorting = Val [].
Proof. exact double_zero. Qed.
Print Assumptions C135_zero.
Example C135_case : square 18446744073709551615 = Val 4294967296%N /\ square 4503599627370495 = Val 67108863%N /\
  divisors_of 36 false = Val [2; 18; 3; 12; 4; 9; 6]%N /\ divisors_of 36 true = Val [2; 3; 4; 6; 9; 12; 18]%N /\ divisors_of 13 true = Val [].
Proof. run. Qed.

(** C136: next_random_double answers a double from start to end. *)
Theorem C136_between : forall start end_ c r, valid start -> valid end_ -> valid c ->
  dle (of_int 0) c = true -> dlt c (of_int 1) = true -> next_random_double start end_ c = Val r ->
  valid r /\ dle start r = true /\ dle r end_ = true.
Proof. exact random_between. Qed.
Print Assumptions C136_between.
Example C136_case : valid (of_int 3) /\ valid (of_int 10) /\ valid almost_one /\ dle (of_int 0) almost_one = true /\ dlt almost_one (of_int 1) = true /\
  next_random_double (of_int 3) (of_int 10) (of_int 0) = Val (of_int 3) /\
  next_random_double (of_int 0) (of_int 10) almost_one = Val (S754_finite false 5629499534213119 (-49)) /\
  dlt (S754_finite false 5629499534213119 (-49)) (of_int 10) = true.
Proof. run. Qed.
(** It is defined if the difference is at most the greatest double, and greater draws
    give no smaller numbers. *)
Theorem C136_defined : forall start end_ c, valid start -> valid end_ -> is_finite start -> is_finite end_ ->
  dle start end_ = true -> units end_ - units start <= units max_double -> exists r, next_random_double start end_ c = Val r.
Proof. exact random_defined. Qed.
Print Assumptions C136_defined.
Theorem C136_monotone : forall start end_ c c' r r', valid start -> valid end_ -> valid c -> valid c' ->
  dle (of_int 0) c = true -> dle c c' = true -> dlt c' (of_int 1) = true ->
  next_random_double start end_ c = Val r -> next_random_double start end_ c' = Val r' -> dle r r' = true.
Proof. exact random_monotone. Qed.
Print Assumptions C136_monotone.
Example C136_defined_case : units (of_int 10) - units (of_int 3) <= units max_double /\ dle (of_int 3) (of_int 10) = true /\
  valid max_double /\ next_random_double (SFopp max_double) max_double (of_int 0) = UB /\
  next_random_double (of_int 0) max_double almost_one = Val (S754_finite false 9007199254740990 971).
Proof. split; [vm_compute; discriminate|run]. Qed.
(** The end itself can be answered: the range is not half open. *)
Theorem C136_half_open_refuted : exists start end_ c, valid start /\ valid end_ /\ valid c /\ dlt start end_ = true /\
  dle (of_int 0) c = true /\ dlt c (of_int 1) = true /\ next_random_double start end_ c = Val end_.
Proof. exists (of_int 1), (of_int 2), almost_one. run. Qed.
Print Assumptions C136_half_open_refuted.
