(** C61-C65, C101: missing_element.h. *)
Require Import List Arith ZArith QArith Lia Bool Permutation.
Require Import Verif.Base Verif.Cint Verif.MissingModel Verif.MissingSpec Verif.MissingProofs.
Import ListNotations.
Local Open Scope Z_scope.
Local Ltac run := repeat (apply conj); (vm_compute; reflexivity).

(** C61: whatever the length n, the missing position m, the start and the
    factor: a returned answer is the missing term. *)
Theorem C61_never_wrong_partial : forall b lower factor n m, sane b lower factor n -> (m < n)%nat ->
  let r := find_missing_arithmetic b (arithmetic_gap lower factor n m) factor lower in
  r = Val (true, arithmetic_term lower factor m) \/ r = Exn InvalidSequence \/ r = UB.
Proof. exact arithmetic_sound. Qed.
Print Assumptions C61_never_wrong_partial.
(** It is found: at the first position, at the second, at every position that the
    search passes on its way down, and in every sequence of at most 4 elements. *)
Theorem C61_found_first_partial : forall b lower factor n, sane b lower factor n -> (0 < n)%nat ->
  find_missing_arithmetic b (arithmetic_gap lower factor n 0) factor lower = Val (true, lower).
Proof. exact arithmetic_first. Qed.
Print Assumptions C61_found_first_partial.
Theorem C61_found_second_partial : forall b lower factor n, sane b lower factor n -> (2 <= n)%nat ->
  find_missing_arithmetic b (arithmetic_gap lower factor n 1) factor lower = Val (true, lower + factor).
Proof. exact arithmetic_one. Qed.
Print Assumptions C61_found_second_partial.
Theorem C61_found_halving_partial : forall b lower factor n m j, sane b lower factor n -> (1 <= m < n)%nat ->
  m = (Nat.iter j (fun c => c - c / 2) n / 2)%nat ->
  find_missing_arithmetic b (arithmetic_gap lower factor n m) factor lower
  = Val (true, arithmetic_term lower factor m).
Proof. exact arithmetic_down. Qed.
Print Assumptions C61_found_halving_partial.
Theorem C61_found_short_partial : forall b lower factor n m, sane b lower factor n -> (m < n)%nat -> (n <= 4)%nat ->
  find_missing_arithmetic b (arithmetic_gap lower factor n m) factor lower
  = Val (true, arithmetic_term lower factor m).
Proof. exact arithmetic_short. Qed.
Print Assumptions C61_found_short_partial.
(** It is not found in general: for every length from 5 on, a term missing in
    about the last quarter makes the search read beyond the end. *)
Theorem C61_late_gap_is_UB : forall b lower factor n m, sane b lower factor n -> (3 <= n)%nat ->
  ((n + n / 2) / 2 < m <= n)%nat ->
  find_missing_arithmetic b (arithmetic_gap lower factor n m) factor lower = UB.
Proof. exact arithmetic_up. Qed.
Print Assumptions C61_late_gap_is_UB.
(** Also if nothing is missing. *)
Theorem C61_nothing_missing_is_UB : forall b lower factor n, sane b lower factor n -> (3 <= n)%nat ->
  find_missing_arithmetic b (map (arithmetic_term lower factor) (seq 0 n)) factor lower = UB.
Proof. exact arithmetic_complete. Qed.
Print Assumptions C61_nothing_missing_is_UB.
Lemma small_sane : forall n, (n <= 1000)%nat -> sane 32 1 1 n.
Proof.
  intros n N. split; [lia|]. split; [lia|].
  split; intros i I; unfold fits, imin, imax, arithmetic_term; cbn [Z.sub]; lia.
Qed.
(** 1..12 without 11 is read beyond its end; 1..8 without 5 throws although the
    sequence is valid. *)
Theorem C61_always_found_refuted :
  sane 32 1 1 11 /\
  find_missing_arithmetic 32 [1;2;3;4;5;6;7;8;9;10;12] 1 1 = UB /\
  arithmetic_gap 1 1 11 10 = [1;2;3;4;5;6;7;8;9;10;12] /\
  sane 32 1 1 7 /\
  find_missing_arithmetic 32 [1;2;3;4;6;7;8] 1 1 = Exn InvalidSequence /\
  arithmetic_gap 1 1 7 4 = [1;2;3;4;6;7;8].
Proof.
  split; [apply small_sane; lia|]. split; [run|]. split; [run|]. split; [apply small_sane; lia|]. run.
Qed.
Print Assumptions C61_always_found_refuted.
Example C61_case : sane 32 1 1 10 /\ find_missing_arithmetic 32 [1;2;3;4;5;7;8;9;10;11] 1 1 = Val (true, 6) /\
  arithmetic_gap 1 1 10 5 = [1;2;3;4;5;7;8;9;10;11] /\
  find_missing_arithmetic 32 [7;4;1;-5;-8] (-3) 7 = Val (true, -2).
Proof. split; [apply small_sane; lia|]. run. Qed.

(** C62: the same for geometric progressions of integers; the search may also
    answer that nothing is missing. *)
Theorem C62_never_wrong_partial : forall b power lower factor n m, sane_geometric b power lower factor n -> (m < n)%nat ->
  let r := find_missing_geometric b power (geometric_gap lower factor n m) factor lower in
  r = Val (true, geometric_term lower factor m) \/ r = Val (false, lower) \/ r = Exn InvalidSequence \/ r = UB.
Proof. exact geometric_sound. Qed.
Print Assumptions C62_never_wrong_partial.
Theorem C62_found_first_partial : forall b power lower factor n, sane_geometric b power lower factor n -> (0 < n)%nat ->
  find_missing_geometric b power (geometric_gap lower factor n 0) factor lower = Val (true, lower).
Proof. exact geometric_first. Qed.
Print Assumptions C62_found_first_partial.
Theorem C62_found_halving_partial : forall b power lower factor n m j, sane_geometric b power lower factor n -> (3 <= n)%nat ->
  let p := (Nat.iter j (fun c => c - c / 2) n / 2)%nat in (1 <= p)%nat -> (m = p \/ m = S p) -> (m < n)%nat ->
  find_missing_geometric b power (geometric_gap lower factor n m) factor lower
  = Val (true, geometric_term lower factor m).
Proof. exact geometric_down. Qed.
Print Assumptions C62_found_halving_partial.
Theorem C62_found_short_partial : forall b power lower factor n m, sane_geometric b power lower factor n -> (m < n)%nat ->
  (3 <= n <= 8)%nat ->
  find_missing_geometric b power (geometric_gap lower factor n m) factor lower
  = Val (true, geometric_term lower factor m).
Proof. exact geometric_short. Qed.
Print Assumptions C62_found_short_partial.
Theorem C62_late_gap_is_UB : forall b power lower factor n m, sane_geometric b power lower factor n -> (10 <= n)%nat ->
  ((n + n / 2) / 2 + 1 < m <= n)%nat ->
  find_missing_geometric b power (geometric_gap lower factor n m) factor lower = UB.
Proof. exact geometric_up. Qed.
Print Assumptions C62_late_gap_is_UB.
Lemma powers_of_two_sane : forall n, (n <= 30)%nat -> sane_geometric 32 geometric_term 1 2 n.
Proof.
  intros n N. split; [lia|]. split; [cbn; lia|]. split; [|reflexivity].
  intros i I. unfold fits, imin, imax, geometric_term.
  assert (0 < 2 ^ Z.of_nat i <= 2 ^ 30) by (split; [apply Z.pow_pos_nonneg; lia|apply Z.pow_le_mono_r; lia]).
  change (2 ^ (32 - 1)) with 2147483648. change (2 ^ 30) with 1073741824 in *. lia.
Qed.
(** [1, 4]: 2 is missing, the search reads beyond the end; 2^0..2^9 without 2^8:
    "nothing is missing". *)
Theorem C62_always_found_refuted :
  sane_geometric 32 geometric_term 1 2 2 /\
  find_missing_geometric 32 geometric_term [1;4] 2 1 = UB /\ geometric_gap 1 2 2 1 = [1;4] /\
  sane_geometric 32 geometric_term 1 2 9 /\
  find_missing_geometric 32 geometric_term [1;2;4;8;16;32;64;128;512] 2 1 = Val (false, 1) /\
  geometric_gap 1 2 9 8 = [1;2;4;8;16;32;64;128;512].
Proof.
  split; [apply powers_of_two_sane; lia|]. split; [run|]. split; [run|].
  split; [apply powers_of_two_sane; lia|]. run.
Qed.
Print Assumptions C62_always_found_refuted.
Example C62_case : sane_geometric 32 geometric_term 1 2 6 /\
  find_missing_geometric 32 geometric_term [1;2;4;16;32;64] 2 1 = Val (true, 8) /\
  geometric_gap 1 2 6 3 = [1;2;4;16;32;64] /\
  find_missing_geometric 32 geometric_term [3;27;-81;243] (-3) 3 = Val (true, -9).
Proof. split; [apply powers_of_two_sane; lia|]. run. Qed.

(** C101: the search for floating-point progressions, rounding left aside: a
    returned answer is the missing term; *)
Theorem C101_never_wrong_partial : forall lower factor error n m x, (0 <= error)%Q -> (1 <= m < n)%nat ->
  find_missing_geometric_float (float_gap lower factor n m) factor lower error = Val (true, x) ->
  (x == float_term lower factor m)%Q.
Proof. exact float_answers. Qed.
Print Assumptions C101_never_wrong_partial.
(** it is found at the first position; *)
Theorem C101_found_first_partial : forall lower factor error n, (0 < n)%nat -> ~ (lower * factor == lower)%Q ->
  find_missing_geometric_float (float_gap lower factor n 0) factor lower error = Val (true, lower).
Proof. exact float_first. Qed.
Print Assumptions C101_found_first_partial.
(** it is found in the middle; *)
Theorem C101_found_middle_partial : forall lower factor error n m, (0 <= error)%Q -> (3 <= n)%nat -> (m < n)%nat ->
  m = (n / 2)%nat \/ m = (n / 2 + 1)%nat ->
  (float_term lower factor m * factor - float_term lower factor m > error)%Q \/
  (float_term lower factor m - float_term lower factor m * factor > error)%Q ->
  exists x, find_missing_geometric_float (float_gap lower factor n m) factor lower error = Val (true, x) /\
    (x == float_term lower factor m)%Q.
Proof. exact float_middle. Qed.
Print Assumptions C101_found_middle_partial.
(** and it is never found in the left half (apart from the first position): the
    test that should lead there cannot fail. *)
Theorem C101_left_half_never_found : forall lower factor error n m x, (0 <= error)%Q -> (1 <= m < n / 2)%nat ->
  find_missing_geometric_float (float_gap lower factor n m) factor lower error <> Val (true, x).
Proof. exact float_left. Qed.
Print Assumptions C101_left_half_never_found.
Theorem C101_always_found_refuted :
  find_missing_geometric_float [1; 4; 8; 16; 32; 64]%Q 2 1 (1#10000) = Val (false, 1%Q) /\
  (forall x, In x (float_gap 1 2 6 1) -> exists y, In y [1; 4; 8; 16; 32; 64]%Q /\ (x == y)%Q).
Proof.
  split; [run|]. cbn. intros x H. decompose [or] H; subst; try contradiction; eexists; (split; [|reflexivity]); cbn; auto 8.
Qed.
Print Assumptions C101_always_found_refuted.
Example C101_case : exists x,
  find_missing_geometric_float [1; 1#2; 1#4; 1#16; 1#32]%Q (1#2) 1 (1#10000) = Val (true, x) /\ (x == 1#8)%Q.
Proof. eexists. split; [vm_compute; reflexivity|reflexivity]. Qed.

(** C63: lower..lower+n without x, in any order, gives x; the end of the range is
    below the largest int. *)
Theorem C63_missing_of_range_partial : forall b lower l x, 0 < b <= 64 ->
  fits b lower -> lower + Z.of_nat (length l) < imax b -> l <> [] ->
  Permutation (x :: l) (upto lower (S (length l))) ->
  find_missing_sequential_range b l lower = Val (true, x).
Proof. exact sequential_ok. Qed.
Print Assumptions C63_missing_of_range_partial.
(** If the range ends at the largest int, the counter overflows, for every such
    range. *)
Theorem C63_range_up_to_the_largest_int_is_UB : forall b lower l, 0 < b <= 64 -> fits b lower -> l <> [] ->
  lower + Z.of_nat (length l) = imax b -> find_missing_sequential_range b l lower = UB.
Proof. exact sequential_overflow. Qed.
Print Assumptions C63_range_up_to_the_largest_int_is_UB.
Theorem C63_every_range_refuted : exists b lower l x, 0 < b <= 64 /\ l <> [] /\
  Permutation (x :: l) (upto lower (S (length l))) /\ (forall v, In v (x :: l) -> fits b v) /\
  find_missing_sequential_range b l lower = UB.
Proof.
  exists 32, 2147483646, [2147483646], 2147483647. split; [lia|]. split; [discriminate|].
  split; [apply perm_swap|]. split; [|run].
  intros v [<-|[<-|[]]]; unfold fits, imin, imax; cbn; lia.
Qed.
Print Assumptions C63_every_range_refuted.
Example C63_case : find_missing_sequential_range 32 [9;5;8;6;4] 4 = Val (true, 7) /\
  Permutation (7 :: [9;5;8;6;4]) (upto 4 6).
Proof.
  split; [run|]. change (upto 4 6) with ([4;5;6;7;8;9]).
  apply NoDup_Permutation; [| |intros v; cbn; tauto]; repeat constructor; cbn; lia.
Qed.

(** C64: two lists equal up to order except for one extra element in one of them. *)
Theorem C64_not_common_partial : forall l1 l2 x, l1 <> [] -> Permutation l1 (x :: l2) \/ Permutation l2 (x :: l1) ->
  find_not_common_element l1 l2 = Val x.
Proof. exact not_common_ok. Qed.
Print Assumptions C64_not_common_partial.
(** The first list must not be empty. *)
Theorem C64_empty_first_list_refuted : exists l1 l2 x, Permutation l2 (x :: l1) /\ find_not_common_element l1 l2 = UB.
Proof. exists [], [3], 3. split; [reflexivity|run]. Qed.
Print Assumptions C64_empty_first_list_refuted.
Example C64_case : find_not_common_element [4;-7;4;2] [2;4;-7] = Val 4 /\ Permutation [4;-7;4;2] (4 :: [2;4;-7]).
Proof.
  split; [run|]. constructor. apply (Permutation_cons_app [2;4] [] (-7)). cbn. constructor.
Qed.

(** C65: exactly one value occurs an odd number of times. *)
Theorem C65_non_repeated : forall l x, Nat.odd (occurrences x l) = true ->
  (forall v, v <> x -> Nat.even (occurrences v l) = true) -> find_non_repeated_element l = Val x.
Proof. exact non_repeated_ok. Qed.
Print Assumptions C65_non_repeated.
Example C65_case : find_non_repeated_element [5;-3;8;5;8;8;8] = Val (-3) /\
  occurrences (-3) [5;-3;8;5;8;8;8] = 1%nat /\ occurrences 8 [5;-3;8;5;8;8;8] = 4%nat.
Proof. run. Qed.
