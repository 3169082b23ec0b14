(** C140: the geometric search of missing_element.h over doubles. *)
Require Import List Arith NArith ZArith Lia Bool.
Require Import Floats.SpecFloat.
Require Import Verif.Base Verif.MissingModel Verif.MissingSpec.
Require Import Verif.DoubleModel Verif.DoubleSpec Verif.DoubleSearchModel Verif.DoubleSearchSpec Verif.DoubleSearchProofs.
Import ListNotations.
Local Open Scope Z_scope.
Local Ltac run := repeat (apply conj); (vm_compute; reflexivity).
(** A std::pow, for the cases. *)
Local Definition iterated (f : double) (k : nat) : double := dterm dmul (of_int 1) f k.
Local Definition half : double := S754_finite false 4503599627370496 (-53).
Local Definition tenth_more : double := S754_finite false 4953959590107546 (-52).
Local Ltac all_numbers := let i := fresh in let I := fresh in intros i I; do 42 try (destruct i as [|i]; [split; [vm_compute; reflexivity|vm_compute; discriminate]|]); exfalso; lia.

(** If every term is computed from the one before (products rounded) and one of them
    is left out (none if m = n), then whatever std::pow computes, and even if terms are
    infinite or NaN, only the missing term is answered, to the last bit. *)
Theorem C140_never_wrong : forall pow lower factor e n m x, valid lower -> valid factor -> tolerance e -> (m <= n)%nat ->
  search pow (dgap dmul lower factor n m) factor lower e = Val (true, x) -> (m < n)%nat /\ x = dterm dmul lower factor m.
Proof. exact search_sound. Qed.
Print Assumptions C140_never_wrong.
Theorem C140_first : forall pow lower factor e n, (0 < n)%nat -> valid (dmul lower factor) -> dmul lower factor <> S754_nan ->
  deq (dmul lower factor) lower = false -> search pow (dgap dmul lower factor n 0) factor lower e = Val (true, lower).
Proof. exact search_first. Qed.
Print Assumptions C140_first.
(** With ten elements or more it is answered if it is at one of the positions looked at
    and its successor is beyond the tolerance; *)
Theorem C140_found : forall pow lower factor e n m, valid lower -> valid factor -> tolerance e -> (10 <= n)%nat -> (1 <= m <= n)%nat ->
  numbers (dterm dmul lower factor) (S n) -> numbers (fun i => dmul lower (pow factor i)) n ->
  looked_at n m -> apart dadd dsub e (dterm dmul lower factor m) (dterm dmul lower factor (S m)) ->
  search pow (dgap dmul lower factor n m) factor lower e = Val (true, dterm dmul lower factor m).
Proof. exact search_found. Qed.
Print Assumptions C140_found.
(** in every other case, also if nothing is missing, the iterator leaves the sequence. *)
Theorem C140_lost : forall pow lower factor e n m, valid lower -> valid factor -> tolerance e -> (10 <= n)%nat -> (1 <= m <= n)%nat ->
  numbers (dterm dmul lower factor) (S n) -> numbers (fun i => dmul lower (pow factor i)) n ->
  ~ (looked_at n m /\ apart dadd dsub e (dterm dmul lower factor m) (dterm dmul lower factor (S m))) ->
  search pow (dgap dmul lower factor n m) factor lower e = UB.
Proof. exact search_lost. Qed.
Print Assumptions C140_lost.
Example C140_case : valid (of_int 5) /\ valid tenth_more /\ tolerance default_error /\
  numbers (dterm dmul (of_int 5) tenth_more) 13 /\ numbers (fun i => dmul (of_int 5) (iterated tenth_more i)) 12 /\ looked_at 12 7 /\
  apart dadd dsub default_error (dterm dmul (of_int 5) tenth_more 7) (dterm dmul (of_int 5) tenth_more 8) /\
  search iterated (dgap dmul (of_int 5) tenth_more 12 7) tenth_more (of_int 5) default_error = Val (true, S754_finite false 5485151003381573 (-49)) /\
  deq (dmul (of_int 5) tenth_more) (of_int 5) = false /\
  search iterated (dgap dmul (of_int 5) tenth_more 12 0) tenth_more (of_int 5) default_error = Val (true, of_int 5) /\
  ~ looked_at 12 3 /\ search iterated (dgap dmul (of_int 5) tenth_more 12 3) tenth_more (of_int 5) default_error = UB /\
  search iterated (dterms dmul (of_int 5) tenth_more 12) tenth_more (of_int 5) default_error = UB.
Proof.
  split; [run|]. split; [run|]. split; [apply default_tolerance|]. split; [all_numbers|]. split; [all_numbers|].
  split; [unfold looked_at; cbn; lia|]. split; [left; run|]. split; [run|]. split; [run|]. split; [run|].
  split; [unfold looked_at; cbn; lia|]. run.
Qed.
(** Integers below 2^52 with the default tolerance: the same positions, without
    rounding. *)
Theorem C140_integers : forall pow lower factor n m, lower <> 0 -> 2 <= Z.abs factor -> (10 <= n)%nat -> (1 <= m <= n)%nat ->
  (forall i, (i <= n)%nat -> Z.abs (geometric_term lower factor i) < 2 ^ 52) ->
  numbers (fun i => dmul (of_int lower) (pow (of_int factor) i)) n -> looked_at n m ->
  search pow (map of_int (geometric_gap lower factor n m)) (of_int factor) (of_int lower) default_error =
  Val (true, of_int (geometric_term lower factor m)).
Proof. exact search_int_found. Qed.
Print Assumptions C140_integers.
Theorem C140_integers_lost : forall pow lower factor n m, lower <> 0 -> 2 <= Z.abs factor -> (10 <= n)%nat -> (1 <= m <= n)%nat ->
  (forall i, (i <= n)%nat -> Z.abs (geometric_term lower factor i) < 2 ^ 52) ->
  numbers (fun i => dmul (of_int lower) (pow (of_int factor) i)) n -> ~ looked_at n m ->
  search pow (map of_int (geometric_gap lower factor n m)) (of_int factor) (of_int lower) default_error = UB.
Proof. exact search_int_lost. Qed.
Print Assumptions C140_integers_lost.
Example C140_integers_case : (forall i, (i <= 20)%nat -> Z.abs (geometric_term 7 (-3) i) < 2 ^ 52) /\
  numbers (fun i => dmul (of_int 7) (iterated (of_int (-3)) i)) 20 /\ looked_at 20 15 /\
  search iterated (map of_int (geometric_gap 7 (-3) 20 15)) (of_int (-3)) (of_int 7) default_error = Val (true, of_int (-100442349)) /\
  ~ looked_at 20 8 /\ search iterated (map of_int (geometric_gap 7 (-3) 20 8)) (of_int (-3)) (of_int 7) default_error = UB.
Proof.
  split; [intros i I; do 21 (destruct i as [|i]; [reflexivity|]); exfalso; lia|]. split; [all_numbers|].
  split; [unfold looked_at; cbn; lia|]. split; [run|]. split; [unfold looked_at; cbn; lia|]. run.
Qed.
(** Refuted: every missing term is found, or its absence is reported. *)
Theorem C140_always_found_refuted : exists pow lower factor n m, (m < n)%nat /\
  search pow (dgap dmul lower factor n m) factor lower default_error = UB.
Proof. exists iterated, (of_int 1), (of_int 2), 12%nat, 2%nat. split; [lia|run]. Qed.
Print Assumptions C140_always_found_refuted.
(** Refuted: a term in the middle is found: small terms are all within the tolerance. *)
Theorem C140_small_terms_refuted : exists pow lower factor n, fin lower /\ fin factor /\ (10 <= n)%nat /\
  numbers (dterm dmul lower factor) (S n) /\ numbers (fun i => dmul lower (pow factor i)) n /\
  dlt (dterm dmul lower factor (S (n / 2))) (dterm dmul lower factor (n / 2)) = true /\
  search pow (dgap dmul lower factor n (n / 2)) factor lower default_error = UB.
Proof.
  exists iterated, (of_int 1), half, 40%nat. split; [split; [run|exact Logic.I]|]. split; [split; [run|exact Logic.I]|]. split; [lia|].
  split; [all_numbers|]. split; [all_numbers|]. run.
Qed.
Print Assumptions C140_small_terms_refuted.
(** Refuted: a sequence of the doubles nearest to 1, 3, 9, 27, ..., none missing, is
    never said to lack a term: above 2^53 the tolerance is less than the rounding. *)
Theorem C140_nearest_terms_refuted : exists n x, forall pow,
  search pow (map (fun i => of_int (3 ^ Z.of_nat i)) (seq 0 n)) (of_int 3) (of_int 1) default_error = Val (true, x).
Proof. exists 70%nat, (S754_finite false 4690457353031222 5). intros pow. vm_compute. reflexivity. Qed.
Print Assumptions C140_nearest_terms_refuted.

(** C141: the search in integers, its power a product of doubles.  Whatever it is, only
    the missing term is answered; *)
Theorem C141_never_wrong : forall b pw lower factor n m x, (m <= n)%nat ->
  find_missing_geometric b pw (geometric_gap lower factor n m) factor lower = Val (true, x) -> (m < n)%nat /\ x = geometric_term lower factor m.
Proof. exact any_power_sound. Qed.
Print Assumptions C141_never_wrong.
(** with an exact std::pow, and terms of at most 54 bits (so for int), rounding changes
    nothing: up to eight elements every gap is found; *)
Theorem C141_short_partial : forall pow b lower factor n m, 0 < b <= 54 -> lower <> 0 -> 2 <= Z.abs factor -> representable b (geometric_term lower factor) n ->
  (forall i, (i <= n)%nat -> pow (of_int factor) i = of_int (factor ^ Z.of_nat i)) -> (m < n)%nat -> (3 <= n <= 8)%nat ->
  find_missing_geometric b (power pow) (geometric_gap lower factor n m) factor lower = Val (true, geometric_term lower factor m).
Proof. exact narrow_short. Qed.
Print Assumptions C141_short_partial.
(** and of more, those where repeated halving leads. *)
Theorem C141_halving_partial : forall pow b lower factor n m j, 0 < b <= 54 -> lower <> 0 -> 2 <= Z.abs factor -> representable b (geometric_term lower factor) n ->
  (forall i, (i <= n)%nat -> pow (of_int factor) i = of_int (factor ^ Z.of_nat i)) -> (3 <= n)%nat ->
  let p := (Nat.iter j (fun c => c - c / 2) n / 2)%nat in (1 <= p)%nat -> (m = p \/ m = S p) -> (m < n)%nat ->
  find_missing_geometric b (power pow) (geometric_gap lower factor n m) factor lower = Val (true, geometric_term lower factor m).
Proof. exact narrow_halving. Qed.
Print Assumptions C141_halving_partial.
Example C141_case : representable 32 (geometric_term (-5) 7) 8 /\
  (forall i, (i <= 8)%nat -> iterated (of_int 7) i = of_int (7 ^ Z.of_nat i)) /\
  geometric_gap (-5) 7 8 6 = [-5; -35; -245; -1715; -12005; -84035; -4117715; -28824005] /\
  find_missing_geometric 32 (power iterated) [-5; -35; -245; -1715; -12005; -84035; -4117715; -28824005] 7 (-5) = Val (true, -588245) /\
  representable 32 (geometric_term 1 3) 18 /\ (Nat.iter 1 (fun c => c - c / 2) 18 / 2 = 4)%nat /\
  (forall i, (i <= 18)%nat -> iterated (of_int 3) i = of_int (3 ^ Z.of_nat i)) /\
  find_missing_geometric 32 (power iterated) (geometric_gap 1 3 18 4) 3 1 = Val (true, 81).
Proof.
  split; [intros i I; do 9 (destruct i as [|i]; [split; discriminate|]); exfalso; lia|].
  split; [intros i I; do 9 (destruct i as [|i]; [run|]); exfalso; lia|]. split; [run|]. split; [run|].
  split; [intros i I; do 19 (destruct i as [|i]; [split; discriminate|]); exfalso; lia|]. split; [run|].
  split; [intros i I; do 19 (destruct i as [|i]; [run|]); exfalso; lia|]. run.
Qed.
(** Refuted for 64 bits: terms beyond 2^53 are no doubles, the search goes to the left
    where nothing is missing and takes the sequence for invalid. *)
Theorem C141_wide_refuted : exists pow lower factor n m, (m < n)%nat /\ (3 <= n <= 8)%nat /\ lower <> 0 /\ 2 <= Z.abs factor /\
  representable 64 (geometric_term lower factor) n /\
  (forall i, (i <= n)%nat -> pow (of_int factor) i = of_int (factor ^ Z.of_nat i)) /\
  find_missing_geometric 64 (power pow) (geometric_gap lower factor n m) factor lower = Exn InvalidSequence.
Proof.
  exists iterated, 617673396283947, 3, 8%nat, 6%nat. split; [lia|]. split; [lia|]. split; [lia|]. split; [lia|].
  split; [intros i I; do 9 (destruct i as [|i]; [split; discriminate|]); exfalso; lia|].
  split; [intros i I; do 9 (destruct i as [|i]; [run|]); exfalso; lia|]. run.
Qed.
Print Assumptions C141_wide_refuted.
