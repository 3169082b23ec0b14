(** C66-C70: subarray.h and subset.h. *)
Require Import List Arith NArith ZArith Lia Bool.
Require Import Verif.Base Verif.Cint Verif.SubModel Verif.SubSpec Verif.SubProofs.
Import ListNotations.
Local Open Scope Z_scope.
Local Ltac run := repeat (apply conj); (vm_compute; reflexivity).

(** C66: for the sum 0 the answer is right for every sequence whose sums fit. *)
Theorem C66_longest_zero_sum : forall b l, weight l <= imax b ->
  exists k, max_length_of_sum b l 0 = Val k /\ longest l 0 k.
Proof.
  exact (fun b l W => match length_val b 0 l (eq_ind_r (fun x => x <= imax b) W (Z.add_0_r (weight l))) with
    | ex_intro _ k E => ex_intro _ k (conj E (conj (proj1 (length_ok b 0 l k E))
        (proj1 (proj2 (length_ok b 0 l k E)) eq_refl))) end).
Qed.
Print Assumptions C66_longest_zero_sum.
(** Any answer that is given is right, whether or not the weight fits. *)
Theorem C66_every_answer : forall b l k, max_length_of_sum b l 0 = Val k -> longest l 0 k.
Proof. exact (fun b l k E => conj (proj1 (length_ok b 0 l k E)) (proj1 (proj2 (length_ok b 0 l k E)) eq_refl)). Qed.
Print Assumptions C66_every_answer.
Example C66_case : weight [15; -2; 2; -8; 1; 7; 10; 23] <= imax 32 /\
  max_length_of_sum 32 [15; -2; 2; -8; 1; 7; 10; 23] 0 = Val 5%nat /\
  max_length_of_sum 32 [1; 2; 3] 0 = Val O /\ max_length_of_sum 32 [4; -3; -1; 0; 0; 5; -5] 0 = Val 7%nat.
Proof. split; [cbn; lia|]. run. Qed.

(** C67: for any sum the answer is the length of a part with that sum (or 0), 0
    only if there is none, and at least the length of every prefix with the sum. *)
Theorem C67_some_part_partial : forall b l r, weight l + Z.abs r <= imax b ->
  exists k, max_length_of_sum b l r = Val k /\
    (k = O \/ exists w, part w l /\ total w = r /\ length w = k) /\
    (k = O -> forall w, part w l -> total w <> r) /\
    (forall a d, l = a ++ d -> a <> [] -> total a = r -> (length a <= k)%nat).
Proof.
  exact (fun b l r W => match length_val b r l W with
    | ex_intro _ k E => ex_intro _ k (conj E (conj (proj1 (length_ok b r l k E))
        (conj (proj2 (proj2 (length_ok b r l k E)))
              (fun a d => length_prefix b r l k a d E)))) end).
Qed.
Print Assumptions C67_some_part_partial.
Example C67_case : weight [10; 5; 2; 7; 1; 9] + Z.abs 15 <= imax 32 /\
  max_length_of_sum 32 [10; 5; 2; 7; 1; 9] 15 = Val 4%nat /\ total [5; 2; 7; 1] = 15 /\
  max_length_of_sum 32 [10; 5; 2; 7; 1; 9] 4 = Val O.
Proof. split; [cbn; lia|]. run. Qed.
(** It is not the longest one: a matching position is not recorded as an
    occurrence of its sum.  Positive elements do not help. *)
Theorem C67_longest_refuted : exists l r k w, weight l + Z.abs r <= imax 32 /\ Forall (fun x => 0 < x) l /\
  max_length_of_sum 32 l r = Val k /\ part w l /\ total w = r /\ (k < length w)%nat.
Proof.
  exists [3; 1; 1; 1], 3, 1%nat, [1; 1; 1]. split; [cbn; lia|]. split; [repeat constructor|].
  split; [vm_compute; reflexivity|]. split; [exact (part_suffix [3] [1; 1; 1] ltac:(discriminate))|].
  split; [reflexivity|]. cbn. lia.
Qed.
Print Assumptions C67_longest_refuted.

(** C68: the answer is the greatest sum of the sequence with its first element
    doubled if that is positive: right if it is not positive, otherwise too great
    by at most the first element. *)
Theorem C68_doubled_first_partial : forall b f l, 2 * weight (f :: l) <= imax b ->
  exists r, max_sum_of b (f :: l) = Val r /\ greatest (Z.max f (f + f) :: l) r.
Proof.
  exact (fun b f l W => match max_sum_val b (f :: l) W with
    | ex_intro _ r E => ex_intro _ r (conj E (max_sum_doubled b f l r E)) end).
Qed.
Print Assumptions C68_doubled_first_partial.
Theorem C68_right_partial : forall b f l r, f <= 0 -> max_sum_of b (f :: l) = Val r -> greatest (f :: l) r.
Proof. exact max_sum_ok. Qed.
Print Assumptions C68_right_partial.
Theorem C68_error_partial : forall b f l r t, max_sum_of b (f :: l) = Val r -> greatest (f :: l) t ->
  t <= r <= t + Z.max 0 f.
Proof. exact max_sum_error. Qed.
Print Assumptions C68_error_partial.
Theorem C68_empty : forall b, max_sum_of b [] = Val 0.
Proof. exact (fun b => eq_refl). Qed.
Print Assumptions C68_empty.
Example C68_case : 2 * weight [-2; -3; 4; -1; -2; 1; 5; -3] <= imax 32 /\
  max_sum_of 32 [-2; -3; 4; -1; -2; 1; 5; -3] = Val 7 /\ max_sum_of 32 [-3; -1; -2] = Val (-1) /\
  max_sum_of 32 [1; -5; 4] = Val 4 /\ max_sum_of 32 [1; 2; 3] = Val 7.
Proof. split; [cbn; lia|]. run. Qed.
Theorem C68_greatest_refuted : exists l r, max_sum_of 32 l = Val r /\ l <> [] /\ forall w, part w l -> total w <> r.
Proof.
  exists [5], 10. split; [vm_compute; reflexivity|]. split; [discriminate|].
  intros w P. rewrite (one_part w 5 P). discriminate.
Qed.
Print Assumptions C68_greatest_refuted.

(** C69: the number of selections of positions with the sum, modulo 2^64, in
    whichever order the two calls are evaluated. *)
Theorem C69_counts : forall b right_first l s, Z.abs s + weight l <= imax b ->
  sum_of_subsets_fresh b right_first l s = Val (selections_with_sum l s mod two64)%N.
Proof. exact fresh_ok. Qed.
Print Assumptions C69_counts.
Example C69_case : Z.abs 10 + weight [2; 4; 6; 10] <= imax 32 /\
  sum_of_subsets_fresh 32 true [2; 4; 6; 10] 16 = Val 2%N /\ selections_with_sum [2; 4; 6; 10] 16 = 2%N /\
  sum_of_subsets_fresh 32 false [0; 0; -1; 1] 0 = Val 8%N.
Proof. split; [cbn; lia|]. run. Qed.

(** C70: calls that share a cache, new at the start, give the same answers as
    calls with caches of their own. *)
Theorem C70_shared_cache : forall b right_first l sums, (forall s, In s sums -> Z.abs s + weight l <= imax b) ->
  exists c, sums_of_subsets b right_first l sums (repeat [] (length l)) =
    Val (c, map (fun s => selections_with_sum l s mod two64)%N sums).
Proof.
  exact (fun b rf l sums W => match sums_ok b rf l sums (repeat [] (length l)) (cvalid_fresh l) W with
    | ex_intro _ c H => ex_intro _ c (proj1 H) end).
Qed.
Print Assumptions C70_shared_cache.
Example C70_case : (forall s, In s [16; 6; 16; 3] -> Z.abs s + weight [2; 4; 6; 10] <= imax 32) /\
  (let* (_, r) := sums_of_subsets 32 true [2; 4; 6; 10] [16; 6; 16; 3] (repeat [] 4) in Val r) = Val [2; 2; 2; 0]%N.
Proof. split; [cbn; intros s H; decompose [or] H; subst; lia||contradiction|run]. Qed.
(** The cache belongs to the sequence: with another one it gives wrong answers. *)
Theorem C70_other_sequence_is_wrong : exists c, 
  sum_of_subsets 32 true [1; 2] 0 3 (repeat [] 2) = Val (c, 1%N) /\
  (let* (_, r) := sum_of_subsets 32 true [5; 7] 0 3 c in Val r) = Val 1%N /\ selections_with_sum [5; 7] 3 = 0%N.
Proof. eexists. run. Qed.
Print Assumptions C70_other_sequence_is_wrong.
