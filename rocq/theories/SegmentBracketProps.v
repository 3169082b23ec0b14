(** C149: segment trees with updates and a join that is not associative. *)
Require Import List Arith NArith ZArith Bool Lia.
Require Import Floats.SpecFloat.
Require Import Verif.Base Verif.DoubleModel Verif.DoubleSpec Verif.SegmentModel Verif.SegmentSpec.
Require Import Verif.SegmentProofs Verif.SegmentOrderSpec Verif.SegmentOrderProofs Verif.SegmentBracketSpec Verif.SegmentBracketProofs.
Import ListNotations.
Local Open Scope N_scope.
Local Ltac run := repeat (apply conj); (vm_compute; reflexivity).

(** C149. Every history of builds, queries and updates behaves like a plain array whose ranges are
    joined with the brackets of the positions; nothing is undefined. *)
Theorem C149_histories : forall {T R U} (tr : transform T R U) den, bracket_lawful tr den ->
  forall required, enough required -> forall ops fuel, Forall (fair fuel) ops ->
  exists t, run tr required fuel empty_tree ops = Val (t, snd (bracket_run tr den None ops)).
Proof. exact @run_brackets. Qed.
Print Assumptions C149_histories.
(** The brackets keep the order, take every position of the range once and nest as deep as the tree
    is high. *)
Theorem C149_order : forall s e a b, s <= a -> a <= b -> b <= e ->
  flatten (brackets s e a b) = from_to a b.
Proof. exact brackets_order. Qed.
Print Assumptions C149_order.
Theorem C149_depth : forall s e a b, s <= e ->
  depth (brackets s e a b) <= N.log2_up (e - s + 1).
Proof. exact brackets_deep. Qed.
Print Assumptions C149_depth.
(** How the elements came about plays no role: updates that wait in inner nodes do not show. *)
Theorem C149_past : forall {T R U} (tr : transform T R U) den, bracket_lawful tr den -> forall required, enough required ->
  forall fuel ops1 ops2 ops, Forall (fair fuel) ops1 -> Forall (fair fuel) ops2 -> Forall (fair fuel) ops ->
  fst (bracket_run tr den None ops1) = fst (bracket_run tr den None ops2) ->
  exists t1 l1 t2 l2 t1' t2' l,
    run tr required fuel empty_tree ops1 = Val (t1, l1) /\ run tr required fuel empty_tree ops2 = Val (t2, l2) /\
    run tr required fuel t1 ops = Val (t1', l) /\ run tr required fuel t2 ops = Val (t2', l).
Proof. exact @same_history. Qed.
Print Assumptions C149_past.
(** For an associative join the brackets play no role. *)
Theorem C149_associative : forall {T R U} (tr : transform T R U),
  (forall x y z, join tr x (join tr y z) = join tr (join tr x y) z) -> forall xs s e, xs <> [] -> let n := sizeN xs in
  joined tr xs s e = total (join tr) (no_value tr) (sub 0 (clamp n (N.min s e)) (clamp n (N.max s e)) xs).
Proof. exact @joined_total. Qed.
Print Assumptions C149_associative.
(** The laws of C56 are a special case: all that is said here holds for the transforms of C56. *)
Theorem C149_lawful : forall {T R U} (tr : transform T R U) den, lawful tr den -> bracket_lawful tr den.
Proof. exact @lawful_brackets. Qed.
Print Assumptions C149_lawful.
(** Transforms that obey the laws: means with "add to the range", differences with "multiply the
    range", and "set the range" with every join for which a value joined with itself is that value. *)
Theorem C149_mean : bracket_lawful range_mean den_add.
Proof. exact range_mean_lawful. Qed.
Print Assumptions C149_mean.
Theorem C149_minus : bracket_lawful range_minus den_mul.
Proof. exact range_minus_lawful. Qed.
Print Assumptions C149_minus.
Theorem C149_assign : forall R (j : R -> R -> R) d, (forall x, j x x = x) -> bracket_lawful (assign j d) den_assign.
Proof. exact assign_lawful. Qed.
Print Assumptions C149_assign.
(** Means of five numbers; differences of four; minima of doubles with NaN, set and asked again. *)
Example C149_case :
  (forall x, dmin x x = x) /\ enough (fun n => 4 * n) /\
  (let ops := [ORebuild [10; 1; 7; 2; 5]%Z 9; OQuery 0 4; OUpdate 3 1 3%Z; OQuery 0 0; OUpdate 0 4 (-1)%Z; OQuery 2 3; OQuery 9 0] in
   Forall (fair 5) ops /\ (let* (_, l) := run range_mean (fun n => 4 * n) 5 empty_tree ops in Val l)
     = Val [ADone; AValue 4%Z; AValue 6%Z; AValue 10%Z; AValue 5%Z; AValue 6%Z; AValue 5%Z]) /\
  joined range_mean [10; 1; 7; 2; 5]%Z 0 4 = mean (mean (mean 10 1) 7) (mean 2 5) /\
  (let* (_, l) := run range_minus (fun n => 4 * n) 5 empty_tree
     [ORebuild [10; 1; 7; 2]%Z 4; OQuery 0 3; OUpdate 1 3 2%Z; OQuery 1 3; OUpdate 0 3 (-1)%Z; OQuery 2 3; OQuery 0 3] in Val l)
   = Val [ADone; AValue ((10 - 1) - (7 - 2))%Z; AValue (2 - (14 - 4))%Z; AValue (-8)%Z; AValue (-((10 - 2) - (14 - 4)))%Z;
          AValue (-10)%Z; AValue 2%Z] /\
  (let* (_, l) := run (assign dmin S754_nan) (fun n => 4 * n) 5 empty_tree
     [ORebuild [of_int 3; S754_nan; of_int 1; of_int 2] 4; OQuery 0 3; OQuery 0 1; OQuery 1 2; OUpdate 0 2 (Some (of_int 5)); OQuery 0 3;
      OUpdate 0 1 (Some S754_nan); OQuery 0 3] in Val l)
   = Val [ADone; AValue (of_int 1); AValue (of_int 3); AValue S754_nan; AValue (of_int 5); AValue (of_int 2); AValue S754_nan; AValue S754_nan] /\
  brackets 0 6 1 5 = Two (Two (One 1) (Two (One 2) (One 3))) (Two (One 4) (One 5)).
Proof.
  split; [intros x; unfold dmin; now destruct (dlt x x)|]. split; [exact enough_4n|]. split; [split; [|vm_compute; reflexivity]|run].
  repeat constructor; try discriminate; vm_compute; try reflexivity; repeat constructor.
Qed.
(** Two histories with the same elements: one update of the whole range, or one for each half. *)
Example C149_past_case :
  fst (bracket_run range_mean den_add None [ORebuild [10; 1; 7; 2; 5]%Z 9; OUpdate 0 4 2%Z]) =
  fst (bracket_run range_mean den_add None [ORebuild [10; 1; 7; 2; 5]%Z 9; OUpdate 3 4 2%Z; OQuery 1 1; OUpdate 2 0 2%Z]) /\
  (let* (t1, _) := run range_mean (fun n => 4 * n) 5 empty_tree [ORebuild [10; 1; 7; 2; 5]%Z 9; OUpdate 0 4 2%Z] in
   let* (t2, _) := run range_mean (fun n => 4 * n) 5 empty_tree [ORebuild [10; 1; 7; 2; 5]%Z 9; OUpdate 3 4 2%Z; OQuery 1 1; OUpdate 2 0 2%Z] in
   let* (_, l1) := run range_mean (fun n => 4 * n) 5 t1 [OQuery 1 4; OQuery 2 2] in
   let* (_, l2) := run range_mean (fun n => 4 * n) 5 t2 [OQuery 1 4; OQuery 2 2] in Val (l1, l2))
   = Val ([AValue 5%Z; AValue 9%Z], [AValue 5%Z; AValue 9%Z]) /\
  fst (bracket_run range_mean den_add None [ORebuild [10; 1; 7; 2; 5]%Z 9; OUpdate 0 4 2%Z]) = Some [12; 3; 9; 4; 7]%Z.
Proof. run. Qed.
(** Refuted: it suffices that the elements take in an update.  Means with "multiply the range" keep
    that law, and all laws for leaves; the update answers 3, the query that follows answers 4. *)
Theorem C149_elements_suffice_refuted : exists ops t x y,
  (forall s e c u, s = e -> takes_in scaled_mean den_mul (den_mul u) s e c (apply scaled_mean s e c u)) /\
  (forall s e c u i x, den_mul (snd (apply scaled_mean s e c u)) i x = den_mul u i (den_mul (snd c) i x)) /\
  Forall (fair 2) ops /\ run scaled_mean (fun n => 4 * n) 2 empty_tree (ops ++ [OUpdate 0 1 3%Z; OQuery 0 1]) = Val (t, [ADone; AValue x; AValue y]) /\
  x <> y.
Proof.
  exists [ORebuild [1; 2]%Z 2]. eexists. exists 3%Z, 4%Z. split; [|split; [|split; [|split; [vm_compute; reflexivity|discriminate]]]].
  - intros s e c u ->. split; [reflexivity|lia].
  - intros s e c u i x. unfold den_mul. cbn. lia.
  - repeat constructor; try discriminate; vm_compute; try reflexivity; repeat constructor.
Qed.
Print Assumptions C149_elements_suffice_refuted.
