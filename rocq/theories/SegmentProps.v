(** C55-C60, C100: the segment tree. *)
Require Import List Arith NArith ZArith Bool Lia.
Require Import Verif.Base Verif.HeapModel Verif.SegmentModel Verif.SegmentSpec Verif.SegmentProofs.
Import ListNotations.
Local Open Scope N_scope.
Local Ltac run := repeat (apply conj); (vm_compute; reflexivity).

(** C55: with an associative join and no updates, a query after building from a
    non-empty vector gives the join of the elements in the (sorted, clamped)
    range, from left to right. *)
Theorem C55_query_is_the_fold : forall T R U (tr : transform T R U),
  (forall x y z, join tr x (join tr y z) = join tr (join tr x y) z) -> (forall u, active tr u = false) ->
  forall required, enough required ->
  forall fuel v k s e, fair fuel (ORebuild v k : op T U) ->
  let xs := leaves tr (firstn (N.to_nat k) v) in
  exists t t', build tr required fuel empty_tree v k = Val t /\ query tr fuel t s e = Val (t',
    total (join tr) (no_value tr)
      (sub 0 (N.min (N.min s e) (sizeN xs - 1)) (N.min (N.max s e) (sizeN xs - 1)) xs)).
Proof.
  exact (fun T R U tr A N required EN fuel v k s e F =>
    build_then_query tr _ (read_only_lawful T R U tr A N) required EN fuel v k s e F).
Qed.
Print Assumptions C55_query_is_the_fold.

(** The four ready-made trees over size_t. *)
Theorem C55_sum : forall required, enough required ->
  forall fuel v s e, fair fuel (ORebuild v (sizeN v) : op N unit) -> s <= e -> e < sizeN v ->
  Forall (fun x => x < two64) v ->
  exists t t', build range_sum required fuel empty_tree v (sizeN v) = Val t /\
    query range_sum fuel t s e = Val (t', fold_right N.add 0 (sub 0 s e v) mod two64).
Proof. exact sum_query. Qed.
Print Assumptions C55_sum.
Theorem C55_multiplication : forall required, enough required ->
  forall fuel v s e, fair fuel (ORebuild v (sizeN v) : op N unit) -> s <= e -> e < sizeN v ->
  Forall (fun x => x < two64) v ->
  exists t t', build range_multiplication required fuel empty_tree v (sizeN v) = Val t /\
    query range_multiplication fuel t s e = Val (t', fold_right N.mul 1 (sub 0 s e v) mod two64).
Proof. exact product_query. Qed.
Print Assumptions C55_multiplication.
Theorem C55_min : forall required, enough required ->
  forall fuel v s e, fair fuel (ORebuild v (sizeN v) : op N unit) -> s <= e -> e < sizeN v ->
  exists t t' r, build range_min required fuel empty_tree v (sizeN v) = Val t /\
    query range_min fuel t s e = Val (t', r) /\
    In r (sub 0 s e v) /\ forall x, In x (sub 0 s e v) -> r <= x.
Proof. exact min_query. Qed.
Print Assumptions C55_min.
Theorem C55_max : forall required, enough required ->
  forall fuel v s e, fair fuel (ORebuild v (sizeN v) : op N unit) -> s <= e -> e < sizeN v ->
  exists t t' r, build range_max required fuel empty_tree v (sizeN v) = Val t /\
    query range_max fuel t s e = Val (t', r) /\
    In r (sub 0 s e v) /\ forall x, In x (sub 0 s e v) -> x <= r.
Proof. exact max_query. Qed.
Print Assumptions C55_max.
(** 4n is enough; seven elements, four ranges; a join that is not commutative
    (lists of elements, appended). *)
Example C55_case : enough (fun n => 4 * n) /\ fair 7 (ORebuild [5;3;8;1;9;2;7] 7 : op N unit).
Proof. split; [exact enough_4n|]. repeat split; try discriminate; repeat constructor. Qed.
Example C55_case_answers :
  let four n := 4 * n in
  let ops := [ORebuild [5;3;8;1;9;2;7] 7; OQuery 0 6; OQuery 1 4; OQuery 3 3; OQuery 5 99] in
  (let* (_, l) := run range_sum four 7 empty_tree ops in Val l)
    = Val [ADone; AValue 35; AValue 21; AValue 1; AValue 9] /\
  (let* (_, l) := run range_min four 7 empty_tree ops in Val l)
    = Val [ADone; AValue 1; AValue 1; AValue 1; AValue 2] /\
  (let* (_, l) := run range_max four 7 empty_tree ops in Val l)
    = Val [ADone; AValue 9; AValue 9; AValue 1; AValue 7] /\
  (let* (_, l) := run range_multiplication four 7 empty_tree ops in Val l)
    = Val [ADone; AValue 15120; AValue 216; AValue 1; AValue 14] /\
  (let in_order := mkTransform N (list N) unit (@app N) (fun _ _ _ => true) (fun _ _ n l r => (n, l, r))
     (fun _ _ n _ => n) (fun x _ => [x]) (fun _ => false) tt [] in
   let* (_, l) := run in_order four 7 empty_tree ops in Val l)
    = Val [ADone; AValue [5;3;8;1;9;2;7]; AValue [3;8;1;9]; AValue [1]; AValue [2;7]].
Proof. run. Qed.

(** C56: every transform that obeys the laws of [lawful], every history of
    builds, updates and queries: the answers are those of a plain array to which
    every update is applied element by element. *)
Theorem C56_lazy_is_eager : forall T R U (tr : transform T R U) den, lawful tr den ->
  forall required, enough required -> forall ops fuel, Forall (fair fuel) ops ->
  exists t', run tr required fuel empty_tree ops = Val (t', snd (spec_run tr den None ops)).
Proof. exact (fun T R U tr den LAW required EN => run_start tr den LAW required EN). Qed.
Print Assumptions C56_lazy_is_eager.
(** The laws can be met: adding to a range under sums, setting a range under minima. *)
Theorem C56_range_add_is_lawful : lawful range_add den_add.
Proof. exact range_add_lawful. Qed.
Print Assumptions C56_range_add_is_lawful.
Theorem C56_range_set_is_lawful : lawful range_set den_set.
Proof. exact range_set_lawful. Qed.
Print Assumptions C56_range_set_is_lawful.
Definition add_history : list (op Z Z) :=
  [ORebuild [1;2;3;4;5;6;7]%Z 7; OUpdate 1 5 10%Z; OUpdate 0 6 1%Z; OQuery 3 3; OUpdate 2 3 (-4)%Z;
   OQuery 0 6; OQuery 2 2; OUpdate 6 0 0%Z].
Definition set_history : list (op Z (option Z)) :=
  [ORebuild [1;2;3;4;5;6;7]%Z 7; OUpdate 0 6 (Some 9%Z); OUpdate 2 4 (Some 5%Z); OQuery 0 1; OQuery 4 6;
   OUpdate 4 4 None; OUpdate 0 6 (Some 2%Z); OQuery 3 5].
Example C56_case : Forall (fair 7) add_history /\ Forall (fair 7) set_history /\
  (let* (_, l) := SegmentModel.run range_add (fun n => 4 * n) 7 empty_tree add_history in Val l)
  = Val [ADone; AValue 70; AValue 85; AValue 15; AValue 21; AValue 77; AValue 10; AValue 77]%Z /\
  (let* (_, l) := SegmentModel.run range_set (fun n => 4 * n) 7 empty_tree set_history in Val l)
  = Val [ADone; AValue 9; AValue 5; AValue 9; AValue 5; AValue 5; AValue 2; AValue 2]%Z.
Proof.
  split; [|split; [|run]]; repeat constructor; discriminate.
Qed.

(** C57: a fresh build allocates exactly what [required] says, and no access of
    the build or of any later call is outside of it (it would be UB); 4n is
    enough. *)
Theorem C57_accesses_in_bounds : forall T R U (tr : transform T R U) den, lawful tr den ->
  forall required, enough required ->
  forall fuel v k o, fair fuel (ORebuild v k : op T U) -> Forall (fair fuel) o ->
  exists t t' l, build tr required fuel empty_tree v k = Val t /\
    sizeN (heap t) = required (sizeN (firstn (N.to_nat k) v)) /\
    SegmentModel.run tr required fuel t o = Val (t', l).
Proof. exact (fun T R U tr den LAW required EN => in_bounds tr den LAW required EN). Qed.
Print Assumptions C57_accesses_in_bounds.
Theorem C57_four_n_is_enough : enough (fun n => 4 * n).
Proof. exact enough_4n. Qed.
Print Assumptions C57_four_n_is_enough.
(** So is any computation of 4n with an error of at most n * 2^-29, as with
    floating-point numbers, for all sizes below 2^60; and any monotone one that is
    right for powers of two. *)
Theorem C57_rounding : forall required, close_to_4n required -> enough required.
Proof. exact close_enough. Qed.
Print Assumptions C57_rounding.
Theorem C57_monotone : forall required, (forall k, k < 60 -> required (2 ^ k) = 2 ^ (k + 2)) ->
  (forall m n, m <= n -> required m <= required n) -> enough required.
Proof. exact enough_monotone. Qed.
Print Assumptions C57_monotone.
Example C57_rounding_case : close_to_4n (fun n => 4 * n - n / 2 ^ 29) /\ enough (fun n => 4 * n - n / 2 ^ 29).
Proof.
  assert (X : close_to_4n (fun n => 4 * n - n / 2 ^ 29)); [|split; [exact X|exact (close_enough _ X)]].
  intros n H. pose proof (N.mul_div_le n (2 ^ 29) ltac:(discriminate)) as Y. change (2 ^ 31) with 2147483648.
  change (2 ^ 29) with 536870912 in *. lia.
Qed.
(** This is sharp: without room for one of the cells the build is undefined, and no
    factor below four is enough. *)
Theorem C57_no_room : forall T R U (tr : transform T R U) den, lawful tr den ->
  forall required v k fuel, fair fuel (ORebuild v k : op T U) -> 0 < required (sizeN (firstn (N.to_nat k) v)) ->
  ~ room (sizeN (firstn (N.to_nat k) v)) (required (sizeN (firstn (N.to_nat k) v))) -> build tr required fuel empty_tree v k = UB.
Proof. exact @no_room. Qed.
Print Assumptions C57_no_room.
Theorem C57_four_is_least : forall m, 0 < m -> exists n q, 0 < n /\ takes 0 n q /\ (4 * m - 1) * n <= m * q.
Proof. exact four_is_least. Qed.
Print Assumptions C57_four_is_least.
(** Six elements take 13 cells, from 0 to 12. *)
Example C57_no_room_case :
  takes 0 6 12 /\ ~ room 6 12 /\ build range_sum (fun _ => 12) 6 empty_tree (repeat 1 6) 6 = UB /\
  (let* t := build range_sum (fun _ => 13) 6 empty_tree (repeat 1 6) 6 in Val (sizeN (heap t))) = Val 13.
Proof.
  assert (X : takes 0 6 12).
  { apply takes_right; [reflexivity|]. apply takes_left; [reflexivity|]. apply takes_right; [reflexivity|]. apply takes_one. }
  split; [exact X|]. split; [intros R; specialize (R 12 X); discriminate|]. run.
Qed.
(** Three cells per element are not enough. *)
Example C57_case :
  (let* t := build range_sum (fun n => 4 * n) 36 empty_tree (repeat 1 36) 36 in Val (sizeN (heap t))) = Val 144 /\
  build range_sum (fun n => 3 * n) 36 empty_tree (repeat 1 36) 36 = UB.
Proof. run. Qed.

(** C58: the order of the arguments does not matter and positions beyond the end
    behave as the last one; for every tree and every transform. *)
Theorem C58_symmetric : forall T R U (tr : transform T R U) fuel (t : tree R U) s e u,
  query tr fuel t s e = query tr fuel t e s /\ query_update tr fuel t s e u = query_update tr fuel t e s u.
Proof. exact (fun T R U tr => query_symmetric tr). Qed.
Print Assumptions C58_symmetric.
Theorem C58_clamps : forall T R U (tr : transform T R U) fuel (t : tree R U) s e u, 0 < size t < two64 ->
  let s' := N.min s (size t - 1) in let e' := N.min e (size t - 1) in
  query tr fuel t s e = query tr fuel t s' e' /\ query_update tr fuel t s e u = query_update tr fuel t s' e' u.
Proof. exact (fun T R U tr => query_clamps tr). Qed.
Print Assumptions C58_clamps.
Example C58_case :
  (let* (_, l) := SegmentModel.run range_add (fun n => 4 * n) 3 empty_tree
     [ORebuild [1;2;3]%Z 3; OQuery 1 2; OQuery 2 1; OQuery 7 1; OUpdate 9 8 5%Z; OQuery 2 2] in Val l)
  = Val [ADone; AValue 5; AValue 5; AValue 5; AValue 8; AValue 8]%Z.
Proof. run. Qed.

(** C59: after a rebuild from a non-empty vector all answers are those of a fresh
    tree, whatever was done before. *)
Theorem C59_rebuild_forgets_partial : forall T R U (tr : transform T R U) den, lawful tr den ->
  forall required, enough required -> forall fuel o1 v k o2,
  Forall (fair fuel) o1 -> fair fuel (ORebuild v k : op T U) -> Forall (fair fuel) o2 ->
  exists t1 t2 l1 l2,
    SegmentModel.run tr required fuel empty_tree (o1 ++ ORebuild v k :: o2) = Val (t1, l1 ++ l2) /\
    length l1 = length o1 /\
    SegmentModel.run tr required fuel empty_tree (ORebuild v k :: o2) = Val (t2, l2).
Proof. exact (fun T R U tr den LAW required EN => rebuild_forgets tr den LAW required EN). Qed.
Print Assumptions C59_rebuild_forgets_partial.
(** A rebuild from an empty vector does not: a fresh tree throws, the rebuilt one
    answers with what it held before; the size is 0, size - 1 wraps, so nothing
    is clamped any more. *)
Theorem C59_rebuild_empty_forgets_refuted :
  ~ (forall v s e, 
      (let* (_, l) := SegmentModel.run range_sum (fun n => 4 * n) 3 empty_tree
        [ORebuild v 3; ORebuild [] 0; OQuery s e] in Val (last l ADone)) = Val (AExn NotBuilt)) /\
  (let* (_, l) := SegmentModel.run range_sum (fun n => 4 * n) 3 empty_tree
     [ORebuild [1;2;3] 3; ORebuild [] 0; OQuery 0 2] in Val l) = Val [ADone; ADone; AValue 6] /\
  (let* (_, l) := SegmentModel.run range_sum (fun n => 4 * n) 3 empty_tree
     [ORebuild [1;2;3] 3; ORebuild [] 0; OQuery 0 5] in Val l) = Val [ADone; ADone; AValue 3] /\
  (let* (_, l) := SegmentModel.run range_sum (fun n => 4 * n) 3 empty_tree
     [ORebuild [] 0; OQuery 0 2] in Val l) = Val [ADone; AExn NotBuilt].
Proof.
  split; [|run]. intros H. specialize (H [1;2;3] 0 2). vm_compute in H. discriminate.
Qed.
Print Assumptions C59_rebuild_empty_forgets_refuted.
Example C59_case :
  let o1 := [ORebuild [1;2;3;4;5]%Z 5; OUpdate 0 3 7%Z] in
  let o2 := [OUpdate 0 1 1%Z; OQuery 0 2] in
  Forall (fair 5) o1 /\ fair 5 (ORebuild [4;5;6]%Z 3 : op Z Z) /\ Forall (fair 5) (o2 : list (op Z Z)) /\
  (let* (_, l) := SegmentModel.run range_add (fun n => 4 * n) 5 empty_tree (o1 ++ ORebuild [4;5;6]%Z 3 :: o2) in Val l)
  = Val [ADone; AValue 38; ADone; AValue 11; AValue 17]%Z /\
  (let* (_, l) := SegmentModel.run range_add (fun n => 4 * n) 5 empty_tree (ORebuild [4;5;6]%Z 3 :: o2) in Val l)
  = Val [ADone; AValue 11; AValue 17]%Z.
Proof.
  cbv zeta. split; [|split; [|split; [|run]]]; repeat constructor; discriminate.
Qed.

(** C60: as long as nothing was built (rebuilding from nothing does not count),
    query, query_update and the non-const head() throw. *)
Theorem C60_unbuilt_throws_partial : forall T R U (tr : transform T R U) required fuel (ops : list (op T U)) t l,
  Forall (fun o => match o with ORebuild v k => v = [] \/ k = 0 | _ => True end) ops ->
  SegmentModel.run tr required fuel empty_tree ops = Val (t, l) ->
  forall s e u,
  query tr fuel t s e = Exn NotBuilt /\ query_update tr fuel t s e u = Exn NotBuilt /\
  tree_head t = Exn OutOfRange.
Proof. exact unbuilt_calls. Qed.
Print Assumptions C60_unbuilt_throws_partial.
(** The const head() does not throw: it reads a cell that does not exist. *)
Theorem C60_const_head_throws_refuted : exists t : tree N unit,
  t = empty_tree /\ tree_head t = Exn OutOfRange /\ tree_head_const t = UB.
Proof. exact const_head_unbuilt. Qed.
Print Assumptions C60_const_head_throws_refuted.
Example C60_case : exists t,
  SegmentModel.run range_sum (fun n => 4 * n) 3 empty_tree [ORebuild [] 0; OQuery 0 1; ORebuild [4] 0; OUpdate 0 0 tt]
  = Val (t, [ADone; AExn NotBuilt; ADone; AExn NotBuilt]) /\ query range_sum 3 t 0 0 = Exn NotBuilt.
Proof. eexists. run. Qed.

(** C100: the criteria is documented to be consulted for every matched inner
    node.  It is not: a node without pending update takes the change in any case.
    A transform that keeps the documented contract (its updates are for single
    elements, its criteria is false for inner nodes) loses updates. *)
Theorem C100_criteria_is_honoured_refuted :
  lawful_as_documented leafwise_add den_add /\
  exists ops, Forall (fair 2) ops /\
  (let* (_, l) := SegmentModel.run leafwise_add (fun n => 4 * n) 2 empty_tree ops in Val l)
  = Val [ADone; AValue 3; AValue 3]%Z /\
  snd (spec_run leafwise_add den_add None ops) = [ADone; AValue 13; AValue 13]%Z.
Proof. exact criteria_ignored. Qed.
Print Assumptions C100_criteria_is_honoured_refuted.
(** What does hold: transforms whose [apply] is also right for inner nodes
    without pending update, whatever their criteria says (C56); [range_set]'s
    criteria is always false. *)
Theorem C100_criteria_partial : forall ops fuel, Forall (fair fuel) ops ->
  exists t', SegmentModel.run range_set (fun n => 4 * n) fuel empty_tree ops
    = Val (t', snd (spec_run range_set den_set None ops)).
Proof. exact (run_start range_set den_set range_set_lawful _ enough_4n). Qed.
Print Assumptions C100_criteria_partial.
