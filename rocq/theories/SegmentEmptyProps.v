(** C152: segment trees rebuilt from nothing. *)
Require Import List Arith NArith ZArith Bool.
Require Import Verif.Base Verif.SegmentModel Verif.SegmentSpec Verif.SegmentProofs Verif.SegmentEmptySpec Verif.SegmentEmptyProofs.
Import ListNotations.
Local Open Scope N_scope.
Local Ltac run := repeat (apply conj); (vm_compute; reflexivity).

(** C152. Every history of queries, updates and rebuilds, from nothing too, is defined and answers as
    the plain array of the last rebuild from something; a rebuild from nothing only makes size() 0
    and takes the clamping away, so that calls that reach beyond the array count its last element as
    the default value and do not change it. *)
Theorem C152_histories : forall T R U (tr : transform T R U) den, lawful tr den ->
  forall required, enough required -> forall fuel ops, Forall (any_size fuel) ops ->
  let (st, l) := emptied_run tr den (None, false) ops in
  exists t, SegmentModel.run tr required fuel empty_tree ops = Val (t, l) /\
    size t = size_of st /\ built_heap t = built_of st.
Proof. exact @any_history. Qed.
Print Assumptions C152_histories.
(** Calls on positions of the array do not see a rebuild from nothing. *)
Theorem C152_not_seen : forall T R U (tr : transform T R U) den, lawful tr den ->
  forall required, enough required -> forall fuel o1 v k o2 t1 l1,
  Forall (any_size fuel) o1 -> v = [] \/ k = 0 -> any_size fuel (ORebuild v k : op T U) ->
  Forall (any_size fuel) o2 ->
  SegmentModel.run tr required fuel empty_tree o1 = Val (t1, l1) -> Forall (below (size t1)) o2 ->
  exists t2 t3 l2, SegmentModel.run tr required fuel empty_tree (o1 ++ o2) = Val (t2, l1 ++ l2) /\
    SegmentModel.run tr required fuel empty_tree (o1 ++ ORebuild v k :: o2) = Val (t3, l1 ++ ADone :: l2).
Proof. exact @not_seen. Qed.
Print Assumptions C152_not_seen.
(** The next rebuild from something makes up for it (C59 for all histories). *)
Theorem C152_next_rebuild : forall T R U (tr : transform T R U) den, lawful tr den ->
  forall required, enough required -> forall fuel o1 v k o2,
  Forall (any_size fuel) o1 -> fair fuel (ORebuild v k : op T U) -> Forall (any_size fuel) o2 ->
  exists t1 t2 l1 l2,
    SegmentModel.run tr required fuel empty_tree (o1 ++ ORebuild v k :: o2) = Val (t1, l1 ++ l2) /\
    length l1 = length o1 /\
    SegmentModel.run tr required fuel empty_tree (ORebuild v k :: o2) = Val (t2, l2).
Proof. exact @any_rebuild_forgets. Qed.
Print Assumptions C152_next_rebuild.

(** Positions beyond the end are clamped as long as the tree is not emptied: 0..9 is all of 1 2 3 4;
    then it is 1 2 3 and the default value 0, and an update of 0..9 leaves the 4. *)
Example C152_case :
  let ops := [ORebuild [1;2;3;4]%Z 9; OQuery 0 9; ORebuild [7]%Z 0; OQuery 0 9; OQuery 0 3; OUpdate 0 9 10%Z;
              OQuery 0 3; OQuery 9 3; OQuery 8 9; OUpdate 3 3 1%Z; OQuery 3 2; ORebuild [5;6]%Z 2; OQuery 0 9] in
  Forall (any_size 5) ops /\ ~ Forall (fair 5) ops /\
  emptied_run range_add den_add (None, false) ops =
    ((Some [5;6]%Z, false), [ADone; AValue 10; ADone; AValue 6; AValue 10; AValue 36; AValue 40; AValue 0; AValue 0;
      AValue 5; AValue 18; ADone; AValue 11]%Z) /\
  (let* (t, l) := SegmentModel.run range_add (fun n => 4 * n) 5 empty_tree ops in Val (size t, built_heap t, l)) =
    Val (2, true, snd (emptied_run range_add den_add (None, false) ops)).
Proof.
  cbv zeta. split; [repeat constructor; discriminate|]. split; [|run].
  intros F. do 2 apply Forall_inv_tail in F. apply Forall_inv in F. destruct F as (_ & K & _). discriminate K.
Qed.
Example C152_not_seen_case :
  let o1 := [ORebuild [1;2;3;4]%Z 4; OUpdate 0 9 1%Z] in let o2 := [OQuery 1 3; OUpdate 2 0 5%Z; OQuery 0 3] in
  Forall (any_size 5) o1 /\ Forall (below 4) o2 /\
  (let* (t, l) := SegmentModel.run range_add (fun n => 4 * n) 5 empty_tree o1 in Val (size t, l)) = Val (4, [ADone; AValue 14]%Z) /\
  (let* (t, l) := SegmentModel.run range_add (fun n => 4 * n) 5 empty_tree (o1 ++ ORebuild [] 3 :: o2) in Val (size t, l)) =
    Val (0, [ADone; AValue 14; ADone; AValue 12; AValue 24; AValue 29]%Z).
Proof. cbv zeta. split; [repeat constructor; discriminate|]. split; [repeat constructor|run]. Qed.
(** Refuted: an emptied tree answers the same for all ranges that reach to the last element and beyond,
    as a tree that is not emptied does. *)
Theorem C152_clamped_refuted : exists (v : list Z) s e,
  let ask o := let* (_, l) := SegmentModel.run range_add (fun n => 4 * n) 5 empty_tree o in Val (last l ADone) in
  sizeN v - 1 < e /\
  ask [ORebuild v (sizeN v); OQuery s (sizeN v - 1)] = ask [ORebuild v (sizeN v); OQuery s e] /\
  ask [ORebuild v (sizeN v); ORebuild [] 0; OQuery s (sizeN v - 1)] <> ask [ORebuild v (sizeN v); ORebuild [] 0; OQuery s e].
Proof.
  exists [1;2;3;4]%Z, 0, 9. cbv zeta. split; [reflexivity|]. split; [vm_compute; reflexivity|]. vm_compute. discriminate.
Qed.
Print Assumptions C152_clamped_refuted.
