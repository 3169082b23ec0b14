(** C150: segment trees with a transform that throws. *)
Require Import List Arith NArith ZArith Bool Lia.
Require Import Verif.Base Verif.SegmentModel Verif.SegmentSpec Verif.SegmentProofs Verif.SegmentBracketSpec Verif.SegmentBracketProofs.
Require Import Verif.SegmentThrowModel Verif.SegmentThrowSpec Verif.SegmentThrowProofs Verif.SegmentThrowElems.
Import ListNotations.
Local Open Scope N_scope.
Local Ltac run := repeat (apply conj); (vm_compute; reflexivity).

(** C150. Whatever throws, wherever, and whatever the operation that throws leaves in the nodes it
    may write: no later call is undefined. *)
Theorem C150_histories : forall {T R U} (tr : transform T R U) required, enough required ->
  forall ops fuel sc, Forall (throw_fair required fuel) ops ->
  exists t l, t_run tr required fuel empty_tree ops sc = Val (t, l).
Proof. exact @histories_go. Qed.
Print Assumptions C150_histories.
(** A call that returns has done what it does without exceptions. *)
Theorem C150_returned : forall {T R U} (tr : transform T R U) required fuel t o sc t' a sc',
  t_step tr required fuel t o sc = Val (t', Returned a, sc') ->
  step tr required fuel t o = Val (t', a) /\ t_step tr required fuel t o [] = Val (t', Returned a, []).
Proof. exact @returned_as_ever. Qed.
Print Assumptions C150_returned.
(** size() and is_built(): only a rebuild changes them; the size changes even if the rebuild throws. *)
Theorem C150_state : forall {T R U} (tr : transform T R U) required fuel t o sc t' r sc',
  t_step tr required fuel t o sc = Val (t', r, sc') ->
  match o with
  | ORebuild v k =>
      size t' = N.min k (sizeN v) /\
      built_heap t' = (built_heap t || match r with Returned _ => 0 <? N.min k (sizeN v) | Thrown => false end)%bool
  | _ => size t' = size t /\ built_heap t' = built_heap t
  end.
Proof. exact @state_after. Qed.
Print Assumptions C150_state.
(** Queries that throw do no harm, though they move pending updates: if only queries throw, all
    calls that return answer as the plain array of C149 does. *)
Theorem C150_queries : forall {T R U} (tr : transform T R U) den, bracket_lawful tr den -> keeps_value tr ->
  forall required, enough required -> forall ops fuel sc t l, Forall (fair fuel) ops -> clean sc ->
  t_run tr required fuel empty_tree ops sc = Val (t, l) -> queries_throw ops l ->
  Forall2 (fun r x => r = Thrown \/ r = Returned x) l (snd (bracket_run tr den None ops)).
Proof. exact @only_queries_throw. Qed.
Print Assumptions C150_queries.
(** What updates that throw leave: every element of the range took the change in or not, all others
    are as they were; queries of one position tell which, and later updates act on that.  A first
    build that throws leaves the tree unbuilt. *)
Theorem C150_elements : forall {T R U} (tr : transform T R U) den, bracket_lawful tr den -> composes tr den ->
  forall required, enough required -> forall ops fuel sc t l, Forall (fair fuel) ops -> clean sc ->
  t_run tr required fuel empty_tree ops sc = Val (t, l) -> explains tr den Unbuilt ops l.
Proof. exact @history_explained. Qed.
Print Assumptions C150_elements.
(** A rebuild that returns puts any tree right, whatever was thrown before. *)
Theorem C150_repair : forall {T R U} (tr : transform T R U) den, bracket_lawful tr den -> forall required, enough required ->
  forall fuel t v k sc t' x sc' ops, fair fuel (ORebuild (U := U) v k) -> Forall (fair fuel) ops ->
  t_step tr required fuel t (ORebuild v k) sc = Val (t', Returned x, sc') ->
  exists t'', run tr required fuel t' ops = Val (t'', snd (bracket_run tr den (Some (leaves tr (firstn (N.to_nat k) v))) ops)).
Proof. exact @rebuild_repairs. Qed.
Print Assumptions C150_repair.
(** Transforms that obey the laws. *)
Theorem C150_mean : composes range_mean den_add /\ keeps_value range_mean.
Proof. exact range_mean_composes. Qed.
Print Assumptions C150_mean.
Theorem C150_minus : composes range_minus den_mul /\ keeps_value range_minus.
Proof. exact range_minus_composes. Qed.
Print Assumptions C150_minus.
Theorem C150_assign : forall R (j : R -> R -> R) d, composes (assign j d) den_assign /\ keeps_value (assign j d).
Proof. exact assign_composes. Qed.
Print Assumptions C150_assign.

Theorem C150_sum : bracket_lawful range_add den_add /\ composes range_add den_add /\ keeps_value range_add.
Proof. exact (conj (lawful_brackets _ _ range_add_lawful) range_add_composes). Qed.
Print Assumptions C150_sum.
Theorem C150_min : bracket_lawful range_set den_set /\ composes range_set den_set /\ keeps_value range_set.
Proof. exact (conj (lawful_brackets _ _ range_set_lawful) range_set_composes). Qed.
Print Assumptions C150_min.

(** Means of four numbers.  An update of 0..2 throws after it reached the positions 0 and 1 (the
    eleventh point); a first build throws and is tried again; a query throws while it moves an
    update down; nonsense is left in nodes and a rebuild puts the tree right. *)
Example C150_case :
  enough (fun n => 4 * n) /\
  (let ops := [ORebuild [10; 20; 30; 40]%Z 4; OUpdate 0 2 8%Z; OQuery 0 0; OQuery 1 1; OQuery 2 2; OQuery 3 3] in
   Forall (throw_fair (fun n => 4 * n) 9) ops /\ clean (repeat None 10 ++ [Some (@Clean (Z * Z))]) /\
   play 10 Clean ops = Val (4, true, Returned ADone :: Thrown :: map (fun x => Returned (AValue x)) [18; 28; 30; 40]%Z)) /\
  play 5 Clean [ORebuild [10; 20; 30; 40]%Z 4; OQuery 0 3; ORebuild [10; 20; 30; 40]%Z 4; OQuery 0 3]
    = Val (4, true, [Thrown; Returned (AExn NotBuilt); Returned ADone; Returned (AValue 25%Z)]) /\
  play 11 Clean [ORebuild [10; 20; 30; 40]%Z 4; OUpdate 0 3 8%Z; OQuery 0 1; OQuery 0 1; OQuery 0 3; OQuery 2 2]
    = Val (4, true, [Returned ADone; Returned (AValue 33%Z); Thrown; Returned (AValue 23%Z); Returned (AValue 33%Z); Returned (AValue 38%Z)]) /\
  play 10 (Dirty (7, 7) (7, 7) (7, 7))%Z
    [ORebuild [10; 20; 30; 40]%Z 4; OUpdate 0 3 8%Z; OQuery 1 2; OQuery 0 0; ORebuild [1; 2]%Z 2; OQuery 0 1; OQuery 0 0]
    = Val (2, true, [Returned ADone; Returned (AValue 33%Z); Thrown; Returned (AValue 24%Z); Returned ADone; Returned (AValue 1%Z); Returned (AValue 1%Z)]).
Proof.
  split; [exact enough_4n|]. split; [|run]. split; [|split; [|vm_compute; reflexivity]].
  - repeat constructor; try discriminate; try (vm_compute; reflexivity). intros n H. cbn in H. eapply N.le_lt_trans with (4 * 4); [lia|vm_compute; reflexivity].
  - repeat constructor.
Qed.
(** Refuted: an update that throws leaves a tree whose queries agree.  The values of inner nodes are
    stale: the mean of all is 25 as before the update, then a query of 0..1 answers, and the mean of
    all is 29. *)
Theorem C150_agree_refuted : exists ops l x y,
  play 10 Clean (ops ++ [OQuery 0 3; OQuery 0 1; OQuery 0 3]) = Val (4, true, l ++ [Returned (AValue x); Returned (AValue 23%Z); Returned (AValue y)]) /\ x <> y.
Proof.
  exists [ORebuild [10; 20; 30; 40]%Z 4; OUpdate 0 2 8%Z], [Returned ADone; Thrown], 25%Z, 29%Z. split; [vm_compute; reflexivity|discriminate].
Qed.
Print Assumptions C150_agree_refuted.
(** Refuted: a rebuild that throws leaves the old elements or none.  The tree claims to be built with
    the new size; its elements are neither the old nor the new ones, and some are made up. *)
Theorem C150_rebuild_refuted : exists n l,
  play n Clean [ORebuild [10; 20]%Z 2; ORebuild [1; 2; 3; 4; 5]%Z 9; OQuery 0 0; OQuery 1 1; OQuery 2 2; OQuery 3 3; OQuery 4 4]
    = Val (5, true, Returned ADone :: Thrown :: map (fun x => Returned (AValue x)) l) /\
  firstn 2 l <> [10; 20]%Z /\ l <> [1; 2; 3; 4; 5]%Z /\ In 0%Z l.
Proof. exists 6%nat, [1; 0; 0; 0; 0]%Z. split; [vm_compute; reflexivity|]. split; [discriminate|]. split; [discriminate|]. cbn. auto. Qed.
Print Assumptions C150_rebuild_refuted.
(** Refuted: it does not matter what a propagate that throws leaves.  If it has updated the left
    child already, the query that is tried again updates that child twice. *)
Theorem C150_clean_refuted : exists ops x,
  play 10 (Dirty (33, 8) (23, 8) (35, 0))%Z (ops ++ [OQuery 0 0; OQuery 0 0]) = Val (4, true, [Returned ADone; Returned (AValue 33%Z); Thrown; Returned (AValue x)]) /\
  snd (bracket_run range_mean den_add None (ops ++ [OQuery 0 0])) = [ADone; AValue 33%Z; AValue 18%Z] /\ x <> 18%Z.
Proof. exists [ORebuild [10; 20; 30; 40]%Z 4; OUpdate 0 3 8%Z]. eexists. split; [vm_compute; reflexivity|]. split; [vm_compute; reflexivity|discriminate]. Qed.
Print Assumptions C150_clean_refuted.
