(** C108: safe.h.  Any type whose copies and moves give the target the value of the
    source. *)
Require Import List Bool.
Require Import Verif.LockableModel Verif.LockableProofs.
Import ListNotations.

(** C108: a new lockable_t has the value of its argument and is not locked; an
    assignment gives it the value and does not touch the lock; a copy leaves the
    source as it was. *)
Theorem C108_construct : forall (V : Type) (copy move : V -> V * V) (d : V) a v,
  (forall x, fst (copy x) = x /\ snd (copy x) = x) -> (forall x, fst (move x) = x) ->
  value (fst (construct copy move a v)) = v /\ held (fst (construct copy move a v)) = None /\
  held (construct_default d) = None /\ value (construct_default d) = d /\
  (a <> Rvalue -> a <> LockableRvalue -> snd (construct copy move a v) = v).
Proof. exact @construct_value. Qed.
Print Assumptions C108_construct.
Theorem C108_assign : forall (V : Type) (copy move : V -> V * V) b x v,
  (forall x, fst (copy x) = x /\ snd (copy x) = x) -> (forall x, fst (move x) = x) ->
  value (fst (assign copy move b x v)) = v /\ held (fst (assign copy move b x v)) = held x /\
  snd (assign copy move b x v) = if b then snd (move v) else v.
Proof. exact @assign_value. Qed.
Print Assumptions C108_assign.
Example C108_case :
  construct vector_copy vector_move LockableRvalue [1; 2] = ({| value := [1; 2]; held := None |}, []) /\
  assign vector_copy vector_move true {| value := [7]; held := Some 3 |} [1; 2] = ({| value := [1; 2]; held := Some 3 |}, []) /\
  assign vector_copy vector_move false {| value := [7]; held := Some 3 |} [1; 2] = ({| value := [1; 2]; held := Some 3 |}, [1; 2]).
Proof. repeat split. Qed.
(** But built from an rvalue T it copies: a moved vector is still full. *)
Theorem C108_move_refuted : exists v : list nat,
  snd (construct vector_copy vector_move Rvalue v) <> snd (vector_move v) /\
  snd (construct vector_copy vector_move Rvalue v) = [1; 2].
Proof. exists [1; 2]. split; [discriminate|reflexivity]. Qed.
Print Assumptions C108_move_refuted.
