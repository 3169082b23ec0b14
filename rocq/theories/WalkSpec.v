(** Specification for traversals that run at the same time. *)
Require Import List Arith Bool.
Import ListNotations.

(** Every call made so far was answered with false. *)
Definition unbroken {A} (cb : list A -> A -> bool) (made : list A) : Prop :=
  forall p x q, made = p ++ x :: q -> cb p x = false.
(** Two accesses of one variable, one of them a write. *)
Definition races (a b : list bool) : Prop := exists x y, In x a /\ In y b /\ orb x y = true.
