(** Specification for pointer_comparison; of the model only pointers and calls are used. *)
Require Import List Arith NArith Bool.
Require Import Verif.Base Verif.PointerOrderModel.
Import ListNotations.

Section Spec.
Context {T : Type}.
(** What std::priority_queue requires of an order, for the elements in [dom]. *)
Definition strict_weak {A} (dom : A -> Prop) (before : A -> A -> Prop) : Prop :=
  (forall x, dom x -> ~ before x x) /\
  (forall x y z, dom x -> dom y -> dom z -> before x y -> before y z -> before x z) /\
  (forall x y z, dom x -> dom y -> dom z ->
     ~ before x y -> ~ before y x -> ~ before y z -> ~ before z y -> ~ before x z /\ ~ before z x).
(** [p] points to [x]. *)
Definition points_to (mem : nat -> option T) (p : pointer) (x : T) : Prop := exists a, p = Some a /\ mem a = Some x.
Definition points (mem : nat -> option T) (p : pointer) : Prop := exists x, points_to mem p x.
(** The elements a call asks about with these answers. *)
Fixpoint asks {A R} (answer : A -> A -> bool) (c : call A R) : list (A * A) :=
  match c with Answer _ => [] | Ask x y next => (x, y) :: asks answer (next (answer x y)) end.
(** Two calls that do the same, on elements related by [rel], whatever the answers. *)
Inductive alike {A B R} (rel : A -> B -> Prop) : call A R -> call B R -> Prop :=
| AlikeAnswer : forall r, alike rel (Answer r) (Answer r)
| AlikeAsk : forall x y x' y' next next', rel x x' -> rel y y' -> (forall b, alike rel (next b) (next' b)) ->
    alike rel (Ask x y next) (Ask x' y' next').
(** All a call may ever ask about. *)
Inductive about {A R} (dom : A -> Prop) : call A R -> Prop :=
| AboutAnswer : forall r, about dom (Answer r)
| AboutAsk : forall x y next, dom x -> dom y -> (forall b, about dom (next b)) -> about dom (Ask x y next).
(** The object at [a] is changed. *)
Definition written (mem : nat -> option T) (a : nat) (x : T) : nat -> option T := fun b => if Nat.eqb a b then Some x else mem b.
End Spec.
