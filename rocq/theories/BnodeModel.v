(** Model of binary_node_t (structures/binary_tree.h) on an explicit heap, so
    that a call whose argument is part of the node itself can be stated.

    An address is a position of the heap; an entry is [None] once the node was
    deleted.  Reading or writing a deleted node is undefined.  The recursion
    budget [fuel] bounds the depth of C++ recursion; a call that gives [NoFuel]
    for every budget does not terminate. *)
Require Import List NArith Bool Arith.
Require Import Verif.Base.
Import ListNotations.

Section Bnode.
Context {V : Type}.
(** The value of a default constructed T (binary_tree.h:117). *)
Variable v0 : V.

(** binary_tree.h:432-434, tree.h:224-225; [_height] is not used by these
    members and left out. *)
Record bnode : Type := mkB { parent : option nat; val : V; left : option nat; right : option nat }.
Definition heap : Type := list (option bnode).

Definition load (h : heap) (a : nat) : outcome bnode :=
  match nth_error h a with Some (Some n) => Val n | _ => UB end.
Definition store (h : heap) (a : nat) (n : bnode) : outcome heap :=
  let* _ := load h a in Val (set_nth h a (Some n)).
(** new *)
Definition alloc (h : heap) (n : bnode) : heap * nat := (h ++ [Some n], length h).
(** Releasing the memory, after the destructor. *)
Definition free (h : heap) (a : nat) : outcome heap :=
  let* _ := load h a in Val (set_nth h a None).

Definition with_left (n : bnode) (l : option nat) : bnode := mkB (parent n) (val n) l (right n).
Definition with_right (n : bnode) (r : option nat) : bnode := mkB (parent n) (val n) (left n) r.
Definition with_parent (n : bnode) (p : option nat) : bnode := mkB p (val n) (left n) (right n).
Definition with_val (n : bnode) (v : V) : bnode := mkB (parent n) v (left n) (right n).

(** [_left] (false) or [_right] (true); a direction is written as a bool. *)
Definition side (dir : bool) (n : bnode) : option nat := if dir then right n else left n.
Definition with_side (dir : bool) (n : bnode) (c : option nat) : bnode :=
  if dir then with_right n c else with_left n c.

(** binary_tree.h:262-276: delete_child(direction); [del] is [delete]. *)
Definition delete_child_with (del : heap -> nat -> outcome heap) (h : heap) (a : nat) (dir : bool)
  : outcome (heap * bool) :=
  let* n := load h a in
  match side dir n with
  | None => Val (h, false)
  | Some c =>
      let* h := del h c in
      let* n := load h a in
      let* h := store h a (with_side dir n None) in
      Val (h, true)
  end.
(** binary_tree.h:208-212: clear *)
Definition clear_with (del : heap -> nat -> outcome heap) (h : heap) (a : nat) : outcome heap :=
  let* r := delete_child_with del h a false in
  let* r := delete_child_with del (fst r) a true in
  Val (fst r).

(** binary_tree.h:203-206: [delete p] runs the destructor, which is clear(), and
    releases the memory. *)
Fixpoint delete (fuel : nat) (h : heap) (a : nat) : outcome heap :=
  match fuel with
  | O => NoFuel
  | S fuel => let* h := clear_with (delete fuel) h a in free h a
  end.
(** binary_tree.h:262-276 *)
Definition delete_child (fuel : nat) : heap -> nat -> bool -> outcome (heap * bool) :=
  delete_child_with (delete fuel).
(** binary_tree.h:208-212 *)
Definition clear (fuel : nat) : heap -> nat -> outcome heap := clear_with (delete fuel).

(** binary_tree.h:251-255: delete_child(index); the cast to the enumeration
    keeps the low 32 bits (its underlying type is int); values other than 0 and 1
    are no direction. *)
Definition delete_child_at (fuel : nat) (h : heap) (a : nat) (index : N) : outcome (heap * bool) :=
  let node := (index mod 2 ^ 32)%N in
  if (node =? 0)%N then delete_child fuel h a false
  else if (node =? 1)%N then delete_child fuel h a true
  else Val (h, false).

(** binary_tree.h:220-227, 236-243: add_left, add_right *)
Definition add_child (h : heap) (a : nat) (dir : bool) (v : V) : outcome (heap * bool) :=
  let* n := load h a in
  match side dir n with
  | Some _ => Val (h, false)
  | None =>
      let (h, c) := alloc h (mkB (Some a) v None None) in
      let* n := load h a in
      let* h := store h a (with_side dir n (Some c)) in
      Val (h, true)
  end.

(** binary_tree.h:283-299, tree.h:125-130: swap(direction) exchanges the values
    with a child. *)
Definition swap (h : heap) (a : nat) (dir : bool) : outcome heap :=
  let* n := load h a in
  match side dir n with
  | None => Val h
  | Some c =>
      let* m := load h c in
      let tmp := val m in
      let* n := load h a in
      let* h := store h c (with_val m (val n)) in
      let* n := load h a in
      store h a (with_val n tmp)
  end.

(** binary_tree.h:158-162, 163-167: one of the two symmetric blocks of the copy
    assignment; [asg] is the assignment itself. *)
Definition copy_side (asg : heap -> nat -> nat -> outcome heap) (h : heap) (a b : nat) (dir : bool)
  : outcome heap :=
  let* o := load h b in
  match side dir o with
  | None => Val h
  | Some _ =>
      let (h, c) := alloc h (mkB None v0 None None) in
      let* n := load h a in
      let* h := store h a (with_side dir n (Some c)) in
      let* o := load h b in
      match side dir o with
      | None => Exn NullNode
      | Some d =>
          let* h := asg h c d in
          let* m := load h c in store h c (with_parent m (Some a))
      end
  end.

(** binary_tree.h:154-171: copy assignment; [a] is this, [b] is other. *)
Fixpoint assign (fuel : nat) (h : heap) (a b : nat) : outcome heap :=
  match fuel with
  | O => NoFuel
  | S fuel =>
      let* h := clear fuel h a in
      let* h := copy_side (assign fuel) h a b false in
      let* h := copy_side (assign fuel) h a b true in
      let* o := load h b in
      let* n := load h a in
      store h a (with_val n (val o))
  end.

(** tree.h:219-222 on a child that may be absent (binary_tree.h:187-192). *)
Definition adopt (h : heap) (c : option nat) (a : nat) : outcome heap :=
  match c with
  | None => Val h
  | Some c => let* m := load h c in store h c (with_parent m (Some a))
  end.

(** binary_tree.h:180-198: move assignment.  The value is taken over; what T's
    move leaves in the source is not modelled. *)
Definition move (fuel : nat) (h : heap) (a b : nat) : outcome heap :=
  let* h := clear fuel h a in
  let* o := load h b in
  let* n := load h a in
  let* h := store h a (with_left n (left o)) in
  let* o := load h b in
  let* n := load h a in
  let* h := store h a (with_right n (right o)) in
  let* o := load h b in
  let* h := store h b (with_right (with_left o None) None) in
  let* o := load h b in
  let* h := store h b (with_parent o None) in
  let* n := load h a in
  let* h := adopt h (left n) a in
  let* n := load h a in
  let* h := adopt h (right n) a in
  let* o := load h b in
  let* n := load h a in
  store h a (with_val n (val o)).

(** binary_tree.h:123-125: copy constructor: a new node, then the assignment. *)
Definition copy_construct (fuel : nat) (h : heap) (b : nat) : outcome (heap * nat) :=
  let (h, a) := alloc h (mkB None v0 None None) in
  let* h := assign fuel h a b in Val (h, a).
(** binary_tree.h:132-134: move constructor *)
Definition move_construct (fuel : nat) (h : heap) (b : nat) : outcome (heap * nat) :=
  let (h, a) := alloc h (mkB None v0 None None) in
  let* h := move fuel h a b in Val (h, a).

End Bnode.
Arguments bnode : clear implicits.
Arguments heap : clear implicits.
