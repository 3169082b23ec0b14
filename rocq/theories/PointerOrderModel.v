(** Model of concurrency/message_queue.h:242-262, pointer_comparison: the order of a priority queue of
    smart pointers.

    An address is a number; the memory says which addresses have an object.  Left out: that
    the order object is a static of each overload (message_queue.h:247, 253, 259; it is const and the
    same for all, so orders with a state of their own are not covered), orders that throw,
    reference counts. *)
Require Import List Arith NArith Bool.
Require Import Verif.Base.
Import ListNotations.

Section Order.
Context {T : Type}.
(** message_queue.h:242: [transform_t], std::less if not given. *)
Variable transform : T -> T -> bool.
(** message_queue.h:248: what the pointers point to. *)
Definition memory := nat -> option T.
(** message_queue.h:246: a smart pointer, [None] if empty. *)
Definition pointer := option nat.
(** message_queue.h:248, 254: the operator [*] of a pointer. *)
Definition deref {A} (mem : nat -> option A) (p : option nat) : outcome A :=
  match p with
  | None => UB
  | Some a => match mem a with Some x => Val x | None => UB end
  end.
(** message_queue.h:245-249. *)
Definition shared_order (mem : memory) (p1 p2 : pointer) : outcome bool :=
  let* x := deref mem p1 in
  let* y := deref mem p2 in
  Val (transform x y).
(** message_queue.h:251-255: pointers to shared pointers; [slots] is where those are. *)
Definition slot_order (mem : memory) (slots : nat -> option pointer) (s1 s2 : option nat) : outcome bool :=
  let* p1 := deref slots s1 in
  let* x := deref mem p1 in
  let* p2 := deref slots s2 in
  let* y := deref mem p2 in
  Val (transform x y).
(** message_queue.h:257-261. *)
Definition unique_order (mem : memory) (p1 p2 : pointer) : outcome bool :=
  let* x := deref mem p1 in
  let* y := deref mem p2 in
  Val (transform x y).
(** message_queue.h:77, 210, 226: a call of a container that is given the order and nothing else about its elements, as the members
    of std::priority_queue are: it may ask how two of its elements compare, and go on depending on the
    answer. *)
Inductive call (A R : Type) :=
| Answer (r : R)
| Ask (x y : A) (next : bool -> call A R).
Arguments Answer {A R}. Arguments Ask {A R}.
Fixpoint perform {A R} (order : A -> A -> outcome bool) (c : call A R) : outcome R :=
  match c with
  | Answer r => Val r
  | Ask x y next => let* b := order x y in perform order (next b)
  end.
End Order.
Arguments Answer {A R}. Arguments Ask {A R}.
