(** Programs over binary nodes (structures/binary_tree.h): the members of
    BnodeModel.v together with the accessors, construction and destruction.

    A program decides each call by the answers of the earlier ones; nodes are
    known to it by the references it got.  The recursion budget of a call is the
    number of heap cells, which no tree exceeds in depth. *)
Require Import List NArith Bool Arith.
Require Import Verif.Base Verif.BnodeModel.
Import ListNotations.

Section Nav.
Context {V : Type} (v0 : V).
Notation heap := (heap V).

(** binary_tree.h:44-90: left(), right() *)
Definition child_of (h : heap) (a : nat) (dir : bool) : outcome nat :=
  let* n := load h a in
  match side dir n with None => Exn NullNode | Some c => Val c end.
(** binary_tree.h:96-108: has_left(), has_right() *)
Definition has_child (h : heap) (a : nat) (dir : bool) : outcome bool :=
  let* n := load h a in
  Val (match side dir n with None => false | Some _ => true end).
(** binary_tree.h:114-117 *)
Definition children_count (h : heap) (a : nat) : outcome N :=
  let* l := has_child h a false in
  let* r := has_child h a true in
  Val ((if l then 1 else 0) + (if r then 1 else 0))%N.
(** tree.h:136-139 *)
Definition has_parent (h : heap) (a : nat) : outcome bool :=
  let* n := load h a in
  Val (match parent n with None => false | Some _ => true end).
(** tree.h:146-165: parent() *)
Definition parent_of (h : heap) (a : nat) : outcome nat :=
  let* n := load h a in
  match parent n with None => Exn NullNode | Some p => Val p end.
(** tree.h:170-201: the conversion to T, operator* and get() *)
Definition get (h : heap) (a : nat) : outcome V := let* n := load h a in Val (val n).
(** tree.h:93-105: set_value *)
Definition set_value (h : heap) (a : nat) (v : V) : outcome heap :=
  let* n := load h a in store h a (with_val n v).
(** tree.h:125-130, 113-117: swap(other) and swap_move(other) of base_node_t; [a]
    is this.  swap of base_node_t is protected in a binary node
    (binary_tree.h:436); it is called on the base class.  swap_move is meant for two nodes: moving a value to itself is
    not modelled. *)
Definition swap_with (h : heap) (a b : nat) : outcome heap :=
  let* tmp := get h b in
  let* v := get h a in
  let* h := set_value h b v in
  set_value h a tmp.
(** tree.h:54-66: a node made from a value, without a parent *)
Definition construct (h : heap) (v : V) : heap * nat := alloc h (mkB None v None None).

Inductive nop : Type :=
| NNew (v : V) | NCopyNew (b : nat) | NMoveNew (b : nat) | NDestroy (a : nat)
| NAdd (a : nat) (dir : bool) (v : V) | NDelete (a : nat) (dir : bool) | NClear (a : nat)
| NSwap (a : nat) (dir : bool) | NSwapWith (a b : nat) | NSet (a : nat) (v : V)
| NAssign (a b : nat) | NMove (a b : nat)
| NChild (a : nat) (dir : bool) | NHas (a : nat) (dir : bool) | NCount (a : nat)
| NParent (a : nat) | NHasParent (a : nat) | NGet (a : nat).

(** [RThrow] is the exception null_node_exception_t. *)
Inductive reply : Type :=
| RUnit | RBool (b : bool) | RNode (a : nat) | RVal (v : V) | RNum (n : N) | RThrow.

(** An accessor: the heap stays, an exception is an answer. *)
Definition look {A} (h : heap) (r : outcome A) (f : A -> reply) : outcome (heap * reply) :=
  match r with
  | Val x => Val (h, f x)
  | Exn NullNode => Val (h, RThrow)
  | Exn e => Exn e
  | UB => UB
  | NoFuel => NoFuel
  end.

Definition nstep (h : heap) (o : nop) : outcome (heap * reply) :=
  let fuel := S (length h) in
  match o with
  | NNew v => let (h, x) := construct h v in Val (h, RNode x)
  | NCopyNew b => let* (h, x) := copy_construct v0 fuel h b in Val (h, RNode x)
  | NMoveNew b => let* (h, x) := move_construct v0 fuel h b in Val (h, RNode x)
  | NDestroy a => let* h := delete fuel h a in Val (h, RUnit)
  | NAdd a dir v => let* (h, b) := add_child h a dir v in Val (h, RBool b)
  | NDelete a dir => let* (h, b) := delete_child fuel h a dir in Val (h, RBool b)
  | NClear a => let* h := clear fuel h a in Val (h, RUnit)
  | NSwap a dir => let* h := swap h a dir in Val (h, RUnit)
  | NSwapWith a b => let* h := swap_with h a b in Val (h, RUnit)
  | NSet a v => let* h := set_value h a v in Val (h, RUnit)
  | NAssign a b => let* h := assign v0 fuel h a b in Val (h, RUnit)
  | NMove a b => let* h := move fuel h a b in Val (h, RUnit)
  | NChild a dir => look h (child_of h a dir) RNode
  | NHas a dir => look h (has_child h a dir) RBool
  | NCount a => look h (children_count h a) RNum
  | NParent a => look h (parent_of h a) RNode
  | NHasParent a => look h (has_parent h a) RBool
  | NGet a => look h (get h a) RVal
  end.

Inductive prog : Type := Stop | Call (o : nop) (k : reply -> prog).

Fixpoint nrun (h : heap) (p : prog) : outcome (heap * list (nop * reply)) :=
  match p with
  | Stop => Val (h, [])
  | Call o k =>
      let* (h, r) := nstep h o in
      let* (h, rs) := nrun h (k r) in
      Val (h, (o, r) :: rs)
  end.

(** parent() taken [n] times, as long as there is one. *)
Fixpoint climb (n : nat) (h : heap) (a : nat) : outcome nat :=
  match n with
  | O => Val a
  | S n =>
      let* b := has_parent h a in
      if b then let* a := parent_of h a in climb n h a else Val a
  end.

End Nav.
Arguments nop : clear implicits.
Arguments reply : clear implicits.
Arguments prog : clear implicits.
