(** Traversals of binary nodes whose callback may change the nodes: the members
    of structures/binary_tree.h and structures/tree.h that hand out
    [node_type_t&].

    A callback sees the heap, the node and the calls made before (nodes, oldest
    first), and answers with a heap and a bool.  The budget [fuel] bounds the
    depth of the recursion, or the number of turns of a loop; a traversal that
    gives [NoFuel] for every budget does not end. *)
Require Import List Bool Arith.
Require Import Verif.Base Verif.BnodeModel Verif.BnodeNavModel.
Import ListNotations.

Section Walk.
Context {V : Type}.
Notation heap := (heap V).
Variable cb : list nat -> heap -> nat -> outcome (heap * bool).

(** has_left() and left() together (binary_tree.h:44-49, 96-99, and the right
    ones): [walk] on the child if there is one. *)
Definition descend (walk : heap -> list nat -> nat -> outcome (heap * list nat * nat))
  (h : heap) (past : list nat) (a : nat) (dir : bool) : outcome (heap * list nat * nat) :=
  let* n := load h a in
  match side dir n with
  | None => Val (h, past, 0)
  | Some c => walk h past c
  end.

(** func( *this) *)
Definition visit (h : heap) (past : list nat) (a : nat) : outcome (heap * list nat * bool) :=
  let* (h, stop) := cb past h a in Val (h, past ++ [a], stop).

(** binary_tree.h:314-327 *)
Fixpoint in_order (fuel : nat) (h : heap) (past : list nat) (a : nat) : outcome (heap * list nat * nat) :=
  match fuel with
  | O => NoFuel
  | S fuel =>
      let* (h, past, n) := descend (in_order fuel) h past a false in
      let* (h, past, stop) := visit h past a in
      if stop : bool then Val (h, past, 1 + n)
      else
        let* (h, past, m) := descend (in_order fuel) h past a true in
        Val (h, past, 1 + n + m)
  end.

(** binary_tree.h:334-346 *)
Fixpoint pre_order (fuel : nat) (h : heap) (past : list nat) (a : nat) : outcome (heap * list nat * nat) :=
  match fuel with
  | O => NoFuel
  | S fuel =>
      let* (h, past, stop) := visit h past a in
      if stop : bool then Val (h, past, 1)
      else
        let* (h, past, n) := descend (pre_order fuel) h past a false in
        let* (h, past, m) := descend (pre_order fuel) h past a true in
        Val (h, past, 1 + n + m)
  end.

(** binary_tree.h:353-364: the answer of the callback is not used. *)
Fixpoint pos_order (fuel : nat) (h : heap) (past : list nat) (a : nat) : outcome (heap * list nat * nat) :=
  match fuel with
  | O => NoFuel
  | S fuel =>
      let* (h, past, n) := descend (pos_order fuel) h past a false in
      let* (h, past, m) := descend (pos_order fuel) h past a true in
      let* (h, past, _) := visit h past a in
      Val (h, past, 1 + n + m)
  end.

(** binary_tree.h:428-431: the children that are not null. *)
Definition children (h : heap) (a : nat) : outcome (list nat) :=
  let* n := load h a in
  Val (match left n with Some c => [c] | None => [] end ++ match right n with Some c => [c] | None => [] end).

(** tree.h:1064-1084 *)
Fixpoint bfs (fuel : nat) (h : heap) (queue : list nat) (past : list nat) (visited : nat)
  : outcome (heap * list nat * nat) :=
  match queue with
  | [] => Val (h, past, visited)
  | a :: queue =>
      match fuel with
      | O => NoFuel
      | S fuel =>
          let* (h, past, stop) := visit h past a in
          let* cs := children h a in
          if stop : bool then Val (h, past, S visited)
          else bfs fuel h (queue ++ cs) past (S visited)
      end
  end.
(** tree.h:1122-1144: a stack, its top is the head; the children are pushed last
    to first. *)
Fixpoint dfs (fuel : nat) (h : heap) (stack : list nat) (past : list nat) (visited : nat)
  : outcome (heap * list nat * nat) :=
  match stack with
  | [] => Val (h, past, visited)
  | a :: stack =>
      match fuel with
      | O => NoFuel
      | S fuel =>
          let* (h, past, stop) := visit h past a in
          let* cs := children h a in
          if stop : bool then Val (h, past, S visited)
          else dfs fuel h (cs ++ stack) past (S visited)
      end
  end.
End Walk.

(** Callbacks: what a user writes, not code of the repository. *)
Section Callbacks.
Context {V : Type} (v0 : V).
Notation heap := (heap V).

(** A callback that uses the node it got: any calls of its members, each decided by
    the answers of the earlier ones (BnodeNavModel.nstep), then the answer. *)
Inductive own_op : Type :=
| OSet (v : V) | OAdd (dir : bool) (v : V) | ODelete (dir : bool) | OClear | OSwap (dir : bool)
| OHas (dir : bool) | OCount | OGet.
Inductive body : Type := Answer (b : bool) | Do (o : own_op) (k : reply V -> body).
Definition on_node (a : nat) (o : own_op) : nop V :=
  match o with
  | OSet v => NSet a v
  | OAdd dir v => NAdd a dir v
  | ODelete dir => NDelete a dir
  | OClear => NClear a
  | OSwap dir => NSwap a dir
  | OHas dir => NHas a dir
  | OCount => NCount a
  | OGet => NGet a
  end.
Fixpoint run_body (h : heap) (a : nat) (p : body) : outcome (heap * bool) :=
  match p with
  | Answer b => Val (h, b)
  | Do o k => let* (h, r) := nstep v0 h (on_node a o) in run_body h a (k r)
  end.
(** The body may depend on the calls made before. *)
Definition own (f : list nat -> nat -> body) (past : list nat) (h : heap) (a : nat) : outcome (heap * bool) :=
  run_body h a (f past a).

(** A callback that deletes its own node: n.parent().delete_child(the side n is
    on), if n has a parent. *)
Definition remove (h : heap) (a : nat) : outcome heap :=
  let* b := has_parent h a in
  if b then
    let* p := parent_of h a in
    let* l := has_child h p false in
    let* dir := (if l then let* c := child_of h p false in Val (negb (Nat.eqb c a)) else Val true) in
    let* (h, _) := delete_child (S (length h)) h p dir in
    Val h
  else Val h.
Definition remove_self (past : list nat) (h : heap) (a : nat) : outcome (heap * bool) :=
  let* h := remove h a in Val (h, false).
(** A callback that deletes node [x] when it is called with node [y]. *)
Definition remove_other (x y : nat) (past : list nat) (h : heap) (a : nat) : outcome (heap * bool) :=
  if Nat.eqb a y then let* h := remove h x in Val (h, false) else Val (h, false).
End Callbacks.
Arguments own_op : clear implicits.
Arguments body : clear implicits.
