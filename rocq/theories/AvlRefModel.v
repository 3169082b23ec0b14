(** References to nodes of an avl_tree_t (structures/binary_tree.h), and its
    traversals with a callback that uses the tree.

    A reference is the address of a node; using it when the node is deleted is
    undefined.  The tree and its calls are those of AvlModel.v. *)
Require Import List NArith Bool Arith.
Require Import Verif.Base Verif.AvlModel.
Import ListNotations.
Local Open Scope outcome_scope.

Section Ref.
Context {T : Type} (o : order T).
Notation tree := (tree T).
Notation avl := (avl T).

(** The node at address [k] with everything below it, if it is alive. *)
Fixpoint sub (k : nat) (t : tree) : option tree :=
  match t with
  | Leaf => None
  | Node i _ _ _ l r =>
      if i =? k then Some t else
      match sub k l with Some u => Some u | None => sub k r end
  end.
Definition load (k : nat) (s : avl) : outcome tree :=
  match sub k (root s) with Some u => Val u | None => UB end.

Definition addr_of (t : tree) : option nat :=
  match t with Leaf => None | Node i _ _ _ _ _ => Some i end.
Definition side (dir : bool) (t : tree) : tree :=
  match t with Leaf => Leaf | Node _ _ _ _ l r => if dir then r else l end.

(** tree.h:178-204: get() and the conversions of a node *)
Definition get (k : nat) (s : avl) : outcome T :=
  match value_at k (root s) with Some v => Val v | None => UB end.
(** binary_tree.h:554-566, tree.h:942-961: root() *)
Definition root_ref (s : avl) : outcome nat :=
  match root s with Leaf => Exn NullNode | Node i _ _ _ _ _ => Val i end.
(** binary_tree.h:1006-1019 on nodes *)
Fixpoint outermost (dir : bool) (i : nat) (t : tree) : nat :=
  match t with Leaf => i | Node j _ _ _ l r => outermost dir j (if dir then r else l) end.
(** binary_tree.h:526-538: left_most(), right_most() *)
Definition most_ref (dir : bool) (s : avl) : outcome nat :=
  match root s with Leaf => UB | Node i _ _ _ l r => Val (outermost dir i (if dir then r else l)) end.
(** binary_tree.h:44-108: left(), right() of a node *)
Definition child_ref (k : nat) (dir : bool) (s : avl) : outcome nat :=
  let* u := load k s in
  match addr_of (side dir u) with Some c => Val c | None => Exn NullNode end.

(** ** Traversals *)
Section Walk.
(** The callback: the calls made before (oldest first), the tree, the calls of the
    tree that are left ([astep] below), the node. *)
Definition state : Type := (avl * nat)%type.
Variable cb : list nat -> state -> nat -> outcome (state * bool).

Definition walk_t : Type := state -> list nat -> nat -> outcome (state * list nat * nat).
(** has_left() and left(), has_right() and right() *)
Definition descend (walk : walk_t) (s : state) (past : list nat) (k : nat) (dir : bool)
  : outcome (state * list nat * nat) :=
  let* u := load k (fst s) in
  match addr_of (side dir u) with None => Val (s, past, 0) | Some c => walk s past c end.
Definition visit (s : state) (past : list nat) (k : nat) : outcome (state * list nat * bool) :=
  let* (s, stop) := cb past s k in Val (s, past ++ [k], stop).

(** binary_tree.h:372-384, 620-634 *)
Fixpoint in_order_at (fuel : nat) (s : state) (past : list nat) (k : nat) : outcome (state * list nat * nat) :=
  match fuel with
  | O => NoFuel
  | S fuel =>
      let* (s, past, n) := descend (in_order_at fuel) s past k false in
      let* (s, past, stop) := visit s past k in
      if stop : bool then Val (s, past, 1 + n)
      else
        let* (s, past, m) := descend (in_order_at fuel) s past k true in
        Val (s, past, 1 + n + m)
  end.
(** binary_tree.h:391-403, 641-655 *)
Fixpoint pre_order_at (fuel : nat) (s : state) (past : list nat) (k : nat) : outcome (state * list nat * nat) :=
  match fuel with
  | O => NoFuel
  | S fuel =>
      let* (s, past, stop) := visit s past k in
      if stop : bool then Val (s, past, 1)
      else
        let* (s, past, n) := descend (pre_order_at fuel) s past k false in
        let* (s, past, m) := descend (pre_order_at fuel) s past k true in
        Val (s, past, 1 + n + m)
  end.
(** binary_tree.h:410-421, 662-676 *)
Fixpoint pos_order_at (fuel : nat) (s : state) (past : list nat) (k : nat) : outcome (state * list nat * nat) :=
  match fuel with
  | O => NoFuel
  | S fuel =>
      let* (s, past, n) := descend (pos_order_at fuel) s past k false in
      let* (s, past, m) := descend (pos_order_at fuel) s past k true in
      let* (s, past, _) := visit s past k in
      Val (s, past, 1 + n + m)
  end.
(** binary_tree.h:428-431 *)
Definition children_at (s : state) (k : nat) : outcome (list nat) :=
  let* u := load k (fst s) in
  Val (match addr_of (side false u) with Some c => [c] | None => [] end ++
       match addr_of (side true u) with Some c => [c] | None => [] end).
(** tree.h:1095-1114 and 1153-1175 (the children pushed last to first) *)
Fixpoint search (bfs : bool) (fuel : nat) (s : state) (queue past : list nat) (n : nat)
  : outcome (state * list nat * nat) :=
  match queue with
  | [] => Val (s, past, n)
  | k :: queue =>
      match fuel with
      | O => NoFuel
      | S fuel =>
          let* (s, past, stop) := visit s past k in
          let* cs := children_at s k in
          if stop : bool then Val (s, past, S n)
          else search bfs fuel s (if bfs then queue ++ cs else cs ++ queue) past (S n)
      end
  end.

Inductive kind : Type := InOrder | PreOrder | PosOrder | Breadth | Depth.
(** binary_tree.h:620-718, tree.h:1003-1027: the whole tree *)
Definition traverse (w : kind) (fuel : nat) (s : state) : outcome (state * list nat * nat) :=
  match addr_of (root (fst s)) with
  | None => Val (s, [], 0)
  | Some k =>
      match w with
      | InOrder => in_order_at fuel s [] k
      | PreOrder => pre_order_at fuel s [] k
      | PosOrder => pos_order_at fuel s [] k
      | Breadth => search true fuel s [k] [] 0
      | Depth => search false fuel s [k] [] 0
      end
  end.
End Walk.

(** What a user writes as callback: calls of the tree, each decided by the value of
    the node, the calls of the callback before, and the answers so far. *)
Inductive body : Type := Answer (b : bool) | Do (op : aop T) (k : aout T -> body).
(** The number of calls is counted, so that heights do not reach 2^63. *)
Fixpoint run_body (m : nat) (s : avl) (p : body) {struct p} : outcome (state * bool) :=
  match p with
  | Answer b => Val ((s, m), b)
  | Do op k =>
      match m with
      | O => NoFuel
      | S m => let* (s, r) := astep o s op in run_body m s (k r)
      end
  end.
Definition uses (f : list nat -> T -> body) (past : list nat) (s : state) (k : nat) : outcome (state * bool) :=
  let* v := get k (fst s) in run_body (snd s) (fst s) (f past v).

End Ref.
Arguments body : clear implicits.
Arguments state : clear implicits.
