(** Model of the traversals of structures/tree.h and structures/binary_tree.h.

    A callback decides on the node it is given and on all calls made before it
    (so it may keep state); it does not change the tree.  A node is handed to it
    as the whole subtree below it.  Every traversal returns the list of calls
    made, oldest first, and the number it returns in the code. *)
Require Import List NArith Bool Arith.
Require Import Verif.Base Verif.AvlModel.
Import ListNotations.

Section Traverse.
Context {V : Type}.

(** binary_tree.h:20, 433-434: a node with [_left] and [_right]. *)
Inductive btree : Type :=
| BLeaf
| BNode (v : V) (l r : btree).

(** tree.h:229, 848: a node with its vector [_children] of nodes and nulls. *)
Inductive ktree : Type := KNode (v : V) (slots : list (option ktree)).

(** The non-null entries of [_children]. *)
Definition present (slots : list (option ktree)) : list ktree :=
  flat_map (fun o => match o with Some t => [t] | None => [] end) slots.
Definition slots_of (t : ktree) : list (option ktree) := match t with KNode _ s => s end.
Definition kids (t : ktree) : list ktree := present (slots_of t).

(** binary_tree.h:428-431: children() of a binary node has both slots. *)
Fixpoint of_btree (t : btree) : option ktree :=
  match t with BLeaf => None | BNode v l r => Some (KNode v [of_btree l; of_btree r]) end.

(** *** Binary nodes *)
Section Binary.
Variable cb : list btree -> btree -> bool.

(** binary_tree.h:315-327 (const: 372-384); the null test [has_left()] is the
    leaf case. *)
Fixpoint in_order (t : btree) (past : list btree) : list btree * nat :=
  match t with
  | BLeaf => (past, 0)
  | BNode v l r =>
      let (past, n) := in_order l past in
      let stop := cb past t in
      let past := past ++ [t] in
      if stop then (past, 1 + n)
      else let (past, m) := in_order r past in (past, 1 + n + m)
  end.

(** binary_tree.h:334-346 (const: 391-403) *)
Fixpoint pre_order (t : btree) (past : list btree) : list btree * nat :=
  match t with
  | BLeaf => (past, 0)
  | BNode v l r =>
      let stop := cb past t in
      let past := past ++ [t] in
      if stop then (past, 1)
      else
        let (past, n) := pre_order l past in
        let (past, m) := pre_order r past in (past, 1 + n + m)
  end.

(** binary_tree.h:353-364 (const: 410-421): the answer of the callback is not
    used. *)
Fixpoint pos_order (t : btree) (past : list btree) : list btree * nat :=
  match t with
  | BLeaf => (past, 0)
  | BNode v l r =>
      let (past, n) := pos_order l past in
      let (past, m) := pos_order r past in
      let _ := cb past t in
      (past ++ [t], 1 + n + m)
  end.
End Binary.

(** *** k-ary nodes *)
Section Kary.
Variable cb : list ktree -> ktree -> bool.

(** tree.h:701-729 (const: 778-803).  The third component is the static
    variable [recursion_break] when the call returns; every call sets it to
    false first.  [calls] is a size_t that wraps. *)
Fixpoint kin_order (t : ktree) (past : list ktree) : list ktree * nat * bool :=
  match t with
  | KNode v slots =>
      match slots with
      | [] => (past ++ [t], 1, false)
      | _ =>
          (fix loop (s : list (option ktree)) (calls : N) (past : list ktree) (visited : nat)
             : list ktree * nat * bool :=
             match s with
             | [] => (past, visited, false)
             | c :: s =>
                 let '(past, visited, brk) :=
                   match c with
                   | None => (past, visited, false)
                   | Some c => let '(past, n, brk) := kin_order c past in (past, visited + n, brk)
                   end in
                 if brk then (past, visited, true)
                 else if (calls =? 0)%N then loop s (wsub calls 1) past visited
                 else if cb past t then (past ++ [t], visited, true)
                 else loop s (wsub calls 1) (past ++ [t]) visited
             end) slots (N.max (wsub (sizeN slots) 1) 1) past 1
      end
  end.

(** tree.h:736-748 (const: 810-822) *)
Fixpoint kpre_order (t : ktree) (past : list ktree) : list ktree * nat :=
  match t with
  | KNode v slots =>
      let stop := cb past t in
      let past := past ++ [t] in
      if stop then (past, 1)
      else
        (fix loop (s : list (option ktree)) (past : list ktree) (visited : nat) :=
           match s with
           | [] => (past, visited)
           | None :: s => loop s past visited
           | Some c :: s => let (past, n) := kpre_order c past in loop s past (visited + n)
           end) slots past 1
  end.

(** tree.h:755-768 (const: 829-841) *)
Fixpoint kpos_order (t : ktree) (past : list ktree) : list ktree * nat :=
  match t with
  | KNode v slots =>
      let (past, visited) :=
        (fix loop (s : list (option ktree)) (past : list ktree) (visited : nat) :=
           match s with
           | [] => (past, visited)
           | None :: s => loop s past visited
           | Some c :: s => let (past, n) := kpos_order c past in loop s past (visited + n)
           end) slots past 1 in
      let _ := cb past t in
      (past ++ [t], visited)
  end.

(** tree.h:1064-1084 (const: 1093-1113).  The recursion budget of the model is
    the number of nodes, see [bfs]. *)
Fixpoint bfs_loop (fuel : nat) (queue : list ktree) (past : list ktree) (visited : nat)
  : outcome (list ktree * nat) :=
  match queue with
  | [] => Val (past, visited)
  | node :: queue =>
      match fuel with
      | O => NoFuel
      | S fuel =>
          let stop := cb past node in
          let past := past ++ [node] in
          let queue := queue ++ kids node in
          if stop then Val (past, S visited) else bfs_loop fuel queue past (S visited)
      end
  end.

(** tree.h:1122-1144 (const: 1153-1175); the top of the stack is the head.
    The children are pushed last to first. *)
Fixpoint dfs_loop (fuel : nat) (stack : list ktree) (past : list ktree) (visited : nat)
  : outcome (list ktree * nat) :=
  match stack with
  | [] => Val (past, visited)
  | node :: stack =>
      match fuel with
      | O => NoFuel
      | S fuel =>
          let stop := cb past node in
          let past := past ++ [node] in
          let stack := fold_left (fun st c => c :: st) (rev (kids node)) stack in
          if stop then Val (past, S visited) else dfs_loop fuel stack past (S visited)
      end
  end.

(** Number of nodes. *)
Fixpoint knodes (t : ktree) : nat :=
  match t with
  | KNode _ slots => S (fold_right (fun c n => match c with Some c => knodes c + n | None => n end) 0 slots)
  end.

(** tree.h:1064-1084, 1122-1144: an empty tree calls nothing. *)
Definition bfs (root : option ktree) : outcome (list ktree * nat) :=
  match root with None => Val ([], 0) | Some t => bfs_loop (knodes t) [t] [] 0 end.
Definition dfs (root : option ktree) : outcome (list ktree * nat) :=
  match root with None => Val ([], 0) | Some t => dfs_loop (knodes t) [t] [] 0 end.
End Kary.

End Traverse.
Arguments btree : clear implicits.
Arguments ktree : clear implicits.

(** The binary tree inside an AVL tree (binary_tree.h:433-434). *)
Fixpoint of_avl {T} (t : tree T) : btree T :=
  match t with Leaf => BLeaf | Node _ _ _ v l r => BNode v (of_avl l) (of_avl r) end.
