(** Model of avl_tree_t (structures/binary_tree.h) on top of binary_node_t and
    tree_t (structures/tree.h).

    A node carries its identity (address), its [_parent] pointer, the stored
    [_height], the value and both children.  The tree shape itself models the
    [_left]/[_right] pointers: the code keeps them a tree (every function below
    moves whole subtrees).  Heights are [nat]; the tests on differences of
    size_t heights use 64-bit wrap-around. *)
Require Import List NArith Bool Arith.
Require Import Verif.Base.
Import ListNotations.
Local Open Scope outcome_scope.

Section Avl.
Context {T : Type}.
(** The operators [<], [>] and [==] of the value type. *)
Record order : Type := mkOrder {
  lt_ : T -> T -> bool;
  gt_ : T -> T -> bool;
  eq_ : T -> T -> bool
}.
Context (o : order).

(** binary_tree.h:20 and 432-434, tree.h:224-225 *)
Inductive tree : Type :=
| Leaf
| Node (id : nat) (parent : option nat) (h : nat) (v : T) (l r : tree).

(** binary_tree.h:932-935 *)
Definition ht (t : tree) : nat :=
  match t with Leaf => 0 | Node _ _ h _ _ _ => h end.

(** [height(a) - height(b) == d] on size_t *)
Definition diff (a b : nat) (d : N) : bool :=
  (wsub (N.of_nat a) (N.of_nat b) =? d)%N.

(** tree.h:217-219 *)
Definition set_parent (t : tree) (p : option nat) : tree :=
  match t with Leaf => Leaf | Node i _ h v l r => Node i p h v l r end.

(** binary_tree.h:942-955 *)
Definition rotate_right (other : tree) : tree :=
  match other with
  | Node j p h x (Node k q g y ll lr) r =>
      let other' := Node j (Some k) (S (Nat.max (ht lr) (ht r))) x lr r in
      Node k p (S (Nat.max (ht ll) (ht other'))) y ll other'
  | _ => other
  end.

(** binary_tree.h:962-975 *)
Definition rotate_left (other : tree) : tree :=
  match other with
  | Node j p h x l (Node k q g y rl rr) =>
      let other' := Node j (Some k) (S (Nat.max (ht l) (ht rl))) x l rl in
      Node k p (S (Nat.max (ht rr) (ht other'))) y other' rr
  | _ => other
  end.

(** binary_tree.h:983-987; the caller never passes null *)
Definition double_rotate_left (t : tree) : tree :=
  match t with
  | Node j p h x l r => rotate_left (Node j p h x l (rotate_right r))
  | Leaf => Leaf
  end.

(** binary_tree.h:995-999 *)
Definition double_rotate_right (t : tree) : tree :=
  match t with
  | Node j p h x l r => rotate_right (Node j p h x (rotate_left l) r)
  | Leaf => Leaf
  end.

(** binary_tree.h:787-808.  [father->_left->get()] with a null child is
    undefined. *)
Definition rotate_if_needed (father : tree) (value : T) : outcome tree :=
  match father with
  | Leaf => UB
  | Node j p _ x l r =>
      let father := Node j p (S (Nat.max (ht l) (ht r))) x l r in
      if diff (ht l) (ht r) 2 then
        match l with
        | Leaf => UB
        | Node _ _ _ y _ _ =>
            if lt_ o value y then Val (rotate_right father)
            else Val (double_rotate_right father)
        end
      else if diff (ht r) (ht l) 2 then
        match r with
        | Leaf => UB
        | Node _ _ _ y _ _ =>
            if gt_ o value y then Val (rotate_left father)
            else Val (double_rotate_left father)
        end
      else Val father
  end.

(** binary_tree.h:816-843 *)
Definition rotate_on_remove_if_needed (father : tree) : outcome tree :=
  match father with
  | Leaf => UB
  | Node j p _ x l r =>
      let father := Node j p (S (Nat.max (ht l) (ht r))) x l r in
      if diff (ht l) (ht r) 2 then
        match l with
        | Leaf => UB
        | Node _ _ _ _ ll lr =>
            if diff (ht ll) (ht lr) 1 then Val (rotate_right father)
            else Val (double_rotate_right father)
        end
      else if diff (ht r) (ht l) 2 then
        match r with
        | Leaf => UB
        | Node _ _ _ _ rl rr =>
            if diff (ht rr) (ht rl) 1 then Val (rotate_left father)
            else Val (double_rotate_left father)
        end
      else Val father
  end.

(** binary_tree.h:852-881 with insert_left 753-762 and insert_right 770-779
    (add_left 220-226, add_right 236-242, add_root tree.h:1033-1037).  [i] is
    the address of the new node.  The [Leaf] case is only reached for the root.
    The second result is the [inserted] flag; [_number_of_elements] is
    incremented exactly when a node is made, i.e. when the flag stays true. *)
Fixpoint insert_node (dup : bool) (i : nat) (value : T) (node : tree) : outcome (tree * bool) :=
  match node with
  | Leaf =>
      let* father := rotate_if_needed (Node i None 1 value Leaf Leaf) value in
      Val (father, true)
  | Node j p h x l r =>
      if lt_ o value x then
        let* (l', inserted) :=
          match l with
          | Leaf => Val (Node i (Some j) 1 value Leaf Leaf, true)
          | Node _ _ _ _ _ _ => insert_node dup i value l
          end in
        if inserted then
          let* father := rotate_if_needed (Node j p h x l' r) value in Val (father, true)
        else Val (Node j p h x l' r, false)
      else if gt_ o value x || dup then
        let* (r', inserted) :=
          match r with
          | Leaf => Val (Node i (Some j) 1 value Leaf Leaf, true)
          | Node _ _ _ _ _ _ => insert_node dup i value r
          end in
        if inserted then
          let* father := rotate_if_needed (Node j p h x l r') value in Val (father, true)
        else Val (Node j p h x l r', false)
      else Val (node, false)
  end.

(** binary_tree.h:1006-1009 and 1016-1019: value of the leftmost (rightmost)
    node of a non-null node. *)
Fixpoint leftmost (d : T) (t : tree) : T :=
  match t with Leaf => d | Node _ _ _ v l _ => leftmost v l end.
Fixpoint rightmost (d : T) (t : tree) : T :=
  match t with Leaf => d | Node _ _ _ v _ r => rightmost v r end.

(** binary_tree.h:921-923: [if (node) rotate_on_remove_if_needed(node)] *)
Definition rebalance (t : tree) : outcome tree :=
  match t with Leaf => Val Leaf | Node _ _ _ _ _ _ => rotate_on_remove_if_needed t end.

(** binary_tree.h:890-925; the flag is [removed].  [*temp] is converted to a T,
    so the successor's value is copied before the recursive call. *)
Fixpoint remove_node (value : T) (node : tree) : outcome (tree * bool) :=
  match node with
  | Leaf => Val (Leaf, false)
  | Node j p h x l r =>
      if lt_ o value x then
        let* (l', b) := remove_node value l in
        let* t := rebalance (Node j p h x l' r) in Val (t, b)
      else if gt_ o value x then
        let* (r', b) := remove_node value r in
        let* t := rebalance (Node j p h x l r') in Val (t, b)
      else
        match l, r with
        | Node _ _ _ _ _ _, Node _ _ _ y rl _ =>
            let m := leftmost y rl in
            let* (r', b) := remove_node m r in
            let* t := rebalance (Node j p h m l r') in Val (t, b)
        | Leaf, _ => let* t := rebalance (set_parent r p) in Val (t, true)
        | _, Leaf => let* t := rebalance (set_parent l p) in Val (t, true)
        end
  end.

(** binary_tree.h:728-745 *)
Fixpoint contains_node (value : T) (node : tree) : bool :=
  match node with
  | Leaf => false
  | Node _ _ _ x l r =>
      if lt_ o value x then contains_node value l
      else if gt_ o value x then contains_node value r
      else eq_ o value x
  end.

(** binary_tree.h:315-327 with a callback that never stops: the values in
    order of visit.  (Callbacks that stop: TraverseModel.v.) *)
Fixpoint in_order (t : tree) : list T :=
  match t with Leaf => [] | Node _ _ _ v l r => in_order l ++ v :: in_order r end.
(** the value returned by that call *)
Fixpoint visited (t : tree) : nat :=
  match t with Leaf => 0 | Node _ _ _ _ l r => 1 + visited l + visited r end.

(** binary_tree.h:457 and 1027-1028; [fresh] is the next unused address. *)
Record avl : Type := mkAvl {
  root  : tree;
  dup   : bool;
  count : N;
  fresh : nat
}.

(** binary_tree.h:471 *)
Definition avl_new : avl := mkAvl Leaf false 0 0.

(** binary_tree.h:479-484 *)
Definition insert (s : avl) (value : T) : outcome (avl * bool) :=
  let* (t, inserted) := insert_node (dup s) (fresh s) value (root s) in
  Val (mkAvl t (dup s) (if inserted then wadd (count s) 1 else count s) (S (fresh s)), inserted).

(** binary_tree.h:491-496 *)
Definition remove (s : avl) (value : T) : outcome (avl * bool) :=
  let* (t, removed) := remove_node value (root s) in
  Val (mkAvl t (dup s) (if removed then wsub (count s) 1 else count s) (fresh s), removed).

(** binary_tree.h:504-511 with a value that is not inside the tree *)
Fixpoint remove_all_loop (fuel : nat) (s : avl) (value : T) (removed_elements : N)
  : outcome (avl * N) :=
  match fuel with
  | O => NoFuel
  | S fuel =>
      let* (s', removed) := remove s value in
      if removed then remove_all_loop fuel s' value (wadd removed_elements 1)
      else Val (s', removed_elements)
  end.
Definition remove_all (s : avl) (value : T) : outcome (avl * N) :=
  remove_all_loop (S (visited (root s))) s value 0.

(** The value stored in the node at address [k], if that node is alive. *)
Fixpoint value_at (k : nat) (t : tree) : option T :=
  match t with
  | Leaf => None
  | Node i _ _ v l r =>
      if i =? k then Some v else
      match value_at k l with Some v => Some v | None => value_at k r end
  end.

(** binary_tree.h:504-511 with a reference to the value in node [k]: the
    reference is read again in every round.  Within one [remove] the value is
    only read before anything is changed. *)
Fixpoint remove_all_ref_loop (fuel : nat) (s : avl) (k : nat) (removed_elements : N)
  : outcome (avl * N) :=
  match fuel with
  | O => NoFuel
  | S fuel =>
      match value_at k (root s) with
      | None => UB
      | Some value =>
          let* (s', removed) := remove s value in
          if removed then remove_all_ref_loop fuel s' k (wadd removed_elements 1)
          else Val (s', removed_elements)
      end
  end.
Definition remove_all_ref (s : avl) (k : nat) : outcome (avl * N) :=
  remove_all_ref_loop (S (visited (root s))) s k 0.

(** binary_tree.h:517-520 *)
Definition height (s : avl) : nat := ht (root s).

(** binary_tree.h:526-538 *)
Definition left_most (s : avl) : outcome T :=
  match root s with Leaf => UB | Node _ _ _ v l _ => Val (leftmost v l) end.
Definition right_most (s : avl) : outcome T :=
  match root s with Leaf => UB | Node _ _ _ v _ r => Val (rightmost v r) end.

(** binary_tree.h:545-548 *)
Definition contains (s : avl) (value : T) : bool := contains_node value (root s).

(** binary_tree.h:609-612, tree.h:1053-1056 *)
Definition clear (s : avl) : avl := mkAvl Leaf (dup s) 0 (fresh s).

(** binary_tree.h:572-584 *)
Definition set_dup (s : avl) (b : bool) : avl := mkAvl (root s) b (count s) (fresh s).

(** binary_tree.h:154-171 on a new node: heights are not copied, the children
    point back to the copy.  Returns the copy and the next unused address. *)
Fixpoint copy_node (i : nat) (p : option nat) (t : tree) : tree * nat :=
  match t with
  | Leaf => (Leaf, i)
  | Node _ _ _ v l r =>
      let (l', i1) := copy_node (S i) (Some i) l in
      let (r', i2) := copy_node i1 (Some i) r in
      (Node i p 1 v l' r', i2)
  end.

(** tree.h:916-923 followed by the defaulted copy of the members of avl_tree_t:
    an empty source leaves the target's nodes where they are. *)
Definition copy_assign (target source : avl) : avl :=
  match root source with
  | Leaf => mkAvl (root target) (dup source) (count source) (fresh target)
  | _ =>
      let (t, i) := copy_node (fresh target) None (root source) in
      mkAvl t (dup source) (count source) i
  end.

(** tree.h:898-900 *)
Definition copy_construct (source : avl) : avl :=
  copy_assign (mkAvl Leaf false 0 (fresh source)) source.

(** tree.h:916-923 when both sides are the same object: [_root] is a new node
    holding a default value when [other.root()] is evaluated. *)
Definition self_assign (dflt : T) (s : avl) : avl :=
  match root s with
  | Leaf => s
  | _ => mkAvl (Node (fresh s) None 1 dflt Leaf Leaf) (dup s) (count s) (S (fresh s))
  end.

(** tree.h:930-935 and the defaulted move of avl_tree_t: (target, source). *)
Definition move_assign (source : avl) : avl * avl :=
  (source, mkAvl Leaf (dup source) (count source) (fresh source)).

(** Histories.  [ACopy] goes on with a copy-constructed tree, [AMove] with a
    move-constructed one. *)
Inductive aop : Type :=
| AInsert (v : T)
| ARemove (v : T)
| ARemoveAll (v : T)
| AContains (v : T)
| ASize
| AInOrder
| AClear
| ASetDup (b : bool)
| ACopy
| AMove.

Inductive aout : Type :=
| ABool (b : bool) | ANum (n : N) | AVals (l : list T) (visits : N) | ANone.

Definition astep (s : avl) (op : aop) : outcome (avl * aout) :=
  match op with
  | AInsert v => let* (s', b) := insert s v in Val (s', ABool b)
  | ARemove v => let* (s', b) := remove s v in Val (s', ABool b)
  | ARemoveAll v => let* (s', n) := remove_all s v in Val (s', ANum n)
  | AContains v => Val (s, ABool (contains s v))
  | ASize => Val (s, ANum (count s))
  | AInOrder => Val (s, AVals (in_order (root s)) (N.of_nat (visited (root s))))
  | AClear => Val (clear s, ANone)
  | ASetDup b => Val (set_dup s b, ANone)
  | ACopy => Val (copy_construct s, ANone)
  | AMove => Val (fst (move_assign s), ANone)
  end.

Fixpoint arun (s : avl) (ops : list aop) : outcome (avl * list aout) :=
  match ops with
  | [] => Val (s, [])
  | op :: ops =>
      let* (s', r) := astep s op in
      let* (s'', rs) := arun s' ops in
      Val (s'', r :: rs)
  end.

End Avl.
Arguments order : clear implicits.
Arguments tree : clear implicits.
Arguments avl : clear implicits.
Arguments aop : clear implicits.
Arguments aout : clear implicits.
