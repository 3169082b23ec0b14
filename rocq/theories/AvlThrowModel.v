(** avl_tree_t (structures/binary_tree.h) once more, now with the exceptions
    that can leave its member functions.

    A call is given a list of booleans, one for every point of the call at
    which something can throw: a comparison of two values, and a copy of a value
    (together with the allocation that goes with it).  [true] means that this
    point throws, provided that [risk] says that points of this kind can; when
    the list is used up nothing throws any more.  Destructors never throw.  An
    assignment of a value that throws leaves the old value. *)
Require Import List NArith Bool Arith.
Require Import Verif.Base Verif.AvlModel.
Import ListNotations.

Inductive kind : Type := Compare | Copy.

(** How a piece of code ends: with a result and the points not used, with an
    exception that leaves the given state behind, or undefined. *)
Inductive ending (S A : Type) : Type :=
| Done (a : A) (rest : list bool)
| Threw (s : S)
| Undef.
Arguments Done {S A}.
Arguments Threw {S A}.
Arguments Undef {S A}.

Section AvlThrow.
Context {T : Type} (o : order T).
(** The value of a default constructed T (binary_tree.h:118). *)
Context (dflt : T).
Context (risk : kind -> bool).
Notation tree := (tree T).
Notation avl := (avl T).

(** A point that can throw. *)
Definition point {S A} (k : kind) (fs : list bool) (thrown : S)
    (go_on : list bool -> ending S A) : ending S A :=
  match fs with
  | [] => go_on []
  | f :: fs => if f && risk k then Threw thrown else go_on fs
  end.

(** binary_tree.h:787-808: the new height is stored before the comparison. *)
Definition trotate_if_needed (father : tree) (value : T) (fs : list bool) : ending tree tree :=
  match father with
  | Leaf => Undef
  | Node j p _ x l r =>
      let father := Node j p (S (Nat.max (ht l) (ht r))) x l r in
      if diff (ht l) (ht r) 2 then
        match l with
        | Leaf => Undef
        | Node _ _ _ y _ _ =>
            point Compare fs father (fun fs =>
            if lt_ o value y then Done (rotate_right father) fs
            else Done (double_rotate_right father) fs)
        end
      else if diff (ht r) (ht l) 2 then
        match r with
        | Leaf => Undef
        | Node _ _ _ y _ _ =>
            point Compare fs father (fun fs =>
            if gt_ o value y then Done (rotate_left father) fs
            else Done (double_rotate_left father) fs)
        end
      else Done father fs
  end.

(** binary_tree.h:875-880: [if (inserted) rotate_if_needed(father, value)]; an
    exception skips [node = father], the pointer keeps the node it had. *)
Definition finish_insert (father : tree) (value : T) (inserted : bool) (fs : list bool)
  : ending (tree * bool) (tree * bool) :=
  if inserted then
    match trotate_if_needed father value fs with
    | Done t fs => Done (t, true) fs
    | Threw t => Threw (t, true)
    | Undef => Undef
    end
  else Done (father, false) fs.

(** binary_tree.h:852-881 with insert_left 753-762 and insert_right 770-779; the
    flag left behind by an exception says whether the new node was made (and
    counted, binary_tree.h:760, 777, 871). *)
Fixpoint tinsert_node (dup : bool) (i : nat) (value : T) (node : tree) (fs : list bool)
  : ending (tree * bool) (tree * bool) :=
  match node with
  | Leaf =>
      point Copy fs (Leaf, false) (fun fs =>
      finish_insert (Node i None 1 value Leaf Leaf) value true fs)
  | Node j p h x l r =>
      let below (c : tree) (fs : list bool) :=
        match c with
        | Leaf => point Copy fs (Leaf, false) (fun fs => Done (Node i (Some j) 1 value Leaf Leaf, true) fs)
        | Node _ _ _ _ _ _ => tinsert_node dup i value c fs
        end in
      point Compare fs (node, false) (fun fs =>
      if lt_ o value x then
        match below l fs with
        | Done (l', inserted) fs => finish_insert (Node j p h x l' r) value inserted fs
        | Threw (l', made) => Threw (Node j p h x l' r, made)
        | Undef => Undef
        end
      else point Compare fs (node, false) (fun fs =>
      if gt_ o value x || dup then
        match below r fs with
        | Done (r', inserted) fs => finish_insert (Node j p h x l r') value inserted fs
        | Threw (r', made) => Threw (Node j p h x l r', made)
        | Undef => Undef
        end
      else Done (node, false) fs))
  end.

(** binary_tree.h:921-923 *)
Definition trebalance {S} (t : tree) (removed : bool) (fs : list bool) : ending S (tree * bool) :=
  match rebalance t with Val t => Done (t, removed) fs | _ => Undef end.

(** binary_tree.h:890-925.  Line 904 converts [*temp] to a T and assigns it, line
    905 converts it once more; nothing can throw once the node is deleted, so
    that an exception leaves [_number_of_elements] alone. *)
Fixpoint tremove_node (value : T) (node : tree) (fs : list bool) : ending tree (tree * bool) :=
  match node with
  | Leaf => Done (Leaf, false) fs
  | Node j p h x l r =>
      point Compare fs node (fun fs =>
      if lt_ o value x then
        match tremove_node value l fs with
        | Done (l', b) fs => trebalance (Node j p h x l' r) b fs
        | Threw l' => Threw (Node j p h x l' r)
        | Undef => Undef
        end
      else point Compare fs node (fun fs =>
      if gt_ o value x then
        match tremove_node value r fs with
        | Done (r', b) fs => trebalance (Node j p h x l r') b fs
        | Threw r' => Threw (Node j p h x l r')
        | Undef => Undef
        end
      else
        match l, r with
        | Node _ _ _ _ _ _, Node _ _ _ y rl _ =>
            let m := leftmost y rl in
            point Copy fs node (fun fs =>
            point Copy fs node (fun fs =>
            point Copy fs (Node j p h m l r) (fun fs =>
            match tremove_node m r fs with
            | Done (r', b) fs => trebalance (Node j p h m l r') b fs
            | Threw r' => Threw (Node j p h m l r')
            | Undef => Undef
            end)))
        | Leaf, _ => trebalance (set_parent r p) true fs
        | _, Leaf => trebalance (set_parent l p) true fs
        end))
  end.

(** binary_tree.h:728-745 *)
Fixpoint tcontains_node (value : T) (node : tree) (fs : list bool) : ending unit bool :=
  match node with
  | Leaf => Done false fs
  | Node _ _ _ x l r =>
      point Compare fs tt (fun fs =>
      if lt_ o value x then tcontains_node value l fs
      else point Compare fs tt (fun fs =>
      if gt_ o value x then tcontains_node value r fs
      else point Compare fs tt (fun fs => Done (eq_ o value x) fs)))
  end.

(** binary_tree.h:479-484 *)
Definition tinsert (s : avl) (value : T) (fs : list bool) : ending avl (avl * bool) :=
  let state (t : tree) (made : bool) :=
    mkAvl t (dup s) (if made then wadd (count s) 1 else count s) (S (fresh s)) in
  match tinsert_node (dup s) (fresh s) value (root s) fs with
  | Done (t, inserted) fs => Done (state t inserted, inserted) fs
  | Threw (t, made) => Threw (state t made)
  | Undef => Undef
  end.

(** binary_tree.h:491-496 *)
Definition tremove (s : avl) (value : T) (fs : list bool) : ending avl (avl * bool) :=
  match tremove_node value (root s) fs with
  | Done (t, removed) fs =>
      Done (mkAvl t (dup s) (if removed then wsub (count s) 1 else count s) (fresh s), removed) fs
  | Threw t => Threw (mkAvl t (dup s) (count s) (fresh s))
  | Undef => Undef
  end.

(** binary_tree.h:504-511; the loop ends after [fuel] rounds at the latest (the
    fuel is one more than the number of nodes, see [remove_all]). *)
Fixpoint tremove_all_loop (fuel : nat) (s : avl) (value : T) (removed_elements : N) (fs : list bool)
  : ending avl (avl * N) :=
  match fuel with
  | O => Undef
  | S fuel =>
      match tremove s value fs with
      | Done (s', removed) fs =>
          if removed then tremove_all_loop fuel s' value (wadd removed_elements 1) fs
          else Done (s', removed_elements) fs
      | Threw s' => Threw s'
      | Undef => Undef
      end
  end.
Definition tremove_all (s : avl) (value : T) (fs : list bool) : ending avl (avl * N) :=
  tremove_all_loop (S (visited (root s))) s value 0 fs.

(** binary_tree.h:154-171 on the new node [i], which holds a default value, has no
    parent yet and no children: the children are made and copied first, the
    value last.  Second result: the next unused address. *)
Fixpoint tcopy_into (i : nat) (other : tree) (fs : list bool) : ending (tree * nat) (tree * nat) :=
  match other with
  | Leaf => Undef
  | Node _ _ _ v l r =>
      let child (c : tree) (next : nat) (so_far : tree -> tree) (fs : list bool)
          (go_on : tree -> nat -> list bool -> ending (tree * nat) (tree * nat)) :=
        match c with
        | Leaf => go_on Leaf next fs
        | Node _ _ _ _ _ _ =>
            point Copy fs (so_far Leaf, next) (fun fs =>
            match tcopy_into next c fs with
            | Done (c', next) fs => go_on (set_parent c' (Some i)) next fs
            | Threw (c', next) => Threw (so_far c', next)
            | Undef => Undef
            end)
        end in
      child l (S i) (fun l' => Node i None 1 dflt l' Leaf) fs (fun l' next fs =>
      child r next (fun r' => Node i None 1 dflt l' r') fs (fun r' next fs =>
      point Copy fs (Node i None 1 dflt l' r', next) (fun fs =>
      Done (Node i None 1 v l' r', next) fs)))
  end.

(** tree.h:916-923 and the members of avl_tree_t, which are copied after the
    base: an exception leaves [_allow_duplicates] and [_number_of_elements] of
    the target alone. *)
Definition tcopy_assign (target source : avl) (fs : list bool) : ending avl avl :=
  match root source with
  | Leaf => Done (mkAvl (root target) (dup source) (count source) (fresh target)) fs
  | Node _ _ _ _ _ _ =>
      point Copy fs target (fun fs =>
      match tcopy_into (fresh target) (root source) fs with
      | Done (t, i) fs => Done (mkAvl t (dup source) (count source) i) fs
      | Threw (t, i) => Threw (mkAvl t (dup target) (count target) i)
      | Undef => Undef
      end)
  end.

(** One call; the calls that are not above cannot throw.  [ACopy] goes on with a
    copy, or with the old tree if the constructor threw (tree.h:898-900; the
    nodes made so far are lost). *)
Definition tstep (s : avl) (op : aop T) (fs : list bool) : ending avl (avl * aout T) :=
  match op with
  | AInsert v =>
      match tinsert s v fs with Done (s', b) fs => Done (s', ABool b) fs | Threw s' => Threw s' | Undef => Undef end
  | ARemove v =>
      match tremove s v fs with Done (s', b) fs => Done (s', ABool b) fs | Threw s' => Threw s' | Undef => Undef end
  | ARemoveAll v =>
      match tremove_all s v fs with Done (s', n) fs => Done (s', ANum n) fs | Threw s' => Threw s' | Undef => Undef end
  | AContains v =>
      match tcontains_node v (root s) fs with Done b fs => Done (s, ABool b) fs | Threw _ => Threw s | Undef => Undef end
  | ACopy =>
      match tcopy_assign (mkAvl Leaf false 0 (fresh s)) s fs with
      | Done s' fs => Done (s', ANone) fs | Threw s' => Threw (mkAvl (root s) (dup s) (count s) (fresh s')) | Undef => Undef
      end
  | ASize | AInOrder | AClear | ASetDup _ | AMove =>
      match astep o s op with Val r => Done r fs | _ => Undef end
  end.

(** A program that catches what its calls throw: the answers, [None] for a call
    that threw. *)
Fixpoint trun (s : avl) (ops : list (aop T * list bool)) : outcome (avl * list (option (aout T))) :=
  match ops with
  | [] => Val (s, [])
  | (op, fs) :: ops =>
      match tstep s op fs with
      | Done (s', r) _ => let* (s'', rs) := trun s' ops in Val (s'', Some r :: rs)
      | Threw s' => let* (s'', rs) := trun s' ops in Val (s'', None :: rs)
      | Undef => UB
      end
  end.
End AvlThrow.
