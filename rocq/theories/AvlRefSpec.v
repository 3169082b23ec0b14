(** What holding references to nodes of an avl_tree_t relies on. *)
Require Import List NArith Bool Arith.
Require Import Verif.Base Verif.AvlModel Verif.AvlSpec Verif.AvlRefModel.
Import ListNotations.

Section Spec.
Context {T : Type} (o : order T).
Notation tree := (tree T).
Notation avl := (avl T).

(** The live nodes with their values, in the order of in_order. *)
Fixpoint pairs (t : tree) : list (nat * T) :=
  match t with Leaf => [] | Node i _ _ v l r => pairs l ++ (i, v) :: pairs r end.
Definition nodes (s : avl) : list (nat * T) := pairs (root s).

(** Calls that delete no node. *)
Definition keeps (op : aop T) : Prop :=
  match op with
  | AInsert _ | AContains _ | ASize | AInOrder | ASetDup _ | AMove => True
  | _ => False
  end.
(** Calls that change nothing. *)
Definition reads (op : aop T) : Prop :=
  match op with AContains _ | ASize | AInOrder => True | _ => False end.

(** Every reference of [s] can be used in [s'] and has the same value. *)
Definition extends (s s' : avl) : Prop :=
  forall k v, get k s = Val v -> get k s' = Val v.

(** The calls that a callback makes all satisfy [P]. *)
Fixpoint does (P : aop T -> Prop) (p : body T) : Prop :=
  match p with Answer _ => True | Do op k => P op /\ forall r, does P (k r) end.

(** The callback never answers true. *)
Fixpoint goes_on (p : body T) : Prop :=
  match p with Answer b => b = false | Do _ k => forall r, goes_on (k r) end.

(** The nodes below (and with) a node in the order of the traversal, without
    callbacks that stop. *)
Fixpoint ids_in (t : tree) : list nat :=
  match t with Leaf => [] | Node i _ _ _ l r => ids_in l ++ i :: ids_in r end.
Fixpoint ids_pre (t : tree) : list nat :=
  match t with Leaf => [] | Node i _ _ _ l r => i :: ids_pre l ++ ids_pre r end.
Fixpoint ids_pos (t : tree) : list nat :=
  match t with Leaf => [] | Node i _ _ _ l r => ids_pos l ++ ids_pos r ++ [i] end.
(** Nodes at distance [d] from the root, left to right. *)
Fixpoint level (d : nat) (t : tree) : list nat :=
  match t with
  | Leaf => []
  | Node i _ _ _ l r => match d with 0 => [i] | S d => level d l ++ level d r end
  end.
Definition ids_bfs (t : tree) : list nat := flat_map (fun d => level d t) (seq 0 (depth t)).
Definition visits (w : kind) (t : tree) : list nat :=
  match w with
  | InOrder => ids_in t
  | PreOrder | Depth => ids_pre t
  | PosOrder => ids_pos t
  | Breadth => ids_bfs t
  end.

(** Callbacks: insert the next value; insert [x] at the node with value [a]; remove the
    value of the node. *)
Definition insert_next (next : T -> T) (past : list nat) (v : T) : body T := Do (AInsert (next v)) (fun _ => Answer false).
Definition insert_at (a x : T) (past : list nat) (v : T) : body T :=
  if eq_ o v a then Do (AInsert x) (fun _ => Answer false) else Answer false.
Definition remove_own (stop : bool) (past : list nat) (v : T) : body T := Do (ARemove v) (fun _ => Answer stop).

(** What a traversal with callbacks that delete nothing ends in: the nodes called
    are those of [calls], all still there; every older reference too. *)
Definition kept_all (s s' : avl) (calls : list nat) (n : nat) : Prop :=
  extends s s' /\ n = length calls /\ forall k, In k calls -> exists v, get k s' = Val v.

End Spec.
