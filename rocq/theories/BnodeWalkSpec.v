(** Specification of traversals whose callback changes the nodes, on trees that
    carry addresses (BnodeSpec.v, BnodeNavSpec.v). *)
Require Import List Bool Arith.
Require Import Verif.Base Verif.BnodeModel Verif.BnodeSpec Verif.BnodeNavModel Verif.BnodeNavSpec Verif.BnodeWalkModel.
Import ListNotations.

Section Spec.
Context {V : Type}.
Notation atree := (atree V).
Notation heap := (heap V).
Definition callback : Type := list nat -> heap -> nat -> outcome (heap * bool).

(** What a callback does to the part of the tree below and including its node:
    [R answer before after].  Outside of this part the tree stays; other trees may
    change, come and go. *)
Definition effect : Type := bool -> atree -> atree -> Prop.
Definition does (R : effect) (cb : callback) : Prop :=
  forall past h t os a u, holds h (t :: os) -> sub a t = Some u ->
  exists h' b u' os', cb past h a = Val (h', b) /\ R b u u' /\ root u' = Some a /\
    holds h' (put a u' t :: os').
(** The same, but the callback may also delete its node from the node's parent. *)
Definition does_or_deletes (R : effect) (cb : callback) : Prop :=
  forall past h t os a u, holds h (t :: os) -> sub a t = Some u ->
  exists h' b u' os', cb past h a = Val (h', b) /\ R b u u' /\
    (root u' = Some a \/ u' = ALeaf /\ root t <> Some a) /\ holds h' (put a u' t :: os').

(** Effects: anything; new values and deleted branches; only new values. *)
Definition anything : effect := fun _ _ _ => True.
Fixpoint pruned (u u' : atree) {struct u'} : Prop :=
  match u' with
  | ALeaf => True
  | ANode b _ l' r' => match u with ALeaf => False | ANode a _ l r => a = b /\ pruned l l' /\ pruned r r' end
  end.
Fixpoint revalued (u u' : atree) : Prop :=
  match u, u' with
  | ALeaf, ALeaf => True
  | ANode a _ l r, ANode b _ l' r' => a = b /\ revalued l l' /\ revalued r r'
  | _, _ => False
  end.
Definition prunes : effect := fun _ u u' => pruned u u'.
(** ... and the callback never stops the traversal. *)
Definition values_only : effect := fun b u u' => b = false /\ revalued u u'.

(** [l] is [m] with elements left out. *)
Inductive part_of {A} : list A -> list A -> Prop :=
| part_nil : part_of [] []
| part_keep x l m : part_of l m -> part_of (x :: l) (x :: m)
| part_drop x l m : part_of l m -> part_of l (x :: m).

(** The walks: [walk R u calls u']. *)
Inductive pre_walk (R : effect) : atree -> list nat -> atree -> Prop :=
| pre_leaf : pre_walk R ALeaf [] ALeaf
| pre_stop u u' a : root u = Some a -> R true u u' -> pre_walk R u [a] u'
| pre_go u a v l r cs l' ds r' : root u = Some a -> R false u (ANode a v l r) ->
    pre_walk R l cs l' -> pre_walk R r ds r' -> pre_walk R u (a :: cs ++ ds) (ANode a v l' r').
Inductive in_walk (R : effect) : atree -> list nat -> atree -> Prop :=
| in_leaf : in_walk R ALeaf [] ALeaf
| in_stop a v l r cs l' u' : in_walk R l cs l' -> R true (ANode a v l' r) u' ->
    in_walk R (ANode a v l r) (cs ++ [a]) u'
| in_go a v l r cs l' v1 l1 r1 ds r' : in_walk R l cs l' -> R false (ANode a v l' r) (ANode a v1 l1 r1) ->
    in_walk R r1 ds r' -> in_walk R (ANode a v l r) (cs ++ a :: ds) (ANode a v1 l1 r').
Inductive pos_walk (R : effect) : atree -> list nat -> atree -> Prop :=
| pos_leaf : pos_walk R ALeaf [] ALeaf
| pos_go a v l r cs l' ds r' b u' : pos_walk R l cs l' -> pos_walk R r ds r' ->
    R b (ANode a v l' r') u' -> pos_walk R (ANode a v l r) (cs ++ ds ++ [a]) u'.
(** A search: the trees that are waiting, the calls.  [join waiting children]. *)
Definition kids (u : atree) : list atree :=
  match u with
  | ALeaf => []
  | ANode _ _ l r =>
      match l with ALeaf => [] | _ => [l] end ++ match r with ALeaf => [] | _ => [r] end
  end.
Inductive search_walk (join : list atree -> list atree -> list atree) (R : effect)
  : list atree -> list nat -> Prop :=
| search_nil : search_walk join R [] []
| search_stop u u' q a : root u = Some a -> R true u u' -> search_walk join R (u :: q) [a]
| search_go u u' q a cs : root u = Some a -> R false u u' -> root u' = Some a ->
    search_walk join R (join q (kids u')) cs -> search_walk join R (u :: q) (a :: cs).
Definition bfs_walk := search_walk (fun q cs => q ++ cs).
Definition dfs_walk := search_walk (fun q cs => cs ++ q).

(** The orders; [addrs] is pre-order. *)
Fixpoint inorder (t : atree) : list nat :=
  match t with ALeaf => [] | ANode a _ l r => inorder l ++ a :: inorder r end.
Fixpoint postorder (t : atree) : list nat :=
  match t with ALeaf => [] | ANode a _ l r => postorder l ++ postorder r ++ [a] end.

(** The nodes at distance [k] below the root, from left to right. *)
Fixpoint level (k : nat) (t : atree) : list nat :=
  match t with
  | ALeaf => []
  | ANode a _ l r => match k with 0 => [a] | S k => level k l ++ level k r end
  end.
Definition level_order (t : atree) : list nat := flat_map (fun k => level k t) (seq 0 (depth t)).

(** Callbacks that add no node; that only change values and never stop. *)
Fixpoint adds_none (p : body V) : Prop :=
  match p with
  | Answer _ => True
  | Do o k => match o with OAdd _ _ => False | _ => True end /\ forall r, adds_none (k r)
  end.
Fixpoint sets_only (p : body V) : Prop :=
  match p with
  | Answer b => b = false
  | Do o k => match o with OSet _ | OSwap _ | OHas _ | OCount | OGet => True | _ => False end /\
              forall r, sets_only (k r)
  end.
(** A callback that makes sure that its node has a child on this side. *)
Definition grows (dir : bool) : effect := fun b _ u' => b = false /\ child dir u' <> ALeaf.
Definition grow (dir : bool) (v : V) : list nat -> nat -> body V :=
  fun _ _ => Do (OAdd dir v) (fun _ => Answer false).

End Spec.
Arguments callback : clear implicits.
Arguments effect : clear implicits.
