(** Specification of the binary nodes: trees whose nodes carry their address. *)
Require Import List Arith.
Require Import Verif.Base Verif.BnodeModel.
Import ListNotations.

Section Spec.
Context {V : Type}.

Inductive atree : Type := ALeaf | ANode (a : nat) (v : V) (l r : atree).

Definition root (t : atree) : option nat := match t with ALeaf => None | ANode a _ _ _ => Some a end.
Fixpoint addrs (t : atree) : list nat :=
  match t with ALeaf => [] | ANode a _ l r => a :: addrs l ++ addrs r end.
Fixpoint depth (t : atree) : nat :=
  match t with ALeaf => 0 | ANode _ _ l r => S (Nat.max (depth l) (depth r)) end.

(** The heap has the tree [t]; its root has parent [p]. *)
Fixpoint has (h : heap V) (p : option nat) (t : atree) : Prop :=
  match t with
  | ALeaf => True
  | ANode a v l r =>
      nth_error h a = Some (Some (mkB p v (root l) (root r))) /\ has h (Some a) l /\ has h (Some a) r
  end.
(** A tree in the heap: no node is used twice. *)
Definition tree_at (h : heap V) (p : option nat) (t : atree) : Prop := has h p t /\ NoDup (addrs t).

(** Same shape, same values. *)
Fixpoint alike (t u : atree) : Prop :=
  match t, u with
  | ALeaf, ALeaf => True
  | ANode _ v l r, ANode _ w l' r' => v = w /\ alike l l' /\ alike r r'
  | _, _ => False
  end.

Definition apart (t u : atree) : Prop := forall x, In x (addrs t) -> ~ In x (addrs u).

(** The nodes of [gone] are deleted in [h'], all other old nodes are as before
    except those in [touched]. *)
Definition only (touched gone : list nat) (h h' : heap V) : Prop :=
  (forall x, In x gone -> nth_error h' x = Some None) /\
  (forall x, x < length h -> ~ In x gone -> ~ In x touched -> nth_error h' x = nth_error h x).

(** The root's child on a side ([true] is right), and the tree with that child,
    or the value of the root, replaced. *)
Definition child (dir : bool) (t : atree) : atree :=
  match t with ALeaf => ALeaf | ANode _ _ l r => if dir then r else l end.
Definition set_child (dir : bool) (t u : atree) : atree :=
  match t with ALeaf => ALeaf | ANode a v l r => if dir then ANode a v l u else ANode a v u r end.
Definition set_val (t : atree) (v : V) : atree :=
  match t with ALeaf => ALeaf | ANode a _ l r => ANode a v l r end.
(** The addresses of the roots of two trees. *)
Definition roots (l r : atree) : list nat :=
  match root l with None => [] | Some c => [c] end ++ match root r with None => [] | Some c => [c] end.
End Spec.
Arguments atree : clear implicits.
