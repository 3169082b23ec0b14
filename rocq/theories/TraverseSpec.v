(** Specification of the traversals. *)
Require Import List Arith NArith.
Require Import Verif.Base Verif.TraverseModel.
Import ListNotations.

(** The calls made when [order] is walked and the walk ends right after the
    first call that answers true. *)
Fixpoint until_true {A} (cb : list A -> A -> bool) (past order : list A) : list A :=
  match order with
  | [] => past
  | x :: order => if cb past x then past ++ [x] else until_true cb (past ++ [x]) order
  end.

(** [l] is obtained from [m] by leaving out elements. *)
Inductive sub {A} : list A -> list A -> Prop :=
| sub_nil : sub [] []
| sub_keep x l m : sub l m -> sub (x :: l) (x :: m)
| sub_drop x l m : sub l m -> sub l (x :: m).

Definition never {A} : list A -> A -> bool := fun _ _ => false.

Section Spec.
Context {V : Type}.

(** Orders on binary trees: nodes as subtrees. *)
Fixpoint inorder (t : btree V) : list (btree V) :=
  match t with BLeaf => [] | BNode _ l r => inorder l ++ [t] ++ inorder r end.
Fixpoint preorder (t : btree V) : list (btree V) :=
  match t with BLeaf => [] | BNode _ l r => [t] ++ preorder l ++ preorder r end.
Fixpoint postorder (t : btree V) : list (btree V) :=
  match t with BLeaf => [] | BNode _ l r => postorder l ++ postorder r ++ [t] end.
Fixpoint bcount (t : btree V) : nat :=
  match t with BLeaf => 0 | BNode _ l r => bcount l + 1 + bcount r end.

(** The same orders, every node with its proper ancestors, nearest first; true:
    the node is on the right of that ancestor. *)
Fixpoint pre_anc (anc : list (btree V * bool)) (t : btree V) : list (list (btree V * bool) * btree V) :=
  match t with
  | BLeaf => []
  | BNode _ l r => [(anc, t)] ++ pre_anc ((t, false) :: anc) l ++ pre_anc ((t, true) :: anc) r
  end.
Fixpoint in_anc (anc : list (btree V * bool)) (t : btree V) : list (list (btree V * bool) * btree V) :=
  match t with
  | BLeaf => []
  | BNode _ l r => in_anc ((t, false) :: anc) l ++ [(anc, t)] ++ in_anc ((t, true) :: anc) r
  end.

(** k-ary trees. *)
Definition kvalue (t : ktree V) : V := match t with KNode v _ => v end.
Definition over_slots {A} (f : ktree V -> list A) (s : list (option (ktree V))) : list (list A) :=
  map (fun c => match c with Some c => f c | None => [] end) s.
(** The children of a node. *)
Definition children (t : ktree V) : list (ktree V) :=
  match t with KNode _ s => concat (over_slots (fun c => [c]) s) end.
Fixpoint kpre (t : ktree V) : list (ktree V) :=
  match t with KNode _ s => t :: concat (over_slots kpre s) end.
Fixpoint kpost (t : ktree V) : list (ktree V) :=
  match t with KNode _ s => concat (over_slots kpost s) ++ [t] end.
(** The node after its only child slot, or between any two neighbouring slots. *)
Definition between {A} (x : A) (l : list (list A)) : list A :=
  match l with
  | [] => [x]
  | [a] => a ++ [x]
  | a :: l => a ++ concat (map (cons x) l)
  end.
Fixpoint kin (t : ktree V) : list (ktree V) :=
  match t with KNode _ s => between t (over_slots kin s) end.
Fixpoint kcount (t : ktree V) : nat :=
  match t with KNode _ s => 1 + list_sum (map (fun c => match c with Some c => kcount c | None => 0 end) s) end.
Fixpoint kdepth (t : ktree V) : nat :=
  match t with KNode _ s => 1 + list_max (map (fun c => match c with Some c => kdepth c | None => 0 end) s) end.
(** The number of slots of every node is a size_t. *)
Fixpoint fits (t : ktree V) : Prop :=
  match t with
  | KNode _ s =>
      (N.of_nat (length s) < two64)%N /\
      fold_right (fun c P => match c with Some c => fits c /\ P | None => P end) True s
  end.
(** The nodes at distance [k] below the root, left to right. *)
Fixpoint level (k : nat) (t : ktree V) : list (ktree V) :=
  match k with 0 => [t] | S k => flat_map (level k) (children t) end.
Definition level_order (t : ktree V) : list (ktree V) :=
  flat_map (fun k => level k t) (seq 0 (kdepth t)).

(** The binary tree as a k-ary one. *)
Fixpoint as_kary (t : btree V) : option (ktree V) :=
  match t with BLeaf => None | BNode v l r => Some (KNode v [as_kary l; as_kary r]) end.
End Spec.
