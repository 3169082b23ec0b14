(** Specification of the ordered tree: a multiset given by the multiplicity of
    each value, computed from the history one value at a time. *)
Require Import List NArith Bool Arith Sorting.Sorted.
Require Import Verif.Base Verif.AvlModel.
Import ListNotations.

Section Spec.
Context {T : Type} (o : order T).

(** [<] is a total order, [>] its converse, [==] equality. *)
Record lawful : Prop := {
  gt_is_lt : forall a b, gt_ o a b = lt_ o b a;
  eq_is_eq : forall a b, eq_ o a b = true <-> a = b;
  lt_irrefl : forall a, lt_ o a a = false;
  lt_trans : forall a b c, lt_ o a b = true -> lt_ o b c = true -> lt_ o a c = true;
  lt_total : forall a b, lt_ o a b = true \/ a = b \/ lt_ o b a = true
}.

(** How often [v] occurs in a list. *)
Definition occ (v : T) (l : list T) : nat := length (filter (eq_ o v) l).
(** Non-decreasing. *)
Definition sorted : list T -> Prop := StronglySorted (fun a b => lt_ o b a = false).

(** Multiplicity of [v] after a history, starting from [n] with duplicates
    allowed iff [d]. *)
Fixpoint mult (d : bool) (n : nat) (v : T) (ops : list (aop T)) : nat :=
  match ops with
  | [] => n
  | op :: ops =>
      match op with
      | AInsert w => mult d (if eq_ o v w then (if d || (n =? 0) then S n else n) else n) v ops
      | ARemove w => mult d (if eq_ o v w then n - 1 else n) v ops
      | ARemoveAll w => mult d (if eq_ o v w then 0 else n) v ops
      | AClear => mult d 0 v ops
      | ASetDup b => mult b n v ops
      | _ => mult d n v ops
      end
  end.

Fixpoint dup_after (d : bool) (ops : list (aop T)) : bool :=
  match ops with
  | [] => d
  | ASetDup b :: ops => dup_after b ops
  | _ :: ops => dup_after d ops
  end.

(** Membership after a history that never allows duplicates. *)
Fixpoint member (b : bool) (v : T) (ops : list (aop T)) : bool :=
  match ops with
  | [] => b
  | op :: ops =>
      match op with
      | AInsert w => member (if eq_ o v w then true else b) v ops
      | ARemove w | ARemoveAll w => member (if eq_ o v w then false else b) v ops
      | AClear => member false v ops
      | _ => member b v ops
      end
  end.

Definition never_dup (op : aop T) : Prop := op <> ASetDup true.
Definition no_copy (op : aop T) : Prop := op <> ACopy.
(** Calls other than removals and copies. *)
Definition grows (op : aop T) : Prop :=
  match op with ARemove _ | ARemoveAll _ | ACopy => False | _ => True end.

(** Insertions and removals only. *)
Definition simple (op : aop T) : Prop :=
  match op with AInsert _ | ARemove _ => True | _ => False end.

(** Shape of the tree, independent of the stored heights. *)
Fixpoint depth (t : tree T) : nat :=
  match t with Leaf => 0 | Node _ _ _ _ l r => S (Nat.max (depth l) (depth r)) end.

Fixpoint balanced (t : tree T) : Prop :=
  match t with
  | Leaf => True
  | Node _ _ _ _ l r =>
      depth l <= S (depth r) /\ depth r <= S (depth l) /\ balanced l /\ balanced r
  end.

(** How many nodes have children whose depths differ by more than one; the largest
    difference. *)
Fixpoint uneven (t : tree T) : nat :=
  match t with
  | Leaf => 0
  | Node _ _ _ _ l r =>
      (if (depth l <=? S (depth r)) && (depth r <=? S (depth l)) then 0 else 1) + uneven l + uneven r
  end.
Fixpoint skew (t : tree T) : nat :=
  match t with
  | Leaf => 0
  | Node _ _ _ _ l r =>
      Nat.max (Nat.max (depth l - depth r) (depth r - depth l)) (Nat.max (skew l) (skew r))
  end.

Fixpoint fib (n : nat) : nat :=
  match n with 0 => 0 | S m => match m with 0 => 1 | S k => fib m + fib k end end.

(** [child_of c p t]: [c] and [p] are addresses of a node and of its parent in
    the tree. *)
Definition addr (t : tree T) : option nat :=
  match t with Leaf => None | Node i _ _ _ _ _ => Some i end.
Fixpoint child_of (c p : nat) (t : tree T) : Prop :=
  match t with
  | Leaf => False
  | Node i _ _ _ l r =>
      (p = i /\ (addr l = Some c \/ addr r = Some c)) \/ child_of c p l \/ child_of c p r
  end.
(** Every stored [_parent] is the address of the real parent ([p] for the root). *)
Fixpoint links (p : option nat) (t : tree T) : Prop :=
  match t with
  | Leaf => True
  | Node i q _ _ l r => q = p /\ links (Some i) l /\ links (Some i) r
  end.
(** All stored [_parent] pointers of a tree. *)
Fixpoint parent_fields (t : tree T) : list (option nat) :=
  match t with Leaf => [] | Node _ p _ _ l r => p :: parent_fields l ++ parent_fields r end.
(** The stored [_parent] of the node at address [c]. *)
Fixpoint parent_ptr (c : nat) (t : tree T) : option (option nat) :=
  match t with
  | Leaf => None
  | Node i p _ _ l r =>
      if i =? c then Some p else
      match parent_ptr c l with Some q => Some q | None => parent_ptr c r end
  end.

End Spec.
