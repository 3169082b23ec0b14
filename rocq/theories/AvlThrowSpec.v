(** What a caller of the AVL tree relies on when calls can throw: the contents are
    a list of values (given up to the order), every call changes it as [effect]
    says; [None] is a call that threw. *)
Require Import List NArith Bool Arith Permutation.
Require Import Verif.Base Verif.AvlModel Verif.AvlSpec.
Import ListNotations.

Section Spec.
Context {T : Type} (o : order T).

(** One occurrence of [v] was overwritten by a second copy of a greater value
    [w]; if no value is there twice, [w] is the next greater one. *)
Definition overwritten (v : T) (l l' : list T) : Prop :=
  exists w rest, lt_ o v w = true /\ Permutation l (v :: w :: rest) /\ Permutation l' (w :: w :: rest) /\
    (NoDup l -> forall u, In u l -> lt_ o v u = true -> lt_ o u w = false).

(** The contents before and after a call, in any order. *)
Definition effect (d : bool) (l : list T) (op : aop T) (r : option (aout T)) (l' : list T) : Prop :=
  match op, r with
  | AInsert v, Some (ABool true) => (d = true \/ ~ In v l) /\ Permutation l' (v :: l)
  | AInsert v, Some (ABool false) => d = false /\ In v l /\ l' = l
  | AInsert v, None => l' = l \/ (d = true \/ ~ In v l) /\ Permutation l' (v :: l)
  | ARemove v, Some (ABool true) => Permutation l (v :: l')
  | ARemove v, Some (ABool false) => ~ In v l /\ l' = l
  | ARemove v, None => l' = l \/ overwritten v l l'
  | ARemoveAll v, Some (ANum n) => exists k, n = N.of_nat k /\ ~ In v l' /\ Permutation l (repeat v k ++ l')
  | ARemoveAll v, None => exists k rest, Permutation l (repeat v k ++ rest) /\ (l' = rest \/ overwritten v rest l')
  | AContains v, Some (ABool b) => (b = true <-> In v l) /\ l' = l
  | ASize, Some (ANum n) => n = N.of_nat (length l) /\ l' = l
  | AInOrder, Some (AVals vs n) => vs = l /\ n = N.of_nat (length l) /\ l' = l
  | AClear, Some ANone => l' = []
  | AContains _, None | ACopy, None => l' = l
  | ACopy, Some ANone | AMove, Some ANone | ASetDup _, Some ANone => l' = l
  | _, _ => False
  end.

(** A history with its answers, from contents [l] with duplicates allowed iff [d]
    to the contents [l']; the contents are sorted all the time. *)
Fixpoint conforms (d : bool) (l : list T) (ops : list (aop T)) (rs : list (option (aout T))) (l' : list T) : Prop :=
  match ops, rs with
  | [], [] => l' = l
  | op :: ops, r :: rs =>
      exists l1, sorted o l1 /\ effect d l op r l1 /\ conforms (dup_after d [op]) l1 ops rs l'
  | _, _ => False
  end.
End Spec.

(** Natural numbers. *)
Definition natord : order nat := mkOrder Nat.ltb (fun a b => b <? a) Nat.eqb.

(** n insertions of ascending numbers; from the third on the comparison that
    rebalancing makes throws. *)
Definition spoiled (n : nat) : list (aop nat * list bool) :=
  map (fun i => (AInsert i, if i <=? 1 then [] else repeat false (2 * i + 1) ++ [true])) (seq 0 n).
