(** Specification of programs over disjoint sets in which calls throw. *)
Require Import List NArith Bool Arith.
Require Import Verif.Base Verif.UnionModel Verif.UnionThrowModel.
Import ListNotations.

(** The elements a call speaks of. *)
Definition mentions {T} (o : eop T) : list T :=
  match o with
  | EInsert e | EFind e | ESizeOf e | EExists e => [e]
  | EJoin _ _ a b | ESame _ a b => [a; b]
  | EExistsSet _ | EDisjoint | EAcorn => []
  end.
(** The calls that return. *)
Fixpoint calls {T} (ops : list (top T)) : list (eop T) :=
  match ops with
  | [] => []
  | TCall o :: ops => o :: calls ops
  | _ :: ops => calls ops
  end.
(** emplace throws after it has extended the items. *)
Definition half_done {T} (o : top T) : Prop := match o with TEmplace InRanks _ => True | _ => False end.
(** The elements a call asks for, insertions that throw aside. *)
Definition looks_up {T} (o : top T) : list T :=
  match o with TCall o => mentions o | TJoin _ a => [a] | _ => [] end.
(** No call asks for an element whose insertion has failed before.  [good]: the elements
    present, [bad]: the elements whose insertion failed while they were missing. *)
Fixpoint spared {T} (teq : forall a b : T, {a = b} + {a <> b}) (good bad : list T) (ops : list (top T)) : Prop :=
  match ops with
  | [] => True
  | o :: ops =>
      (forall e, In e (looks_up o) -> ~ In e bad) /\
      match o with
      | TCall (EInsert e) => spared teq (e :: good) bad ops
      | TInsert _ e | TEmplace _ e => if in_dec teq e good then spared teq good bad ops else spared teq good (e :: bad) ops
      | _ => spared teq good bad ops
      end
  end.
(** The element inserted last. *)
Fixpoint newest {T} (teq : forall a b : T, {a = b} + {a <> b}) (present : list T) (e : T) (ops : list (eop T)) : T :=
  match ops with
  | [] => e
  | EInsert x :: ops => if in_dec teq x present then newest teq present e ops else newest teq (x :: present) x ops
  | _ :: ops => newest teq present e ops
  end.
(** The same call with other elements. *)
Definition renamed {T} (g : T -> T) (o : eop T) : eop T :=
  match o with
  | EInsert e => EInsert (g e)
  | EJoin o1 o2 a b => EJoin o1 o2 (g a) (g b)
  | ESame o a b => ESame o (g a) (g b)
  | EFind e => EFind (g e)
  | ESizeOf e => ESizeOf (g e)
  | EExists e => EExists (g e)
  | o => o
  end.
(** [e] stands for [x]. *)
Definition alias {T} (teq : forall a b : T, {a = b} + {a <> b}) (e x y : T) : T := if teq y e then x else y.
(** The states an insertion of [e] that throws after the map has been extended can
    leave, when the items have not been extended. *)
Definition left_over {T} (teq : forall a b : T, {a = b} + {a <> b}) (f : ufind T) (e : T) (f' : ufind T) : Prop :=
  f' = insert_throws teq InRanks f e \/ f' = insert_throws teq InItems f e \/ f' = emplace_throws teq InItems f e.
(** A call of union_set that speaks of ids below [n] only and does not resize. *)
Definition only_old (n : nat) (o : uop) : Prop :=
  match o with
  | UJoin _ _ a b | USame _ a b => a < n /\ b < n
  | UFind x | USizeOf x | UExists x => x < n
  | UResize _ => False
  | UDisjoint | UAcorn => True
  end.
