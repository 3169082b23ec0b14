(** Specification for Fenwick trees of signed integers and of doubles. *)
Require Import List Arith NArith ZArith Bool.
Require Import Verif.Base Verif.Cint Verif.FenwickModel Verif.FenwickSpec.
Import ListNotations.
Local Open Scope Z_scope.

(** Sum of a list of integers. *)
Definition zsum (l : list Z) : Z := fold_right Z.add 0 l.
(** Every sum of neighbouring elements has a value in the [b] bit type. *)
Definition sums_fit (b : Z) (l : list Z) : Prop := forall lo hi, fits b (zsum (slice l lo hi)).
Definition state_fits (b : Z) (a : astate Z) : Prop := match a with Built l => sums_fit b l | _ => True end.
(** A replacement changes an element by a number of the type. *)
Definition change_fits (b : Z) (a : astate Z) (o : fop Z) : Prop :=
  match a, o with
  | Built l, OSet p v => forall x, (1 <= p)%N -> nth_error l (N.to_nat (p - 1)) = Some x -> fits b (v - x)
  | _, _ => True
  end.
(** This is so after every call of a history. *)
Fixpoint run_fits (b : Z) (a : astate Z) (ops : list (fop Z)) : Prop :=
  match ops with
  | [] => True
  | o :: ops =>
      change_fits b a o /\
      match sstep sumZ a o with
      | Some (a', _) => state_fits b a' /\ run_fits b a' ops
      | None => True
      end
  end.
(** Vectors fit the address space. *)
Definition call_ok {T} (o : fop T) : Prop :=
  match o with ORebuild input _ => (sizeN input + 1 < two64)%N | _ => True end.

(** The same call and the same answer with every number converted. *)
Definition call_map {A B} (h : A -> B) (o : fop A) : fop B :=
  match o with
  | ORebuild input n => ORebuild (map h input) n
  | OUpdate p v => OUpdate p (h v)
  | OSet p v => OSet p (h v)
  | OQuery s e => OQuery s e
  | OAt p => OAt p
  | OResize n => OResize n
  | OSize => OSize
  | OIsBuilt => OIsBuilt
  | OMoveOut => OMoveOut
  end.
Definition answer_map {A B} (h : A -> B) (r : fout A) : fout B :=
  match r with
  | RUnit => RUnit
  | RBool x => RBool x
  | RVal v => RVal (h v)
  | RSize n => RSize n
  | RExn e => RExn e
  end.
(** The numbers of a call satisfy [P]. *)
Definition call_all {A} (P : A -> Prop) (o : fop A) : Prop :=
  match o with
  | ORebuild input _ => Forall P input
  | OUpdate _ v | OSet _ v => P v
  | _ => True
  end.

(** No element is negative and their total has a value in the type. *)
Definition state_within (b : Z) (a : astate Z) : Prop :=
  match a with Built l => Forall (Z.le 0) l /\ fits b (zsum l) | _ => True end.
(** This is so after every call of a history. *)
Fixpoint run_within (b : Z) (a : astate Z) (ops : list (fop Z)) : Prop :=
  match ops with
  | [] => True
  | o :: ops =>
      match sstep sumZ a o with
      | Some (a', _) => state_within b a' /\ run_within b a' ops
      | None => True
      end
  end.
