(** Specification of the segment tree over histories in which it may also be rebuilt from nothing. *)
Require Import List Arith NArith Bool.
Require Import Verif.Base Verif.SegmentModel Verif.SegmentSpec.
Import ListNotations.
Local Open Scope N_scope.

Section Spec.
Context {T R U : Type}.
Variable tr : transform T R U.
Variable den : U -> N -> R -> R.
Local Notation total := (total (join tr) (no_value tr)).

(** The array of the last rebuild from something, and whether there was one from nothing since. *)
Definition emptied : Type := array (R := R) * bool.
(** A call after a rebuild from nothing that reaches beyond the old array [xs]: nothing is clamped, the
    last element counts as [no_value] and takes no change. *)
Definition reaching (xs : list R) (o : op T U) : option (list R * answer R) :=
  match o with
  | OQuery s e =>
      if sizeN xs <=? N.max s e
      then Some (xs, AValue (total (sub 0 (N.min s e) (N.max s e) (removelast xs ++ [no_value tr]))))
      else None
  | OUpdate s e u =>
      if sizeN xs <=? N.max s e
      then
        let ys := change_range (den u) 0 (N.min s e) (N.max s e) (removelast xs) in
        Some (ys ++ [last xs (no_value tr)],
              AValue (total (sub 0 (N.min s e) (N.max s e) (ys ++ [no_value tr]))))
      else None
  | ORebuild _ _ => None
  end.
Definition empties (o : op T U) (before : bool) : bool :=
  match o with
  | ORebuild v k => match firstn (N.to_nat k) v with [] => true | _ => false end
  | _ => before
  end.
Definition emptied_step (st : emptied) (o : op T U) : emptied * answer R :=
  let (a, gone) := st in
  let plain := let (a', x) := spec_step tr den a o in ((a', empties o gone), x) in
  match a with
  | Some xs =>
      if gone then match reaching xs o with Some (ys, x) => ((Some ys, true), x) | None => plain end
      else plain
  | None => plain
  end.
Fixpoint emptied_run (st : emptied) (ops : list (op T U)) : emptied * list (answer R) :=
  match ops with
  | [] => (st, [])
  | o :: r => let (st, x) := emptied_step st o in let (st, l) := emptied_run st r in (st, x :: l)
  end.
(** What size() and is_built() answer. *)
Definition size_of (st : emptied) : N :=
  match st with (Some xs, false) => sizeN xs | _ => 0 end.
Definition built_of (st : emptied) : bool := match fst st with Some _ => true | None => false end.
End Spec.

(** Any vector of fewer than 2^60 elements, the empty one and no elements of one included. *)
Definition any_size {T U} (fuel : nat) (o : op T U) : Prop :=
  match o with
  | ORebuild v k => sizeN v < 2 ^ 60 /\ (length v <= fuel)%nat
  | _ => True
  end.

(** Queries and updates of positions below [n]. *)
Definition below {T U} (n : N) (o : op T U) : Prop :=
  match o with OQuery s e | OUpdate s e _ => N.max s e < n | ORebuild _ _ => False end.
