(** Specification of the rounding errors of a Fenwick tree of doubles. *)
Require Import List Arith NArith ZArith Bool.
Require Import Floats.SpecFloat.
Require Import Verif.Base Verif.DoubleModel Verif.DoubleSpec Verif.FenwickModel Verif.FenwickSpec.
Import ListNotations.
Local Open Scope Z_scope.

(** The magnitude of a double, in units of 2^-1074 like [units]. *)
Definition magnitude (x : double) : Z := Z.abs (units x).
(** Calls of this property: everything but set_value, moving away and resize(0). *)
Definition sum_call (o : fop double) : Prop :=
  match o with
  | ORebuild input _ => Forall fin input /\ (sizeN input + 1 < two64)%N
  | OUpdate p v => fin v /\ (p < two64)%N
  | OResize m => m <> 0%N
  | OSet _ _ | OMoveOut => False
  | OQuery _ _ | OAt _ | OSize | OIsBuilt => True
  end.
(** What a call does to a list of exact numbers, [h] turning a double into one. *)
Definition after (h : double -> Z) (l : list Z) (o : fop double) : list Z :=
  match o with
  | ORebuild input n => map h (take n input)
  | OUpdate p v => change l (N.to_nat p) (fun x => x + h v)
  | OResize m => take (m - 1) l
  | _ => l
  end.
(** The exact elements after a history; with [magnitude] for [h], everything ever added to them. *)
Definition elements (h : double -> Z) (ops : list (fop double)) : list Z := fold_left (after h) ops [].
Definition total (l : list Z) : Z := fold_right Z.add 0 l.
(** Numbers passed by a call, and their magnitude. *)
Definition additions (o : fop double) : Z :=
  match o with ORebuild input _ => Z.of_N (sizeN input) | OUpdate _ _ => 1 | _ => 0 end.
Definition weight (o : fop double) : Z :=
  match o with ORebuild input _ => total (map magnitude input) | OUpdate _ v => magnitude v | _ => 0 end.
(** The history begins by building the tree. *)
Definition begins_built {T} (ops : list (fop T)) : Prop :=
  match ops with ORebuild _ _ :: _ => True | _ => False end.
(** The double [r] is [m]/2^52 of [M] or less away from the exact [z]. *)
Definition off_by (m M z : Z) (r : double) : Prop := fin r /\ 2 ^ 52 * Z.abs (units r - z) <= m * M.

(** ** The greatest sum of neighbours *)
(** [g] is the greatest sum of a non-empty part of the exact numbers [l]. *)
Definition part_of (w l : list Z) : Prop := w <> [] /\ exists a c, l = a ++ w ++ c.
Definition best_sum (l : list Z) (g : Z) : Prop :=
  (exists w, part_of w l /\ total w = g) /\ forall w, part_of w l -> total w <= g.
(** What max_sum_of sums up: a positive first element counts twice (subarray.h:66-69). *)
Definition counted (l : list double) : list Z :=
  match l with [] => [] | f :: l => Z.max (units f) (2 * units f) :: map units l end.
