(** Specification of the array heap: a binary tree in level order. *)
Require Import List Arith NArith.
Require Import Verif.Base.
Import ListNotations.

(** The position reached from the root by a path ([true] goes right): the
    nodes of each level from left to right, after those of the levels above. *)
Fixpoint offset (path : list bool) (acc : N) : N :=
  match path with [] => acc | b :: r => offset r (2 * acc + (if b then 1 else 0)) end.
Definition level_order (path : list bool) : N :=
  (2 ^ N.of_nat (length path) - 1 + offset path 0)%N.

(** What the double arithmetic of heap.h:40 is assumed to give: the logarithm
    rounded down, plus one.  Positions just below a power of two from about
    2^49 on round up and are not covered. *)
Definition exact_below_2_40 (lg : N -> N) : Prop :=
  forall pos, (1 <= pos < 2 ^ 40)%N -> lg pos = (N.log2 pos + 1)%N.

Section Spec.
Context {T : Type}.
(** [h'] is [h] with the elements at two positions exchanged. *)
Definition exchanged (i j : N) (h h' : list T) : Prop :=
  length h' = length h /\ cell h' i = cell h j /\ cell h' j = cell h i /\
  forall k, k <> i -> k <> j -> cell h' k = cell h k.
(** [h'] is [h] with position [i] set to [x] and, if it was shorter, longer with
    [d] in the other new cells. *)
Definition stored (d : T) (i : N) (x : T) (h h' : list T) : Prop :=
  length h <= length h' /\ cell h' i = Some x /\
  (forall k, k <> i -> (k < sizeN h)%N -> cell h' k = cell h k) /\
  (forall k, k <> i -> (sizeN h <= k < sizeN h')%N -> cell h' k = Some d).
End Spec.
