(** Specification for subarray.h and subset.h. *)
Require Import List Arith NArith ZArith.
Import ListNotations.
Local Open Scope Z_scope.

Definition total (l : list Z) : Z := fold_right Z.add 0 l.
(** [w] is a non-empty contiguous part of [l]. *)
Definition part (w l : list Z) : Prop := w <> [] /\ exists a c, l = a ++ w ++ c.
(** [k] is the length of the longest part with sum [r]; 0 if there is none. *)
Definition longest (l : list Z) (r : Z) (k : nat) : Prop :=
  (k = O \/ exists w, part w l /\ total w = r /\ length w = k) /\
  forall w, part w l -> total w = r -> (length w <= k)%nat.
(** [r] is the greatest sum of a part. *)
Definition greatest (l : list Z) (r : Z) : Prop :=
  (exists w, part w l /\ total w = r) /\ forall w, part w l -> total w <= r.
(** The sum of the absolute values. *)
Definition weight (l : list Z) : Z := fold_right (fun x a => Z.abs x + a) 0 l.

(** All selections of positions, as the lists of the selected elements. *)
Fixpoint selections (l : list Z) : list (list Z) :=
  match l with
  | [] => [[]]
  | x :: l => map (cons x) (selections l) ++ selections l
  end.
Definition selections_with_sum (l : list Z) (s : Z) : N :=
  N.of_nat (length (filter (fun w => total w =? s) (selections l))).
