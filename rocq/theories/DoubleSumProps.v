(** Properties of sums of doubles. *)
Require Import List Arith NArith ZArith Lia Bool.
Require Import Floats.SpecFloat.
Require Import Verif.Base Verif.DoubleModel Verif.DoubleSpec Verif.DoubleProofs Verif.DoubleSumProofs.
Require Verif.SubModel.
Import ListNotations.
Local Open Scope Z_scope.
Local Ltac run := repeat (apply conj); (vm_compute; reflexivity).

(** C137: max_sum_of over doubles is the greatest sum, from left to right with every addition
    rounded, of a part of the sequence whose first element is doubled if that is greater. *)
Theorem C137_doubled_partial : forall f l, fin f -> Forall fin l -> dgreatest dadd (dmax f (dadd f f) :: l) (max_sum_of (f :: l)).
Proof. exact max_sum_doubled. Qed.
Print Assumptions C137_doubled_partial.
(** With a first element that is not positive it is right up to rounding. *)
Theorem C137_right_partial : forall f l, fin f -> Forall fin l -> dle f (of_int 0) = true -> dgreatest dadd (f :: l) (max_sum_of (f :: l)).
Proof. exact max_sum_right. Qed.
Print Assumptions C137_right_partial.
(** Integers are added without rounding while all sums stay within 2^53. *)
Theorem C137_integers : forall l r, Forall small l -> SubModel.max_sum_of 54 l = Val r -> max_sum_of (map of_int l) = of_int r.
Proof. exact max_sum_int. Qed.
Print Assumptions C137_integers.
Example C137_case : Forall fin (map of_int [-2; -3; 4; -1; -2; 1; 5; -3]) /\ dle (of_int (-2)) (of_int 0) = true /\
  Forall small [-2; -3; 4; -1; -2; 1; 5; -3] /\ SubModel.max_sum_of 54 [-2; -3; 4; -1; -2; 1; 5; -3] = Val 7 /\
  max_sum_of (map of_int [-2; -3; 4; -1; -2; 1; 5; -3]) = of_int 7 /\ max_sum_of [] = of_int 0 /\
  max_sum_of (map (fun z => dmul (of_int z) (S754_finite false 4503599627370496 (-53))) [-1; 3; 4]) = S754_finite false 7881299347898368 (-51).
Proof.
  split; [repeat constructor|]. split; [run|]. split; [repeat constructor; unfold small; lia|]. run.
Qed.
(** After a NaN the search starts again: what precedes it is forgotten. *)
Theorem C137_nan : forall a x l, fin x -> Forall fin l -> dgreatest dadd (x :: l) (max_sum_of (a ++ S754_nan :: x :: l)).
Proof. exact max_sum_nan. Qed.
Print Assumptions C137_nan.
Theorem C137_ends_nan : forall a, max_sum_of (a ++ [S754_nan]) = S754_nan.
Proof. exact max_sum_ends_nan. Qed.
Print Assumptions C137_ends_nan.
Example C137_nan_case : max_sum_of ([of_int 5] ++ S754_nan :: of_int 1 :: [of_int 2; of_int (-4)]) = of_int 3 /\ fin (of_int 1) /\
  Forall fin [of_int 2; of_int (-4)].
Proof. split; [run|]. split; [|repeat constructor]. split; [run|exact Logic.I]. Qed.
(** Refuted: a NaN anywhere gives NaN or leaves the greatest sum of the numbers. *)
Theorem C137_nan_refuted : exists l, In S754_nan l /\ In (of_int 5) l /\ max_sum_of l = of_int 1.
Proof. exists [of_int 5; S754_nan; of_int 1]. split; [right; now left|]. split; [now left|run]. Qed.
Print Assumptions C137_nan_refuted.
(** Refuted: the answer is the double nearest to the greatest exact sum. *)
Theorem C137_nearest_refuted : exists l r, Forall small l /\ SubModel.max_sum_of 64 l = Val r /\ dlt (max_sum_of (map of_int l)) (of_int r) = true.
Proof. exists [0; 2 ^ 53; 1; 1], (2 ^ 53 + 2). split; [repeat constructor; unfold small; lia|run]. Qed.
Print Assumptions C137_nearest_refuted.
(** Refuted: every positive first element is counted once. *)
Theorem C137_greatest_refuted : exists l, Forall fin l /\ l <> [] /\ forall w, dpart w l -> running dadd w <> max_sum_of l.
Proof.
  exists [of_int 1]. split; [repeat constructor|]. split; [discriminate|]. intros w (N & a & c & E).
  destruct a as [|x a]; cbn [app] in E.
  - destruct w as [|y w]; [contradiction|]. injection E as <- E. destruct w; [|discriminate E]. vm_compute. discriminate.
  - injection E as _ E. destruct a; [|discriminate E]. destruct w; [contradiction|discriminate E].
Qed.
Print Assumptions C137_greatest_refuted.
