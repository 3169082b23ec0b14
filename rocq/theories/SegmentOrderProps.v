(** C143-C145: segment trees with a join that is not associative. *)
Require Import List Arith NArith ZArith Bool Lia.
Require Import Floats.SpecFloat.
Require Import Verif.Base Verif.Cint Verif.DoubleModel Verif.DoubleSpec Verif.SegmentModel Verif.SegmentSpec Verif.SegmentProofs.
Require Import Verif.SegmentOrderSpec Verif.SegmentOrderProofs Verif.SegmentDoubleProofs.
Import ListNotations.
Local Open Scope N_scope.
Local Ltac run := repeat (apply conj); (vm_compute; reflexivity).

(** C143: the brackets of an answer depend on nothing but the number of elements and the range;
    they keep the order of the elements and nest as deep as the tree is high; a query changes nothing. *)
Theorem C143_bracketing : forall n lo hi, 0 < n < 2 ^ 60 -> lo <= hi -> hi < n ->
  exists b, flatten b = from_to lo hi /\ depth b <= N.log2_up n /\ always n lo hi b.
Proof. exact bracketing. Qed.
Print Assumptions C143_bracketing.
(** Elements outside of the range play no role. *)
Theorem C143_outside : forall T R U (tr : transform T R U), read_only tr -> forall v v' s e, let n := sizeN v in
  0 < n < 2 ^ 60 -> sizeN v' = n ->
  (forall i, clamp n (N.min s e) <= i <= clamp n (N.max s e) -> cell v i = cell v' i) ->
  exists r, answers tr v n s e r /\ answers tr v' n s e r.
Proof. exact outside. Qed.
Print Assumptions C143_outside.
(** Differences of seven numbers; the brackets of the whole range and of 1..5; NaN outside. *)
Example C143_case :
  let minus := mkTransform Z Z unit Z.sub (fun _ _ _ => true) (fun _ _ n l r => (n, l, r)) (fun _ _ n _ => n)
    (fun x _ => x) (fun _ => false) tt 0%Z in
  read_only minus /\
  (let* (_, l) := SegmentModel.run minus (fun n => 4 * n) 7 empty_tree
     [ORebuild [10; 1; 7; 2; 5; 3; 6]%Z 7; OQuery 0 6; OQuery 1 5; OQuery 0 6] in Val l)
   = Val [ADone; AValue ((10 - 1) - (7 - 2) - ((5 - 3) - 6))%Z; AValue ((1 - (7 - 2)) - (5 - 3))%Z; AValue 8%Z] /\
  flatten (Two (Two (One 1) (Two (One 2) (One 3))) (Two (One 4) (One 5))) = from_to 1 5 /\
  depth (Two (Two (One 1) (Two (One 2) (One 3))) (Two (One 4) (One 5))) = N.log2_up 7 /\
  (let* (_, l) := SegmentModel.run double_sum (fun n => 4 * n) 7 empty_tree
     [ORebuild [of_int 1; of_int 2; of_int 3; S754_nan] 4; OQuery 0 2; OQuery 0 3; OQuery 0 2] in Val l)
   = Val [ADone; AValue (of_int 6); AValue S754_nan; AValue (of_int 6)].
Proof. split; [now intros []|]. run. Qed.
(** Refuted: an answer is the elements joined from left to right. *)
Theorem C143_left_to_right_refuted : exists (tr : transform Z Z unit) (v : list Z) r, read_only tr /\ answers tr v (sizeN v) 0 3 r /\
  r <> total (join tr) (no_value tr) v.
Proof.
  pose (minus := mkTransform Z Z unit Z.sub (fun _ _ _ => true) (fun _ _ n l r => (n, l, r)) (fun _ _ n _ => n)
    (fun x _ => x) (fun _ => false) tt 0%Z).
  exists minus, [1; 2; 3; 4]%Z, 0%Z. assert (RO : read_only minus) by now intros [].
  split; [exact RO|]. split; [|discriminate]. apply computed; [exact RO|split; reflexivity|vm_compute; reflexivity].
Qed.
Print Assumptions C143_left_to_right_refuted.

(** C144: signed sums that never overflow: if the sum of every run of neighbours is a value of the
    type, no node overflows while the tree is built, and every answer is exact. *)
Theorem C144_exact : forall b v, all_sums_fit b v -> forall s e, 0 < sizeN v < 2 ^ 60 -> let n := sizeN v in
  answers (checked_sum b) v n s e (Some (zsum (sub 0 (clamp n (N.min s e)) (clamp n (N.max s e)) v))).
Proof. exact checked_ok. Qed.
Print Assumptions C144_exact.
Theorem C144_build : forall b v, all_sums_fit b v -> 0 < sizeN v < 2 ^ 60 ->
  forall required, enough required -> forall fuel t0, (length v <= fuel)%nat -> calm t0 ->
  exists t, build (checked_sum b) required fuel t0 v (sizeN v) = Val t /\ calm t.
Proof. exact checked_calm. Qed.
Print Assumptions C144_build.
(** It suffices that the magnitudes add up to a value of the type. *)
Theorem C144_magnitudes : forall b v, (zsum (map Z.abs v) <= imax b)%Z -> all_sums_fit b v.
Proof. exact fit_abs. Qed.
Print Assumptions C144_magnitudes.
Example C144_case : all_sums_fit 32 [2147483600; -5; 40]%Z /\ calm empty_tree /\
  (let* (_, l) := SegmentModel.run (checked_sum 32) (fun n => 4 * n) 7 empty_tree
     [ORebuild [2147483600; -5; 40]%Z 3; OQuery 0 1; OQuery 0 2] in Val l)
    = Val [ADone; AValue (Some 2147483595%Z); AValue (Some 2147483635%Z)].
Proof. split; [apply fit_abs; vm_compute; discriminate|split; [constructor|run]]. Qed.
(** Refuted: it suffices that the asked sum and all sums from the left are values of the type: the
    tree joins neighbours that a loop never adds, when it is built as well as when it is asked. *)
Theorem C144_loop_suffices_refuted : exists v, (forall a c, v = a ++ c -> fits 32 (zsum a)) /\ Forall (fits 32) v /\
  answers (checked_sum 32) v (sizeN v) 0 3 None.
Proof.
  exists [-9; 1; 2147483647; 4]%Z. split; [|split].
  - intros a c E. assert (P : a = firstn (length a) [-9; 1; 2147483647; 4]%Z) by (rewrite E, firstn_app, Nat.sub_diag, firstn_all, app_nil_r; reflexivity).
    rewrite P. destruct (length a) as [|[|[|[|k]]]]; rewrite ?firstn_cons, ?firstn_nil, ?firstn_O; split; vm_compute; discriminate.
  - repeat constructor; vm_compute; discriminate.
  - apply computed; [now intros []|split; reflexivity|vm_compute; reflexivity].
Qed.
Print Assumptions C144_loop_suffices_refuted.

(** C145: sums of doubles.  The error is at most log2(n) times 2^-52 of the sum of the magnitudes in
    the range, and there is no overflow while that sum is below 2^1023. *)
Theorem C145_error : forall v s e, Forall fin v -> 0 < sizeN v < 2 ^ 60 ->
  let n := sizeN v in let w := sub 0 (clamp n (N.min s e)) (clamp n (N.max s e)) v in
  exists r, answers double_sum v n s e r /\ (is_finite r -> nearly n w r) /\ ((magnitudes w < 2 ^ 2097)%Z -> fin r).
Proof. exact double_query. Qed.
Print Assumptions C145_error.
(** Integers are added without rounding while all sums stay within 2^53. *)
Theorem C145_integers : forall v s e, sums_small v -> 0 < sizeN v < 2 ^ 60 -> let n := sizeN v in
  answers double_sum (map of_int v) n s e (of_int (zsum (sub 0 (clamp n (N.min s e)) (clamp n (N.max s e)) v))).
Proof. exact integer_query. Qed.
Print Assumptions C145_integers.
(** A NaN in the range is the answer, one outside of it plays no role (C143_outside). *)
Theorem C145_nan : forall v s e, 0 < sizeN v < 2 ^ 60 -> let n := sizeN v in
  In S754_nan (sub 0 (clamp n (N.min s e)) (clamp n (N.max s e)) v) -> answers double_sum v n s e S754_nan.
Proof. exact nan_query. Qed.
Print Assumptions C145_nan.
(** Minima of numbers, infinities included, are exact. *)
Theorem C145_min : forall v s e, Forall (fun x => valid x /\ x <> S754_nan) v -> 0 < sizeN v < 2 ^ 60 -> let n := sizeN v in
  let w := sub 0 (clamp n (N.min s e)) (clamp n (N.max s e)) v in
  exists r, answers double_min v n s e r /\ In r w /\ forall x, In x w -> dle r x = true.
Proof. exact min_query. Qed.
Print Assumptions C145_min.
Example C145_case :
  let v := [of_int (2 ^ 53); of_int 1; of_int 1; of_int 1] in
  Forall fin v /\ (magnitudes v < 2 ^ 2097)%Z /\ Forall (fun x => valid x /\ x <> S754_nan) v /\
  (let* (_, l) := SegmentModel.run double_sum (fun n => 4 * n) 4 empty_tree [ORebuild v 4; OQuery 0 3; OQuery 1 3] in Val l)
    = Val [ADone; AValue (of_int (2 ^ 53 + 2)); AValue (of_int 3)] /\
  (let* (_, l) := SegmentModel.run double_min (fun n => 4 * n) 4 empty_tree [ORebuild v 4; OQuery 0 3; OQuery 0 0] in Val l)
    = Val [ADone; AValue (of_int 1); AValue (of_int (2 ^ 53))].
Proof.
  cbv zeta. split; [repeat constructor|]. split; [run|]. split; [repeat constructor; intros E; vm_compute in E; discriminate|run].
Qed.
Example C145_integers_case : sums_small [3; -4; 5]%Z /\
  (let* (_, l) := SegmentModel.run double_sum (fun n => 4 * n) 4 empty_tree [ORebuild (map of_int [3; -4; 5]%Z) 3; OQuery 0 2] in Val l)
    = Val [ADone; AValue (of_int 4)].
Proof.
  split; [apply small_abs; vm_compute; discriminate|run].
Qed.
(** Refuted: two neighbouring ranges add up to their union. *)
Theorem C145_additive_refuted : exists v r1 r2 r, Forall fin v /\
  answers double_sum v 4 0 0 r1 /\ answers double_sum v 4 1 3 r2 /\ answers double_sum v 4 0 3 r /\ dlt r (dadd r1 r2) = true.
Proof.
  exists [of_int (2 ^ 53); of_int 1; of_int 1; of_int 1], (of_int (2 ^ 53)), (of_int 3), (of_int (2 ^ 53 + 2)).
  split; [repeat constructor|].
  repeat split; try (apply computed; [now intros []|split; reflexivity|vm_compute; reflexivity]).
Qed.
Print Assumptions C145_additive_refuted.
(** Refuted: with a NaN among the elements a minimum is the NaN or the least number. *)
Theorem C145_min_nan_refuted : exists v r x, answers double_min v 4 0 3 r /\ r <> S754_nan /\ In x v /\ dlt x r = true.
Proof.
  exists [of_int 5; of_int 7; S754_nan; of_int 1], (of_int 5), (of_int 1).
  split; [|split; [discriminate|split; [do 3 right; now left|run]]].
  apply computed; [now intros []|split; reflexivity|vm_compute; reflexivity].
Qed.
Print Assumptions C145_min_nan_refuted.
