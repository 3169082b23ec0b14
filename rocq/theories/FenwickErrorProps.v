(** Properties: how far sums of doubles are from the exact ones. *)
Require Import List Arith NArith ZArith Lia Bool.
Require Import Floats.SpecFloat.
Require Import Verif.Base Verif.DoubleModel Verif.DoubleSpec Verif.FenwickModel Verif.FenwickSpec Verif.FenwickSignedModel.
Require Import Verif.FenwickErrorSpec Verif.FenwickErrorProofs Verif.MaxSumErrorProofs.
Import ListNotations.
Local Open Scope Z_scope.

(** C146. After any history of builds, updates, queries and shrinking, a query of a Fenwick tree
    of doubles answers a finite double, at most (number of values passed + 65) / 2^51 of the
    magnitude of everything ever added to the elements from the first to the last of the range
    away from the exact sum of the range. *)
Theorem C146_error : forall ops s e, begins_built ops -> Forall sum_call ops ->
  total (map additions ops) + 64 < 2 ^ 52 -> 2 * total (map weight ops) < 2 ^ 2096 ->
  exists t rs r, frun sumD fenwick_default ops = Val (t, rs) /\ query sumD t s e = Val r /\
    off_by (total (map additions ops) + 65) (2 * total (firstn (N.to_nat (N.max s e)) (elements magnitude ops)))
      (range_value sumZ (elements units ops) s e) r.
Proof. exact (history_error _ eq_refl). Qed.
Print Assumptions C146_error.
(** A double near 1/3 and one that vanishes beside it; the answer of the case is rounded. *)
Definition third : double := S754_finite false 6004799503160661 (-54).
Definition tiny : double := S754_finite false 4503599627370496 (-112).
Definition c146_ops : list (fop double) :=
  [ORebuild [third; of_int 10; third; of_int (-7); third] 4; OUpdate 3 third; OQuery 1 2; OUpdate 2 tiny; OResize 4; OUpdate 9 third; OAt 2].
Example C146_case : begins_built c146_ops /\ Forall sum_call c146_ops /\ total (map additions c146_ops) + 64 < 2 ^ 52 /\
  2 * total (map weight c146_ops) < 2 ^ 2096 /\
  elements units c146_ops = [units third; units (of_int 10) + units tiny; 2 * units third] /\
  (exists t rs r, frun sumD fenwick_default c146_ops = Val (t, rs) /\ query sumD t 2 3 = Val r /\
    units r <> range_value sumZ (elements units c146_ops) 2 3) /\
  total (map additions c146_ops) = 8.
Proof.
  split; [exact Logic.I|]. split.
  { unfold c146_ops. repeat (apply Forall_cons || apply Forall_nil); cbn [sum_call]; repeat split; try exact Logic.I; try discriminate;
      repeat (apply Forall_cons || apply Forall_nil); try (split; [vm_compute; reflexivity|exact Logic.I]). }
  split; [vm_compute; reflexivity|]. split; [vm_compute; reflexivity|]. split; [vm_compute; reflexivity|]. split; [|vm_compute; reflexivity].
  do 3 eexists. split; [vm_compute; reflexivity|]. split; [vm_compute; reflexivity|]. vm_compute. discriminate.
Qed.
(** Refuted: the error is small compared with the elements of the range itself. *)
Theorem C146_own_range_refuted : exists ops s e t rs r, begins_built ops /\ Forall sum_call ops /\
  frun sumD fenwick_default ops = Val (t, rs) /\ query sumD t s e = Val r /\
  ~ off_by (2 ^ 51) (range_value sumZ (elements magnitude ops) s e) (range_value sumZ (elements units ops) s e) r.
Proof.
  exists [ORebuild [of_int (2 ^ 53); of_int 1] 2], 2%N, 2%N. do 3 eexists. split; [exact Logic.I|]. split.
  { repeat constructor. }
  split; [vm_compute; reflexivity|]. split; [vm_compute; reflexivity|]. intros (_ & H). revert H. vm_compute. intros H. now apply H.
Qed.
Print Assumptions C146_own_range_refuted.
(** Refuted: an error goes away when what caused it is taken out again. *)
Theorem C146_undone_refuted : exists ops s e t rs r, begins_built ops /\ Forall sum_call ops /\
  elements units ops = [units (of_int 1)] /\ frun sumD fenwick_default ops = Val (t, rs) /\ query sumD t s e = Val r /\ units r = 0.
Proof.
  exists [ORebuild [of_int 1] 1; OUpdate 1 (of_int (2 ^ 53)); OUpdate 1 (of_int (- 2 ^ 53))], 1%N, 1%N. do 3 eexists.
  split; [exact Logic.I|]. split; [repeat constructor|]. split; [vm_compute; reflexivity|]. split; [vm_compute; reflexivity|]. split; vm_compute; reflexivity.
Qed.
Print Assumptions C146_undone_refuted.

(** C147. max_sum_of over doubles is at most (number of elements) / 2^52 of the magnitude of all
    elements away from the greatest exact sum, a positive first element counting twice. *)
Theorem C147_error : forall f l g, fin f -> Forall fin l -> Z.of_nat (length (f :: l)) <= 2 ^ 52 ->
  2 * total (map Z.abs (counted (f :: l))) < 2 ^ 2096 -> best_sum (counted (f :: l)) g ->
  off_by (Z.of_nat (length (f :: l))) (total (map Z.abs (counted (f :: l)))) g (max_sum_of (f :: l)).
Proof. exact (max_sum_error _ eq_refl). Qed.
Print Assumptions C147_error.
Example C147_case : fin (of_int (-1)) /\ Forall fin [third; third; tiny; of_int (-2)] /\ Z.of_nat (length (of_int (-1) :: [third; third; tiny; of_int (-2)])) <= 2 ^ 52 /\
  2 * total (map Z.abs (counted (of_int (-1) :: [third; third; tiny; of_int (-2)]))) < 2 ^ 2096 /\
  best_sum (counted (of_int (-1) :: [third; third; tiny; of_int (-2)])) (2 * units third + units tiny) /\
  units (max_sum_of (of_int (-1) :: [third; third; tiny; of_int (-2)])) = 2 * units third.
Proof.
  split; [split; [vm_compute; reflexivity|exact Logic.I]|].
  split; [repeat (apply Forall_cons || apply Forall_nil); split; [vm_compute; reflexivity|exact Logic.I|vm_compute; reflexivity|exact Logic.I|vm_compute; reflexivity|exact Logic.I|vm_compute; reflexivity|exact Logic.I]|].
  split; [vm_compute; discriminate|]. split; [vm_compute; reflexivity|]. split; [|vm_compute; reflexivity].
  change (counted (of_int (-1) :: [third; third; tiny; of_int (-2)])) with [Z.max (units (of_int (-1))) (2 * units (of_int (-1))); units third; units third; units tiny; units (of_int (-2))].
  assert (U : units third > 0 /\ units tiny > 0 /\ units (of_int (-1)) < - (2 * units third + units tiny) + units third + units third + units tiny /\ units (of_int (-2)) < 0) by (vm_compute; repeat split).
  destruct U as (U1 & U2 & U3 & U4). set (a := units third) in *. set (b := units tiny) in *. set (c := units (of_int (-1))) in *. set (d := units (of_int (-2))) in *.
  clearbody a b c d. split.
  - exists [a; a; b]. split; [|unfold total; cbn [fold_right]; lia]. split; [discriminate|]. exists [Z.max c (2 * c)], [d]. reflexivity.
  - intros w (NW & x & y & E). unfold total.
    assert (K : Z.max c (2 * c) < 0) by lia. set (m := Z.max c (2 * c)) in *. clearbody m.
    do 6 (destruct x as [|? x]; [cbn [app] in E; do 6 (destruct w as [|? w]; [cbn [fold_right app] in *; try contradiction; try (injection E; intros; subst); try discriminate; try lia|cbn [app] in E; try (injection E as <- E); try discriminate])|cbn [app] in E; try (injection E as <- E); try discriminate]).
Qed.
