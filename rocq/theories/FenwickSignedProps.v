(** Properties C138 and C139: Fenwick trees of signed integers and of doubles. *)
Require Import List Arith NArith ZArith Lia Bool.
Require Import Floats.SpecFloat.
Require Import Verif.Base Verif.Cint Verif.FenwickModel Verif.FenwickSpec Verif.DoubleModel Verif.DoubleSpec.
Require Import Verif.FenwickSignedModel Verif.FenwickSignedSpec Verif.FenwickSignedProofs.
Import ListNotations.
Local Open Scope Z_scope.
Local Ltac run := repeat (apply conj); (vm_compute; reflexivity).

(** C138. Whatever calls are made, if none of them overflows, the answers are those of the list of
    integers. *)
Theorem C138_exact : forall b ops t rs, Forall call_ok ops -> s_run b fenwick_default ops = Val (t, rs) ->
  exists a, srun sumZ Unbuilt ops = Some (a, rs).
Proof. exact signed_exact. Qed.
Print Assumptions C138_exact.
(** No call overflows if after every call all sums of neighbouring elements have values in the type,
    and replacements change elements by such values. *)
Theorem C138_defined : forall b ops a rs, Forall call_ok ops -> run_fits b Unbuilt ops -> srun sumZ Unbuilt ops = Some (a, rs) ->
  exists t, s_run b fenwick_default ops = Val (t, rs).
Proof. exact signed_defined. Qed.
Print Assumptions C138_defined.
(** If no element is negative, it suffices that the total has a value in the type. *)
Theorem C138_nonnegative : forall b ops a rs, 0 < b -> Forall call_ok ops -> run_within b Unbuilt ops -> srun sumZ Unbuilt ops = Some (a, rs) ->
  exists t, s_run b fenwick_default ops = Val (t, rs).
Proof. exact signed_nonneg. Qed.
Print Assumptions C138_nonnegative.
Definition c138_ops : list (fop Z) :=
  [ORebuild [2147483600; 3; 0; 10; 30] 5; OUpdate 5 4; OSet 1 7; OQuery 2 4; OSet 3 2147483000; OQuery 1 5].
Example C138_case : Forall call_ok c138_ops /\ run_within 32 Unbuilt c138_ops /\
  srun sumZ Unbuilt c138_ops =
    Some (Built [7; 3; 2147483000; 10; 34], [RUnit; RBool true; RBool true; RVal 13; RBool true; RVal 2147483054]) /\
  exists t, s_run 32 fenwick_default c138_ops = Val (t, [RUnit; RBool true; RBool true; RVal 13; RBool true; RVal 2147483054]).
Proof.
  split; [repeat constructor|]. split.
  - vm_compute. repeat match goal with |- _ /\ _ => split | |- Forall _ _ => constructor | |- True => exact Logic.I | |- _ => intro; discriminate end.
  - split; [reflexivity|]. eexists. vm_compute. reflexivity.
Qed.
Example C138_defined_case : Forall call_ok [ORebuild [100; -50; 20] 3; OSet 2 27; OQuery 1 3] /\
  run_fits 8 Unbuilt [ORebuild [100; -50; 20] 3; OUpdate 2 30; OQuery 1 3] /\
  s_run 8 fenwick_default [ORebuild [100; -50; 20] 3; OUpdate 2 30; OQuery 1 3] =
    Val (mkF [0; 100; 80; 20] true, [RUnit; RBool true; RVal 100]) /\
  s_run 8 fenwick_default [ORebuild [100; -50; 20] 3; OUpdate 2 77] = Val (mkF [0; 100; 127; 20] true, [RUnit; RBool true]) /\
  s_run 8 fenwick_default [ORebuild [100; -50; 20] 3; OUpdate 2 78] = UB /\
  s_run 8 fenwick_default [ORebuild [100; -50; 20] 3; OUpdate 2 77; OQuery 1 3] = UB /\
  s_run 8 fenwick_default [ORebuild [100; -50; 20] 3; OSet 2 78] = UB.
Proof.
  split; [repeat constructor|]. split; [|run].
  assert (F : forall l, (forall lo hi, (lo <= 3)%nat -> (hi <= 3)%nat -> fits 8 (zsum (slice l lo hi))) -> length l = 3%nat -> sums_fit 8 l).
  { intros l H L lo hi. destruct (Nat.le_gt_cases lo 3) as [A|A].
    - destruct (Nat.le_gt_cases hi 3) as [B|B]; [now apply H|]. replace (slice l lo hi) with (slice l lo 3); [apply H; lia|].
      unfold slice. rewrite !firstn_all2; trivial; rewrite skipn_length; lia.
    - unfold slice. rewrite skipn_all2 by lia. rewrite firstn_nil. vm_compute; split; discriminate. }
  assert (G : forall x y z, fits 8 x -> fits 8 y -> fits 8 z -> fits 8 (x + y) -> fits 8 (y + z) -> fits 8 (x + (y + z)) -> sums_fit 8 [x; y; z]).
  { intros x y z X Y Z XY YZ XYZ. apply F; [|reflexivity]. intros lo hi A B. assert (fits 8 0) by (vm_compute; split; discriminate).
    do 4 (destruct lo as [|lo]; [do 4 (destruct hi as [|hi]; [cbn; rewrite ?Z.add_0_r; trivial|]); lia|]). lia. }
  cbn -[sums_fit]. repeat split; trivial; apply G; vm_compute; split; discriminate.
Qed.
(** Refuted: that it suffices that the elements and the sum asked for have values in the type. *)
Theorem C138_elements_refuted : exists l, Forall (fits 32) l /\ fits 32 (zsum l) /\ s_run 32 fenwick_default [ORebuild l (sizeN l)] = UB.
Proof.
  exists [2147483647; 1; -1]. split; [|split; [|vm_compute; reflexivity]].
  - repeat (apply Forall_cons || apply Forall_nil); vm_compute; split; discriminate.
  - vm_compute; split; discriminate.
Qed.
Print Assumptions C138_elements_refuted.
(** Refuted: that a replacement by a number of the type is always possible. *)
Theorem C138_replacement_refuted : exists x v, fits 32 x /\ fits 32 v /\ s_run 32 fenwick_default [ORebuild [x] 1; OSet 1 v] = UB.
Proof. exists (-2), 2147483647. split; [vm_compute; split; discriminate|]. split; [vm_compute; split; discriminate|vm_compute; reflexivity]. Qed.
Print Assumptions C138_replacement_refuted.

(** C139. A tree of doubles answers without rounding if the numbers are integers whose sums stay
    within 2^53. *)
Theorem C139_integers_partial : forall ops a rs, Forall call_ok ops -> Forall (call_all small) ops -> run_fits 54 Unbuilt ops ->
  srun sumZ Unbuilt ops = Some (a, rs) ->
  exists t, frun sumD fenwick_default (map (call_map of_int) ops) = Val (t, map (answer_map of_int) rs).
Proof. exact double_integers. Qed.
Print Assumptions C139_integers_partial.
(** The same for any run without overflow of the 54 bit type. *)
Theorem C139_run_partial : forall ops t rs, Forall (call_all small) ops -> s_run 54 fenwick_default ops = Val (t, rs) ->
  exists t', frun sumD fenwick_default (map (call_map of_int) ops) = Val (t', map (answer_map of_int) rs).
Proof. exact double_run. Qed.
Print Assumptions C139_run_partial.
Definition c139_ops : list (fop Z) :=
  [ORebuild [5; -3; 7; 1; 4; 9; 2] 6; OUpdate 3 10; OSet 5 (-4); OQuery 2 5; OResize 6; OAt 4].
Example C139_case : Forall (call_all small) c139_ops /\
  (exists t, s_run 54 fenwick_default c139_ops = Val (t, [RUnit; RBool true; RBool true; RVal 11; RUnit; RVal 20])) /\
  exists t, frun sumD fenwick_default (map (call_map of_int) c139_ops) =
    Val (t, [RUnit; RBool true; RBool true; RVal (of_int 11); RUnit; RVal (of_int 20)]).
Proof.
  split; [repeat (apply Forall_cons || apply Forall_nil); cbn [call_all]; repeat (apply Forall_cons || apply Forall_nil); trivial; unfold small; lia|]. split; eexists; vm_compute; reflexivity.
Qed.
Example C139_defined_case : run_fits 54 Unbuilt [ORebuild [9007199254740990] 1; OSet 1 3; OQuery 1 1].
Proof.
  assert (F : forall x, fits 54 x -> sums_fit 54 [x]).
  { intros x X lo hi. assert (fits 54 0) by (vm_compute; split; discriminate).
    destruct lo as [|lo]; [destruct hi as [|hi]; cbn; rewrite ?Z.add_0_r; trivial; now rewrite firstn_nil; cbn; rewrite ?Z.add_0_r|].
    unfold slice. rewrite skipn_all2 by (cbn; lia). now rewrite firstn_nil. }
  cbn -[sums_fit fits]. split; [trivial|]. split; [apply F; vm_compute; split; discriminate|]. split; [intros x _ [= <-]; vm_compute; split; discriminate|].
  split; [apply F; vm_compute; split; discriminate|]. split; [trivial|]. split; [apply F; vm_compute; split; discriminate|trivial].
Qed.
(** Refuted for other doubles: the query of one element answers it; *)
Theorem C139_query_refuted : exists x y t, frun sumD fenwick_default [ORebuild [x; y] 2; OQuery 2 2] = Val (t, [RUnit; RVal (of_int 0)]) /\
  valid x /\ valid y /\ y = of_int 1.
Proof. exists (of_int (2 ^ 53)), (of_int 1). eexists. run. Qed.
Print Assumptions C139_query_refuted.
(** set_value sets the element; *)
Theorem C139_set_refuted : exists x y v w t,
  frun sumD fenwick_default [ORebuild [x; y] 2; OSet 2 v; OQuery 2 2] = Val (t, [RUnit; RBool true; RVal w]) /\ dlt v w = true.
Proof. exists (of_int (2 ^ 53)), (of_int 1), (of_int 3). do 2 eexists. run. Qed.
Print Assumptions C139_set_refuted.
(** the sum of a range of elements that are not negative is not negative. *)
Theorem C139_negative_refuted : exists l w t,
  frun sumD fenwick_default [ORebuild l 8; OQuery 8 8] = Val (t, [RUnit; RVal w]) /\
  Forall (fun d => dle (of_int 0) d = true) l /\ dlt w (of_int 0) = true.
Proof.
  exists (map of_int [2 ^ 53; 1; 1; 1; 1; 1; 1; 0]). do 2 eexists. split; [vm_compute; reflexivity|].
  split; [repeat constructor|vm_compute; reflexivity].
Qed.
Print Assumptions C139_negative_refuted.
