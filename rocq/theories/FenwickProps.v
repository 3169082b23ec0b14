(** Properties C01-C10 and C95: Fenwick tree. *)
Require Import List Arith NArith ZArith Lia Bool.
Require Import Verif.Base Verif.FenwickModel Verif.FenwickSpec Verif.FenwickProofs.
Import ListNotations.

(** C01. Whatever well-formed calls were made, a tree whose specification list
    is [l] answers every query with the fold of the range, and all earlier
    results are those of the specification. *)
Theorem C01_query_is_range_fold :
  forall (T : Type) (tr : transform T) (D : T -> Prop), fenwick_laws tr D ->
  forall ops l rs s e,
  Forall (fop_ok tr D) ops -> srun tr Unbuilt ops = Some (Built l, rs) ->
  exists t, frun tr fenwick_default ops = Val (t, rs) /\
            query tr t s e = Val (range_value tr l s e).
Proof. exact (fun T tr D L => query_reach tr D L). Qed.
Print Assumptions C01_query_is_range_fold.

(** The two arithmetic instances: mathematical integers, and unsigned machine
    integers of any width. *)
Theorem C01_query_is_range_sum_Z :
  forall ops l rs s e,
  Forall (fop_ok sumZ (fun _ => True)) ops -> srun sumZ Unbuilt ops = Some (Built l, rs) ->
  exists t, frun sumZ fenwick_default ops = Val (t, rs) /\
            query sumZ t s e = Val (range_value sumZ l s e).
Proof. exact (query_reach sumZ _ sumZ_laws). Qed.
Print Assumptions C01_query_is_range_sum_Z.

Theorem C01_query_is_range_sum_unsigned :
  forall w, (0 <= w)%Z -> forall ops l rs s e,
  Forall (fop_ok (sumW w) (fun x => 0 <= x < 2 ^ w)%Z) ops ->
  srun (sumW w) Unbuilt ops = Some (Built l, rs) ->
  exists t, frun (sumW w) fenwick_default ops = Val (t, rs) /\
            query (sumW w) t s e = Val (range_value (sumW w) l s e).
Proof. exact (fun w H => query_reach (sumW w) _ (sumW_laws w H)). Qed.
Print Assumptions C01_query_is_range_sum_unsigned.

Definition case_ops : list (fop Z) :=
  [ORebuild [5; -3; 7; 1; 4; 9; 2]%Z 6; OUpdate 3 10%Z; OSet 5 (-4)%Z;
   OQuery 2 5; OResize 6; OAt 4]%N.

Example C01_case :
  Forall (fop_ok sumZ (fun _ => True)) case_ops /\
  srun sumZ Unbuilt case_ops =
    Some (Built [5; -3; 17; 1; -4]%Z,
          [RUnit; RBool true; RBool true; RVal 11%Z; RUnit; RVal 20%Z]).
Proof.
  split; [|reflexivity].
  repeat constructor; try exact (sumZ_reachable _); auto.
Qed.

Example C01_case_unsigned :
  Forall (fop_ok (sumW 8) (fun x => 0 <= x < 2 ^ 8)%Z)
         [ORebuild [200; 100; 7]%Z 3%N; OSet 1 90%Z] /\
  srun (sumW 8) Unbuilt [ORebuild [200; 100; 7]%Z 3%N; OSet 1 90%Z] =
    Some (Built [90; 100; 7]%Z, [RUnit; RBool true]).
Proof.
  split; [|reflexivity].
  repeat constructor; try lia; apply sumW_reachable; lia.
Qed.

(** C02 *)
Theorem C02_update_one_element :
  forall (T : Type) (tr : transform T) (D : T -> Prop), fenwick_laws tr D ->
  forall t p v, live tr D t -> D v ->
  exists t', update tr t p v = Val (t', (p <? fsize t)%N) /\
    fsize t' = fsize t /\
    forall s e, exists x, query tr t s e = Val x /\
      query tr t' s e =
        Val (if ((1 <=? p) && (p <? fsize t) && covered (fsize t) s e p)%N
             then f_op tr x v else x).
Proof. exact (fun T tr D L => fwd_update tr D L). Qed.
Print Assumptions C02_update_one_element.

Definition live_tree : fenwick Z := mkF [0; 5; 2; 17; 20; -4]%Z true.

Example C02_case : live sumZ (fun _ => True) live_tree /\ fsize live_tree = 6%N.
Proof.
  split; [|reflexivity].
  exists case_ops, [RUnit; RBool true; RBool true; RVal 11%Z; RUnit; RVal 20%Z].
  repeat split; try reflexivity. apply C01_case.
Qed.

(** C03 *)
Theorem C03_set_value_overwrites_one_element :
  forall (T : Type) (tr : transform T) (D : T -> Prop), fenwick_laws tr D ->
  forall t p v, live tr D t -> D v -> reachable_value tr D v ->
  exists t', set_value tr t p v = Val (t', ((1 <=? p) && (p <? fsize t))%N) /\
    fsize t' = fsize t /\
    ((1 <= p < fsize t)%N -> query tr t' p p = Val v) /\
    (forall q, (q < fsize t)%N -> q <> p -> query tr t' q q = query tr t q q) /\
    (~ (1 <= p < fsize t)%N -> t' = t).
Proof. exact (fun T tr D L => fwd_set tr D L). Qed.
Print Assumptions C03_set_value_overwrites_one_element.

Example C03_case :
  live sumZ (fun _ => True) live_tree /\ reachable_value sumZ (fun _ => True) 42%Z.
Proof. split; [apply C02_case|apply sumZ_reachable]. Qed.

(** C04 *)
Theorem C04_query_symmetric_and_clamped :
  forall (T : Type) (tr : transform T) (D : T -> Prop), fenwick_laws tr D ->
  forall t s e, live tr D t ->
  query tr t s e = query tr t e s /\
  query tr t s e = query tr t (N.min s (fsize t - 1)) (N.min e (fsize t - 1)).
Proof. exact (fun T tr D L => fwd_clamp tr D L). Qed.
Print Assumptions C04_query_symmetric_and_clamped.

Example C04_case :
  live sumZ (fun _ => True) live_tree /\
  query sumZ live_tree 18446744073709551615 3 = Val 14%Z.
Proof. split; [apply C02_case|reflexivity]. Qed.

(** C05 *)
Theorem C05_unbuilt_trees_throw :
  forall (T : Type) (tr : transform T) ops1 ops2 t rs,
  existsb is_rebuild ops2 = false ->
  (frun tr fenwick_default ops2 = Val (t, rs) \/
   frun tr fenwick_default (ops1 ++ OMoveOut :: ops2) = Val (t, rs)) ->
  (forall s e, query tr t s e = Exn NotBuilt) /\
  (forall p v, update tr t p v = Exn NotBuilt) /\
  (forall p v, set_value tr t p v = Exn NotBuilt).
Proof. exact @unbuilt_histories. Qed.
Print Assumptions C05_unbuilt_trees_throw.

Example C05_case :
  frun sumZ fenwick_default ([ORebuild [1;2]%Z 9; OUpdate 1 3%Z] ++ OMoveOut :: [OResize 0; OUpdate 1 2%Z]) =
  Val (mkF [] false, [RUnit; RBool true; RUnit; RUnit; RExn NotBuilt]).
Proof. reflexivity. Qed.

(** C06 *)
Theorem C06_rebuild_forgets_the_past :
  forall (T : Type) (tr : transform T) (D : T -> Prop), fenwick_laws tr D ->
  forall ops t rs input n,
  Forall (fop_ok tr D) ops -> frun tr fenwick_default ops = Val (t, rs) ->
  Forall D input -> (sizeN input + 1 < two64)%N ->
  exists t', build tr t input n = Val t' /\ fenwick_of tr input n = Val t'.
Proof. exact (fun T tr D L => fwd_rebuild tr D L). Qed.
Print Assumptions C06_rebuild_forgets_the_past.

Theorem C06_constructor_contents :
  forall (T : Type) (tr : transform T) (D : T -> Prop), fenwick_laws tr D ->
  forall input n s e,
  Forall D input -> (sizeN input + 1 < two64)%N ->
  exists t, fenwick_of tr input n = Val t /\
            query tr t s e = Val (range_value tr (take n input) s e).
Proof. exact (fun T tr D L => fwd_rebuild_contents tr D L). Qed.
Print Assumptions C06_constructor_contents.

Example C06_case :
  exists t rs, frun sumZ fenwick_default case_ops = Val (t, rs) /\
  build sumZ t [4; 4]%Z 1 = Val (mkF [0; 4]%Z true).
Proof.
  eexists; eexists; split; [vm_compute; reflexivity|vm_compute; reflexivity].
Qed.

(** C07: the surviving prefix keeps its answers (sizes >= 1) ... *)
Theorem C07_resize_keeps_prefix_partial :
  forall (T : Type) (tr : transform T) (D : T -> Prop), fenwick_laws tr D ->
  forall t m, live tr D t ->
  ((fsize t <= m)%N -> resize t m = t) /\
  ((1 <= m <= fsize t)%N ->
     live tr D (resize t m) /\ fsize (resize t m) = m /\
     forall s e, (s < m)%N -> (e < m)%N ->
       query tr (resize t m) s e = query tr t s e).
Proof. exact (fun T tr D L => fwd_resize tr D L). Qed.
Print Assumptions C07_resize_keeps_prefix_partial.

Example C07_case : live sumZ (fun _ => True) live_tree /\
  query sumZ (resize live_tree 4) 2 3 = Val 14%Z.
Proof. split; [apply C02_case|reflexivity]. Qed.

(** ... but after resize(0) the tree still counts as built and a query reads
    outside the array. *)
Theorem C07_resize_then_query_safe_refuted :
  exists (ops : list (fop Z)) t rs s e,
    Forall (fop_ok sumZ (fun _ => True)) ops /\
    frun sumZ fenwick_default ops = Val (t, rs) /\ built t = true /\
    query sumZ t s e = UB.
Proof.
  exists [ORebuild [5; 6]%Z 2%N; OResize 0%N], (mkF [] true), [RUnit; RUnit], 1%N, 2%N.
  repeat split; try reflexivity. repeat constructor.
Qed.
Print Assumptions C07_resize_then_query_safe_refuted.

(** C08: no history (without resize(0)) reads or writes out of bounds or needs
    more than 64 hops. *)
Theorem C08_in_bounds_and_terminating :
  forall (T : Type) (tr : transform T) (D : T -> Prop), fenwick_laws tr D ->
  forall ops,
  Forall (fop_ok tr D) ops -> Forall (fun o => o <> OResize 0) ops ->
  exists t rs, frun tr fenwick_default ops = Val (t, rs).
Proof. exact (fun T tr D L => fwd_safe tr D L). Qed.
Print Assumptions C08_in_bounds_and_terminating.

Example C08_case :
  Forall (fop_ok sumZ (fun _ => True)) case_ops /\
  Forall (fun o => o <> OResize 0) case_ops.
Proof. split; [apply C01_case|]. repeat constructor; discriminate. Qed.

(** C09 *)
Theorem C09_at_is_block_value :
  forall (T : Type) (tr : transform T) (D : T -> Prop), fenwick_laws tr D ->
  forall ops t rs l p,
  Forall (fop_ok tr D) ops -> frun tr fenwick_default ops = Val (t, rs) ->
  srun tr Unbuilt ops = Some (Built l, rs) ->
  at_ t p = if (p <? fsize t)%N then Val (block_value tr l p) else Exn OutOfRange.
Proof. exact (fun T tr D L => fwd_at tr D L). Qed.
Print Assumptions C09_at_is_block_value.

Example C09_case :
  frun sumZ fenwick_default case_ops =
    Val (live_tree, [RUnit; RBool true; RBool true; RVal 11%Z; RUnit; RVal 20%Z]) /\
  at_ live_tree 4 = Val 20%Z /\ at_ live_tree 6 = Exn OutOfRange.
Proof. repeat split. Qed.

(** C10: products of non-zero integers are exact ... (missing: zero elements and
    set_value, see the refutations) *)
Theorem C10_product_query_partial :
  forall ops l rs s e,
  Forall (fop_ok mulZ (fun x => x <> 0%Z)) ops -> srun mulZ Unbuilt ops = Some (Built l, rs) ->
  exists t, frun mulZ fenwick_default ops = Val (t, rs) /\
            query mulZ t s e = Val (range_value mulZ l s e).
Proof. exact (query_reach mulZ _ mulZ_laws). Qed.
Print Assumptions C10_product_query_partial.

Example C10_case :
  Forall (fop_ok mulZ (fun x => x <> 0%Z)) [ORebuild [2; -3; 5; 7]%Z 4%N; OUpdate 2 4%Z] /\
  srun mulZ Unbuilt [ORebuild [2; -3; 5; 7]%Z 4%N; OUpdate 2 4%Z] =
    Some (Built [2; -12; 5; 7]%Z, [RUnit; RBool true]).
Proof.
  split; [|reflexivity]. apply Forall_cons; [|apply Forall_cons; [|apply Forall_nil]].
  - split; [|reflexivity].
    do 4 (apply Forall_cons; [lia|]). apply Forall_nil.
  - cbn. lia.
Qed.

(** ... an update by zero is reported as done but dropped, ... *)
Theorem C10_update_by_zero_refuted :
  exists t t', fenwick_of mulZ [2; 3]%Z 2 = Val t /\
    update mulZ t 1 0%Z = Val (t', true) /\
    query mulZ t 1 1 = Val 2%Z /\ query mulZ t' 1 1 = Val 2%Z.
Proof.
  exists (mkF [1; 2; 6]%Z true), (mkF [1; 2; 6]%Z true). repeat split.
Qed.
Print Assumptions C10_update_by_zero_refuted.

(** ... a zero in front of the range spoils the range ... *)
Theorem C10_query_behind_zero_refuted :
  exists t, fenwick_of mulZ [0; 3]%Z 2 = Val t /\ query mulZ t 2 2 = Val 0%Z.
Proof. exists (mkF [1; 0; 0]%Z true). repeat split. Qed.
Print Assumptions C10_query_behind_zero_refuted.

(** ... and set_value neither stores the value (3 -> 5 stores 3) nor is it
    defined on a zero element. *)
Theorem C10_set_value_refuted :
  (exists t t', fenwick_of mulZ [3]%Z 1 = Val t /\ set_value mulZ t 1 5%Z = Val (t', true) /\
     query mulZ t' 1 1 = Val 3%Z) /\
  (exists t, fenwick_of mulZ [0]%Z 1 = Val t /\ set_value mulZ t 1 5%Z = UB).
Proof.
  split.
  - exists (mkF [1; 3]%Z true), (mkF [1; 3]%Z true). repeat split.
  - exists (mkF [1; 0]%Z true). repeat split.
Qed.
Print Assumptions C10_set_value_refuted.

(** C95: update with a reference to a cell of the same tree is not the same as
    update with a copy of its value: the later cells receive the doubled value
    and the tree no longer answers range sums. *)
Theorem C95_update_by_own_reference_refuted :
  exists t t' t'' b, fenwick_of sumZ [1; 1]%Z 2 = Val t /\
    at_ t 1 = Val 1%Z /\
    update sumZ t 1 1%Z = Val (t', b) /\ update_alias sumZ t 1 1 = Val (t'', b) /\
    query sumZ t' 1 2 = Val 3%Z /\ query sumZ t'' 1 2 = Val 4%Z /\
    query sumZ t'' 1 1 = Val 2%Z /\ query sumZ t'' 2 2 = Val 2%Z.
Proof.
  exists (mkF [0; 1; 2]%Z true), (mkF [0; 2; 3]%Z true), (mkF [0; 2; 4]%Z true), true.
  repeat split.
Qed.
Print Assumptions C95_update_by_own_reference_refuted.

(** C95, what holds: a reference to a cell before the updated position is never
    written by the update, so it may be passed. *)
Theorem C95_update_by_earlier_reference_partial :
  forall (T : Type) (tr : transform T) t position src v,
  (fsize t < two64)%N -> (src < position)%N -> at_ t src = Val v ->
  update_alias tr t position src = update tr t position v.
Proof. intros T tr. exact (update_alias_before tr). Qed.
Print Assumptions C95_update_by_earlier_reference_partial.
Example C95_case : exists t t', fenwick_of sumZ [5; 7; 9; 1]%Z 4 = Val t /\
  at_ t 2 = Val 12%Z /\ update_alias sumZ t 3 2 = Val (t', true) /\ query sumZ t' 3 3 = Val 21%Z.
Proof.
  exists (mkF [0; 5; 12; 9; 22]%Z true), (mkF [0; 5; 12; 21; 34]%Z true). repeat split.
Qed.
