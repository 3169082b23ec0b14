(** Properties: Fenwick trees whose element operations throw. *)
Require Import List Arith NArith ZArith Lia Bool.
Require Import Verif.Base Verif.FenwickModel Verif.FenwickSpec Verif.FenwickProofs.
Require Import Verif.FenwickThrowModel Verif.FenwickThrowSpec Verif.FenwickThrowProofs.
Import ListNotations.
Local Open Scope N_scope.

(** C148. A call that returns did exactly what it does when nothing throws. *)
Theorem C148_returns : forall {T} (tr : transform T) t o sc t' r sc',
  t_step tr t o sc = Val (t', Returns r, sc') -> fstep tr t o = Val (t', r).
Proof. exact @step_returns. Qed.
Print Assumptions C148_returns.
(** Nothing throws: the model of C01. *)
Theorem C148_quiet : forall {T} (tr : transform T) ops t t' rs,
  frun tr t ops = Val (t', rs) -> t_run tr t ops [] = Val (t', map Returns rs).
Proof. exact @run_quiet. Qed.
Print Assumptions C148_quiet.
(** However calls throw and are repeated, no call is undefined. *)
Theorem C148_safe : forall {T} (tr : transform T), (forall a b, exists c, f_discard tr a b = Some c) ->
  forall ops sc, Forall call_fits ops -> exists t fs, t_run tr fenwick_default ops sc = Val (t, fs).
Proof. exact @history_ends. Qed.
Print Assumptions C148_safe.
(** A query never changes the tree; an update or set_value that fails at its first step neither. *)
Theorem C148_query : forall {T} (tr : transform T) t s e sc t' f sc',
  t_step tr t (OQuery s e) sc = Val (t', f, sc') -> t' = t.
Proof. exact @query_keeps. Qed.
Print Assumptions C148_query.
Theorem C148_first : forall {T} (tr : transform T) t o k sc t' sc',
  t_step tr t o (Some k :: sc) = Val (t', Throws, sc') -> (forall i n, o <> ORebuild i n) -> t' = t.
Proof. exact @step_first. Qed.
Print Assumptions C148_first.
(** The tree only becomes built by a build that returns. *)
Theorem C148_built : forall {T} (tr : transform T) t o sc t' f sc',
  t_step tr t o sc = Val (t', f, sc') -> built t' = true ->
  built t = true \/ exists i n, o = ORebuild i n /\ f = Returns RUnit.
Proof. exact @step_built. Qed.
Print Assumptions C148_built.
(** A call that throws leaves is_built alone, and the size unless it is a rebuild. *)
Theorem C148_keeps : forall {T} (tr : transform T) t o sc t' sc',
  t_step tr t o sc = Val (t', Throws, sc') ->
  built t' = built t /\ (fsize t' = fsize t \/ exists i n, o = ORebuild i n).
Proof. exact @throw_keeps. Qed.
Print Assumptions C148_keeps.
(** An update or set_value that throws: there is a position at or behind the one of the call such
    that queries before it see the new elements, and the cells from it on are the old ones. *)
Theorem C148_update : forall {T} (tr : transform T) (D : T -> Prop), fenwick_laws tr D ->
  forall ops l rs o p v l2 r sc, Forall (fop_ok tr D) ops -> srun tr Unbuilt ops = Some (Built l, rs) ->
  o = OUpdate p v \/ o = OSet p v -> fop_ok tr D o -> sstep tr (Built l) o = Some (Built l2, r) ->
  exists t, frun tr fenwick_default ops = Val (t, rs) /\
  forall t' sc', t_step tr t o sc = Val (t', Throws, sc') ->
  built t' = true /\ fsize t' = sizeN l + 1 /\ exists b, p <= b /\ b <= sizeN l /\
    (forall s e, N.max s e < b -> query tr t' s e = Val (range_value tr l2 s e)) /\
    (forall q, b <= q -> at_ t' q = at_ t q).
Proof. exact @thrown_update. Qed.
Print Assumptions C148_update.
(** A rebuild that returns repairs a built tree, and a tree shorter than the new one. *)
Theorem C148_rebuild : forall {T} (tr : transform T) t input n sc t' r sc',
  t_step tr t (ORebuild input n) sc = Val (t', Returns r, sc') ->
  built t = true \/ fsize t <= N.min n (sizeN input) ->
  fstep tr fenwick_default (ORebuild input n) = Val (t', RUnit).
Proof. exact @rebuild_right. Qed.
Print Assumptions C148_rebuild.
(** A tree that is not built keeps what a failed build left behind: each cell ends as the sum
    of the leftover and the right value. *)
Theorem C148_leftovers : forall t input sc t' r sc',
  built t = false -> fsize t = sizeN input + 1 -> sizeN input + 1 < two64 ->
  t_step sumZ t (ORebuild input (sizeN input)) sc = Val (t', Returns r, sc') ->
  forall q x, nth_error (processed t) (N.to_nat q) = Some x ->
  at_ t' q = Val (x + block_value sumZ input q)%Z.
Proof. exact leftovers. Qed.
Print Assumptions C148_leftovers.

Definition four : fop Z := ORebuild [1; 2; 3; 4]%Z 4.
Example C148_case :
  (* the update fails at its second cell; then the tree is rebuilt, after one more failure *)
  t_run sumZ fenwick_default [four; OUpdate 1 10%Z; OQuery 1 1; OQuery 1 4; four; four; OQuery 1 4; OSet 3 9%Z; OQuery 3 3]
    [None; None; None; None; None; None; None; None; None;  None; Some 0%nat;  None;  None;  None; Some 0%nat;
     None; None; None; None; None; None; None; None; None;  None; None;  None; Some 0%nat]
  = Val (mkF [0; 1; 3; 3; 10]%Z true,
      [Returns RUnit; Throws; Returns (RVal 11%Z); Returns (RVal 10%Z); Throws; Returns RUnit; Returns (RVal 10%Z); Throws; Returns (RVal 3%Z)]) /\
  Forall call_fits [four; OUpdate 1 10%Z; OResize 3] /\ (forall a b, exists c, f_discard sumZ a b = Some c) /\
  srun sumZ Unbuilt [four] = Some (Built [1; 2; 3; 4]%Z, [RUnit]) /\ Forall (fop_ok sumZ (fun _ => True)) [four] /\
  t_step sumZ (mkF [0; 1; 3; 3; 10]%Z true) (OUpdate 1 10%Z) [None; Some 0%nat] = Val (mkF [0; 11; 3; 3; 10]%Z true, Throws, []) /\
  sstep sumZ (Built [1; 2; 3; 4]%Z) (OSet 3 9%Z) = Some (Built [1; 2; 9; 4]%Z, RBool true) /\ fop_ok sumZ (fun _ => True) (OSet 3 9%Z) /\
  t_step sumZ (mkF [0; 1; 3; 3; 10]%Z true) (OSet 3 9%Z) [None; None; None; None; None; None; Some 0%nat] = Val (mkF [0; 1; 3; 9; 10]%Z true, Throws, []).
Proof.
  split; [vm_compute; reflexivity|]. split; [repeat constructor; vm_compute; discriminate|]. split; [intros a b; eexists; reflexivity|].
  split; [vm_compute; reflexivity|]. split; [|split; [vm_compute; reflexivity|split; [vm_compute; reflexivity|split; [|vm_compute; reflexivity]]]].
  - constructor; [|constructor]. split; [repeat constructor|]. vm_compute. reflexivity.
  - split; [exact Logic.I|]. intros x _. exists (9 - x)%Z. split; [reflexivity|]. split; [exact Logic.I|]. cbn [f_op sumZ]. lia.
Qed.
(** Refuted: an update that throws leaves the old or the new elements. *)
Theorem C148_strong_refuted : exists t t' sc, t_step sumZ fenwick_default four [] = Val (t, Returns RUnit, []) /\
  t_step sumZ t (OUpdate 1 10%Z) sc = Val (t', Throws, []) /\
  query sumZ t 1 1 = Val 1%Z /\ query sumZ t' 1 1 = Val 11%Z /\ query sumZ t 1 4 = Val 10%Z /\ query sumZ t' 1 4 = Val 10%Z.
Proof. do 2 eexists. exists [None; Some 0%nat]. split; [vm_compute; reflexivity|]. split; [vm_compute; reflexivity|]. repeat split; vm_compute; reflexivity. Qed.
Print Assumptions C148_strong_refuted.
(** Refuted: a rebuild that throws leaves the old elements or a tree that is not built. *)
Theorem C148_rebuild_refuted : exists t t' sc, t_step sumZ fenwick_default four [] = Val (t, Returns RUnit, []) /\
  t_step sumZ t (ORebuild [5; 6]%Z 2) sc = Val (t', Throws, []) /\ built t' = true /\ fsize t' = 3 /\
  query sumZ t' 1 1 = Val 0%Z /\ query sumZ t' 1 2 = Val 3%Z.
Proof. do 2 eexists. exists [Some 2%nat]. split; [vm_compute; reflexivity|]. split; [vm_compute; reflexivity|]. repeat split; vm_compute; reflexivity. Qed.
Print Assumptions C148_rebuild_refuted.
(** Refuted: a build repeated after an exception builds the right tree. *)
Theorem C148_retry_refuted : exists t t' sc, t_step sumZ fenwick_default four sc = Val (t, Throws, []) /\ built t = false /\
  t_step sumZ t four [] = Val (t', Returns RUnit, []) /\ query sumZ t' 1 1 = Val 2%Z /\ query sumZ t' 1 4 = Val 11%Z.
Proof.
  do 2 eexists. exists [None; None; None; None; Some 0%nat]. split; [vm_compute; reflexivity|]. split; [reflexivity|]. split; [vm_compute; reflexivity|]. split; vm_compute; reflexivity.
Qed.
Print Assumptions C148_retry_refuted.
