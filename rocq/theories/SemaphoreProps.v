(** C80-C84, C102: semaphore.h.  [n] threads, [a] resources at the start, any
    schedule. *)
Require Import List Arith NArith ZArith Lia Bool.
Require Import Verif.Base Verif.SemaphoreModel Verif.SemaphoreSpec Verif.SemaphoreProofs.
Import ListNotations.
Local Ltac run := repeat (apply conj); (vm_compute; reflexivity).

(** C80: with a fixed number of resources and threads that release only what they
    hold, never more threads hold one, nor do they hold more together. *)
Theorem C80_resource_bound : forall n a sched s, run sched (init n a) = Some s -> fixed (log s) -> disciplined (log s) ->
  (Z.of_nat (length (holders n (log s))) <= total n (log s) <= Z.of_N (a mod 2 ^ 64))%Z.
Proof. exact resource_bound. Qed.
Print Assumptions C80_resource_bound.
(** Three threads, two resources: 0 locks, 1 gets it with try_lock, 2 waits. *)
Local Definition steps (i k : nat) : list action := repeat (Next i) k.
Local Definition sched0 : list action :=
  [Begin 2 Lock; Begin 0 Lock; Next 0; Next 0; Begin 1 TryLock; Next 0; Next 0; Next 0] ++ steps 1 4 ++ steps 2 4.
Local Definition end_of (o : option state) : state := match o with Some s => s | None => init 0 0 end.
Local Definition s0 : state := end_of (SemaphoreModel.run sched0 (init 3 2)).
Local Ltac in_list := intros H; cbn in H; repeat (destruct H as [H|H]; [discriminate H|]); destruct H.
Example C80_case : SemaphoreModel.run sched0 (init 3 2) = Some s0 /\ fixed (log s0) /\ disciplined (log s0) /\
  holders 3 (log s0) = [0; 1]%nat /\ threads s0 = [Idle; Idle; LockAwake] /\ count s0 = 2%N.
Proof.
  let l := eval vm_compute in (log s0) in assert (E : log s0 = l) by (vm_compute; reflexivity).
  split; [vm_compute; reflexivity|]. split; [intros i n; rewrite E; in_list|]. split; [|run].
  rewrite E. repeat (split; [|intros i; destruct i as [|[|[|i]]]; vm_compute; discriminate]). exact I.
Qed.

(** C81: the calls behave as if they happened one after the other, each between its
    start and its return, on a plain counter. *)
Theorem C81_linearizable : forall n a sched s, run sched (init n a) = Some s ->
  replay (a mod 2 ^ 64) (log s) = Some (count s, available s) /\ forall i, doing i (log s) <> None.
Proof. exact linearizable. Qed.
Print Assumptions C81_linearizable.
(** So count() is acquisitions less releases, an idle semaphore is not released,
    and try_lock answers whether a resource is free. *)
Theorem C81_accounting : forall n a sched s l1 i e l2, run sched (init n a) = Some s ->
  log s = l1 ++ Effect i e :: l2 ->
  match e with
  | Acquired | Tried true => taken l2 < Z.of_N (resources (a mod 2 ^ 64) l2)
  | Tried false => Z.of_N (resources (a mod 2 ^ 64) l2) <= taken l2
  | Threw => resources (a mod 2 ^ 64) l2 = 0%N
  | Released true => 0 < taken l2
  | Released false => taken l2 = 0
  | Counted v => Z.of_N v = taken l2
  | MaxWas v => v = resources (a mod 2 ^ 64) l2
  | Resized n => True
  end%Z.
Proof.
  exact (fun n a sched s l1 i e l2 H L => effect_meaning (a mod 2 ^ 64) l1 i e l2 _
    (eq_ind _ (fun l => replay (a mod 2 ^ 64) l = _) (proj1 (linearizable n a sched s H)) _ L)).
Qed.
Print Assumptions C81_accounting.
Theorem C81_never_negative : forall n a sched s, run sched (init n a) = Some s ->
  Z.of_N (count s) = taken (log s) /\ (0 <= taken (log s))%Z /\ available s = resources (a mod 2 ^ 64) (log s).
Proof.
  exact (fun n a sched s H => let R := proj1 (linearizable n a sched s H) in let T := replay_taken _ _ _ _ R in
    conj (proj1 T) (conj (taken_nonneg _ _ _ R) (proj2 T))).
Qed.
Print Assumptions C81_never_negative.
Local Definition sched1 : list action :=
  [Begin 0 Unlock; Begin 1 TryLock] ++ steps 0 3 ++ steps 1 4 ++ [Begin 0 Count; Begin 1 (SetAvailable 5)] ++ steps 0 3
    ++ [Begin 0 MaxCount; Begin 2 TryLock; Next 2; Next 2] ++ steps 0 2 ++ steps 2 1 ++ steps 1 2 ++ [Begin 0 MaxCount] ++ steps 0 2.
Local Definition s1 : state := end_of (SemaphoreModel.run sched1 (init 3 1)).
Example C81_case : SemaphoreModel.run sched1 (init 3 1) = Some s1 /\
  rev (log s1) = [Call 0 Unlock; Call 1 TryLock; Effect 0 (Released false); Return 0 (Released false);
    Effect 1 (Tried true); Return 1 (Tried true); Call 0 Count; Call 1 (SetAvailable 5); Effect 0 (Counted 1);
    Return 0 (Counted 1); Call 0 MaxCount; Call 2 TryLock; Effect 2 (Tried false); Effect 0 (MaxWas 1);
    Return 0 (MaxWas 1); Return 2 (Tried false); Effect 1 (Resized 5); Call 0 MaxCount; Effect 0 (MaxWas 5); Return 0 (MaxWas 5)]%N.
Proof. run. Qed.

(** C82: a thread that waits in lock while a resource is free gets it by its own
    steps alone, without any notification. *)
Theorem C82_no_lost_wakeup : forall s i, nth_error (threads s) i = Some LockWait -> mtx s = None -> (count s < available s)%N ->
  exists s', run (repeat (Next i) 5) s = Some s' /\ log s' = Return i Acquired :: Effect i Acquired :: log s /\
    nth_error (threads s') i = Some Idle.
Proof. exact waiting_gets_it. Qed.
Print Assumptions C82_no_lost_wakeup.
(** The mutex is never kept: its holder gives it back by at most four own steps;
    and whoever is in a call can go on, or the holder of the mutex can. *)
Theorem C82_mutex_is_released : forall n a sched s j, run sched (init n a) = Some s -> mtx s = Some j ->
  exists k s', (k <= 4)%nat /\ run (repeat (Next j) k) s = Some s' /\ mtx s' = None.
Proof. exact (fun n a sched s j H => holder_releases _ s j (reach n a sched s H)). Qed.
Print Assumptions C82_mutex_is_released.
Theorem C82_no_deadlock : forall n a sched s i p, run sched (init n a) = Some s -> nth_error (threads s) i = Some p ->
  p <> Idle -> next i s <> None \/ exists j, mtx s = Some j /\ j <> i /\ next j s <> None.
Proof. exact (fun n a sched s i p H => no_deadlock _ s i p (reach n a sched s H)). Qed.
Print Assumptions C82_no_deadlock.
Local Definition sched2 : list action :=
  [Begin 0 Lock] ++ steps 0 5 ++ [Begin 1 Lock] ++ steps 1 3 ++ [Begin 0 Unlock] ++ steps 0 5.
Local Definition s2 : state := end_of (SemaphoreModel.run sched2 (init 2 1)).
Example C82_case : SemaphoreModel.run sched2 (init 2 1) = Some s2 /\ nth_error (threads s2) 1 = Some LockWait /\ mtx s2 = None /\
  (count s2 <? available s2)%N = true /\
  (exists s, SemaphoreModel.run [Next 1; Next 1] s2 = Some s /\ mtx s = Some 1%nat).
Proof.
  repeat (split; [vm_compute; reflexivity|]). exists (end_of (SemaphoreModel.run [Next 1; Next 1] s2)). run.
Qed.

(** C83: a call of lock that finds no resources throws ... *)
Theorem C83_throws_partial : forall s i, nth_error (threads s) i = Some LockMutex -> mtx s = None -> available s = 0%N ->
  exists s', run (repeat (Next i) 3) s = Some s' /\ log s' = Return i Threw :: Effect i Threw :: log s /\
    nth_error (threads s') i = Some Idle.
Proof. exact lock_throws. Qed.
Print Assumptions C83_throws_partial.
(** ... and only then. *)
Theorem C83_throws_only_then : forall n a sched s l1 i l2, run sched (init n a) = Some s ->
  log s = l1 ++ Effect i Threw :: l2 -> resources (a mod 2 ^ 64) l2 = 0%N.
Proof. exact (fun n a sched s l1 i l2 => C81_accounting n a sched s l1 i Threw l2). Qed.
Print Assumptions C83_throws_only_then.
Example C83_case : let s := end_of (SemaphoreModel.run [Begin 0 Lock] (init 1 0)) in
  nth_error (threads s) 0 = Some LockMutex /\ mtx s = None /\ available s = 0%N.
Proof. run. Qed.
(** But a thread that already waits when the number becomes 0 waits for ever,
    whatever the others do short of setting a new number. *)
Theorem C83_waits_for_ever_refuted : exists sched s, run sched (init 2 1) = Some s /\ available s = 0%N /\
  doing 0 (log s) = Some (In Lock) /\ doing 1 (log s) = Some Outside /\
  forall more s', Forall (fun a => sets a = false) more -> run more s = Some s' -> doing 0 (log s') = Some (In Lock).
Proof.
  set (sched := [Begin 1 Lock] ++ steps 1 5 ++ [Begin 0 Lock] ++ steps 0 3 ++ [Begin 1 (SetAvailable 0)] ++ steps 1 3).
  exists sched. set (s := end_of (SemaphoreModel.run sched (init 2 1))). exists s.
  assert (R : SemaphoreModel.run sched (init 2 1) = Some s) by (vm_compute; reflexivity).
  split; [exact R|]. do 3 (split; [vm_compute; reflexivity|]). apply (stuck_for_ever 2 1 sched s 0%nat R).
  split; [vm_compute; reflexivity|]. split; [exists LockWait; split; vm_compute; reflexivity|].
  intros j p E. destruct j as [|[|j]]; vm_compute in E; try (injection E as <-; reflexivity).
  destruct j; discriminate E.
Qed.
Print Assumptions C83_waits_for_ever_refuted.

(** C84: at the moment a thread is admitted fewer threads than the current number
    of resources hold one. *)
Theorem C84_admission : forall n a sched s l1 i e l2, run sched (init n a) = Some s -> disciplined (log s) ->
  log s = l1 ++ Effect i e :: l2 -> e = Acquired \/ e = Tried true ->
  (Z.of_nat (length (holders n l2)) < Z.of_N (resources (a mod 2 ^ 64) l2))%Z.
Proof. exact admitted_room. Qed.
Print Assumptions C84_admission.
(** Setting the number changes nothing else: what is taken stays taken. *)
Theorem C84_others_keep_it : forall s i m, nth_error (threads s) i = Some (SetStore m) ->
  exists s', run [Next i] s = Some s' /\ available s' = m /\ count s' = count s /\ mtx s' = mtx s /\
    (forall j, holds j (log s') = holds j (log s)) /\
    (forall j, j <> i -> nth_error (threads s') j = nth_error (threads s) j).
Proof. exact set_store_only. Qed.
Print Assumptions C84_others_keep_it.
(** Two holders, then one resource: try_lock fails until both are gone. *)
Local Definition sched3 : list action :=
  [Begin 0 Lock] ++ steps 0 5 ++ [Begin 1 Lock] ++ steps 1 5 ++ [Begin 2 (SetAvailable 1)] ++ steps 2 3 ++
  [Begin 0 Unlock] ++ steps 0 5 ++ [Begin 2 TryLock] ++ steps 2 3 ++ [Begin 1 Unlock] ++ steps 1 5 ++ [Begin 2 TryLock] ++ steps 2 4.
Local Definition s3 : state := end_of (SemaphoreModel.run sched3 (init 3 2)).
Example C84_case : SemaphoreModel.run sched3 (init 3 2) = Some s3 /\ disciplined (log s3) /\ holders 3 (log s3) = [2]%nat /\
  firstn 3 (log s3) = [Return 2 (Tried true); Effect 2 (Tried true); Call 2 TryLock] /\
  (exists l1 l2, log s3 = l1 ++ Effect 2 (Tried false) :: l2 /\ holders 3 l2 = [1]%nat) /\
  (exists s, nth_error (threads s) 2 = Some (SetStore 1) /\
    SemaphoreModel.run (firstn 14 sched3) (init 3 2) = Some s /\ count s = 2%N).
Proof.
  let l := eval vm_compute in (log s3) in assert (E : log s3 = l) by (vm_compute; reflexivity).
  split; [vm_compute; reflexivity|]. split.
  { rewrite E. repeat (split; [|intros i; destruct i as [|[|[|i]]]; vm_compute; discriminate]). exact I. }
  split; [vm_compute; reflexivity|]. split; [vm_compute; reflexivity|]. split.
  - let l := eval vm_compute in (log s3) in
    match l with context [Effect 2 (Tried false) :: ?r] => exists (firstn (length (log s3) - S (length r)) (log s3)), r end.
    rewrite E. split; vm_compute; reflexivity.
  - exists (end_of (SemaphoreModel.run (firstn 14 sched3) (init 3 2))). run.
Qed.

(** C102: data races: only max_count, which does not take the mutex, can read while
    set_available_resources writes. *)
Theorem C102_races_partial : forall n a sched s i j p q, run sched (init n a) = Some s -> nth_error (threads s) i = Some p ->
  nth_error (threads s) j = Some q -> i <> j -> conflict (accesses p) (accesses q) ->
  (p = MaxRead /\ exists m, q = SetStore m) \/ (q = MaxRead /\ exists m, p = SetStore m).
Proof. exact races. Qed.
Print Assumptions C102_races_partial.
Theorem C102_race_free_refuted : exists n a sched s i j p q, run sched (init n a) = Some s /\ i <> j /\
  nth_error (threads s) i = Some p /\ nth_error (threads s) j = Some q /\ conflict (accesses p) (accesses q).
Proof.
  exists 2%nat, 1%N, [Begin 0 MaxCount; Begin 1 (SetAvailable 2); Next 1].
  exists (end_of (SemaphoreModel.run [Begin 0 MaxCount; Begin 1 (SetAvailable 2); Next 1] (init 2 1))).
  exists 0%nat, 1%nat, MaxRead, (SetStore 2).
  split; [vm_compute; reflexivity|]. split; [discriminate|]. do 2 (split; [vm_compute; reflexivity|]).
  exists Lavailable, false, true. cbn. tauto.
Qed.
Print Assumptions C102_race_free_refuted.
