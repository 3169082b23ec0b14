(** C114: the destruction of a class derived from message_queue_t (message_queue.h),
    with and without a call of safe_delete() in its destructor. *)
Require Import List Arith NArith Lia Bool Permutation.
Require Import Verif.Base Verif.MsgQueueModel Verif.MsgQueueSpec Verif.MsgQueueProofs Verif.QueueEndModel Verif.QueueEndSpec Verif.QueueEndProofs.
Import ListNotations.
Local Ltac run := repeat (apply conj); (vm_compute; reflexivity).
Local Ltac in_list := let H := fresh in intros H; cbn in H; repeat (destruct H as [H|H]; [discriminate H|]); destruct H.

(** With safe_delete(): the destruction is never undefined, the thread has ended
    before the derived class is gone, and at the end no message is left and on_stop
    was called as often as on_start. *)
Theorem C114_safe : forall (M : Type) select, chooses select -> forall n ds (o : object M), acts select ds (new n) = Some o ->
  (forall d, In d ds -> unsafe d = false) ->
  at_ o <> Broken /\ (alive o = false -> worker (base o) = WOff) /\
  (at_ o = Destroyed -> queue (base o) = [] /\ count is_start (log (base o)) = count is_stop (log (base o))).
Proof. exact @safe_ok. Qed.
Print Assumptions C114_safe.
(** It returns: once begun, the steps of the thread and of the destructor suffice. *)
Theorem C114_safe_returns : forall (M : Type) select, chooses select -> forall n ds (o : object M), acts select ds (new n) = Some o ->
  (forall d, In d ds -> unsafe d = false) -> at_ o <> Living ->
  exists ds' p, forallb own ds' = true /\ acts select ds' o = Some p /\ at_ p = Destroyed.
Proof. exact @safe_returns. Qed.
Print Assumptions C114_safe_returns.
(** Seven is in the queue, the worker waits; it is processed, then the thread ends. *)
Local Definition recv (i m : nat) : list (deed nat) := Do (Begin i (Receive m)) :: repeat (Do (Next i)) 4.
Local Definition works (k : nat) : list (deed nat) := repeat (Do Work) k.
Local Definition end_of (o : option (object nat)) : object nat := match o with Some o => o | None => new 0 end.
Local Definition ds1 : list (deed nat) := Do Start :: works 5 ++ recv 0 7 ++ [Destroy true].
Local Definition o1 : object nat := end_of (acts fifo ds1 (new 1)).
Local Definition ds2 : list (deed nat) := [Step] ++ works 13 ++ repeat Step 5.
Local Definition o2 : object nat := end_of (acts fifo ds2 o1).
Example C114_case : chooses (@fifo nat) /\ acts fifo ds1 (new 1) = Some o1 /\ forallb (fun d => negb (unsafe d)) ds1 = true /\
  at_ o1 = SafeStop /\ queue (base o1) = [7] /\ worker (base o1) = WDiscard /\ on (log (base o1)) = true /\
  ~ In Stopped (log (base o1)) /\
  acts fifo ds2 o1 = Some o2 /\ at_ o2 = Destroyed /\ ~ In Discarding (log (base o2)) /\
  log (base o2) = [Stopped; Ended; OnStop; SawEmpty; OnMessage 7; Took 7; Stopped] ++ log (base o1).
Proof.
  split; [exact fifo_chooses|].
  let l := eval vm_compute in (log (base o1)) in assert (E : log (base o1) = l) by (vm_compute; reflexivity).
  let l := eval vm_compute in (log (base o2)) in assert (E2 : log (base o2) = l) by (vm_compute; reflexivity).
  do 6 (split; [vm_compute; reflexivity|]). split; [rewrite E; in_list|]. do 2 (split; [vm_compute; reflexivity|]).
  split; [rewrite E2; in_list|vm_compute; reflexivity].
Qed.

(** It does not process every message received before the destruction: 7 arrives
    after the worker looked at the queue and before it reads the flag. *)
Local Definition ds3 : list (deed nat) := Do Start :: works 7 ++ recv 0 7 ++ [Destroy true; Step] ++ works 5 ++ repeat Step 6.
Local Definition o3 : object nat := end_of (acts fifo ds3 (new 1)).
Theorem C114_safe_loses_refuted : exists n ds (o : object nat), acts fifo ds (new n) = Some o /\
  forallb (fun d => negb (unsafe d)) ds = true /\ at_ o = Destroyed /\ ~ In Discarding (log (base o)) /\
  received (log (base o)) = [7] /\ processed (log (base o)) = [].
Proof.
  let l := eval vm_compute in (log (base o3)) in assert (E : log (base o3) = l) by (vm_compute; reflexivity).
  exists 1, ds3, o3. do 3 (split; [vm_compute; reflexivity|]). split; [rewrite E; in_list|run].
Qed.
Print Assumptions C114_safe_loses_refuted.
(** That is the only way to lose one: if the thread runs, nobody has called stop() or
    calls discard_messages(), and the worker is not at that point when safe_delete()
    sets the flag, every message is processed. *)
Theorem C114_safe_serves_partial : forall (M : Type) select, chooses select -> forall n ds1 (o : object M) ds2 p,
  acts select ds1 (new n) = Some o -> at_ o = SafeStop -> on (log (base o)) = true -> ~ In Stopped (log (base o)) ->
  worker (base o) <> WStopped -> acts select ds2 o = Some p -> at_ p = Destroyed -> ~ In Discarding (log (base p)) ->
  Permutation (received (log (base p))) (processed (log (base p))).
Proof. exact @all_served. Qed.
Print Assumptions C114_safe_serves_partial.

(** Without safe_delete() in the derived class (the destructor of message_queue_t
    calls it, too late): undefined, a call of a pure virtual function, if the worker
    takes a message after the derived class is gone; *)
Local Definition ds4 : list (deed nat) := Do Start :: works 5 ++ recv 0 7 ++ [Destroy false; Step] ++ works 7.
Local Definition o4 : object nat := end_of (acts fifo ds4 (new 1)).
Theorem C114_unsafe_refuted : exists n ds (o : object nat), acts fifo ds (new n) = Some o /\ at_ o = Broken /\
  received (log (base o)) = [7].
Proof. exists 1, ds4, o4. run. Qed.
Print Assumptions C114_unsafe_refuted.
(** and its on_stop is not called even if there is no message. *)
Local Definition ds5 : list (deed nat) := Do Start :: works 5 ++ [Destroy false; Step; Step] ++ works 7 ++ repeat Step 2.
Local Definition o5 : object nat := end_of (acts fifo ds5 (new 1)).
Theorem C114_no_on_stop_refuted : exists n ds (o : object nat), acts fifo ds (new n) = Some o /\ at_ o = Destroyed /\
  received (log (base o)) = [] /\ count is_start (log (base o)) = 1 /\ count is_stop (log (base o)) = 0.
Proof. exists 1, ds5, o5. run. Qed.
Print Assumptions C114_no_on_stop_refuted.
(** What remains: it is undefined only if the thread was running at the time and some
    message was neither processed nor dropped. *)
Theorem C114_broken_only_partial : forall (M : Type) select, chooses select -> forall n ds (o : object M),
  acts select ds (new n) = Some o -> at_ o = Broken ->
  exists ds1 ds2 p, ds = ds1 ++ Destroy false :: ds2 /\ acts select ds1 (new n) = Some p /\ on (log (base p)) = true /\
    length (processed (log (base p))) + count is_dropped (log (base p)) < length (received (log (base p))).
Proof. exact @broken_why. Qed.
Print Assumptions C114_broken_only_partial.
