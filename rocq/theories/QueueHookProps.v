(** C121: what the hooks of a message queue may do (message_queue.h:24: "all methods
    are reentrant").  [n] threads besides that of the queue, numbered from 1, any
    schedule; the calls of the hooks are those of number 0. *)
Require Import List Arith NArith Lia Bool Permutation.
Require Import Verif.Base Verif.MsgQueueModel Verif.MsgQueueSpec Verif.MsgQueueProofs Verif.QueueHookModel Verif.QueueHookSpec Verif.QueueHookProofs.
Import ListNotations.
Local Ltac run := repeat (apply conj); (vm_compute; reflexivity).
Local Ltac in_list := let H := fresh in intros H; cbn in H; repeat (destruct H as [H|H]; [discriminate H|]); destruct H.

(** Whatever the hooks do, an execution looks as if one more thread had made their
    calls: C85 to C89, C103 and C112 hold with hooks, too. *)
Theorem C121_as_another_thread : forall (M : Type) select hooks n sched (s : hstate M), hrun select hooks sched (hinit n) = Some s ->
  exists sched', run select sched' (init (S n)) = Some (base s).
Proof. exact @reaches. Qed.
Print Assumptions C121_as_another_thread.
(** For instance: the messages leave a std::queue in the order of their arrival,
    those that the hooks send included. *)
Theorem C121_fifo : forall (M : Type) hooks n sched (s : hstate M), hrun fifo hooks sched (hinit n) = Some s ->
  received (log (base s)) = map fst (gone (log (base s))) ++ queue (base s).
Proof.
  exact (fun M hooks n sched s R => match reaches fifo hooks n sched s R with ex_intro _ sched' R' => fifo_kept (S n) sched' (base s) R' end).
Qed.
Print Assumptions C121_fifo.
(** The thread of the queue never waits for itself: if no other thread holds the
    mutex it can go on. *)
Theorem C121_no_deadlock : forall (M : Type) select hooks, chooses select -> forall n sched (s : hstate M),
  hrun select hooks sched (hinit n) = Some s -> over s = false -> worker (base s) <> WOff -> worker (base s) <> WEnded ->
  (forall i, i <> 0 -> mtx (base s) <> Some (Some i)) -> hwork select hooks s <> None.
Proof. exact @never_stuck. Qed.
Print Assumptions C121_no_deadlock.
(** Without a discard_messages(): the messages that on_start and on_new_message send
    to their own queue have all been processed when the thread has ended, also if
    stop() was called before they were sent. *)
Theorem C121_own_messages : forall (M : Type) select hooks, chooses select -> forall n sched (s : hstate M),
  hrun select hooks sched (hinit n) = Some s -> ~ In Discarding (log (base s)) -> worker (base s) = WEnded ->
  among (own_messages (before_stop (log (base s)))) (processed (log (base s))).
Proof. exact @own_processed. Qed.
Print Assumptions C121_own_messages.
(** A stop() in on_start or on_new_message loses nothing (unlike C86): all that was
    received before is processed. *)
Theorem C121_stop_in_hook : forall (M : Type) select hooks, chooses select -> forall n sched (s : hstate M) l1 l2,
  hrun select hooks sched (hinit n) = Some s -> log (base s) = l1 ++ Call 0 Stop :: l2 -> life l2 Up ->
  ~ In Discarding (log (base s)) -> worker (base s) = WEnded -> among (received l2) (processed (log (base s))).
Proof. exact @hook_stop. Qed.
Print Assumptions C121_stop_in_hook.
(** After a discard_messages() in a hook no message is taken before the queue is
    cleared (C87 allows one). *)
Theorem C121_discard_in_hook : forall (M : Type) select hooks, chooses select -> forall n sched (s : hstate M) l1 l2,
  hrun select hooks sched (hinit n) = Some s -> log (base s) = l1 ++ Call 0 Discard :: l2 -> count is_clear l1 = 0 ->
  count is_took l1 = 0.
Proof. exact @hook_discard. Qed.
Print Assumptions C121_discard_in_hook.
(** If the processing of a message makes the queue send only messages to itself that
    weigh less together, for some weight, then stop() still ends the thread (C104). *)
Theorem C121_stop_ends : forall (M : Type) select hooks weight, dwindling weight hooks -> chooses select -> forall n sched (s : hstate M),
  hrun select hooks sched (hinit n) = Some s -> over s = false -> stopped (base s) = true ->
  (forall i, i <> 0 -> mtx (base s) <> Some (Some i)) -> worker (base s) <> WOff ->
  exists t, (exists k, hrun select hooks (repeat HWork k) s = Some t) /\ worker (base t) = WEnded /\ at_ t = Outside /\ over t = false.
Proof. exact @hook_ends. Qed.
Print Assumptions C121_stop_ends.
(** The program goes on if no hook throws or calls start(); a join() in a hook throws
    and can be caught. *)
Theorem C121_goes_on : forall (M : Type) select hooks, (forall l, harmless (hooks l)) -> forall n sched (s : hstate M),
  hrun select hooks sched (hinit n) = Some s -> over s = false.
Proof. exact @never_over. Qed.
Print Assumptions C121_goes_on.

(** A queue of numbers: on_start sends 3; for m > 0 on_new_message asks for the
    size, and if that is small tries to join itself and sends m - 1; on 1 it also
    stops the queue.  on_stop sends 9. *)
Local Definition sized (l : list (event nat)) : nat := match l with Return _ _ :: Sized k :: _ => k | _ => 100 end.
Local Definition hk (l : list (event nat)) : prog nat :=
  match l with
  | OnStart :: _ => Use (Receive 3) (fun _ => Leave)
  | OnMessage (S m) :: _ =>
      Use Size (fun l => if sized l <? 10
                         then JoinSelf (Use (Receive m) (fun _ => if m =? 0 then Use Stop (fun _ => Leave) else Leave))
                         else Leave)
  | OnStop :: _ => Use (Receive 9) (fun _ => Leave)
  | _ => Leave
  end.
Local Lemma hk_dwindles : dwindling S hk.
Proof.
  intros l. destruct l as [|e l]; [exists 0; constructor|]. destruct e as [| | | | | | | | |m| | | | | | | | ]; try (exists 0; apply modest_leave).
  - exists (S 3 + 0). constructor. intros _. constructor.
  - destruct m as [|m]; [exists 0; split; [lia|constructor]|]. exists (S m + 0). split; [lia|].
    cbn [hk]. apply modest_use; [discriminate|]. intros l'. destruct (sized l' <? 10); [|constructor].
    apply modest_join, modest_send. intros _. destruct (m =? 0); [|constructor]. apply modest_use; [discriminate|]. intros _. constructor.
  - exists (S 9 + 0). constructor. intros _. constructor.
Qed.
Local Lemma hk_harmless : forall l, harmless (hk l).
Proof.
  intros l. destruct l as [|e l]; [constructor|]. destruct e as [| | | | | | | | |m| | | | | | | | ]; try apply harmless_leave; try (constructor; intros; apply harmless_leave).
  destruct m as [|m]; [constructor|]. constructor. intros l'. destruct (sized l' <? 10); [|constructor]. constructor. constructor. intros _.
  destruct (m =? 0); [|constructor]. constructor. intros _. constructor.
Qed.
Local Definition works (k : nat) : list (haction nat) := repeat HWork k.
Local Definition recv (i m : nat) : list (haction nat) := Other (Begin i (Receive m)) :: repeat (Other (Next i)) 4.
Local Definition end_of (o : option (hstate nat)) : hstate nat := match o with Some s => s | None => hinit 0 end.
Local Definition sc0 : list (haction nat) := Other Start :: works 12 ++ recv 1 2 ++ works 131.
Local Definition s0 : hstate nat := end_of (hrun fifo hk sc0 (hinit 1)).
Local Definition l2 : list (event nat) :=
  let fix go l := match l with [] => [] | Call 0 Stop :: l => l | _ :: l => go l end in go (log (base s0)).
Local Definition l1 : list (event nat) := firstn (length (log (base s0)) - S (length l2)) (log (base s0)).
Example C121_case : hrun fifo hk sc0 (hinit 1) = Some s0 /\ worker (base s0) = WEnded /\ over s0 = false /\ ~ In Discarding (log (base s0)) /\
  own_messages (before_stop (log (base s0))) = [3; 2; 1; 1; 0; 0] /\ processed (log (base s0)) = [3; 2; 2; 1; 1; 0; 0] /\
  (log (base s0) = l1 ++ Call 0 Stop :: l2 /\ life l2 Up /\ received l2 = [3; 2; 2; 1; 1; 0; 0]) /\
  dwindling S hk /\ chooses (@fifo nat) /\ (forall l, harmless (hk l)).
Proof.
  let l := eval vm_compute in (log (base s0)) in assert (E : log (base s0) = l) by (vm_compute; reflexivity).
  let l := eval vm_compute in l2 in assert (E2 : l2 = l) by (vm_compute; reflexivity).
  split; [vm_compute; reflexivity|]. split; [vm_compute; reflexivity|]. split; [vm_compute; reflexivity|]. split; [rewrite E; in_list|].
  split; [vm_compute; reflexivity|]. split; [vm_compute; reflexivity|].
  split; [split; [vm_compute; reflexivity|split; [rewrite E2|vm_compute; reflexivity]]|split; [exact hk_dwindles|split; [exact fifo_chooses|exact hk_harmless]]].
  repeat first [apply life_new|apply life_start|apply life_message|apply life_take|apply life_other; [reflexivity|]].
Qed.
(** In the middle: the queue is stopped, the thread is in a call of a hook, another
    one waits for the mutex. *)
Example C121_case_middle : exists sched s, hrun fifo hk sched (hinit 1) = Some s /\ over s = false /\ stopped (base s) = true /\
  mtx (base s) = Some (Some 0) /\ (exists k, at_ s = Calling k) /\ worker (base s) = WLook /\ nth_error (clients (base s)) 1 = Some (CLock 5).
Proof.
  exists (firstn 113 sc0 ++ [Other (Begin 1 (Receive 5))]), (end_of (hrun fifo hk (firstn 113 sc0 ++ [Other (Begin 1 (Receive 5))]) (hinit 1))).
  do 4 (split; [vm_compute; reflexivity|]). split; [|run]. vm_compute. eexists. reflexivity.
Qed.
(** A discard_messages() in the hook: 8, in the queue, is not taken. *)
Local Definition hk2 (l : list (event nat)) : prog nat := match l with OnMessage 7 :: _ => Use Discard (fun _ => Leave) | _ => Leave end.
Example C121_case_discard : exists sched s l1 l2, hrun fifo hk2 sched (hinit 1) = Some s /\ log (base s) = l1 ++ Call 0 Discard :: l2 /\
  count is_clear l1 = 0 /\ queue (base s) = [8] /\ worker (base s) = WUndiscard.
Proof.
  exists (Other Start :: works 5 ++ recv 1 7 ++ recv 1 8 ++ works 20), (end_of (hrun fifo hk2 (Other Start :: works 5 ++ recv 1 7 ++ recv 1 8 ++ works 20) (hinit 1))).
  set (s := end_of _). exists (firstn 3 (log (base s))), (skipn 4 (log (base s))). run.
Qed.

(** Not so for on_stop: what it sends to its own queue is not processed. *)
Theorem C121_sent_by_on_stop_refuted : exists hooks n sched (s : hstate nat) m, hrun fifo hooks sched (hinit n) = Some s /\
  worker (base s) = WEnded /\ ~ In Discarding (log (base s)) /\ In (Return 0 (Receive m)) (log (base s)) /\ ~ In (OnMessage m) (log (base s)).
Proof.
  let l := eval vm_compute in (log (base s0)) in assert (E : log (base s0) = l) by (vm_compute; reflexivity).
  exists hk, 1, sc0, s0, 9. split; [vm_compute; reflexivity|]. split; [vm_compute; reflexivity|]. rewrite E. split; [in_list|]. split; [cbn; auto|in_list].
Qed.
Print Assumptions C121_sent_by_on_stop_refuted.
(** And stop() does not end every queue: for hooks that put a message back for every
    one they get, once one has been taken neither on_stop is called nor the thread
    ends, whatever is called, discard_messages() excepted. *)
Theorem C121_resend_goes_on_refuted : forall (M : Type) select (f : M -> M), chooses select -> forall n sched (s : hstate M) l1 m l2,
  hrun select (resend f) sched (hinit n) = Some s -> log (base s) = l1 ++ Took m :: l2 -> ~ In Discarding (log (base s)) ->
  ~ In OnStop l1 /\ worker (base s) <> WEnded.
Proof. exact (fun M select f => resend_goes_on select (resend f) f (fun l => eq_refl)). Qed.
Print Assumptions C121_resend_goes_on_refuted.
Local Definition sc3 : list (haction nat) := Other Start :: works 5 ++ recv 1 7 ++ [Other (Begin 1 Stop); Other (Next 1); Other (Next 1)] ++ works 60.
Example C121_case_resend : exists s, hrun fifo (resend S) sc3 (hinit 1) = Some s /\ stopped (base s) = true /\ ~ In Discarding (log (base s)) /\
  processed (log (base s)) = [7; 8; 9; 10; 11].
Proof.
  exists (end_of (hrun fifo (resend S) sc3 (hinit 1))). set (s := end_of _).
  let l := eval vm_compute in (log (base s)) in assert (E : log (base s) = l) by (vm_compute; reflexivity).
  split; [vm_compute; reflexivity|]. split; [vm_compute; reflexivity|]. split; [rewrite E; in_list|]. vm_compute. reflexivity.
Qed.
(** An exception in a hook ends the program, with what the queue still holds. *)
Theorem C121_exception_refuted : exists hooks n sched (s : hstate nat) m, hrun fifo hooks sched (hinit n) = Some s /\ over s = true /\
  In (Return 1 (Receive m)) (log (base s)) /\ ~ In (OnMessage m) (log (base s)) /\ forall a, hstep fifo hooks a s = None.
Proof.
  set (hk := fun l : list (event nat) => match l return prog nat with OnMessage 7 :: _ => Raise | _ => Leave end).
  set (sc := Other Start :: works 5 ++ recv 1 7 ++ recv 1 8 ++ works 9).
  exists hk, 1, sc, (end_of (hrun fifo hk sc (hinit 1))), 8. set (s := end_of _).
  let l := eval vm_compute in (log (base s)) in assert (E : log (base s) = l) by (vm_compute; reflexivity).
  split; [vm_compute; reflexivity|]. split; [vm_compute; reflexivity|]. rewrite E. split; [cbn; auto|]. split; [in_list|].
  intros a. unfold hstep. replace (over s) with true by (vm_compute; reflexivity). reflexivity.
Qed.
Print Assumptions C121_exception_refuted.
