(** C85-C89, C103, C104, C112, C113: message_queue.h.  [n] threads besides the worker, any
    schedule.  [select] is the policy of the container: [fifo] for a std::queue. *)
Require Import List Arith NArith Lia Bool Permutation.
Require Import Verif.Base Verif.MsgQueueModel Verif.MsgQueueSpec Verif.MsgQueueProofs.
Import ListNotations.
Local Ltac run := repeat (apply conj); (vm_compute; reflexivity).
Local Ltac in_list := let H := fresh in intros H; cbn in H; repeat (destruct H as [H|H]; [discriminate H|]); destruct H.

(** C85: with a std::queue the messages leave in the order of their arrival, each
    once, and on_new_message gets those taken out to be processed, in that order. *)
Theorem C85_fifo : forall (M : Type) n sched (s : state M), run fifo sched (init n) = Some s ->
  received (log s) = map fst (gone (log s)) ++ queue s.
Proof. exact @fifo_kept. Qed.
Print Assumptions C85_fifo.
(** Without a call of discard_messages(): all but the queue and at most one in the
    hands of the worker have been processed, in order. *)
Theorem C85_in_order : forall (M : Type) n sched (s : state M), run fifo sched (init n) = Some s -> ~ In Discarding (log s) ->
  exists pending, received (log s) = processed (log s) ++ pending ++ queue s /\ length pending <= 1.
Proof. exact @fifo_no_discard. Qed.
Print Assumptions C85_in_order.
(** With any container: none invented, none twice, none lost. *)
Theorem C85_at_most_once : forall (M : Type) select, chooses select -> forall n sched (s : state M),
  run select sched (init n) = Some s ->
  Permutation (received (log s)) (map fst (gone (log s)) ++ queue s) /\
  exists pending, to_process (log s) = processed (log s) ++ pending /\ length pending <= 1.
Proof. exact (fun M select C n sched s R => conj (kept select n sched s R) (processed_ok select C n sched s R)). Qed.
Print Assumptions C85_at_most_once.
(** size() is the number of messages received and not gone. *)
Theorem C85_size : forall (M : Type) select n sched (s : state M) l1 k l2, run select sched (init n) = Some s ->
  log s = l1 ++ Sized k :: l2 -> k + length (gone l2) = length (received l2).
Proof. exact @size_ok. Qed.
Print Assumptions C85_size.
(** Two producers send 7, 8 and 9; the worker has processed 7, has 8 in its hands,
    9 is in the queue. *)
Local Definition recv (i m : nat) : list (action nat) := Begin i (Receive m) :: repeat (Next i) 4.
Local Definition works (k : nat) : list (action nat) := repeat Work k.
Local Definition end_of (o : option (state nat)) : state nat := match o with Some s => s | None => init 0 end.
Local Definition sched0 : list (action nat) :=
  Start :: works 5 ++ recv 0 7 ++ [Begin 0 (Receive 9)] ++ recv 1 8 ++ works 7 ++ repeat (Next 0) 2 ++ works 1 ++
  repeat (Next 0) 2 ++ works 4 ++ [Begin 1 Size; Next 1; Next 1].
Local Definition s0 : state nat := end_of (MsgQueueModel.run fifo sched0 (init 2)).
Example C85_case : MsgQueueModel.run fifo sched0 (init 2) = Some s0 /\ received (log s0) = [7; 8; 9] /\ processed (log s0) = [7] /\
  queue s0 = [9] /\ worker s0 = WMessage 8 /\ In (Sized 1) (log s0) /\ ~ In Discarding (log s0) /\ chooses (@fifo nat).
Proof.
  let l := eval vm_compute in (log s0) in assert (E : log s0 = l) by (vm_compute; reflexivity).
  split; [vm_compute; reflexivity|]. rewrite E. do 4 (split; [vm_compute; reflexivity|]).
  split; [cbn; auto|]. split; [in_list|exact fifo_chooses].
Qed.

(** C86: not every message received before the call of stop() is processed before
    the worker ends.  7 arrives after the worker looked at the queue and before it
    reads the flag that stop() sets. *)
Local Definition sched1 : list (action nat) :=
  Start :: works 7 ++ recv 0 7 ++ [Begin 0 Stop; Next 0; Next 0] ++ works 5.
Local Definition s1 : state nat := end_of (MsgQueueModel.run fifo sched1 (init 1)).
Theorem C86_stop_loses_refuted : exists n sched (s : state nat) l1 i j m l2,
  MsgQueueModel.run fifo sched (init n) = Some s /\ log s = l1 ++ Call i Stop :: l2 /\ In (Return j (Receive m)) l2 /\
  worker s = WEnded /\ In Ended l1 /\ ~ In (OnMessage m) (log s) /\ ~ In Discarding (log s) /\ queue s = [m].
Proof.
  let l := eval vm_compute in (log s1) in assert (E : log s1 = l) by (vm_compute; reflexivity).
  exists 1, sched1, s1, (firstn 4 (log s1)), 0, 0, 7, (skipn 5 (log s1)).
  split; [vm_compute; reflexivity|]. split; [rewrite E; reflexivity|]. split; [rewrite E; cbn; auto|].
  split; [vm_compute; reflexivity|]. split; [rewrite E; cbn; auto|]. split; [rewrite E; in_list|]. split; [rewrite E; in_list|].
  vm_compute. reflexivity.
Qed.
Print Assumptions C86_stop_loses_refuted.
(** What holds without discard_messages(): when the worker has ended, everything
    received before its last look at the queue has been processed, and it has taken
    nothing since. *)
Theorem C86_last_look_partial : forall (M : Type) select, chooses select -> forall n sched (s : state M),
  run select sched (init n) = Some s -> ~ In Discarding (log s) -> worker s = WEnded ->
  exists l1 l2, log s = l1 ++ SawEmpty :: l2 /\ Permutation (received l2) (processed l2) /\
    forall e, In e l1 -> quiet e = true.
Proof. exact @last_look. Qed.
Print Assumptions C86_last_look_partial.
(** And the window is this one only: if the flag is first set while the worker is
    not between that look and its reading of the flag, then every message received
    by then is processed before the worker ends. *)
Theorem C86_stop_serves_partial : forall (M : Type) select, chooses select ->
  forall n sched1 (s : state M) i t sched2 u, run select sched1 (init n) = Some s ->
  ~ In Stopped (log s) -> worker s <> WStopped -> nth_error (clients s) i = Some CStop -> next i s = Some t ->
  run select sched2 t = Some u -> ~ In Discarding (log u) -> worker u = WEnded ->
  exists rest, Permutation (processed (log u)) (received (log s) ++ rest).
Proof. exact @stop_serves. Qed.
Print Assumptions C86_stop_serves_partial.
(** Seven is in the queue when stop() is called and the worker waits; eight comes
    later and is processed too. *)
Local Definition sched2a : list (action nat) := Start :: works 5 ++ recv 0 7 ++ [Begin 0 Stop].
Local Definition s2a : state nat := end_of (MsgQueueModel.run fifo sched2a (init 2)).
Local Definition s2b : state nat := end_of (next 0 s2a).
Local Definition sched2b : list (action nat) := works 3 ++ recv 1 8 ++ works 16.
Local Definition s2c : state nat := end_of (MsgQueueModel.run fifo sched2b s2b).
Example C86_case : MsgQueueModel.run fifo sched2a (init 2) = Some s2a /\ ~ In Stopped (log s2a) /\ worker s2a = WDiscard /\
  nth_error (clients s2a) 0 = Some CStop /\ next 0 s2a = Some s2b /\ MsgQueueModel.run fifo sched2b s2b = Some s2c /\
  ~ In Discarding (log s2c) /\ worker s2c = WEnded /\ received (log s2a) = [7] /\ processed (log s2c) = [7; 8].
Proof.
  let l := eval vm_compute in (log s2a) in assert (E : log s2a = l) by (vm_compute; reflexivity).
  let l := eval vm_compute in (log s2c) in assert (E2 : log s2c = l) by (vm_compute; reflexivity).
  split; [vm_compute; reflexivity|]. split; [rewrite E; in_list|]. do 4 (split; [vm_compute; reflexivity|]).
  split; [rewrite E2; in_list|]. run.
Qed.

(** C87: a message received after discard_messages() returned can be dropped. *)
Local Definition sched3 : list (action nat) :=
  Start :: works 5 ++ [Begin 0 Discard; Next 0; Next 0] ++ recv 0 7 ++ works 4.
Local Definition s3 : state nat := end_of (MsgQueueModel.run fifo sched3 (init 1)).
Theorem C87_drops_later_refuted : exists n sched (s : state nat) l1 l2 l3 i m,
  MsgQueueModel.run fifo sched (init n) = Some s /\ log s = Dropped m :: l1 ++ Call i (Receive m) :: l2 /\
  l2 = Return i Discard :: l3 /\ received (log s) = [m].
Proof.
  let l := eval vm_compute in (log s3) in assert (E : log s3 = l) by (vm_compute; reflexivity).
  exists 1, sched3, s3, (firstn 3 (skipn 1 (log s3))), (skipn 5 (log s3)), (skipn 6 (log s3)), 0, 7.
  split; [vm_compute; reflexivity|]. rewrite E. repeat split.
Qed.
Print Assumptions C87_drops_later_refuted.
(** What holds: a message is dropped only while the worker answers a call of
    discard_messages(), after that call, and takes none in between; *)
Theorem C87_on_request_partial : forall (M : Type) select n sched (s : state M) l1 m l2, run select sched (init n) = Some s ->
  log s = l1 ++ Dropped m :: l2 ->
  exists l3 l4, l2 = l3 ++ ClearBegin :: l4 /\ In Discarding l4 /\ forall e, In e l3 -> e <> Cleared /\ is_took e = false.
Proof. exact @dropped_ok. Qed.
Print Assumptions C87_on_request_partial.
(** it answers at most once per call; *)
Theorem C87_once_per_call : forall (M : Type) select n sched (s : state M), run select sched (init n) = Some s ->
  count is_clear (log s) <= count is_discarding (log s).
Proof. exact (fun M select n sched s R => Nat.le_trans _ _ _ (Nat.le_add_r _ _) (proj1 (due_holds select n sched s R))). Qed.
Print Assumptions C87_once_per_call.
(** after the call it takes at most one more message before it answers; *)
Theorem C87_prompt : forall (M : Type) select (s : state M) i t sched u l, nth_error (clients s) i = Some CDiscard ->
  next i s = Some t -> run select sched t = Some u -> log u = l ++ log t -> count is_clear l = 0 -> count is_took l <= 1.
Proof. exact @discard_prompt. Qed.
Print Assumptions C87_prompt.
(** and then nothing received is left. *)
Theorem C87_all_gone : forall (M : Type) select n sched (s : state M) l1 e l2, run select sched (init n) = Some s ->
  log s = l1 ++ e :: l2 -> e = SawEmpty \/ e = Cleared -> Permutation (received l2) (map fst (gone l2)).
Proof. exact @seen_empty. Qed.
Print Assumptions C87_all_gone.
(** The worker has decided to take 7 when discard_messages() is called: it processes
    7 and drops 8. *)
Local Definition sched4a : list (action nat) := Start :: works 5 ++ recv 0 7 ++ recv 0 8 ++ works 3 ++ [Begin 0 Discard].
Local Definition s4a : state nat := end_of (MsgQueueModel.run fifo sched4a (init 1)).
Local Definition s4b : state nat := end_of (next 0 s4a).
Local Definition s4c : state nat := end_of (MsgQueueModel.run fifo (works 10) s4b).
Local Definition s4d : state nat := end_of (MsgQueueModel.run fifo (works 5) s4c).
Example C87_case : MsgQueueModel.run fifo sched4a (init 1) = Some s4a /\ nth_error (clients s4a) 0 = Some CDiscard /\
  next 0 s4a = Some s4b /\ MsgQueueModel.run fifo (works 10) s4b = Some s4c /\
  log s4c = [SawDiscard; OnMessage 7; Took 7] ++ log s4b /\
  MsgQueueModel.run fifo (works 5) s4c = Some s4d /\ log s4d = [Cleared; Dropped 8; ClearBegin] ++ log s4c.
Proof. run. Qed.

(** C88: the hooks.  At any time what the worker did is a number of lives, each
    on_start, then messages, each taken and then processed, then on_stop. *)
Theorem C88_life : forall (M : Type) select, chooses select -> forall n sched (s : state M),
  run select sched (init n) = Some s -> exists p, life (log s) p.
Proof. exact (fun M select C n sched s R => ex_intro _ _ (proj2 (alive select C n sched s R))). Qed.
Print Assumptions C88_life.
(** So a message is processed after an on_start with no on_stop since, *)
Theorem C88_message_between : forall (M : Type) select, chooses select -> forall n sched (s : state M) l1 m l2,
  run select sched (init n) = Some s -> log s = l1 ++ OnMessage m :: l2 ->
  exists l3 l4, l2 = l3 ++ OnStart :: l4 /\ forall e, In e l3 -> e <> OnStart /\ e <> OnStop /\ e <> Ended.
Proof. exact @message_between. Qed.
Print Assumptions C88_message_between.
(** and there is one on_stop for every on_start, but for the worker alive. *)
Theorem C88_once : forall (M : Type) select, chooses select -> forall n sched (s : state M), run select sched (init n) = Some s ->
  count is_stop (log s) <= count is_start (log s) <= count is_stop (log s) + 1.
Proof. exact @hook_counts. Qed.
Print Assumptions C88_once.
(** The worker never throws or takes from an empty queue. *)
Theorem C88_no_accident : forall (M : Type) select, chooses select -> forall n sched (s : state M),
  run select sched (init n) = Some s -> worker s <> WThrew /\ worker s <> WUndefined.
Proof. exact @no_accident. Qed.
Print Assumptions C88_no_accident.
(** Two lives: the second, after stop(), processes what it finds and ends. *)
Local Definition sched5 : list (action nat) :=
  Start :: works 7 ++ recv 0 7 ++ [Begin 0 Stop; Next 0; Next 0] ++ works 5 ++ [Join; Start] ++ works 18.
Local Definition s5 : state nat := end_of (MsgQueueModel.run fifo sched5 (init 1)).
Example C88_case : MsgQueueModel.run fifo sched5 (init 1) = Some s5 /\ worker s5 = WEnded /\
  filter hook (log s5) = [Ended; OnStop; OnMessage 7; Took 7; OnStart; Ended; OnStop; OnStart].
Proof. run. Qed.

(** C89: with a policy that chooses a greatest message, as std::priority_queue does,
    every message taken is a greatest one of those waiting. *)
Theorem C89_greatest_first : forall (M : Type) select (less : M -> M -> bool) n sched (s : state M) l1 m l2,
  greatest less select -> run select sched (init n) = Some s -> log s = l1 ++ Took m :: l2 ->
  exists waiting, Permutation (received l2) (map fst (gone l2) ++ waiting) /\ In m waiting /\
    forall x, In x waiting -> less m x = false.
Proof. exact @greatest_ok. Qed.
Print Assumptions C89_greatest_first.
(** Position of a greatest number. *)
Local Fixpoint top_at (q : list nat) : nat * nat :=
  match q with
  | [] => (0, 0)
  | x :: q => let (v, i) := top_at q in if v <? x then (x, 0) else (v, S i)
  end.
Local Definition top (q : list nat) : nat := snd (top_at q).
Local Lemma top_ok : forall q, fst (top_at q) = list_max q /\
  (forall m, nth_error q (top q) = Some m -> m = list_max q) .
Proof.
  unfold top, list_max. induction q as [|x q [IH1 IH2]]; cbn -[Nat.ltb]; [split; [reflexivity|discriminate]|].
  destruct (top_at q) as [v i]. cbn -[Nat.ltb] in *. subst v. destruct (Nat.ltb_spec (fold_right Nat.max 0 q) x); cbn; (split; [lia|]).
  - intros m E. injection E as <-. lia.
  - intros m E. specialize (IH2 m E). lia.
Qed.
Local Lemma top_greatest : greatest Nat.ltb top.
Proof.
  intros q m E x X. apply Nat.ltb_ge. rewrite (proj2 (top_ok q) m E).
  exact (proj1 (Forall_forall _ _) (proj1 (list_max_le q (list_max q)) (le_n _)) x X).
Qed.
Local Definition sched6 : list (action nat) := recv 0 5 ++ recv 1 9 ++ recv 0 7 ++ [Start] ++ works 18 ++ recv 1 8 ++ works 1.
Local Definition s6 : state nat := end_of (MsgQueueModel.run top sched6 (init 2)).
Example C89_case : greatest Nat.ltb top /\ MsgQueueModel.run top sched6 (init 2) = Some s6 /\ processed (log s6) = [9; 7].
Proof. split; [exact top_greatest|]. run. Qed.

(** C103: data races.  The worker looks whether the queue is empty without its
    mutex, *)
Local Definition sched7 : list (action nat) := Start :: works 6 ++ [Begin 0 (Receive 7); Next 0].
Local Definition s7 : state nat := end_of (MsgQueueModel.run fifo sched7 (init 1)).
Theorem C103_look_races_refuted : exists n sched (s : state nat) c, MsgQueueModel.run fifo sched (init n) = Some s /\
  nth_error (clients s) 0 = Some c /\ c = CPush 7 /\ conflict (waccesses (worker s)) (caccesses c).
Proof.
  exists 1, sched7, s7, (CPush 7). split; [vm_compute; reflexivity|]. split; [vm_compute; reflexivity|]. split; [reflexivity|].
  exists Lqueue, false, true. vm_compute. auto.
Qed.
Print Assumptions C103_look_races_refuted.
(** and is_running() reads two members that it writes. *)
Local Definition sched8 : list (action nat) := Start :: works 2 ++ [Begin 0 IsRunning].
Local Definition s8 : state nat := end_of (MsgQueueModel.run fifo sched8 (init 1)).
Theorem C103_is_running_races_refuted : exists n sched (s : state nat) c, MsgQueueModel.run fifo sched (init n) = Some s /\
  nth_error (clients s) 0 = Some c /\ c = CRunning /\ conflict (waccesses (worker s)) (caccesses c).
Proof.
  exists 1, sched8, s8, CRunning. split; [vm_compute; reflexivity|]. split; [vm_compute; reflexivity|]. split; [reflexivity|].
  exists Lrunning, true, false. vm_compute. auto.
Qed.
Print Assumptions C103_is_running_races_refuted.
(** There are no others: receiving, size(), empty(), taking and clearing do not race. *)
Theorem C103_races_partial : forall (M : Type) select, chooses select -> forall n sched (s : state M) i c,
  run select sched (init n) = Some s -> nth_error (clients s) i = Some c ->
  (conflict (waccesses (worker s)) (caccesses c) ->
     c = CRunning \/ c = CRunning2 \/ (exists m, c = CPush m) /\ (worker s = WWait \/ worker s = WLook)) /\
  (forall j d, nth_error (clients s) j = Some d -> i <> j -> ~ conflict (caccesses c) (caccesses d)).
Proof. exact @races. Qed.
Print Assumptions C103_races_partial.

(** C104: after stop() the worker ends, if no other thread keeps the mutex, whatever
    is in the queue, *)
Theorem C104_stop_ends : forall (M : Type) select, chooses select -> forall n sched (s : state M),
  run select sched (init n) = Some s -> stopped s = true -> (forall i, mtx s <> Some (Some i)) -> worker s <> WOff ->
  exists k t, run select (repeat Work k) s = Some t /\ worker t = WEnded.
Proof. exact @stop_ends. Qed.
Print Assumptions C104_stop_ends.
(** and no thread keeps it: two steps later it is free. *)
Theorem C104_mutex_is_released : forall (M : Type) select, chooses select -> forall n sched (s : state M) i,
  run select sched (init n) = Some s -> mtx s = Some (Some i) ->
  exists k t, k <= 2 /\ run select (repeat (Next i) k) s = Some t /\ mtx t = None.
Proof. exact @mutex_released. Qed.
Print Assumptions C104_mutex_is_released.
Local Definition sched9 : list (action nat) := Start :: works 9 ++ recv 0 7 ++ [Begin 0 Stop; Next 0; Begin 1 (Receive 8); Next 1].
Local Definition s9 : state nat := end_of (MsgQueueModel.run fifo sched9 (init 2)).
Local Definition s9b : state nat := end_of (MsgQueueModel.run fifo (repeat (Next 1) 2) s9).
Local Definition s9c : state nat := end_of (MsgQueueModel.run fifo (works 21) s9b).
Example C104_case : MsgQueueModel.run fifo sched9 (init 2) = Some s9 /\ stopped s9 = true /\ mtx s9 = Some (Some 1) /\
  MsgQueueModel.run fifo (repeat (Next 1) 2) s9 = Some s9b /\ mtx s9b = None /\ worker s9b = WLoop /\ queue s9b = [7; 8] /\
  MsgQueueModel.run fifo (works 21) s9b = Some s9c /\ worker s9c = WEnded /\ processed (log s9c) = [7; 8].
Proof. run. Qed.

(** C112: is_running() answers whether the worker's thread has been started and has
    not ended. *)
Theorem C112_answer : forall (M : Type) select, chooses select -> forall n sched (s : state M) l1 i b l2,
  run select sched (init n) = Some s -> log s = l1 ++ SaidRunning i b :: l2 -> b = on l2.
Proof. exact @said_running. Qed.
Print Assumptions C112_answer.
Local Definition ask (i : nat) (k : nat) : list (action nat) := Begin i IsRunning :: repeat (Next i) k.
Local Definition sched10 : list (action nat) :=
  ask 0 2 ++ Start :: ask 0 2 ++ works 5 ++ ask 1 1 ++ [Begin 0 Stop; Next 0; Next 0] ++ works 7 ++ ask 0 2.
Example C112_case : exists s, MsgQueueModel.run fifo sched10 (init 2) = Some s /\ worker s = WEnded /\
  log s = [SaidRunning 0 false; Call 0 IsRunning; Ended; OnStop; SawEmpty; Return 0 Stop; Stopped; Call 0 Stop; SaidRunning 1 true;
           Call 1 IsRunning; OnStart; SaidRunning 0 true; Call 0 IsRunning; Begun; SaidRunning 0 false; Call 0 IsRunning].
Proof. exists (end_of (MsgQueueModel.run fifo sched10 (init 2))). run. Qed.
(** So it answers true although messages are not processed any more: a message sent
    after that is left in the queue. *)
Local Definition sched11 : list (action nat) :=
  Start :: works 7 ++ [Begin 0 Stop; Next 0; Next 0] ++ works 3 ++ ask 0 2 ++ recv 0 7 ++ works 2.
Theorem C112_ready_refuted : exists s : state nat, MsgQueueModel.run fifo sched11 (init 1) = Some s /\ worker s = WEnded /\ queue s = [7] /\
  log s = [Ended; OnStop; Return 0 (Receive 7); Pushed 7; Call 0 (Receive 7); SaidRunning 0 true; Call 0 IsRunning;
           Return 0 Stop; Stopped; Call 0 Stop; SawEmpty; OnStart; Begun].
Proof. exists (end_of (MsgQueueModel.run fifo sched11 (init 1))). run. Qed.
Print Assumptions C112_ready_refuted.

(** C113: a queue that is started again after a stop() makes one pass over the queue
    and ends, although nobody has stopped it again; a message that comes later is not
    processed. *)
Local Definition sched12 : list (action nat) :=
  Start :: works 7 ++ [Begin 0 Stop; Next 0; Next 0] ++ works 5 ++ [Join; Start] ++ works 12 ++ recv 0 7.
Theorem C113_restart_refuted : exists s : state nat, MsgQueueModel.run fifo sched12 (init 1) = Some s /\ worker s = WEnded /\ queue s = [7] /\
  log s = [Return 0 (Receive 7); Pushed 7; Call 0 (Receive 7); Ended; OnStop; SawEmpty; OnStart; Begun;
           Ended; OnStop; Return 0 Stop; Stopped; Call 0 Stop; SawEmpty; OnStart; Begun].
Proof. exists (end_of (MsgQueueModel.run fifo sched12 (init 1))). run. Qed.
Print Assumptions C113_restart_refuted.
(** This is so always, *)
Theorem C113_one_pass_partial : forall (M : Type) select n sched (s : state M) l l0, run select sched (init n) = Some s ->
  log s = l ++ Begun :: l0 -> count is_begun l = 0 -> In Stopped l0 ->
  count is_pass l <= 1 /\ (on (log s) = false -> count is_pass l = 1).
Proof. exact @one_pass. Qed.
Print Assumptions C113_one_pass_partial.
(** and nothing is taken after the pass. *)
Theorem C113_no_more_partial : forall (M : Type) select n sched (s : state M) l1 m l2 l0, run select sched (init n) = Some s ->
  log s = l1 ++ Took m :: l2 ++ Begun :: l0 -> count is_begun l2 = 0 -> In Stopped l0 -> count is_pass l2 = 0.
Proof. exact @no_more. Qed.
Print Assumptions C113_no_more_partial.
(** The second life of [s5] above processes a message. *)
Example C113_case : exists l1 l2 l0, log s5 = l1 ++ Took 7 :: l2 ++ Begun :: l0 /\ count is_begun l2 = 0 /\ In Stopped l0 /\
  on (log s5) = false /\ count is_pass (l1 ++ Took 7 :: l2) = 1.
Proof.
  let l := eval vm_compute in (log s5) in assert (E : log s5 = l) by (vm_compute; reflexivity). rewrite E.
  eexists [_; _; _; _], [_], _. split; [reflexivity|]. cbn. repeat split. auto 20.
Qed.
