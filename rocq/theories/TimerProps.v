(** C91-C94, C106, C107, C109-C111: timer.h.  Any number of threads that call the members, any
    results of the callback, any interleaving, any passing of time, any wake-ups. *)
Require Import List ZArith Lia Bool.
Require Import Verif.Base Verif.TimerModel Verif.TimerSpec Verif.TimerProofs.
Import ListNotations.
Local Open Scope Z_scope.
Local Ltac run := repeat (apply conj); (vm_compute; reflexivity).
Local Definition end_of (o : option state) : state := match o with Some s => s | None => init 0 0 0 end.
(** From the start to the loop; from there to the call, to its result, and back. *)
Local Definition up : list action := Start :: repeat Work 5.
Local Definition lap (c : Z) : list action :=
  [Work; Work; Work; Tick 100000000; Work; Work; Work; Work; Tick 5000000; Result c] ++ repeat Work 6.
Local Definition down : list action := repeat Work 4.

(** C91: the callback is called only if it has not been called since the start or
    returned 0 last; the exit code is what it returned last. *)
Theorem C91_called_after : forall k n t0 sched s l1 t l2, run sched (init k n t0) = Some s ->
  log s = l1 ++ OnInterval t :: l2 -> last_code l2 = 0.
Proof. exact called_after. Qed.
Print Assumptions C91_called_after.
Theorem C91_exit_code : forall k n t0 sched s l1 c l2, run sched (init k n t0) = Some s ->
  log s = l1 ++ Ended c :: l2 -> c = last_code l2.
Proof. exact ended_code. Qed.
Print Assumptions C91_exit_code.
(** What exit_code() answers: -101 before the first start, -100 while the thread runs,
    then what the callback returned last. *)
Theorem C91_answer : forall k n t0 sched s l1 i c l2, run sched (init k n t0) = Some s ->
  log s = l1 ++ SaidCode i c :: l2 -> c = code l2.
Proof. exact said_code. Qed.
Print Assumptions C91_answer.
Local Definition sched91 : list action := up ++ lap 0 ++ lap (timer_code false) ++ down.
Example C91_case : exists s, TimerModel.run sched91 (init 1 100 0) = Some s /\
  log s = [Ended 1; OnStop; Done 1 210000000; OnInterval 205000000; Done 0 105000000; OnInterval 100000000;
           OnStart 0; Begun 0].
Proof. exists (end_of (TimerModel.run sched91 (init 1 100 0))). run. Qed.

Local Definition ask : list action := [Begin 0 ExitCode; Next 0].
Example C91_answer_case : exists s, TimerModel.run (ask ++ up ++ ask ++ lap 7 ++ down ++ ask) (init 1 100 0) = Some s /\
  log s = [SaidCode 0 7; Call 0 ExitCode; Ended 7; OnStop; Done 7 105000000; OnInterval 100000000;
           SaidCode 0 (-100); Call 0 ExitCode; OnStart 0; Begun 0; SaidCode 0 (-101); Call 0 ExitCode].
Proof. exists (end_of (TimerModel.run (ask ++ up ++ ask ++ lap 7 ++ down ++ ask) (init 1 100 0))). run. Qed.

(** C92: as long as set_interval and notify were not called, a callback starts a whole
    period or more after the callback before it returned (the first: after on_start,
    or after the start), however often the wait ends early; no wait is longer than the
    period. *)
Theorem C92_apart : forall k n t0 sched s l1 t l2, run sched (init k n t0) = Some s -> count is_change l2 = 0%nat ->
  log s = l1 ++ OnInterval t :: l2 -> exists t1, base l2 = Some t1 /\ t1 + n * ms <= t.
Proof. exact apart. Qed.
Print Assumptions C92_apart.
Theorem C92_remaining : forall k n t0 sched s, run sched (init k n t0) = Some s -> count is_change (log s) = 0%nat ->
  worker s = TWait -> rem s <= n.
Proof. exact rem_bound. Qed.
Print Assumptions C92_remaining.
(** Two early wake-ups, after 30.5 and 60.5 milliseconds; the fractions are lost, to
    the good. *)
Local Definition sched92 : list action :=
  up ++ [Work; Work; Work; Tick 30500000; Wake] ++ repeat Work 6 ++ [Work; Work; Work; Tick 30000000; Wake] ++ repeat Work 6 ++
  [Work; Work; Work; Tick 40000000; Work; Work; Work; Work].
Example C92_case : exists s, TimerModel.run sched92 (init 1 100 0) = Some s /\ log s = [OnInterval 100500000; OnStart 0; Begun 0] /\
  count is_change (log s) = 0%nat.
Proof. exists (end_of (TimerModel.run sched92 (init 1 100 0))). run. Qed.
Local Definition sched92b : list action := up ++ [Work; Work; Work; Tick 30500000; Wake] ++ repeat Work 8.
Example C92_remaining_case : exists s, TimerModel.run sched92b (init 1 100 0) = Some s /\ worker s = TWait /\ rem s = 70.
Proof. exists (end_of (TimerModel.run sched92b (init 1 100 0))). run. Qed.

(** C93: from the moment stop() stores false, unless that falls into one of two
    windows, at most one callback starts before the next start; and a timer that is
    not destroyed ends by itself, at the latest when the longest period ever asked for is
    over (if its callback returns). *)
Theorem C93_stop_partial : forall k n t0 sched0 s i j t sched u l, run sched0 (init k n t0) = Some s ->
  nth_error (clients s) i = Some (CStop j) -> early (worker s) = false -> step (Next i) s = Some t ->
  run sched t = Some u -> log u = l ++ log t -> count is_begun l = 0%nat ->
  (count is_interval l <= 1)%nat /\
  (forall M, count is_destroy (log u) = 0%nat -> Forall (fun x => x <= M) (n :: periods (log u)) -> on (log u) = true ->
   exists sched1 v, Forall (fun a => alone a = true) sched1 /\ run sched1 u = Some v /\ worker v = TEnded /\
     now v <= now u + Z.max 0 (M * ms)).
Proof. exact stop_then. Qed.
Print Assumptions C93_stop_partial.
Theorem C93_join : forall k n t0 sched s l1 i l2, run sched (init k n t0) = Some s ->
  log s = l1 ++ Return i (Stop true) :: l2 -> on l2 = false.
Proof. exact join_ended. Qed.
Print Assumptions C93_join.
(** Stopped when the callback is about to be called, which is the one that follows. *)
Local Definition sched93 : list action := up ++ [Work; Work; Work; Tick 100000000; Work; Work; Begin 0 (Stop true)].
Local Definition sched93b : list action := [Next 0; Next 0; Work; Work; Result 0] ++ repeat Work 7 ++ repeat Work 3 ++ [Next 0].
Example C93_case : exists s t u, TimerModel.run sched93 (init 1 100 0) = Some s /\ nth_error (clients s) 0 = Some (CStop true) /\
  early (worker s) = false /\ step (Next 0) s = Some t /\ TimerModel.run sched93b t = Some u /\
  log u = [Return 0 (Stop true); Ended 0; OnStop; Done 0 100000000; OnInterval 100000000; OnStopBy 0] ++ log t.
Proof.
  set (s := end_of (TimerModel.run sched93 (init 1 100 0))). set (t := end_of (step (Next 0) s)).
  exists s, t, (end_of (TimerModel.run sched93b t)). run.
Qed.
(** In the windows the stop is lost: before the thread has stored true, and when it is
    about to store what it has read before.  stop(true) then waits while the callback
    is called any number of times. *)
Local Definition sched93c : list action := Start :: Begin 0 (Stop true) :: repeat (Next 0) 3 ++ repeat Work 5.
Local Definition sched93d : list action :=
  up ++ [Work; Work; Work; Tick 100000000; Work; Work; Work; Work; Result 0; Work; Work] ++
  Begin 0 (Stop true) :: repeat (Next 0) 3 ++ repeat Work 4.
Theorem C93_stop_lost_refuted : forall sched, sched = sched93c \/ sched = sched93d ->
  exists s, TimerModel.run sched (init 1 100 0) = Some s /\ In StopFlag (log s) /\ clients s = [CJoin] /\
    forall m, exists sched1 t l, Forall (fun a => alone a = true) sched1 /\ TimerModel.run sched1 s = Some t /\
      log t = l ++ log s /\ count is_interval l = m /\ step (Next 0) t = None.
Proof.
  intros sched H. exists (end_of (TimerModel.run sched (init 1 100 0))).
  destruct H as [-> | ->]; (split; [vm_compute; reflexivity|]; split; [vm_compute; auto 20|]; split; [vm_compute; reflexivity|];
    apply going_waits; [vm_compute; repeat split|vm_compute; reflexivity]).
Qed.
Print Assumptions C93_stop_lost_refuted.

(** C94: the thread of a timer that is not destroyed calls on_start once, then the
    callback, one call at a time, then on_stop once; so after whole cycles the numbers
    are the same. *)
Theorem C94_thread_partial : forall k n t0 sched s, run sched (init k n t0) = Some s -> count is_destroy (log s) = 0%nat ->
  exists p, life (log s) = Some p /\ (p = Off <-> on (log s) = false).
Proof. exact alive_life. Qed.
Print Assumptions C94_thread_partial.
Theorem C94_cycles_partial : forall k n t0 sched s, run sched (init k n t0) = Some s -> count is_destroy (log s) = 0%nat ->
  on (log s) = false ->
  count is_on_start (log s) = count is_begun (log s) /\ count is_thread_stop (log s) = count is_begun (log s).
Proof. exact cycle_counts. Qed.
Print Assumptions C94_cycles_partial.
Example C94_case : exists s, TimerModel.run (sched91 ++ [Begin 0 (Stop true)] ++ repeat (Next 0) 4 ++ up ++ lap 3 ++ down) (init 1 100 0) = Some s /\
  count is_destroy (log s) = 0%nat /\ on (log s) = false /\ count is_begun (log s) = 2%nat /\ life (log s) = Some Off.
Proof.
  exists (end_of (TimerModel.run (sched91 ++ [Begin 0 (Stop true)] ++ repeat (Next 0) 4 ++ up ++ lap 3 ++ down) (init 1 100 0))). run.
Qed.
(** But stop() calls on_stop too: twice in one cycle. *)
Local Definition sched94 : list action := up ++ [Begin 0 (Stop true)] ++ repeat (Next 0) 3 ++ repeat Work 4 ++ [Next 0].
Theorem C94_once_refuted : exists s, TimerModel.run sched94 (init 1 100 0) = Some s /\
  log s = [Return 0 (Stop true); Ended 0; OnStop; OnStopBy 0; StopFlag; Call 0 (Stop true); OnStart 0; Begun 0] /\
  count is_on_stop (log s) = 2%nat.
Proof. exists (end_of (TimerModel.run sched94 (init 1 100 0))). run. Qed.
Print Assumptions C94_once_refuted.

(** C106: set_interval() races with the thread of the timer, and with itself;
    is_running() with the end of the thread and with start(). *)
Local Definition sched106 : list action := [Start; Begin 0 (SetInterval 50); Begin 1 (SetInterval 60)].
Local Definition sched106b : list action :=
  up ++ Begin 0 (Stop false) :: Begin 1 IsRunning :: Next 1 :: repeat (Next 0) 3 ++ repeat Work 3.
Theorem C106_races_refuted :
  (exists s, TimerModel.run sched106 (init 2 100 0) = Some s /\ worker s = TInit /\ clients s = [CSet 50; CSet 60] /\
     step Work s <> None /\ step (Next 0) s <> None /\ step (Next 1) s <> None /\
     conflict (waccesses (worker s)) (caccesses (CSet 50)) /\ conflict (caccesses (CSet 50)) (caccesses (CSet 60))) /\
  (exists s, TimerModel.run sched106b (init 2 100 0) = Some s /\ worker s = TReturn /\ clients s = [CIdle; CRunning2] /\
     step Work s <> None /\ step (Next 1) s <> None /\ conflict (waccesses (worker s)) (caccesses CRunning2)).
Proof.
  split.
  - let s := eval vm_compute in (end_of (TimerModel.run sched106 (init 2 100 0))) in exists s.
    repeat apply conj; try (vm_compute; reflexivity); try discriminate.
    + exists Linterval, false, true. vm_compute. auto.
    + exists Linterval, true, true. vm_compute. auto.
  - let s := eval vm_compute in (end_of (TimerModel.run sched106b (init 2 100 0))) in exists s.
    repeat apply conj; try (vm_compute; reflexivity); try discriminate.
    exists Lexit, true, false. vm_compute. auto.
Qed.
Print Assumptions C106_races_refuted.
(** There are no others. *)
Theorem C106_thread_partial : forall k n t0 sched s i c, run sched (init k n t0) = Some s -> nth_error (clients s) i = Some c ->
  conflict (waccesses (worker s)) (caccesses c) ->
  on (log s) = true /\ ((exists x, pending i (log s) = Some (SetInterval x)) \/ asking i (log s)).
Proof. exact race_worker. Qed.
Print Assumptions C106_thread_partial.
Theorem C106_callers_partial : forall k n t0 sched s i c j d, run sched (init k n t0) = Some s -> i <> j ->
  nth_error (clients s) i = Some c -> nth_error (clients s) j = Some d -> conflict (caccesses c) (caccesses d) ->
  exists x y, pending i (log s) = Some (SetInterval x) /\ pending j (log s) = Some (SetInterval y).
Proof. exact race_clients. Qed.
Print Assumptions C106_callers_partial.
Theorem C106_start_partial : forall k n t0 sched s i c, run sched (init k n t0) = Some s -> nth_error (clients s) i = Some c ->
  conflict saccesses (caccesses c) -> asking i (log s).
Proof. exact race_start. Qed.
Print Assumptions C106_start_partial.

(** C107: a timer_t that is destroyed while it runs may call its function after that
    was destroyed, although the destructor stops and joins. *)
Local Definition sched107 : list action :=
  up ++ [Work; Work; Work; Begin 0 Destroy; Next 0; Tick 100000000] ++ repeat Work 4.
Theorem C107_destroy_refuted : exists s, TimerModel.run sched107 (init 1 100 0) = Some s /\ worker s = TUndefined /\
  log s = [Call 0 Destroy; OnStart 0; Begun 0].
Proof. exists (end_of (TimerModel.run sched107 (init 1 100 0))). run. Qed.
Print Assumptions C107_destroy_refuted.
(** Only then: if it is destroyed only when its thread has ended (so after stop(true),
    C93_join) and not started again, no destroyed member is used. *)
Theorem C107_destroy_partial : forall k n t0 sched s, run sched (init k n t0) = Some s -> worker s = TUndefined -> misused (log s).
Proof. exact misused_run. Qed.
Print Assumptions C107_destroy_partial.
(** Stopped, joined, destroyed. *)
Local Definition sched107b : list action := sched94 ++ [Begin 0 Destroy] ++ repeat (Next 0) 6.
Example C107_case : exists s, TimerModel.run sched107b (init 1 100 0) = Some s /\ worker s = TOff /\ clients s = [CGone] /\
  log s = [Return 0 Destroy; Call 0 Destroy; Return 0 (Stop true); Ended 0; OnStop; OnStopBy 0; StopFlag; Call 0 (Stop true); OnStart 0; Begun 0].
Proof. exists (end_of (TimerModel.run sched107b (init 1 100 0))). run. Qed.
(** If it does come in between, when the function is not about to be called and not
    running and the thread has been through its start: the destructor returns, at the
    latest when the longest period ever asked for is over. *)
Theorem C107_returns_partial : forall k n t0 sched s i t M, run sched (init k n t0) = Some s -> nth_error (clients s) i = Some DStop ->
  (forall j, pending j (log s) = Some Destroy -> j = i) -> early (worker s) = false -> calling (worker s) = false -> worker s <> TUndefined ->
  on (log s) = true -> Forall (fun x => x <= M) (n :: periods (log s)) -> step (Next i) s = Some t ->
  exists sched1 u, Forall (fun a => alone a = true) sched1 /\ run (sched1 ++ [Next i]) t = Some u /\
    (exists l, log u = Return i Destroy :: l) /\ now u <= now s + Z.max 0 (M * ms).
Proof. exact destructor_returns. Qed.
Print Assumptions C107_returns_partial.
(** Once the destructor has set its mark the thread uses no destroyed on_start or
    on_stop. *)
Theorem C107_hooks_partial : forall k n t0 sched s i c t, run sched (init k n t0) = Some s -> nth_error (clients s) i = Some c -> past c = true ->
  worker s = TStart \/ worker s = TStop -> step Work s = Some t -> worker t <> TUndefined.
Proof. exact hooks_off. Qed.
Print Assumptions C107_hooks_partial.
Local Definition sched107c : list action := up ++ [Work; Work; Work; Begin 0 Destroy; Next 0; Next 0; Next 0; Next 0].
Example C107_returns_case : exists s, TimerModel.run sched107c (init 1 100 0) = Some s /\ nth_error (clients s) 0 = Some DStop /\
  worker s = TSleep 100000000 /\ on (log s) = true /\ periods (log s) = [] /\ pending 0 (log s) = Some Destroy /\ step (Next 0) s <> None.
Proof. exists (end_of (TimerModel.run sched107c (init 1 100 0))). repeat apply conj; try (vm_compute; reflexivity). vm_compute. discriminate. Qed.
Example C107_hooks_case : exists s, TimerModel.run (sched107c ++ [Next 0; Wake; Work; Work; Work; Work]) (init 1 100 0) = Some s /\
  nth_error (clients s) 0 = Some DJoin /\ worker s = TStop /\ step Work s <> None.
Proof.
  exists (end_of (TimerModel.run (sched107c ++ [Next 0; Wake; Work; Work; Work; Work]) (init 1 100 0))).
  repeat apply conj; try (vm_compute; reflexivity). vm_compute. discriminate.
Qed.

(** C109: when is_running() answers false, it is not the case that the timer runs
    steadily: has called its function since the start, not failed, not been stopped or
    destroyed. *)
Theorem C109_false : forall k n t0 sched s l1 i l2, run sched (init k n t0) = Some s ->
  log s = l1 ++ SaidRunning i false :: l2 -> ~ steady l2.
Proof. exact said_false. Qed.
Print Assumptions C109_false.
(** When it answers true the thread runs, unless the callback returned -100 last. *)
Theorem C109_true_partial : forall k n t0 sched s l1 i l2, run sched (init k n t0) = Some s ->
  log s = l1 ++ SaidRunning i true :: l2 -> on l2 = true \/ last_code l2 = -100.
Proof. exact said_true. Qed.
Print Assumptions C109_true_partial.
Local Definition query : list action := [Begin 1 IsRunning; Next 1; Next 1].
Local Definition sched109 : list action := up ++ lap 0 ++ query ++ lap 3 ++ down ++ [Begin 1 IsRunning; Next 1].
Example C109_case : exists s, TimerModel.run sched109 (init 2 100 0) = Some s /\
  log s = [SaidRunning 1 false; Call 1 IsRunning; Ended 3; OnStop; Done 3 210000000; OnInterval 205000000;
           SaidRunning 1 true; Call 1 IsRunning; Done 0 105000000; OnInterval 100000000; OnStart 0; Begun 0].
Proof. exists (end_of (TimerModel.run sched109 (init 2 100 0))). run. Qed.
Example C109_steady_case : steady [Call 1 IsRunning; Done 0 105000000; OnInterval 100000000; OnStart 0; Begun 0].
Proof. repeat split; (vm_compute; (reflexivity || discriminate)). Qed.
(** The code -100 is taken for a running thread. *)
Local Definition sched109b : list action :=
  up ++ [Work; Work; Work; Tick 100000000; Work; Work; Work; Work; Result (-100); Begin 1 IsRunning; Next 1] ++ repeat Work 10 ++ [Next 1].
Theorem C109_true_refuted : exists s, TimerModel.run sched109b (init 2 100 0) = Some s /\ worker s = TEnded /\
  log s = [SaidRunning 1 true; Ended (-100); OnStop; Call 1 IsRunning; Done (-100) 100000000; OnInterval 100000000; OnStart 0; Begun 0].
Proof. exists (end_of (TimerModel.run sched109b (init 2 100 0))). run. Qed.
Print Assumptions C109_true_refuted.
(** And false does not mean that nothing more is called: not after start() returned,
    nor after stop(false) did. *)
Local Definition sched109c : list action :=
  [Start; Begin 1 IsRunning; Next 1] ++ repeat Work 8 ++ [Tick 100000000] ++ repeat Work 4.
Local Definition sched109d : list action :=
  up ++ [Work; Work; Work; Tick 100000000; Work; Work; Work; Begin 0 (Stop false); Next 0; Next 0; Next 0; Begin 1 IsRunning; Next 1; Work].
Theorem C109_false_refuted :
  (exists s, TimerModel.run sched109c (init 2 100 0) = Some s /\
     log s = [OnInterval 100000000; OnStart 0; SaidRunning 1 false; Call 1 IsRunning; Begun 0]) /\
  (exists s, TimerModel.run sched109d (init 2 100 0) = Some s /\
     log s = [OnInterval 100000000; SaidRunning 1 false; Call 1 IsRunning; Return 0 (Stop false); OnStopBy 0; StopFlag; Call 0 (Stop false);
              OnStart 0; Begun 0]).
Proof.
  split; [exists (end_of (TimerModel.run sched109c (init 2 100 0)))|exists (end_of (TimerModel.run sched109d (init 2 100 0)))]; run.
Qed.
Print Assumptions C109_false_refuted.

(** C110: with set_interval() and notify() in use: a callback starts at least the
    smallest period asked for after the one before, unless notify() has been called
    since that returned; no wait is longer than the longest period asked for; a new
    period holds for every wait after the thread has woken up once. *)
Theorem C110_apart : forall k n t0 sched s l1 t l2 m, run sched (init k n t0) = Some s -> Forall (fun x => m <= x) (n :: periods l2) ->
  log s = l1 ++ OnInterval t :: l2 -> notified l2 = false -> exists t1, base l2 = Some t1 /\ t1 + m * ms <= t.
Proof. exact apart_mixed. Qed.
Print Assumptions C110_apart.
Theorem C110_wait : forall k n t0 sched s M, run sched (init k n t0) = Some s -> Forall (fun x => x <= M) (n :: periods (log s)) ->
  worker s = TWait -> rem s <= M.
Proof. exact wait_mixed. Qed.
Print Assumptions C110_wait.
Theorem C110_adopted : forall s x b sched t l, worker s = TAwake b -> interval s = x ->
  (forall i y, nth_error (clients s) i <> Some (CSet y)) ->
  run sched s = Some t -> log t = l ++ log s -> count is_set l = 0%nat -> worker t = TWait -> rem t <= x.
Proof. exact adopts. Qed.
Print Assumptions C110_adopted.
(** One asked for while the callback runs holds for the time after that callback, and
    later, unless another change follows or is under way. *)
Theorem C110_in_callback : forall k n t0 sched s l1 t l2 i x l3, run sched (init k n t0) = Some s ->
  log s = l1 ++ OnInterval t :: l2 ++ Return i (SetInterval x) :: l3 -> in_callback l3 = true -> count is_change l2 = 0%nat ->
  (forall j y, j <> i -> pending j l3 <> Some (SetInterval y) /\ pending j l3 <> Some Notify) ->
  exists t1, base (l2 ++ Return i (SetInterval x) :: l3) = Some t1 /\ t1 + x * ms <= t.
Proof. exact changed_in_callback. Qed.
Print Assumptions C110_in_callback.
(** A notify ends the first wait after 30 ms; the period becomes 50 ms while the
    function runs. *)
Local Definition sched110 : list action :=
  up ++ [Work; Work; Work; Tick 30000000; Begin 0 Notify; Next 0; Wake; Work; Work; Work; Begin 0 (SetInterval 50); Next 0; Result 0] ++
  repeat Work 6 ++ [Work; Work; Work; Tick 50000000; Work; Work; Work; Work].
Example C110_case : exists s, TimerModel.run sched110 (init 1 100 0) = Some s /\
  log s = [OnInterval 80000000; Done 0 30000000; Return 0 (SetInterval 50); Call 0 (SetInterval 50); OnInterval 30000000; Return 0 Notify; Call 0 Notify;
           OnStart 0; Begun 0] /\
  Forall (fun x => 50 <= x) (100 :: periods (log s)) /\ notified (tl (log s)) = false /\
  in_callback (skipn 3 (log s)) = true /\ forall j, j <> 0%nat -> pending j (skipn 3 (log s)) = None.
Proof.
  exists (end_of (TimerModel.run sched110 (init 1 100 0))). split; [vm_compute; reflexivity|]. split; [vm_compute; reflexivity|].
  split; [vm_compute; repeat constructor; discriminate|]. split; [vm_compute; reflexivity|]. split; [vm_compute; reflexivity|].
  intros [|j] J; [destruct (J eq_refl)|]. vm_compute. reflexivity.
Qed.
(** The period is shortened during a wait; when that ends early, the rest is cut down. *)
Local Definition sched110b : list action :=
  up ++ [Work; Work; Work; Tick 10000000; Begin 0 (SetInterval 20); Next 0; Wake].
Local Definition sched110c : list action := repeat Work 7 ++ [Work].
Example C110_adopted_case : exists s t, TimerModel.run sched110b (init 1 100 0) = Some s /\ worker s = TAwake false /\ interval s = 20 /\
  clients s = [CIdle] /\ TimerModel.run sched110c s = Some t /\ log t = log s /\ worker t = TWait /\ rem t = 20.
Proof.
  set (s := end_of (TimerModel.run sched110b (init 1 100 0))). exists s, (end_of (TimerModel.run sched110c s)). run.
Qed.

(** C111: notify() while the thread sleeps lets it call the function at once. *)
Theorem C111_notify_partial : forall k n t0 sched s i t dl, run sched (init k n t0) = Some s -> count is_destroy (log s) = 0%nat ->
  worker s = TSleep dl -> running s = true -> nth_error (clients s) i = Some CNotify -> step (Next i) s = Some t ->
  exists u, run [Wake; Work; Work; Work] t = Some u /\ log u = OnInterval (now t) :: log t.
Proof. exact notify_calls. Qed.
Print Assumptions C111_notify_partial.
Local Definition sched111 : list action := up ++ [Work; Work; Work; Tick 30000000; Begin 0 Notify].
Example C111_case : exists s, TimerModel.run sched111 (init 1 100 0) = Some s /\ count is_destroy (log s) = 0%nat /\
  worker s = TSleep 100000000 /\ running s = true /\ nth_error (clients s) 0 = Some CNotify /\ step (Next 0) s <> None.
Proof.
  exists (end_of (TimerModel.run sched111 (init 1 100 0))). repeat apply conj; try (vm_compute; reflexivity). vm_compute. discriminate.
Qed.
(** But before the thread sleeps, though it is started and in its loop, the call is
    lost: the thread then sleeps through, as nobody notifies it; and a call during the
    function does not call it again. *)
Local Definition sched111b : list action := up ++ [Work; Begin 0 Notify; Next 0; Work; Work].
Local Definition sched111c : list action :=
  up ++ [Work; Work; Work; Tick 100000000; Work; Work; Work; Work; Begin 0 Notify; Next 0; Result 0] ++ repeat Work 9.
Theorem C111_lost_refuted : forall sched dl, (sched, dl) = (sched111b, 100000000) \/ (sched, dl) = (sched111c, 200000000) ->
  exists s, TimerModel.run sched (init 1 100 0) = Some s /\ In (Return 0 Notify) (log s) /\ worker s = TSleep dl /\ now s = dl - 100000000 /\
    forall d t, Z.of_N d < 100000000 -> step (Tick d) s = Some t -> step Work t = None.
Proof.
  intros sched dl H. exists (end_of (TimerModel.run sched (init 1 100 0))).
  assert (F : TimerModel.run sched (init 1 100 0) = Some (end_of (TimerModel.run sched (init 1 100 0))) /\
    In (Return 0%nat Notify) (log (end_of (TimerModel.run sched (init 1 100 0)))) /\
    worker (end_of (TimerModel.run sched (init 1 100 0))) = TSleep dl /\ now (end_of (TimerModel.run sched (init 1 100 0))) = dl - 100000000).
  { destruct H as [H|H]; injection H as -> ->; (split; [vm_compute; reflexivity|]; split; [vm_compute; auto 20|]; split; vm_compute; reflexivity). }
  clear H. revert F. generalize (end_of (TimerModel.run sched (init 1 100 0))). intros s (R & I & W & N). repeat (split; [assumption|]).
  intros d t D. apply (sleeps_on s dl d t W). rewrite N. lia.
Qed.
Print Assumptions C111_lost_refuted.
