(** C122: the hooks of a timer that call members of their timer.  Any hooks, any number
    of other threads, any interleaving, any passing of time, a stack of any depth. *)
Require Import List Arith ZArith Lia Bool.
Require Import Verif.Base Verif.TimerModel Verif.TimerSpec Verif.TimerProofs Verif.TimerHookModel Verif.TimerHookSpec Verif.TimerHookProofs.
Import ListNotations.
Local Ltac run := repeat (apply conj); (vm_compute; reflexivity).
Local Definition end_of (o : option hstate) : hstate := match o with Some s => s | None => hinit 0 0 0 0 end.

(** What the hooks do is what another thread could do at the same time, so that all
    that is proved of the timer (C91 to C94, C106, C107, C109 to C111) holds with them. *)
Theorem C122_as_another_thread : forall depth hooks k n t0 sched s, hrun depth hooks sched (hinit depth k n t0) = Some s ->
  exists sched', run sched' (init (depth + k) n t0) = Some (base s).
Proof. exact reaches. Qed.
Print Assumptions C122_as_another_thread.

(** A stop() in the callback always works: no callback starts after it before the next
    start. *)
Theorem C122_stop_in_callback : forall depth hooks k n t0 sched s l1 i l2, hrun depth hooks sched (hinit depth k n t0) = Some s ->
  i < depth -> log (base s) = l1 ++ Return i (Stop false) :: l2 -> in_callback l2 = true -> count is_begun l1 = 0 ->
  count is_interval l1 = 0.
Proof. intros. eapply stop_in_callback; eassumption. Qed.
Print Assumptions C122_stop_in_callback.
(** Hooks that do not throw or start the timer, with an on_stop that does not call
    stop(), return; the program goes on. *)
Theorem C122_hooks_return : forall depth hooks, 2 <= depth -> decent hooks -> forall k n t0 sched s,
  hrun depth hooks sched (hinit depth k n t0) = Some s ->
  over s = Going /\ exists t, by_itself depth hooks s t /\ frames t = [] /\ over t = Going.
Proof. exact hooks_return. Qed.
Print Assumptions C122_hooks_return.
(** With such hooks the thread of a timer whose callback called stop() ends by itself,
    without waiting for anything. *)
Theorem C122_stop_ends : forall depth hooks, 2 <= depth -> decent hooks -> forall k n t0 sched s l1 i l2,
  hrun depth hooks sched (hinit depth k n t0) = Some s -> i < depth -> log (base s) = l1 ++ Return i (Stop false) :: l2 ->
  in_callback l2 = true -> count is_begun l1 = 0 -> count is_destroy (log (base s)) = 0 -> on (log (base s)) = true ->
  exists t, by_itself depth hooks s t /\ worker (base t) = TEnded /\ over t = Going.
Proof. exact stop_in_callback_ends. Qed.
Print Assumptions C122_stop_ends.
(** exit_code() tells every hook that the thread runs. *)
Theorem C122_exit_code : forall depth hooks k n t0 sched s l1 i c l2, hrun depth hooks sched (hinit depth k n t0) = Some s -> i < depth ->
  log (base s) = l1 ++ SaidCode i c :: l2 -> c = (-100)%Z.
Proof. exact code_in_hook. Qed.
Print Assumptions C122_exit_code.

(** A callback that asks for the exit code and whether the timer runs, changes the
    period, and stops the timer when it is called the second time; the call of on_stop
    inside stop() asks again. *)
Local Definition worker_hooks (l : list event) : prog :=
  match l with
  | OnInterval _ :: _ =>
      Use UExitCode (fun _ => Use (USetInterval 20) (fun l =>
        if Nat.eqb (count is_interval l) 2 then Use UStop (fun _ => Leave 0) else Leave 0))
  | OnStopBy _ :: _ => Use UIsRunning (fun _ => Leave 0)
  | _ => Leave 0
  end.
Local Lemma worker_decent : decent worker_hooks.
Proof.
  intros l. destruct l as [|[] l]; cbn; try constructor.
  - discriminate.
  - intros; constructor.
  - intros _. constructor. intros m. destruct (Nat.eqb (count is_interval m) 2); constructor. intros; constructor.
Qed.
Local Definition wait (ns : N) : list haction := repeat HWork 3 ++ [Other (Tick ns)] ++ repeat HWork 4.
Local Definition up : list haction := Other Start :: repeat HWork 6.
Local Definition sched122 : list haction := up ++ wait 100000000 ++ repeat HWork 7 ++ repeat HWork 6 ++ wait 20000000 ++ repeat HWork 14.
Example C122_case : exists s, hrun 2 worker_hooks sched122 (hinit 2 0 100 0) = Some s /\ decent worker_hooks /\ 0 < 2 /\ on (log (base s)) = true /\
  count is_destroy (log (base s)) = 0 /\
  log (base s) = [] ++ Return 0 (Stop false) ::
    [SaidRunning 1 false; Call 1 IsRunning; OnStopBy 0; StopFlag; Call 0 (Stop false); Return 0 (SetInterval 20); Call 0 (SetInterval 20); SaidCode 0 (-100);
     Call 0 ExitCode; OnInterval 120000000; Done 0 100000000; Return 0 (SetInterval 20); Call 0 (SetInterval 20); SaidCode 0 (-100); Call 0 ExitCode;
     OnInterval 100000000; OnStart 0; Begun 0] /\
  in_callback (tl (log (base s))) = true.
Proof.
  exists (end_of (hrun 2 worker_hooks sched122 (hinit 2 0 100 0))). split; [vm_compute; reflexivity|]. split; [exact worker_decent|]. split; [lia|]. run.
Qed.
(** Then the end: on_stop is called a second time. *)
Example C122_case_end : exists s, hrun 2 worker_hooks (sched122 ++ repeat HWork 13) (hinit 2 0 100 0) = Some s /\ worker (base s) = TEnded /\ over s = Going /\
  frames s = [] /\ exists l, log (base s) = Ended 0 :: OnStop :: Done 0 120000000 :: Return 0 (Stop false) :: l.
Proof.
  exists (end_of (hrun 2 worker_hooks (sched122 ++ repeat HWork 13) (hinit 2 0 100 0))). repeat (split; [vm_compute; reflexivity|]). eexists. vm_compute. reflexivity.
Qed.

(** But a stop() in on_start is lost: the timer calls its function. *)
Local Definition start_hooks (l : list event) : prog := match l with OnStart _ :: _ => Use UStop (fun _ => Leave 0) | _ => Leave 0 end.
Theorem C122_stop_in_on_start_refuted : decent start_hooks /\ exists sched s, hrun 2 start_hooks sched (hinit 2 0 100 0) = Some s /\
  log (base s) = [OnInterval 100000000; Return 0 (Stop false); OnStopBy 0; StopFlag; Call 0 (Stop false); OnStart 0; Begun 0].
Proof.
  split.
  - intros l. destruct l as [|[] l]; cbn; try constructor. intros; constructor.
  - exists (Other Start :: repeat HWork 12 ++ wait 100000000). eexists. split; vm_compute; reflexivity.
Qed.
Print Assumptions C122_stop_in_on_start_refuted.
(** stop(true) in the callback throws in join(); not caught, this ends the program. *)
Local Definition join_hooks (l : list event) : prog := match l with OnInterval _ :: _ => Use UStop (fun _ => JoinSelf Raise) | _ => Leave 0 end.
Theorem C122_stop_true_refuted : exists sched s, hrun 2 join_hooks sched (hinit 2 0 100 0) = Some s /\ over s = Terminated /\
  log (base s) = [Return 0 (Stop false); OnStopBy 0; StopFlag; Call 0 (Stop false); OnInterval 100000000; OnStart 0; Begun 0].
Proof. exists (up ++ wait 100000000 ++ repeat HWork 8). eexists. split; [vm_compute; reflexivity|]. split; vm_compute; reflexivity. Qed.
Print Assumptions C122_stop_true_refuted.
(** And an on_stop that calls stop() calls itself again, until the stack is full, however
    deep that is. *)
Theorem C122_stop_in_on_stop_refuted : forall depth hooks, stops_in_on_stop hooks -> forall k n t0 sched s,
  hrun depth hooks sched (hinit depth k n t0) = Some s -> over s = Going -> frames s = [] -> worker (base s) = TStop ->
  count is_destroy (log (base s)) = 0 -> exists t, by_itself depth hooks s t /\ over t = Overflowed.
Proof. exact never_returns. Qed.
Print Assumptions C122_stop_in_on_stop_refuted.
Local Definition cleaning (l : list event) : prog := match l with OnStop :: _ | OnStopBy _ :: _ => Use UStop (fun _ => Leave 0) | OnInterval _ :: _ => Leave 1 | _ => Leave 0 end.
Example C122_stop_in_on_stop_case : stops_in_on_stop cleaning /\ exists s, hrun 3 cleaning (up ++ wait 100000000 ++ repeat HWork 9) (hinit 3 0 100 0) = Some s /\
  over s = Going /\ frames s = [] /\ worker (base s) = TStop /\ log (base s) = [Done 1 100000000; OnInterval 100000000; OnStart 0; Begun 0].
Proof.
  split.
  - intros l. destruct l as [|[] l]; cbn; try exact Logic.I; eexists; reflexivity.
  - exists (end_of (hrun 3 cleaning (up ++ wait 100000000 ++ repeat HWork 9) (hinit 3 0 100 0))). run.
Qed.
