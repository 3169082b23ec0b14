(** C90, C105: thread.h.  Any calls of the owner, any results of run(), any
    interleaving. *)
Require Import List ZArith Lia Bool.
Require Import Verif.Base Verif.ThreadModel Verif.ThreadSpec Verif.ThreadProofs.
Import ListNotations.
Local Open Scope Z_scope.
Local Ltac run := repeat (apply conj); (vm_compute; reflexivity).
Local Definition end_of (o : option state) : state := match o with Some s => s | None => init end.

(** C90: exit_code() answers -101 before the first start, -100 while run() runs, and
    then the code it returned; is_running() whether that is -100; joinable() whether a
    start was not followed by a join; join() and the destructor end after run(); a
    start succeeds exactly if the thread before was joined, otherwise the program is
    terminated. *)
Theorem C90_answers : forall sched s l1 e l2, run sched init = Some s -> log s = l1 ++ e :: l2 ->
  match e with
  | SaidCode c => c = code_of (life_of l2)
  | SaidRunning b => b = (code_of (life_of l2) =? -100)
  | SaidJoinable b => b = unjoined l2
  | Joined => exists c, life_of l2 = Ended c
  | Destroyed => life_of l2 <> Running
  | Started => unjoined l2 = false
  | Terminated => unjoined l2 = true
  | Finished _ => life_of l2 = Running
  end.
Proof. exact said. Qed.
Print Assumptions C90_answers.
(** join() and the destructor return if run() does. *)
Theorem C90_join_returns : forall sched s, run sched init = Some s -> owner s = OJoin \/ owner s = ODestroy ->
  exists sched1 t, run sched1 s = Some t /\ owner t <> owner s /\ unjoined (log t) = false /\
    (exists c, sched1 = [Finish c; Next] \/ sched1 = [Next]).
Proof. exact join_returns. Qed.
Print Assumptions C90_join_returns.
(** Started, asked, joined, asked, and started again. *)
Local Definition sched0 : list action :=
  [Begin ExitCode; Begin Start; Next; Begin Joinable; Begin ExitCode; Begin Join; Finish 7; Next; Begin ExitCode;
   Begin IsRunning; Begin Start; Next; Begin IsRunning; Begin Destroy; Finish 0; Next].
Local Definition s0 : state := end_of (ThreadModel.run sched0 init).
Example C90_case : ThreadModel.run sched0 init = Some s0 /\
  log s0 = [Destroyed; Finished 0; SaidRunning true; Started; SaidRunning false; SaidCode 7; Joined; Finished 7;
            SaidCode (-100); SaidJoinable true; Started; SaidCode (-101)].
Proof. run. Qed.
(** But start() on a thread that runs, or has ended and was not joined, ends the
    program. *)
Local Definition sched1 : list action := [Begin Start; Next; Begin Start; Next].
Local Definition sched2 : list action := [Begin Start; Next; Finish 0; Begin Start; Next].
Theorem C90_start_again_refuted :
  (exists s, ThreadModel.run sched1 init = Some s /\ owner s = ODead /\ log s = [Terminated; Started]) /\
  (exists s, ThreadModel.run sched2 init = Some s /\ owner s = ODead /\ log s = [Terminated; Finished 0; Started]).
Proof.
  split; [exists (end_of (ThreadModel.run sched1 init))|exists (end_of (ThreadModel.run sched2 init))]; run.
Qed.
Print Assumptions C90_start_again_refuted.
(** And a run() that returns -100 leaves a joined thread that says it is running. *)
Local Definition sched3 : list action := [Begin Start; Next; Begin Join; Finish (-100); Next; Begin IsRunning].
Theorem C90_code_clash_refuted : exists s, ThreadModel.run sched3 init = Some s /\
  log s = [SaidRunning true; Joined; Finished (-100); Started].
Proof. exists (end_of (ThreadModel.run sched3 init)). run. Qed.
Print Assumptions C90_code_clash_refuted.

(** C105: exit_code() and is_running() race with the end of run(). *)
Local Definition sched4 : list action := [Begin Start; Next].
Theorem C105_races_refuted : exists sched s, ThreadModel.run sched init = Some s /\
  step (Begin IsRunning) s <> None /\ step (Finish 0) s <> None /\ conflict (accesses (Begin IsRunning)) (accesses (Finish 0)).
Proof.
  exists sched4, (end_of (ThreadModel.run sched4 init)). split; [vm_compute; reflexivity|]. split; [discriminate|]. split; [discriminate|].
  exists false, true. cbn. auto.
Qed.
Print Assumptions C105_races_refuted.
(** Only these, and start() on a running thread: never once the thread is joined. *)
Theorem C105_races_partial : forall sched s o c, run sched init = Some s -> step (Begin o) s <> None -> step (Finish c) s <> None ->
  conflict (accesses (Begin o)) (accesses (Finish c)) ->
  life_of (log s) = Running /\ unjoined (log s) = true /\ (o = Start \/ o = ExitCode \/ o = IsRunning).
Proof. exact race_only. Qed.
Print Assumptions C105_races_partial.
