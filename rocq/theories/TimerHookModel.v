(** Model of the hooks of a timer (timer.h:44-45, 98-110): around the model of
    TimerModel.v, what on_start, on_interval and on_stop of the derived class do.  In
    the thread of the timer they may call its members, wait for the answers, and throw;
    stop() calls on_stop, whose calls are nested then.  What a hook does may depend on
    everything that happened before.  The code runs on_start and the thread's on_stop
    before it gives back the mutex, here after that: only a destructor in another
    thread can tell, which may come earlier here.  on_stop called by stop() in another
    thread is an event only; what it calls are calls of a further thread.  Not
    modelled: hooks that never return; hooks that destroy the timer (the destructor
    locks the mutex that its thread holds); a join() in a hook while the owner is still
    inside start() (a data race on the std::thread). *)
Require Import List Arith ZArith Bool.
Require Import Verif.Base Verif.TimerModel.
Import ListNotations.

(** The members that a hook calls; stop(true) is stop(false) and then join(),
    timer.h:53-60. *)
Inductive use := UStop | USetInterval (n : Z) | UNotify | UIsRunning | UExitCode.
Definition op_of (u : use) : op :=
  match u with UStop => Stop false | USetInterval n => SetInterval n | UNotify => Notify | UIsRunning => IsRunning | UExitCode => ExitCode end.
(** The rest of a hook: it returns (on_interval: the code); throws; calls a member and
    goes on when that has returned; calls join(); calls start(). *)
Inductive prog :=
  | Leave (code : Z)
  | Raise
  | Use (u : use) (k : list event -> prog)
  | JoinSelf (k : prog)
  | StartSelf.
(** A hook that runs, or waits for the call it made. *)
Inductive frame := Inside (p : prog) | Calling (k : list event -> prog).
(** std::terminate was called; the stack is full. *)
Inductive fate := Going | Terminated | Overflowed.
(** The hooks that run in the thread of the timer, the innermost first.  The calls of
    the outermost are those of the client 0 of [base], those of the hook inside that
    call are those of the client 1, and so on. *)
Record hstate := { base : state; frames : list frame; over : fate }.

Section Hooks.
(** The stack has room for [depth] calls inside each other. *)
Variable depth : nat.
(** What a hook does that is called when this is the log: its newest event is the
    call, OnStart, OnInterval, OnStop or OnStopBy. *)
Variable hooks : list event -> prog.

(** A timer of [n] milliseconds at time [t], [k] other threads. *)
Definition hinit (k : nat) (n t : Z) : hstate := {| base := init (depth + k) n t; frames := []; over := Going |}.
(** timer.h:129, 137, 149: the next step calls a hook. *)
Definition enters (b : state) : bool :=
  match worker b with TStart | TStop => negb (deleted b) && alive b | TCall => alive b | _ => false end.
(** timer.h:123-167: the next step of the thread of the timer. *)
Definition hwork (s : hstate) : option hstate :=
  match frames s with
  | [] =>
      option_map (fun b => {| base := b; frames := if enters (base s) then [Inside (hooks (log b))] else []; over := Going |})
        (work (base s))
  (* the hook returns; 137: the code of on_interval *)
  | Inside (Leave c) :: rest =>
      match rest, worker (base s) with
      | [], TCallback => option_map (fun b => {| base := b; frames := []; over := Going |}) (result c (base s))
      | _, _ => Some {| base := base s; frames := rest; over := Going |}
      end
  (* thread.h:50: an exception leaves the function of the std::thread *)
  | Inside Raise :: _ => Some {| base := base s; frames := []; over := Terminated |}
  (* thread.h:66-71: std::thread::join called by the thread itself throws a
     std::system_error; the hook may catch it *)
  | Inside (JoinSelf k) :: rest => Some {| base := base s; frames := Inside k :: rest; over := Going |}
  (* thread.h:47-51: the assignment to a joinable std::thread *)
  | Inside StartSelf :: _ => Some {| base := base s; frames := []; over := Terminated |}
  | Inside (Use u k) :: rest =>
      if length rest <? depth
      then option_map (fun b => {| base := b; frames := Calling k :: rest; over := Going |}) (begin (length rest) (op_of u) (base s))
      else Some {| base := base s; frames := []; over := Overflowed |}
  | Calling k :: rest =>
      match nth_error (clients (base s)) (length rest) with
      | Some CIdle => Some {| base := base s; frames := Inside (k (log (base s))) :: rest; over := Going |}
      (* 55: stop() calls on_stop *)
      | Some (CStopHook _) =>
          option_map (fun b => {| base := b; frames := Inside (hooks (log b)) :: Calling k :: rest; over := Going |}) (next (length rest) (base s))
      | _ => option_map (fun b => {| base := b; frames := Calling k :: rest; over := Going |}) (next (length rest) (base s))
      end
  end.
(** The threads other than that of the timer are the clients from [depth] on. *)
Definition other (a : action) : bool :=
  match a with Start | Wake | Tick _ => true | Work | Result _ => false | Begin i _ | Next i => depth <=? i end.
Inductive haction := HWork | Other (a : action).
Definition hstep (a : haction) (s : hstate) : option hstate :=
  match over s, a with
  | Going, HWork => hwork s
  | Going, Other a =>
      if other a then option_map (fun b => {| base := b; frames := frames s; over := Going |}) (step a (base s)) else None
  | _, _ => None
  end.
Fixpoint hrun (sched : list haction) (s : hstate) : option hstate :=
  match sched with
  | [] => Some s
  | a :: sched => match hstep a s with Some s => hrun sched s | None => None end
  end.
End Hooks.
