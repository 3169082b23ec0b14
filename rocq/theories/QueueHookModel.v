(** Model of the hooks of a message queue (message_queue.h:172-190): around the model
    of MsgQueueModel.v, what on_start, on_new_message and on_stop of the derived class
    do.  They run in the thread of the queue and may call its members, wait for the
    answers, and throw.  What a hook does may depend on everything that happened
    before.  Not modelled: hooks that never return; hooks that destroy the queue;
    a join() in a hook while the owner is still inside start() (a data race on the
    std::thread). *)
Require Import List Arith NArith Bool.
Require Import Verif.Base Verif.MsgQueueModel.
Import ListNotations.

Section Hooks.
Context {M : Type}.
Variable select : list M -> nat.

(** The rest of a hook: it returns; throws; calls a member and goes on when that has
    returned; calls join(); calls start(). *)
Inductive prog :=
  | Leave
  | Raise
  | Use (o : op M) (k : list (event M) -> prog)
  | JoinSelf (k : prog)
  | StartSelf.
(** What a hook does that is called when this is the log: its newest event is the
    call, OnStart, OnMessage m or OnStop. *)
Variable hooks : list (event M) -> prog.

(** Where the thread of the queue is: in no hook, in a hook, in a call made by one. *)
Inductive place := Outside | Inside (p : prog) | Calling (k : list (event M) -> prog).
(** [over]: std::terminate was called.  The calls of the hooks are those of the
    client 0 of [base]. *)
Record hstate := { base : state M; at_ : place; over : bool }.
Definition hinit (n : nat) : hstate := {| base := init (S n); at_ := Outside; over := false |}.

Definition is_hook_pc (w : wpc M) : bool := match w with WStart | WMessage _ | WStop => true | _ => false end.
(** message_queue.h:130-162: the next step of the thread of the queue. *)
Definition hwork (s : hstate) : option hstate :=
  match at_ s with
  | Outside =>
      option_map (fun b => {| base := b; at_ := if is_hook_pc (worker (base s)) then Inside (hooks (log b)) else Outside;
                              over := false |}) (work select (base s))
  (* the hook returns *)
  | Inside Leave => Some {| base := base s; at_ := Outside; over := false |}
  (* thread.h:50: an exception leaves the function of the std::thread *)
  | Inside Raise => Some {| base := base s; at_ := Outside; over := true |}
  (* thread.h:66-71: std::thread::join called by the thread itself throws a
     std::system_error; the hook may catch it *)
  | Inside (JoinSelf k) => Some {| base := base s; at_ := Inside k; over := false |}
  (* thread.h:47-51: the assignment to a joinable std::thread *)
  | Inside StartSelf => Some {| base := base s; at_ := Outside; over := true |}
  | Inside (Use o k) => option_map (fun b => {| base := b; at_ := Calling k; over := false |}) (begin 0 o (base s))
  | Calling k =>
      match nth_error (clients (base s)) 0 with
      | Some CIdle => Some {| base := base s; at_ := Inside (k (log (base s))); over := false |}
      | _ => option_map (fun b => {| base := b; at_ := Calling k; over := false |}) (next 0 (base s))
      end
  end.
(** The threads other than that of the queue are the clients from 1 on. *)
Definition other (a : action M) : bool :=
  match a with Start | Join => true | Work => false | Begin i _ | Next i => negb (i =? 0) end.
Inductive haction := HWork | Other (a : action M).
Definition hstep (a : haction) (s : hstate) : option hstate :=
  if over s then None
  else match a with
       | HWork => hwork s
       | Other a =>
           if other a then option_map (fun b => {| base := b; at_ := at_ s; over := false |}) (step select a (base s)) else None
       end.
Fixpoint hrun (sched : list haction) (s : hstate) : option hstate :=
  match sched with
  | [] => Some s
  | a :: sched => match hstep a s with Some s => hrun sched s | None => None end
  end.
End Hooks.
Arguments prog M : clear implicits.
Arguments place M : clear implicits.
Arguments hstate M : clear implicits.
Arguments haction M : clear implicits.
