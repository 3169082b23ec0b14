(** Model of concurrency/thread.h: the thread that owns the object calls its members
    one after the other while the thread it started runs.  A step is one operation
    on the members, or the end of run().  The log records what happened, the newest
    first; the code does not read it. *)
Require Import List ZArith Bool.
Require Import Verif.Base.
Import ListNotations.
Local Open Scope Z_scope.

(** thread.h:118-119. *)
Definition NOT_FINISHED : Z := -100.
Definition NOT_STARTED : Z := -101.

Inductive op := Start | Join | ExitCode | IsRunning | Joinable | Destroy.
Inductive event :=
  | Started | Finished (code : Z) | Joined | Destroyed | Terminated
  | SaidCode (code : Z) | SaidRunning (b : bool) | SaidJoinable (b : bool).
(** Where the owner is: [OStart], start before the thread is created; [ODone], after
    the destructor; [ODead], std::terminate has been called. *)
Inductive pc := OIdle | OStart | OJoin | ODestroy | ODone | ODead.
(** The started thread: there is none, or it was joined; it runs; it has ended. *)
Inductive job := NoJob | Busy | Over.
(** thread.h:114-115: [_t] is joinable iff it has a job, running or ended. *)
Record state := { exit : Z; worker : job; owner : pc; log : list event }.
Definition init : state := {| exit := NOT_STARTED; worker := NoJob; owner := OIdle; log := [] |}.
Definition joinable (s : state) : bool := match worker s with NoJob => false | _ => true end.

Definition set_exit (x : Z) (s : state) : state := {| exit := x; worker := worker s; owner := owner s; log := log s |}.
Definition set_worker (j : job) (s : state) : state := {| exit := exit s; worker := j; owner := owner s; log := log s |}.
Definition go (p : pc) (s : state) : state := {| exit := exit s; worker := worker s; owner := p; log := log s |}.
Definition note (e : event) (s : state) : state := {| exit := exit s; worker := worker s; owner := owner s; log := e :: log s |}.

(** The first step of a call. *)
Definition begin (o : op) (s : state) : option state :=
  match owner s with
  | OIdle =>
      Some match o with
      (* thread.h:47-49 *)
      | Start => go OStart (set_exit NOT_FINISHED s)
      (* thread.h:66-71 *)
      | Join => if joinable s then go OJoin s else s
      (* thread.h:87-90 *)
      | ExitCode => note (SaidCode (exit s)) s
      (* thread.h:96-99 *)
      | IsRunning => note (SaidRunning (exit s =? NOT_FINISHED)) s
      (* thread.h:77-80 *)
      | Joinable => note (SaidJoinable (joinable s)) s
      (* thread.h:36-41 *)
      | Destroy => if joinable s then go ODestroy s else note Destroyed (go ODone s)
      end
  | _ => None
  end.
(** The second; None if it has to wait. *)
Definition next (s : state) : option state :=
  match owner s with
  (* thread.h:50: assigning to a joinable std::thread calls std::terminate *)
  | OStart => Some (if joinable s then note Terminated (go ODead s) else note Started (go OIdle (set_worker Busy s)))
  | OJoin => match worker s with Over => Some (note Joined (go OIdle (set_worker NoJob s))) | _ => None end
  | ODestroy => match worker s with Over => Some (note Destroyed (go ODone (set_worker NoJob s))) | _ => None end
  | _ => None
  end.
(** thread.h:50: _exit_code = run(), where run() returns [code]. *)
Definition finish (code : Z) (s : state) : option state :=
  match worker s with Busy => Some (note (Finished code) (set_worker Over (set_exit code s))) | _ => None end.

Inductive action := Begin (o : op) | Next | Finish (code : Z).
Definition step (a : action) (s : state) : option state :=
  match a with Begin o => begin o s | Next => next s | Finish code => finish code s end.
Fixpoint run (sched : list action) (s : state) : option state :=
  match sched with
  | [] => Some s
  | a :: sched => match step a s with Some s => run sched s | None => None end
  end.
(** Whether a call, and the end of run(), read (false) or write (true) _exit_code,
    which is not atomic. *)
Definition accesses (a : action) : list bool :=
  match a with Begin Start => [true] | Begin ExitCode | Begin IsRunning => [false] | Finish _ => [true] | _ => [] end.
