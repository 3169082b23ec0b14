(** Model of concurrency/timer.h (with thread.h for the thread): the thread of one
    timer and any number of other threads that call the members in any order.  A step
    is one operation on the mutex, on a member, or one call of a hook.  Time is a
    number of nanoseconds that only grows.  The log records calls, hooks and effects,
    the newest first; the code does not read it.  Not modelled: hooks that throw; two
    threads in join() at once (not allowed); a system clock that is set back or
    forward while the timer runs. *)
Require Import List Arith ZArith Bool.
Require Import Verif.Base.
Import ListNotations.
Local Open Scope Z_scope.

(** Nanoseconds in a millisecond. *)
Definition ms : Z := 1000000.

Inductive op := Stop (joining : bool) | SetInterval (n : Z) | Notify | IsRunning | ExitCode | Destroy.
Inductive event :=
  | Call (i : nat) (o : op) | Return (i : nat) (o : op)
  (* the answers of is_running() and exit_code(), which then return *)
  | SaidRunning (i : nat) (b : bool) | SaidCode (i : nat) (c : Z)
  (* stop(): _is_running = false; its call of on_stop() *)
  | StopFlag | OnStopBy (i : nat)
  (* the thread of the timer: started, hooks with their times, result, exit code *)
  | Begun (t : Z) | OnStart (t : Z) | OnInterval (t : Z) | Done (code : Z) (t : Z) | OnStop | Ended (code : Z).

(** Where the thread of the timer is. *)
Inductive wpc :=
  | TOff | TInit | TStartLock | TStart | TSetRunning | TStamp | TLoop | TLock | TWait
  | TSleep (until : Z) | TAwake (timeout : bool) | TDecide (timeout : bool) | TCall | TCallback
  | TForced | TAnd | TAnd2 (b : bool) | TRestart | TElapsed | TMin | TReset | TUnlock
  | TStopLock | TStop | TReturn | TEnded | TUndefined.
(** Where another thread is. *)
Inductive cpc :=
  | CIdle
  | CStop (j : bool) | CStopHook (j : bool) | CStopNotify (j : bool) | CJoin
  | CSet (n : Z) | CNotify | CRunning | CRunning2 | CExit
  | DDestroy | DLock | DMark | DUnlock | DStop | DJoin | CGone.

(** timer.h:169-175, thread.h:114-115: the members; [alive]: the destructor of the
    derived object, which holds the callback, has not begun; [rem], [stamp], [ret]
    are remaing_time, timestamp and return_value of run.  The mutex _deletion_mtx is
    held by Some None, the thread of the timer, or Some (Some i), the thread [i]. *)
Record state := { mtx : option (option nat); forced : bool; deleted : bool; alive : bool; running : bool;
  interval : Z; now : Z; rem : Z; stamp : Z; ret : Z; exit : Z; worker : wpc; clients : list cpc; log : list
  event }.
(** A timer of [n] milliseconds at time [t]. *)
Definition init (k : nat) (n t : Z) : state :=
  {| mtx := None; forced := false; deleted := false; alive := true; running := false; interval := n; now := t; rem := 0;
     stamp := 0; ret := 0; exit := -101; worker := TOff; clients := repeat CIdle k; log := [] |}.

Definition set_mtx (x : option (option nat)) (s : state) : state :=
  {| mtx := x; forced := forced s; deleted := deleted s; alive := alive s; running := running s;
     interval := interval s; now := now s; rem := rem s; stamp := stamp s; ret := ret s; exit := exit s;
     worker := worker s; clients := clients s; log := log s |}.
Definition set_forced (x : bool) (s : state) : state :=
  {| mtx := mtx s; forced := x; deleted := deleted s; alive := alive s; running := running s; interval := interval s;
     now := now s; rem := rem s; stamp := stamp s; ret := ret s; exit := exit s; worker := worker s;
     clients := clients s; log := log s |}.
Definition set_deleted (x : bool) (s : state) : state :=
  {| mtx := mtx s; forced := forced s; deleted := x; alive := alive s; running := running s; interval := interval s;
     now := now s; rem := rem s; stamp := stamp s; ret := ret s; exit := exit s; worker := worker s;
     clients := clients s; log := log s |}.
Definition set_alive (x : bool) (s : state) : state :=
  {| mtx := mtx s; forced := forced s; deleted := deleted s; alive := x; running := running s; interval := interval s;
     now := now s; rem := rem s; stamp := stamp s; ret := ret s; exit := exit s; worker := worker s;
     clients := clients s; log := log s |}.
Definition set_running (x : bool) (s : state) : state :=
  {| mtx := mtx s; forced := forced s; deleted := deleted s; alive := alive s; running := x; interval := interval s;
     now := now s; rem := rem s; stamp := stamp s; ret := ret s; exit := exit s; worker := worker s;
     clients := clients s; log := log s |}.
Definition set_interval (x : Z) (s : state) : state :=
  {| mtx := mtx s; forced := forced s; deleted := deleted s; alive := alive s; running := running s; interval := x;
     now := now s; rem := rem s; stamp := stamp s; ret := ret s; exit := exit s; worker := worker s;
     clients := clients s; log := log s |}.
Definition set_now (x : Z) (s : state) : state :=
  {| mtx := mtx s; forced := forced s; deleted := deleted s; alive := alive s; running := running s;
     interval := interval s; now := x; rem := rem s; stamp := stamp s; ret := ret s; exit := exit s;
     worker := worker s; clients := clients s; log := log s |}.
Definition set_rem (x : Z) (s : state) : state :=
  {| mtx := mtx s; forced := forced s; deleted := deleted s; alive := alive s; running := running s;
     interval := interval s; now := now s; rem := x; stamp := stamp s; ret := ret s; exit := exit s;
     worker := worker s; clients := clients s; log := log s |}.
Definition set_stamp (x : Z) (s : state) : state :=
  {| mtx := mtx s; forced := forced s; deleted := deleted s; alive := alive s; running := running s;
     interval := interval s; now := now s; rem := rem s; stamp := x; ret := ret s; exit := exit s; worker := worker s;
     clients := clients s; log := log s |}.
Definition set_ret (x : Z) (s : state) : state :=
  {| mtx := mtx s; forced := forced s; deleted := deleted s; alive := alive s; running := running s;
     interval := interval s; now := now s; rem := rem s; stamp := stamp s; ret := x; exit := exit s;
     worker := worker s; clients := clients s; log := log s |}.
Definition set_exit (x : Z) (s : state) : state :=
  {| mtx := mtx s; forced := forced s; deleted := deleted s; alive := alive s; running := running s;
     interval := interval s; now := now s; rem := rem s; stamp := stamp s; ret := ret s; exit := x; worker := worker s;
     clients := clients s; log := log s |}.
Definition wgo (w : wpc) (s : state) : state :=
  {| mtx := mtx s; forced := forced s; deleted := deleted s; alive := alive s; running := running s;
     interval := interval s; now := now s; rem := rem s; stamp := stamp s; ret := ret s; exit := exit s; worker := w;
     clients := clients s; log := log s |}.
Definition cgo (i : nat) (c : cpc) (s : state) : state :=
  {| mtx := mtx s; forced := forced s; deleted := deleted s; alive := alive s; running := running s;
     interval := interval s; now := now s; rem := rem s; stamp := stamp s; ret := ret s; exit := exit s;
     worker := worker s; clients := set_nth (clients s) i c; log := log s |}.
Definition note (e : event) (s : state) : state :=
  {| mtx := mtx s; forced := forced s; deleted := deleted s; alive := alive s; running := running s;
     interval := interval s; now := now s; rem := rem s; stamp := stamp s; ret := ret s; exit := exit s;
     worker := worker s; clients := clients s; log := e :: log s |}.
(** std::mutex::lock: possible if it is free. *)
Definition acquire (who : option nat) (s : state) : option state :=
  match mtx s with None => Some (set_mtx (Some who) s) | Some _ => None end.

(** thread.h:47-51: start, with no thread running (not started or joined). *)
Definition start (s : state) : option state :=
  match worker s with TOff => Some (note (Begun (now s)) (set_exit (-100) (wgo TInit s))) | _ => None end.
(** timer.h:123-151: the next step of run; None if it has to wait. *)
Definition work (s : state) : option state :=
  match worker s with
  | TOff | TEnded | TUndefined => None
  (* 126-127 *)
  | TInit => Some (wgo TStartLock (set_rem (interval s) (set_ret 0 s)))
  (* 129, 153-159: _on_start *)
  | TStartLock => option_map (wgo TStart) (acquire None s)
  | TStart =>
      if deleted s then Some (wgo TSetRunning (set_mtx None s))
      else if alive s then Some (note (OnStart (now s)) (wgo TSetRunning (set_mtx None s)))
      else Some (wgo TUndefined s)
  (* 130 *)
  | TSetRunning => Some (wgo TStamp (set_running true s))
  (* 131 *)
  | TStamp => Some (wgo TLoop (set_stamp (now s) s))
  (* 132 *)
  | TLoop => Some (wgo (if running s then TLock else TStopLock) s)
  (* 133 *)
  | TLock => option_map (wgo TWait) (acquire None s)
  (* 134: wait_for gives up the mutex and sleeps until it times out; see wake *)
  | TWait => Some (wgo (TSleep (now s + rem s * ms)) (set_mtx None s))
  | TSleep until => if until <=? now s then option_map (wgo (TAwake true)) (acquire None s) else None
  (* 135 *)
  | TAwake timeout => Some (wgo (if running s then TDecide timeout else TUnlock) s)
  (* 136 *)
  | TDecide timeout => Some (wgo (if timeout || forced s then TCall else TElapsed) s)
  (* 137: on_interval, a member of the derived object *)
  | TCall => if alive s then Some (note (OnInterval (now s)) (wgo TCallback s)) else Some (wgo TUndefined s)
  | TCallback => None
  (* 138 *)
  | TForced => Some (wgo TAnd (set_forced false s))
  (* 139: _is_running = _is_running && (return_value == EXIT_SUCCESS) *)
  | TAnd => Some (wgo (TAnd2 (running s)) s)
  | TAnd2 b => Some (wgo TRestart (set_running (b && (ret s =? 0)) s))
  (* 140 *)
  | TRestart => Some (wgo TReset (set_rem (interval s) s))
  (* 143: whole milliseconds *)
  | TElapsed => Some (wgo TMin (set_rem (rem s - Z.quot (now s - stamp s) ms) s))
  (* 144 *)
  | TMin => Some (wgo TReset (set_rem (Z.min (interval s) (rem s)) s))
  (* 146 *)
  | TReset => Some (wgo TUnlock (set_stamp (now s) s))
  (* 148: the end of the scope of guard *)
  | TUnlock => Some (wgo TLoop (set_mtx None s))
  (* 149, 161-167: _on_stop *)
  | TStopLock => option_map (wgo TStop) (acquire None s)
  | TStop =>
      if deleted s then Some (wgo TReturn (set_mtx None s))
      else if alive s then Some (note OnStop (wgo TReturn (set_mtx None s)))
      else Some (wgo TUndefined s)
  (* 150, thread.h:50 *)
  | TReturn => Some (note (Ended (ret s)) (wgo TEnded (set_exit (ret s) s)))
  end.
(** timer.h:134: wait_for ends before the time is over: a notification or nothing. *)
Definition wake (s : state) : option state :=
  match worker s with TSleep _ => option_map (wgo (TAwake false)) (acquire None s) | _ => None end.
(** timer.h:137: on_interval returns [code]. *)
Definition result (code : Z) (s : state) : option state :=
  match worker s with
  | TCallback => if alive s then Some (note (Done code (now s)) (wgo TForced (set_ret code s))) else Some (wgo TUndefined s)
  | _ => None
  end.
(** timer.h:185-189: on_interval of timer_t, for the answer of its function. *)
Definition timer_code (answer : bool) : Z := if answer then 0 else 1.

Definition entry (o : op) : cpc :=
  match o with Stop j => CStop j | SetInterval n => CSet n | Notify => CNotify | IsRunning => CRunning | ExitCode => CExit | Destroy => DDestroy end.
Definition begin (i : nat) (o : op) (s : state) : option state :=
  match nth_error (clients s) i with
  | Some CIdle => Some (note (Call i o) (cgo i (entry o) s))
  | _ => None
  end.
(** thread.h:66-71: join returns when no thread runs. *)
Definition joined (s : state) : option state :=
  match worker s with TOff => Some s | TEnded => Some (wgo TOff s) | _ => None end.
(** The next step of a thread [i] that is in a call. *)
Definition next (i : nat) (s : state) : option state :=
  match nth_error (clients s) i with
  | None | Some CIdle | Some CGone => None
  (* timer.h:52-60: stop (and safe_delete, 84-88) *)
  | Some (CStop j) => Some (note StopFlag (cgo i (CStopHook j) (set_running false s)))
  | Some (CStopHook j) => Some (note (OnStopBy i) (cgo i (CStopNotify j) s))
  | Some (CStopNotify false) => Some (note (Return i (Stop false)) (cgo i CIdle s))
  | Some (CStopNotify true) => Some (cgo i CJoin s)
  | Some CJoin => option_map (fun s => note (Return i (Stop true)) (cgo i CIdle s)) (joined s)
  (* timer.h:73-76: set_interval *)
  | Some (CSet n) => Some (note (Return i (SetInterval n)) (cgo i CIdle (set_interval n s)))
  (* timer.h:115-119: notify *)
  | Some CNotify => Some (note (Return i Notify) (cgo i CIdle (set_forced true s)))
  (* timer.h:65-68: is_running, thread.h:96-99 *)
  | Some CRunning => Some (if running s then cgo i CRunning2 s else note (SaidRunning i false) (cgo i CIdle s))
  | Some CRunning2 => Some (note (SaidRunning i (exit s =? -100)) (cgo i CIdle s))
  (* thread.h:87-90: exit_code *)
  | Some CExit => Some (note (SaidCode i (exit s)) (cgo i CIdle s))
  (* timer.h:178-190: the destructor of timer_t destroys the function first *)
  | Some DDestroy => Some (cgo i DLock (set_alive false s))
  (* timer.h:36-42; on_stop is the one of base_timer_t now, that does nothing *)
  | Some DLock => option_map (cgo i DMark) (acquire (Some i) s)
  | Some DMark => Some (cgo i DUnlock (set_deleted true s))
  | Some DUnlock => Some (cgo i DStop (set_mtx None s))
  | Some DStop => Some (cgo i DJoin (set_running false s))
  | Some DJoin => option_map (fun s => note (Return i Destroy) (cgo i CGone s)) (joined s)
  end.
(** A schedule: who does what next; [Tick d]: [d] nanoseconds pass. *)
Inductive action := Start | Work | Wake | Result (code : Z) | Tick (d : N) | Begin (i : nat) (o : op) | Next (i : nat).
Definition step (a : action) (s : state) : option state :=
  match a with
  | Start => start s | Work => work s | Wake => wake s | Result c => result c s
  | Tick d => Some (set_now (now s + Z.of_N d) s)
  | Begin i o => begin i o s | Next i => next i s
  end.
Fixpoint run (sched : list action) (s : state) : option state :=
  match sched with
  | [] => Some s
  | a :: sched => match step a s with Some s => run sched s | None => None end
  end.

(** The non-atomic members that the next step reads (false) or writes (true). *)
Inductive loc := Linterval | Lexit.
Definition waccesses (w : wpc) : list (loc * bool) :=
  match w with
  | TInit | TRestart | TMin => [(Linterval, false)]
  | TReturn => [(Lexit, true)]
  | _ => []
  end.
Definition caccesses (c : cpc) : list (loc * bool) :=
  match c with
  | CSet _ => [(Linterval, true)]
  | CRunning2 | CExit => [(Lexit, false)]
  | _ => []
  end.
(** thread.h:49: start() writes the exit code. *)
Definition saccesses : list (loc * bool) := [(Lexit, true)].
