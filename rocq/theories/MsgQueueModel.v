(** Model of concurrency/message_queue.h (with the lockable_t of safe.h for the
    queue): one worker and any number of other threads that call the members in any
    order.  A step is one operation on the mutex of the queue, on the queue, on a
    flag, or one call of a hook.  The log records calls, effects and returns, the
    newest first; the code does not read it.  Not modelled: exceptions thrown by the
    hooks, destruction while other threads still call members. *)
Require Import List Arith NArith Bool.
Require Import Verif.Base.
Import ListNotations.

Section Queue.
Context {M : Type}.
(** Which element of a queue of messages, listed in the order of their arrival,
    top() or front() returns and pop() removes: the first one for a std::queue, a
    greatest one for a std::priority_queue. *)
Variable select : list M -> nat.

Inductive op := Receive (m : M) | Stop | Discard | IsRunning | Size.
Inductive event :=
  | Call (i : nat) (o : op) | Return (i : nat) (o : op)
  (* _queue.push(m); _stopped = true; _discard = true; _queue.size() *)
  | Pushed (m : M) | Stopped | Discarding | Sized (n : nat)
  (* the answer of is_running(), which then returns *)
  | SaidRunning (i : nat) (b : bool)
  (* the worker: hooks, elements taken out to be processed, to be dropped *)
  | Begun | OnStart | OnMessage (m : M) | OnStop | Ended
  | Took (m : M) | Dropped (m : M) | SawEmpty | SawDiscard | ClearBegin | Cleared.

(** Where the worker is. *)
Inductive wpc :=
  | WOff | WTest | WStart | WRun | WLoop | WWait | WDiscard | WUndiscard | WClearLock | WClear
  | WLook | WLook2 | WPopLock | WPop | WPopDone (m : M) | WMessage (m : M)
  | WStopped | WSetRunning (b : bool) | WStop | WExit | WEnded
  | WThrew | WUndefined.
(** Where another thread is. *)
Inductive cpc :=
  | CIdle
  | CLock (m : M) | CPush (m : M) | CUnlock (m : M) | CNotify (m : M)
  | CStop | CStopNotify | CDiscard | CDiscardNotify
  | CRunning | CRunning2
  | CSizeLock | CSize | CSizeUnlock.

(** message_queue.h:229-233, thread.h:114-115: the members; the mutex is held by
    Some None, the worker, or Some (Some i), the thread [i].  [active] is
    thread_t::is_running(). *)
Record state := { mtx : option (option nat); queue : list M; running : bool; stopped : bool; discard : bool;
  active : bool; worker : wpc; clients : list cpc; log : list event }.
Definition init (n : nat) : state :=
  {| mtx := None; queue := []; running := false; stopped := false; discard := false; active := false;
     worker := WOff; clients := repeat CIdle n; log := [] |}.

Definition set_mtx (x : option (option nat)) (s : state) : state :=
  {| mtx := x; queue := queue s; running := running s; stopped := stopped s; discard := discard s; active := active s;
     worker := worker s; clients := clients s; log := log s |}.
Definition set_queue (q : list M) (s : state) : state :=
  {| mtx := mtx s; queue := q; running := running s; stopped := stopped s; discard := discard s; active := active s;
     worker := worker s; clients := clients s; log := log s |}.
Definition set_running (b : bool) (s : state) : state :=
  {| mtx := mtx s; queue := queue s; running := b; stopped := stopped s; discard := discard s; active := active s;
     worker := worker s; clients := clients s; log := log s |}.
Definition set_stopped (b : bool) (s : state) : state :=
  {| mtx := mtx s; queue := queue s; running := running s; stopped := b; discard := discard s; active := active s;
     worker := worker s; clients := clients s; log := log s |}.
Definition set_discard (b : bool) (s : state) : state :=
  {| mtx := mtx s; queue := queue s; running := running s; stopped := stopped s; discard := b; active := active s;
     worker := worker s; clients := clients s; log := log s |}.
Definition set_active (b : bool) (s : state) : state :=
  {| mtx := mtx s; queue := queue s; running := running s; stopped := stopped s; discard := discard s; active := b;
     worker := worker s; clients := clients s; log := log s |}.
Definition wgo (w : wpc) (s : state) : state :=
  {| mtx := mtx s; queue := queue s; running := running s; stopped := stopped s; discard := discard s; active := active s;
     worker := w; clients := clients s; log := log s |}.
Definition cgo (i : nat) (c : cpc) (s : state) : state :=
  {| mtx := mtx s; queue := queue s; running := running s; stopped := stopped s; discard := discard s; active := active s;
     worker := worker s; clients := set_nth (clients s) i c; log := log s |}.
Definition note (e : event) (s : state) : state :=
  {| mtx := mtx s; queue := queue s; running := running s; stopped := stopped s; discard := discard s; active := active s;
     worker := worker s; clients := clients s; log := e :: log s |}.
(** std::mutex::lock: possible if it is free. *)
Definition acquire (who : option nat) (s : state) : option state :=
  match mtx s with None => Some (set_mtx (Some who) s) | Some _ => None end.

(** The selected message and the others. *)
Definition take (q : list M) : option (M * list M) :=
  match nth_error q (select q) with
  | None => None
  | Some m => Some (m, firstn (select q) q ++ skipn (S (select q)) q)
  end.
Definition is_empty (q : list M) : bool := match q with [] => true | _ => false end.

(** thread.h:47-51: start, with no thread running (not started or joined). *)
Definition start (s : state) : option state :=
  match worker s with WOff => Some (note Begun (set_active true (wgo WTest s))) | _ => None end.
(** thread.h:66-70: join returns when the worker has ended. *)
Definition join (s : state) : option state :=
  match worker s with WEnded => Some (wgo WOff s) | _ => None end.
(** message_queue.h:130-162: the next step of run; None if it has to wait. *)
Definition work (s : state) : option state :=
  match worker s with
  | WOff | WEnded | WThrew | WUndefined => None
  (* 135-137 *)
  | WTest => Some (wgo (if running s then WThrew else WStart) s)
  (* 139 *)
  | WStart => Some (note OnStart (wgo WRun s))
  (* 140 *)
  | WRun => Some (wgo WLoop (set_running true s))
  (* 141 *)
  | WLoop => Some (wgo (if running s then WWait else WStop) s)
  (* 143: wait_for looks at the queue and ends when it has an element or, after the
     time-out, in any case *)
  | WWait => Some (wgo WDiscard s)
  (* 145 *)
  | WDiscard => Some (wgo (if discard s then WUndiscard else WLook) s)
  (* 146 *)
  | WUndiscard => Some (note ClearBegin (wgo WClearLock (set_discard false s)))
  (* 149 *)
  | WClearLock => option_map (wgo WClear) (acquire None s)
  (* 150, 224-227 *)
  | WClear =>
      if is_empty (queue s) then Some (note Cleared (wgo WStopped (set_mtx None s)))
      else match take (queue s) with
           | Some (m, q) => Some (note (Dropped m) (wgo WClear (set_queue q s)))
           | None => Some (wgo WUndefined s)
           end
  (* 153: pred(), without the mutex *)
  | WLook => if is_empty (queue s) then Some (note SawEmpty (wgo WStopped s)) else Some (wgo WLook2 s)
  (* 153: !_discard *)
  | WLook2 => if discard s then Some (note SawDiscard (wgo WStopped s)) else Some (wgo WPopLock s)
  (* 154, 206-217: pop *)
  | WPopLock => option_map (wgo WPop) (acquire None s)
  | WPop =>
      match take (queue s) with
      | Some (m, q) => Some (note (Took m) (wgo (WPopDone m) (set_queue q s)))
      | None => Some (wgo WUndefined s)
      end
  | WPopDone m => Some (wgo (WMessage m) (set_mtx None s))
  (* 155 *)
  | WMessage m => Some (note (OnMessage m) (wgo WLook s))
  (* 158: _running = !_stopped *)
  | WStopped => Some (wgo (WSetRunning (negb (stopped s))) s)
  | WSetRunning b => Some (wgo WLoop (set_running b s))
  (* 160-161 *)
  | WStop => Some (note OnStop (wgo WExit s))
  (* thread.h:50: _exit_code = run() *)
  | WExit => Some (note Ended (set_active false (wgo WEnded s)))
  end.

Definition entry (o : op) : cpc :=
  match o with Receive m => CLock m | Stop => CStop | Discard => CDiscard | IsRunning => CRunning | Size => CSizeLock end.
Definition begin (i : nat) (o : op) (s : state) : option state :=
  match nth_error (clients s) i with
  | Some CIdle => Some (note (Call i o) (cgo i (entry o) s))
  | _ => None
  end.
(** The next step of a thread [i] that is in a call. *)
Definition next (i : nat) (s : state) : option state :=
  match nth_error (clients s) i with
  | None | Some CIdle => None
  (* message_queue.h:74-80: receive_message (and send, 64-67) *)
  | Some (CLock m) => option_map (cgo i (CPush m)) (acquire (Some i) s)
  | Some (CPush m) => Some (note (Pushed m) (cgo i (CUnlock m) (set_queue (queue s ++ [m]) s)))
  | Some (CUnlock m) => Some (cgo i (CNotify m) (set_mtx None s))
  | Some (CNotify m) => Some (note (Return i (Receive m)) (cgo i CIdle s))
  (* message_queue.h:86-90: stop *)
  | Some CStop => Some (note Stopped (cgo i CStopNotify (set_stopped true s)))
  | Some CStopNotify => Some (note (Return i Stop) (cgo i CIdle s))
  (* message_queue.h:95-99: discard_messages *)
  | Some CDiscard => Some (note Discarding (cgo i CDiscardNotify (set_discard true s)))
  | Some CDiscardNotify => Some (note (Return i Discard) (cgo i CIdle s))
  (* message_queue.h:105-108: is_running, thread.h:96-99 *)
  | Some CRunning => Some (if running s then note (SaidRunning i true) (cgo i CIdle s) else cgo i CRunning2 s)
  | Some CRunning2 => Some (note (SaidRunning i (active s)) (cgo i CIdle s))
  (* message_queue.h:113-126: size and empty *)
  | Some CSizeLock => option_map (cgo i CSize) (acquire (Some i) s)
  | Some CSize => Some (note (Sized (length (queue s))) (cgo i CSizeUnlock s))
  | Some CSizeUnlock => Some (note (Return i Size) (cgo i CIdle (set_mtx None s)))
  end.
(** A schedule: who does what next. *)
Inductive action := Start | Join | Work | Begin (i : nat) (o : op) | Next (i : nat).
Definition step (a : action) (s : state) : option state :=
  match a with
  | Start => start s | Join => join s | Work => work s | Begin i o => begin i o s | Next i => next i s
  end.
Fixpoint run (sched : list action) (s : state) : option state :=
  match sched with
  | [] => Some s
  | a :: sched => match step a s with Some s => run sched s | None => None end
  end.

(** The non-atomic members that the next step reads (false) or writes (true). *)
Inductive loc := Lqueue | Lrunning | Lexit.
Definition waccesses (w : wpc) : list (loc * bool) :=
  match w with
  | WTest | WLoop => [(Lrunning, false)]
  | WRun | WSetRunning _ => [(Lrunning, true)]
  | WWait | WLook => [(Lqueue, false)]
  | WClear | WPop => [(Lqueue, true)]
  | WExit => [(Lexit, true)]
  | _ => []
  end.
Definition caccesses (c : cpc) : list (loc * bool) :=
  match c with
  | CPush _ => [(Lqueue, true)]
  | CRunning => [(Lrunning, false)]
  | CRunning2 => [(Lexit, false)]
  | CSize => [(Lqueue, false)]
  | _ => []
  end.
End Queue.
Arguments op M : clear implicits.
Arguments event M : clear implicits.
Arguments wpc M : clear implicits.
Arguments cpc M : clear implicits.
Arguments state M : clear implicits.
Arguments action M : clear implicits.

(** std::queue: the oldest message. *)
Definition fifo {M} (q : list M) : nat := 0.
