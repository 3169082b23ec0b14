(** Model of concurrency/semaphore.h: any number of threads that call the members of
    one semaphore in any order.  A step is one operation on the mutex, the condition
    variable or the members, so the steps of the threads interleave in every way.
    The log records calls, the moments where a call takes effect and returns, the
    newest first; the code does not read it. *)
Require Import List Arith NArith Bool.
Require Import Verif.Base.
Import ListNotations.
Local Open Scope N_scope.

(** The members; size_t() is count(). *)
Inductive op := Lock | TryLock | Unlock | SetAvailable (n : N) | Count | MaxCount.
(** What a call did: acquired, threw out_of_resources_exception, the answers of
    try_lock and decrecement, the new number, the answers of count and max_count. *)
Inductive effect := Acquired | Threw | Tried (ok : bool) | Released (ok : bool) | Resized (n : N) | Counted (v : N) | MaxWas (v : N).
Inductive event := Call (i : nat) (o : op) | Effect (i : nat) (e : effect) | Return (i : nat) (e : effect).

(** Where a thread is. *)
Inductive pc :=
  | Idle
  | LockMutex | LockTest | LockThrow | LockLoop | LockWait | LockAwake | LockCount | LockDone
  | TryMutex | TryTest | TryCount | TryDone (ok : bool)
  | UnMutex | UnTest | UnCount | UnDone (ok : bool) | UnNotify
  | SetMutex (n : N) | SetStore (n : N) | SetDone (greater : bool) (n : N) | SetNotify (n : N)
  | CountMutex | CountRead | CountDone (v : N)
  | MaxRead | MaxDone (v : N).

(** semaphore.h:149-152: the members, the threads and the log. *)
Record state := { mtx : option nat; count : N; available : N; threads : list pc; log : list event }.
(** semaphore.h:34-36: the constructor, seen by [n] threads *)
Definition init (n : nat) (available_resources : N) : state :=
  {| mtx := None; count := 0; available := available_resources mod two64; threads := repeat Idle n; log := [] |}.

Definition go (s : state) (i : nat) (p : pc) : state :=
  {| mtx := mtx s; count := count s; available := available s; threads := set_nth (threads s) i p; log := log s |}.
Definition with_mtx (m : option nat) (s : state) : state :=
  {| mtx := m; count := count s; available := available s; threads := threads s; log := log s |}.
Definition with_count (c : N) (s : state) : state :=
  {| mtx := mtx s; count := c; available := available s; threads := threads s; log := log s |}.
Definition with_available (a : N) (s : state) : state :=
  {| mtx := mtx s; count := count s; available := a; threads := threads s; log := log s |}.
Definition note (e : event) (s : state) : state :=
  {| mtx := mtx s; count := count s; available := available s; threads := threads s; log := e :: log s |}.
(** std::mutex::lock: possible if it is free. *)
Definition acquire (s : state) (i : nat) (p : pc) : option state :=
  match mtx s with None => Some (go (with_mtx (Some i) s) i p) | Some _ => None end.

(** Where a call starts. *)
Definition entry (o : op) : pc :=
  match o with
  | Lock => LockMutex | TryLock => TryMutex | Unlock => UnMutex
  | SetAvailable n => SetMutex (n mod two64) | Count => CountMutex | MaxCount => MaxRead
  end.
(** An idle thread [i] calls a member. *)
Definition begin (i : nat) (o : op) (s : state) : option state :=
  match nth_error (threads s) i with
  | Some Idle => Some (note (Call i o) (go s i (entry o)))
  | _ => None
  end.
(** The next step of a thread [i] that is in a call; None if it has to wait. *)
Definition next (i : nat) (s : state) : option state :=
  match nth_error (threads s) i with
  | None | Some Idle => None
  (* semaphore.h:44-58: lock *)
  | Some LockMutex => acquire s i LockTest
  | Some LockTest =>
      if available s =? 0 then Some (note (Effect i Threw) (go s i LockThrow)) else Some (go s i LockLoop)
  | Some LockThrow => Some (note (Return i Threw) (go (with_mtx None s) i Idle))
  | Some LockLoop =>
      if available s <=? count s then Some (go (with_mtx None s) i LockWait) else Some (go s i LockCount)
  (* semaphore.h:53: wait_for ends at any time: notified, timed out or spuriously *)
  | Some LockWait => Some (go s i LockAwake)
  | Some LockAwake => acquire s i LockLoop
  | Some LockCount => Some (note (Effect i Acquired) (go (with_count (wadd (count s) 1) s) i LockDone))
  | Some LockDone => Some (note (Return i Acquired) (go (with_mtx None s) i Idle))
  (* semaphore.h:64-72: try_lock *)
  | Some TryMutex => acquire s i TryTest
  | Some TryTest =>
      if count s <? available s then Some (go s i TryCount)
      else Some (note (Effect i (Tried false)) (go s i (TryDone false)))
  | Some TryCount => Some (note (Effect i (Tried true)) (go (with_count (wadd (count s) 1) s) i (TryDone true)))
  | Some (TryDone ok) => Some (note (Return i (Tried ok)) (go (with_mtx None s) i Idle))
  (* semaphore.h:77-83, 127-136: unlock, decrecement *)
  | Some UnMutex => acquire s i UnTest
  | Some UnTest =>
      if count s =? 0 then Some (note (Effect i (Released false)) (go s i (UnDone false))) else Some (go s i UnCount)
  | Some UnCount => Some (note (Effect i (Released true)) (go (with_count (wsub (count s) 1) s) i (UnDone true)))
  | Some (UnDone true) => Some (go (with_mtx None s) i UnNotify)
  | Some (UnDone false) => Some (note (Return i (Released false)) (go (with_mtx None s) i Idle))
  (* notify_one has no effect beyond ending a wait *)
  | Some UnNotify => Some (note (Return i (Released true)) (go s i Idle))
  (* semaphore.h:89-95, 141-147: set_available_resources, set_max_counter_locked *)
  | Some (SetMutex n) => acquire s i (SetStore n)
  | Some (SetStore n) =>
      Some (note (Effect i (Resized n)) (go (with_available n s) i (SetDone (available s <? n) n)))
  | Some (SetDone true n) => Some (go (with_mtx None s) i (SetNotify n))
  | Some (SetDone false n) => Some (note (Return i (Resized n)) (go (with_mtx None s) i Idle))
  | Some (SetNotify n) => Some (note (Return i (Resized n)) (go s i Idle))
  (* semaphore.h:100-104, 117-120: count, size_t *)
  | Some CountMutex => acquire s i CountRead
  | Some CountRead => Some (note (Effect i (Counted (count s))) (go s i (CountDone (count s))))
  | Some (CountDone v) => Some (note (Return i (Counted v)) (go (with_mtx None s) i Idle))
  (* semaphore.h:109-112: max_count, without the mutex *)
  | Some MaxRead =>
      Some (note (Effect i (MaxWas (available s))) (go s i (MaxDone (available s))))
  | Some (MaxDone v) => Some (note (Return i (MaxWas v)) (go s i Idle))
  end.
(** A schedule: who does what next. *)
Inductive action := Begin (i : nat) (o : op) | Next (i : nat).
Definition step (a : action) (s : state) : option state :=
  match a with Begin i o => begin i o s | Next i => next i s end.
Fixpoint run (sched : list action) (s : state) : option state :=
  match sched with
  | [] => Some s
  | a :: sched => match step a s with Some s => run sched s | None => None end
  end.

(** The unprotected (non-atomic) members that the next step of a thread reads
    (false) or writes (true). *)
Inductive loc := Lcount | Lavailable.
Definition accesses (p : pc) : list (loc * bool) :=
  match p with
  | LockTest => [(Lavailable, false)]
  | LockLoop => [(Lcount, false); (Lavailable, false)]
  | LockCount | TryCount | UnCount => [(Lcount, false); (Lcount, true)]
  | TryTest => [(Lcount, false); (Lavailable, false)]
  | UnTest | CountRead => [(Lcount, false)]
  | SetStore _ => [(Lavailable, false); (Lavailable, true)]
  | MaxRead => [(Lavailable, false)]
  | _ => []
  end.
