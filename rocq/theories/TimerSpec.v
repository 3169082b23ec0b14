(** Specification for timer.h: what may be seen of a log, whose newest event is the
    first.  Of the model only the names of calls and events are used. *)
Require Import List Arith ZArith Bool.
Require Import Verif.TimerModel.
Import ListNotations.
Local Open Scope Z_scope.

(** What the callback returned last since the timer was started, 0 if it was not
    called. *)
Fixpoint last_code (l : list event) : Z :=
  match l with [] => 0 | Done c _ :: _ => c | Begun _ :: _ => 0 | _ :: l => last_code l end.
(** When the last of these happened: the timer was started, on_start() was called,
    the callback returned. *)
Fixpoint base (l : list event) : option Z :=
  match l with [] => None | Done _ t :: _ | OnStart t :: _ | Begun t :: _ => Some t | _ :: l => base l end.

(** The life of the timer's thread as its hooks see it. *)
Inductive phase := Off | Born | Up | Inside | Down.
Definition hook (e : event) : bool :=
  match e with Begun _ | OnStart _ | OnInterval _ | Done _ _ | OnStop | Ended _ => true | _ => false end.
Definition after (e : event) (p : phase) : option phase :=
  match e, p with
  | Begun _, Off => Some Born
  | OnStart _, Born => Some Up
  | OnInterval _, Up => Some Inside
  | Done _ _, Inside => Some Up
  | OnStop, Up => Some Down
  | Ended _, Down => Some Off
  | _, _ => if hook e then None else Some p
  end.
(** None if it is not a possible life: each start is followed by one on_start, then
    callbacks one after the other, then one on_stop and the end. *)
Fixpoint life (l : list event) : option phase :=
  match l with [] => Some Off | e :: l => match life l with Some p => after e p | None => None end end.

Definition count (f : event -> bool) (l : list event) : nat := length (filter f l).
Definition is_interval (e : event) : bool := match e with OnInterval _ => true | _ => false end.
(** Every call of the hook on_stop, by the timer's thread and by stop(). *)
Definition is_on_stop (e : event) : bool := match e with OnStop | OnStopBy _ => true | _ => false end.
Definition is_begun (e : event) : bool := match e with Begun _ => true | _ => false end.
(** Calls that change the period or wake the timer. *)
Definition is_change (e : event) : bool :=
  match e with Call _ (SetInterval _) | Call _ Notify => true | _ => false end.
Definition is_destroy (e : event) : bool := match e with Call _ Destroy => true | _ => false end.

Definition is_thread_stop (e : event) : bool := match e with OnStop => true | _ => false end.
Definition is_ended (e : event) : bool := match e with Ended _ => true | _ => false end.
Definition is_on_start (e : event) : bool := match e with OnStart _ => true | _ => false end.
(** Started and not ended. *)
Fixpoint on (l : list event) : bool :=
  match l with [] => false | Begun _ :: _ => true | Ended _ :: _ => false | _ :: l => on l end.
(** The events since the last start. *)
Fixpoint since (l : list event) : list event :=
  match l with [] | Begun _ :: _ => [] | e :: l => e :: since l end.
Definition is_stop (e : event) : bool := match e with StopFlag => true | Done c _ => negb (c =? 0) | _ => false end.
(** It has called its function since the start and nothing has stopped it: neither
    stop(), nor a failure, nor the destructor. *)
Definition steady (l : list event) : Prop :=
  on l = true /\ count is_interval (since l) <> 0%nat /\ count is_stop (since l) = 0%nat /\ count is_destroy l = 0%nat.
(** What exit_code() should say. *)
Definition code (l : list event) : Z :=
  if on l then -100 else if Nat.eqb (count is_begun l) 0 then -101 else last_code l.
(** The periods asked for with set_interval(), and such calls. *)
Fixpoint periods (l : list event) : list Z :=
  match l with [] => [] | Call _ (SetInterval x) :: l => x :: periods l | _ :: l => periods l end.
Definition is_set (e : event) : bool := match e with Call _ (SetInterval _) => true | _ => false end.
(** A notify() has returned since the callback returned last. *)
Fixpoint notified (l : list event) : bool :=
  match l with [] | Done _ _ :: _ => false | Return _ Notify :: _ => true | _ :: l => notified l end.
(** The callback has been called and has not returned. *)
Fixpoint in_callback (l : list event) : bool :=
  match l with [] | Done _ _ :: _ | Begun _ :: _ => false | OnInterval _ :: _ => true | _ :: l => in_callback l end.
(** Destroyed while the thread runs, or started after that. *)
Definition misused (l : list event) : Prop :=
  exists l1 i l2, l = l1 ++ Call i Destroy :: l2 /\ (on l2 = true \/ exists t, In (Begun t) l1).

(** The windows in which a stop() is lost: before the thread set _is_running, and
    between its reading and writing it after a callback. *)
Definition early (w : wpc) : bool :=
  match w with TInit | TStartLock | TStart | TSetRunning | TAnd2 true => true | _ => false end.
(** About to call the function or in it. *)
Definition calling (w : wpc) : bool := match w with TDecide _ | TCall | TCallback => true | _ => false end.
(** A destructor that has set _deleted. *)
Definition past (c : cpc) : bool := match c with DUnlock | DStop | DJoin | CGone => true | _ => false end.
(** The call that thread [i] is in. *)
Fixpoint pending (i : nat) (l : list event) : option op :=
  match l with
  | [] => None
  | Call j o :: l => if Nat.eqb j i then Some o else pending i l
  | Return j _ :: l | SaidRunning j _ :: l | SaidCode j _ :: l => if Nat.eqb j i then None else pending i l
  | _ :: l => pending i l
  end.

(** Thread [i] is asking is_running() or exit_code(). *)
Definition asking (i : nat) (l : list event) : Prop := pending i l = Some IsRunning \/ pending i l = Some ExitCode.

(** Schedules in which only the timer's thread acts, its callback returns 0 and time
    passes. *)
Definition alone (a : action) : bool := match a with Work | Result 0 | Tick _ => true | _ => false end.

(** A data race: the next steps of two threads use a member that is not atomic, at
    least one of them writing. *)
Definition conflict (a b : list (loc * bool)) : Prop :=
  exists l x y, In (l, x) a /\ In (l, y) b /\ orb x y = true.
