(** Model of the destruction of a class derived from message_queue_t
    (message_queue.h:38-55): around the model of MsgQueueModel.v, the steps of the
    destructors.  When they begin no other thread is in a call and none calls later
    (anything else is an error of the caller whatever the class does).  The members
    of the derived class, on_new_message, on_start and on_stop among them, exist
    until its destructor is over; after that on_new_message is the pure virtual one,
    whose call is undefined behaviour, and the other two are those of
    message_queue_t, which do nothing. *)
Require Import List Arith NArith Bool.
Require Import Verif.Base Verif.MsgQueueModel.
Import ListNotations.

Section Queue.
Context {M : Type}.
Variable select : list M -> nat.

(** Where the destructors are. *)
Inductive dpc := Living | SafeStop | SafeJoin | Derived | BaseStop | BaseJoin | BaseClear | Destroyed | Broken.
Record object := { base : state M; alive : bool; at_ : dpc }.
Definition new (n : nat) : object := {| base := init n; alive := true; at_ := Living |}.
Definition go (d : dpc) (o : object) : object := {| base := base o; alive := alive o; at_ := d |}.
Definition set_base (s : state M) (o : object) : object := {| base := s; alive := alive o; at_ := at_ o |}.
Definition die (o : object) : object := {| base := base o; alive := false; at_ := at_ o |}.
Definition is_idle (c : cpc M) : bool := match c with CIdle => true | _ => false end.

(** message_queue.h:130-162 with the hooks of the object as it is now. *)
Definition work_on (o : object) : option object :=
  let s := base o in
  if alive o then option_map (fun s => set_base s o) (work select s)
  else match worker s with
       | WStart => Some (set_base (wgo WRun s) o)
       | WMessage _ => Some (go Broken o)
       | WStop => Some (set_base (wgo WExit s) o)
       | _ => option_map (fun s => set_base s o) (work select s)
       end.
(** message_queue.h:86-90: stop. *)
Definition stop_now (s : state M) : state M := note Stopped (set_stopped true s).
(** thread.h:66-71: join, which returns at once if there is no thread. *)
Definition join_now (s : state M) : option (state M) :=
  match worker s with WOff => Some s | WEnded => Some (wgo WOff s) | _ => None end.
(** The next step of the destructors. *)
Definition destruct (o : object) : option object :=
  let s := base o in
  match at_ o with
  | Living | Destroyed | Broken => None
  (* 51-55: safe_delete, called in the destructor of the derived class *)
  | SafeStop => Some (set_base (stop_now s) (go SafeJoin o))
  | SafeJoin => option_map (fun s => set_base s (go Derived o)) (join_now s)
  (* the end of the destructor of the derived class *)
  | Derived => Some (go BaseStop (die o))
  (* 42-46, 51-55: ~message_queue_t *)
  | BaseStop => Some (set_base (stop_now s) (go BaseJoin o))
  | BaseJoin => option_map (fun s => set_base s (go BaseClear o)) (join_now s)
  (* 45, 224-227: clear; not recorded in the log *)
  | BaseClear =>
      if is_empty (queue s) then Some (go Destroyed o)
      else match take select (queue s) with
           | Some (_, q) => Some (set_base (set_queue q s) o)
           | None => Some (go Broken o)
           end
  end.
Inductive deed := Do (a : action M) | Destroy (safe : bool) | Step.
Definition act (d : deed) (o : object) : option object :=
  match d, at_ o with
  | _, Broken | _, Destroyed => None
  | Do Work, _ => work_on o
  | Do a, Living => option_map (fun s => set_base s o) (step select a (base o))
  | Destroy safe, Living =>
      if forallb is_idle (clients (base o)) then Some (go (if safe then SafeStop else Derived) o) else None
  | Step, _ => destruct o
  | _, _ => None
  end.
Fixpoint acts (ds : list deed) (o : object) : option object :=
  match ds with
  | [] => Some o
  | d :: ds => match act d o with Some o => acts ds o | None => None end
  end.
End Queue.
Arguments object M : clear implicits.
Arguments deed M : clear implicits.
