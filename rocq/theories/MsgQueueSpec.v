(** Specification for message_queue.h: what may be seen of a log.  Logs have the
    newest event first, the lists of messages below are in the order of time.  Of the
    model only the names of calls and events are used. *)
Require Import List Arith NArith Bool Permutation.
Require Import Verif.MsgQueueModel.
Import ListNotations.

Section Logs.
Context {M : Type}.
Implicit Types (m : M) (l : list (event M)).

(** Messages put in the queue. *)
Fixpoint received l : list M :=
  match l with [] => [] | Pushed m :: l => received l ++ [m] | _ :: l => received l end.
(** Messages that left it, and whether to be processed. *)
Fixpoint gone l : list (M * bool) :=
  match l with
  | [] => [] | Took m :: l => gone l ++ [(m, true)] | Dropped m :: l => gone l ++ [(m, false)] | _ :: l => gone l
  end.
Definition to_process l : list M := map fst (filter snd (gone l)).
(** Messages given to on_new_message. *)
Fixpoint processed l : list M :=
  match l with [] => [] | OnMessage m :: l => processed l ++ [m] | _ :: l => processed l end.

(** The life of the worker as its hooks see it. *)
Inductive phase := Off | Up | Has m | Down.
Definition hook (e : event M) : bool :=
  match e with OnStart | OnMessage _ | OnStop | Ended | Took _ | Dropped _ => true | _ => false end.
Inductive life : list (event M) -> phase -> Prop :=
  | life_new : life [] Off
  | life_start l : life l Off -> life (OnStart :: l) Up
  | life_take m l : life l Up -> life (Took m :: l) (Has m)
  | life_message m l : life l (Has m) -> life (OnMessage m :: l) Up
  | life_drop m l : life l Up -> life (Dropped m :: l) Up
  | life_stop l : life l Up -> life (OnStop :: l) Down
  | life_end l : life l Down -> life (Ended :: l) Off
  | life_other e l p : hook e = false -> life l p -> life (e :: l) p.

(** How often something happened. *)
Definition count (f : event M -> bool) l : nat := length (filter f l).
Definition is_took (e : event M) : bool := match e with Took _ => true | _ => false end.
Definition is_clear (e : event M) : bool := match e with ClearBegin => true | _ => false end.
Definition is_start (e : event M) : bool := match e with OnStart => true | _ => false end.
Definition is_stop (e : event M) : bool := match e with OnStop => true | _ => false end.
(** The worker neither starts nor takes a message. *)
Definition quiet (e : event M) : bool :=
  match e with OnStart | OnMessage _ | Took _ | Dropped _ => false | _ => true end.
Definition is_discarding (e : event M) : bool := match e with Discarding => true | _ => false end.

(** Started and not ended. *)
Fixpoint on l : bool := match l with [] => false | Begun :: _ => true | Ended :: _ => false | _ :: l => on l end.
Definition is_begun (e : event M) : bool := match e with Begun => true | _ => false end.
(** A pass over the queue is over: it was found empty, was cleared, or the pass was
    given up because of a discard_messages(). *)
Definition is_pass (e : event M) : bool := match e with SawEmpty | Cleared | SawDiscard => true | _ => false end.

(** A policy for the next message: it chooses one, and a greatest one. *)
Definition chooses (select : list M -> nat) : Prop := forall q, q <> [] -> select q < length q.
Definition greatest (less : M -> M -> bool) (select : list M -> nat) : Prop :=
  forall q m, nth_error q (select q) = Some m -> forall x, In x q -> less m x = false.
End Logs.

(** A data race: the next steps of two threads use a member that is not atomic, at
    least one of them writing. *)
Definition conflict (a b : list (loc * bool)) : Prop :=
  exists l x y, In (l, x) a /\ In (l, y) b /\ orb x y = true.
