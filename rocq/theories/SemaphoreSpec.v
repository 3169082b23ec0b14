(** Specification for semaphore.h: a counter used by one thread after the other,
    and what may be seen of a log.  Logs have the newest event first.  Of the model
    only the names of calls and effects are used. *)
Require Import List Arith NArith ZArith Bool.
Require Import Verif.SemaphoreModel.
Import ListNotations.
Local Open Scope N_scope.

(** The sequential semaphore: taken and available resources. *)
Definition seq_effect (e : effect) (st : N * N) : option (N * N) :=
  let (c, a) := st in
  match e with
  | Acquired => if c <? a then Some (c + 1, a) else None
  | Threw => if a =? 0 then Some (c, a) else None
  | Tried true => if c <? a then Some (c + 1, a) else None
  | Tried false => if c <? a then None else Some (c, a)
  | Released true => if 0 <? c then Some (c - 1, a) else None
  | Released false => if c =? 0 then Some (c, a) else None
  | Resized n => Some (c, n)
  | Counted v => if v =? c then Some (c, a) else None
  | MaxWas v => if v =? a then Some (c, a) else None
  end.
(** The sequential semaphore after the effects of a log, None if it would not have
    behaved like that. *)
Fixpoint replay (a0 : N) (log : list event) : option (N * N) :=
  match log with
  | [] => Some (0, a0)
  | Effect _ e :: log => match replay a0 log with Some st => seq_effect e st | None => None end
  | _ :: log => replay a0 log
  end.
(** Resources taken: acquisitions less releases that had an effect; and available
    ones: the last number set. *)
Fixpoint taken (log : list event) : Z :=
  match log with
  | [] => 0
  | Effect _ Acquired :: log | Effect _ (Tried true) :: log => taken log + 1
  | Effect _ (Released true) :: log => taken log - 1
  | _ :: log => taken log
  end%Z.
Fixpoint resources (a0 : N) (log : list event) : N :=
  match log with
  | [] => a0
  | Effect _ (Resized n) :: _ => n
  | _ :: log => resources a0 log
  end.
(** Which effect a call may have. *)
Definition may (o : op) (e : effect) : bool :=
  match o, e with
  | Lock, (Acquired | Threw) | TryLock, Tried _ | Unlock, Released _ | Count, Counted _ | MaxCount, MaxWas _ => true
  | SetAvailable n, Resized m => m =? n mod 2 ^ 64
  | _, _ => false
  end.
Definition effect_eq_dec (x y : effect) : {x = y} + {x <> y}.
Proof. decide equality; first [apply N.eq_dec|apply Bool.bool_dec]. Defined.
(** What thread [i] is doing: outside, in a call, in a call that took effect; None
    if the log is not a possible one: every call takes effect once between its start
    and its return, and returns what the effect was. *)
Inductive phase := Outside | In (o : op) | Decided (e : effect).
Fixpoint doing (i : nat) (log : list event) : option phase :=
  match log with
  | [] => Some Outside
  | Call j o :: log =>
      if (j =? i)%nat then match doing i log with Some Outside => Some (In o) | _ => None end else doing i log
  | Effect j e :: log =>
      if (j =? i)%nat then
        match doing i log with Some (In o) => if may o e then Some (Decided e) else None | _ => None end
      else doing i log
  | Return j e :: log =>
      if (j =? i)%nat then
        match doing i log with
        | Some (Decided e') => if effect_eq_dec e e' then Some Outside else None
        | _ => None
        end
      else doing i log
  end.
(** Resources thread [i] holds: calls that returned with one, less the calls of
    unlock. *)
Definition holds1 (i : nat) (ev : event) : Z :=
  match ev with
  | Return j Acquired | Return j (Tried true) => if (j =? i)%nat then 1 else 0
  | Call j Unlock => if (j =? i)%nat then -1 else 0
  | _ => 0
  end%Z.
Fixpoint holds (i : nat) (log : list event) : Z :=
  match log with [] => 0 | ev :: log => holds i log + holds1 i ev end%Z.
(** Every thread has at any time only released what it held. *)
Fixpoint disciplined (log : list event) : Prop :=
  match log with [] => True | _ :: rest => disciplined rest /\ forall i, (0 <= holds i log)%Z end.
(** No call of set_available_resources. *)
Definition fixed (log : list event) : Prop := forall i n, ~ List.In (Call i (SetAvailable n)) log.
(** The threads (of [n]) that hold a resource. *)
Definition holders (n : nat) (log : list event) : list nat := filter (fun i => (0 <? holds i log)%Z) (seq 0 n).
(** What [n] threads hold together. *)
Fixpoint sumZ (l : list Z) : Z := match l with [] => 0 | x :: l => x + sumZ l end%Z.
Definition total (n : nat) (l : list event) : Z := sumZ (map (fun i => holds i l) (seq 0 n)).
(** A step that calls set_available_resources. *)
Definition sets (a : action) : bool := match a with Begin _ (SetAvailable _) => true | _ => false end.
(** Two lists of accesses that must not happen at the same time. *)
Definition conflict (a b : list (loc * bool)) : Prop :=
  exists l w w', List.In (l, w) a /\ List.In (l, w') b /\ (w || w' = true)%bool.
