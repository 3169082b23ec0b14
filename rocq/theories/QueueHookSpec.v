(** Specification for the hooks of a message queue. *)
Require Import List Arith NArith Bool Permutation.
Require Import Verif.MsgQueueModel Verif.MsgQueueSpec Verif.QueueHookModel.
Import ListNotations.

(** All of [l] are in [l'], those that occur several times as often at least. *)
Definition among {A} (l l' : list A) : Prop := exists rest, Permutation l' (l ++ rest).

Section Logs.
Context {M : Type}.
Implicit Types (m : M) (l : list (event M)).

(** Messages the hooks of the queue sent to it, in the order of time: its thread is
    number 0. *)
Fixpoint own_messages l : list M :=
  match l with [] => [] | Call 0 (Receive m) :: l => own_messages l ++ [m] | _ :: l => own_messages l end.
(** What happened before the last call of on_stop. *)
Fixpoint before_stop l : list (event M) := match l with [] => [] | OnStop :: l => l | _ :: l => before_stop l end.

(** A hook that neither throws nor starts anything. *)
Inductive harmless : prog M -> Prop :=
  | harmless_leave : harmless Leave
  | harmless_use o k : (forall l, harmless (k l)) -> harmless (Use o k)
  | harmless_join k : harmless k -> harmless (JoinSelf k).
(** And the messages it sends weigh at most [w] together. *)
Variable weight : M -> nat.
Inductive modest : prog M -> nat -> Prop :=
  | modest_leave w : modest Leave w
  | modest_send m k w : (forall l, modest (k l) w) -> modest (Use (Receive m) k) (weight m + w)
  | modest_use o k w : (forall m, o <> Receive m) -> (forall l, modest (k l) w) -> modest (Use o k) w
  | modest_join k w : modest k w -> modest (JoinSelf k) w.
(** Every message weighs more than those that its processing makes the queue send to
    itself; other hooks may send what they want. *)
Definition dwindling (hooks : list (event M) -> prog M) : Prop :=
  forall l, match l with
            | OnMessage m :: _ => exists w, S w <= weight m /\ modest (hooks l) w
            | _ => exists w, modest (hooks l) w
            end.
End Logs.

(** Hooks that put every message back that they get, maybe changed. *)
Definition resend {M} (f : M -> M) (l : list (event M)) : prog M :=
  match l with OnMessage m :: _ => Use (Receive (f m)) (fun _ => Leave) | _ => Leave end.
