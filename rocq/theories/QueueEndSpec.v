(** Specification for the destruction of a message queue. *)
Require Import List Arith NArith Bool.
Require Import Verif.MsgQueueModel Verif.MsgQueueSpec Verif.QueueEndModel.
Import ListNotations.

(** Deeds that destroy: at most one in an execution. *)
Definition unsafe {M} (d : deed M) : bool := match d with Destroy false => true | _ => false end.
(** Calls of the hooks of the derived class. *)
Definition is_hook {M} (e : event M) : bool := match e with OnStart | OnMessage _ | OnStop => true | _ => false end.
(** Deeds of the queue's thread and of the destructors. *)
Definition own {M} (d : deed M) : bool := match d with Do Work | Step => true | _ => false end.
Definition is_dropped {M} (e : event M) : bool := match e with Dropped _ => true | _ => false end.
