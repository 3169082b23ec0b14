(** Specification for the hooks of a timer. *)
Require Import List Arith ZArith Bool.
Require Import Verif.TimerModel Verif.TimerSpec Verif.TimerHookModel.
Import ListNotations.

(** A hook that neither throws nor starts anything. *)
Inductive harmless : prog -> Prop :=
  | harmless_leave c : harmless (Leave c)
  | harmless_use u k : (forall l, harmless (k l)) -> harmless (Use u k)
  | harmless_join k : harmless k -> harmless (JoinSelf k).
(** And does not call stop(). *)
Inductive mild : prog -> Prop :=
  | mild_leave c : mild (Leave c)
  | mild_use u k : u <> UStop -> (forall l, mild (k l)) -> mild (Use u k)
  | mild_join k : mild k -> mild (JoinSelf k).
(** Hooks that neither throw nor start anything, with an on_stop that does not call
    stop(). *)
Definition decent (hooks : list event -> prog) : Prop :=
  forall l, match l with OnStop :: _ | OnStopBy _ :: _ => mild (hooks l) | _ => harmless (hooks l) end.
(** An on_stop that calls stop(). *)
Definition stops_in_on_stop (hooks : list event -> prog) : Prop :=
  forall l, match l with OnStop :: _ | OnStopBy _ :: _ => exists k, hooks l = Use UStop k | _ => True end.

(** The thread of the timer goes on alone, without the passing of time. *)
Definition by_itself (depth : nat) (hooks : list event -> prog) (s t : hstate) : Prop :=
  exists n, hrun depth hooks (repeat HWork n) s = Some t.
