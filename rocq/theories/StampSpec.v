(** Specification for timestamp.h. *)
Require Import ZArith List Bool.
Require Import Verif.StampModel.
Import ListNotations.
Local Open Scope Z_scope.

(** When the object was constructed or, later, last reset. *)
Definition since (t0 : Z) (cs : list (Z * call)) : Z :=
  fold_left (fun t x => match snd x with Reset => fst x | _ => t end) cs t0.
(** A clock that never goes back: the times of the calls, in order. *)
Inductive steady : Z -> list Z -> Prop :=
  | steady_nil t : steady t []
  | steady_cons t t' l : t <= t' -> steady t' l -> steady t (t' :: l).
(** [n] whole units have passed in [d] nanoseconds. *)
Definition whole (unit d n : Z) : Prop := n * unit <= d < (n + 1) * unit.
(** Laps: the time is read and the object reset at each of the times. *)
Definition laps (unit : Z) (times : list Z) : list (Z * call) :=
  flat_map (fun t => [(t, Difference unit); (t, Reset)]) times.
Definition total (l : list (option Z)) : Z :=
  fold_right (fun o n => match o with Some k => k + n | None => n end) 0 l.
