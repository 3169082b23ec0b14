(** Model of tools/timestamp.h.  Time points of the clock are numbers of
    nanoseconds; what now() returns is given from outside, so that any clock is
    covered, one that is set back included. *)
Require Import ZArith List Bool.
Import ListNotations.
Local Open Scope Z_scope.

(** Conversion of a 64-bit integer to double: exact up to 2^53, then to the nearest
    multiple of the unit in the last place, ties to even. *)
Definition to_double (z : Z) : Z :=
  if Z.abs z <=? 2 ^ 53 then z
  else
    let u := 2 ^ (Z.log2 (Z.abs z) - 52) in
    let q := Z.abs z / u in
    let r := Z.abs z mod u in
    let q := if 2 * r <? u then q else if u <? 2 * r then q + 1 else if Z.even q then q else q + 1 in
    Z.sgn z * (q * u).

(** timestamp.h:14, 50: the object. *)
Record stamp := { start : Z }.
(** timestamp.h:16: the constructor *)
Definition construct (now : Z) : stamp := {| start := now |}.
(** timestamp.h:21-24: reset *)
Definition reset (now : Z) (s : stamp) : stamp := {| start := now |}.
(** timestamp.h:42-46: difference, for a duration type of [unit] nanoseconds with an
    integer count; duration_cast divides the integers, towards zero *)
Definition difference (unit now : Z) (s : stamp) : Z := Z.quot (now - start s) unit.
(** timestamp.h:31-35: elapsed, the count as a double *)
Definition elapsed (unit now : Z) (s : stamp) : Z := to_double (difference unit now s).

(** A program: calls, each with the time its now() returns; the answers. *)
Inductive call := Reset | Elapsed (unit : Z) | Difference (unit : Z).
Definition step (c : call) (now : Z) (s : stamp) : stamp * option Z :=
  match c with
  | Reset => (reset now s, None)
  | Elapsed u => (s, Some (elapsed u now s))
  | Difference u => (s, Some (difference u now s))
  end.
Fixpoint run (cs : list (Z * call)) (s : stamp) : list (option Z) :=
  match cs with
  | [] => []
  | (now, c) :: cs => let (s, r) := step c now s in r :: run cs s
  end.
(** An object constructed at the time [t0] and used by a program. *)
Definition program (t0 : Z) (cs : list (Z * call)) : list (option Z) := run cs (construct t0).
