(** Specification for command.h; of the model only the calls are used. *)
Require Import List Arith NArith Bool.
Require Import Verif.CommandModel.
Import ListNotations.

(** What an undo/redo history does: the commands done and undone, most recent
    first. *)
Record history := { done : list N; undone : list N }.
Definition h_store (p : N) (h : history) : history := {| done := p :: done h; undone := [] |}.
Definition h_undo (h : history) : option (history * N) :=
  match done h with [] => None | p :: r => Some ({| done := r; undone := p :: undone h |}, p) end.
Definition h_redo (h : history) : option (history * N) :=
  match undone h with [] => None | p :: r => Some ({| done := p :: done h; undone := r |}, p) end.
(** A list in two parts: the first ones, and the last ones, at most [n]. *)
Definition keeps_last {A} (n : N) (l dropped kept : list A) : Prop :=
  l = dropped ++ kept /\ (N.of_nat (length kept) <= n)%N /\ (dropped <> [] -> N.of_nat (length kept) = n).
(** The commands stored by a program. *)
Fixpoint stored (cs : list call) : list ptr :=
  match cs with [] => [] | Store p :: cs => p :: stored cs | _ :: cs => stored cs end.
(** The pointers that are not null. *)
Definition objects (l : list ptr) : list ptr := filter (fun p => negb (p =? 0)%N) l.
(** An undo with a command stored before it. *)
Definition late_undo (cs : list call) : Prop := exists a b, cs = a ++ Undo :: b /\ stored a <> [].
