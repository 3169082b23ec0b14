(** Specification for thread.h: what the owner may know from the log. *)
Require Import List ZArith Bool.
Require Import Verif.ThreadModel.
Import ListNotations.
Local Open Scope Z_scope.

(** The life of the thread: never started, running, ended with a code. *)
Inductive life := Fresh | Running | Ended (code : Z).
Fixpoint life_of (l : list event) : life :=
  match l with
  | [] => Fresh
  | Started :: _ => Running
  | Finished c :: _ => Ended c
  | _ :: l => life_of l
  end.
(** Started and not joined since. *)
Fixpoint unjoined (l : list event) : bool :=
  match l with
  | [] => false
  | Started :: _ => true
  | Joined :: _ | Destroyed :: _ => false
  | _ :: l => unjoined l
  end.
Definition code_of (x : life) : Z := match x with Fresh => -101 | Running => -100 | Ended c => c end.
Definition is_alive (x : life) : bool := match x with Running => true | _ => false end.
(** A data race: two steps that are both possible use _exit_code, one writing. *)
Definition conflict (a b : list bool) : Prop := exists x y, In x a /\ In y b /\ orb x y = true.
