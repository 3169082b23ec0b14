(** Specification of traversals with a callback that may throw. *)
Require Import List Arith.
Import ListNotations.

(** The calls [order] after the calls [past], up to the first that throws; true: one throws. *)
Fixpoint up_to_throw {A} (cb : list A -> A -> option bool) (past order : list A) : list A * bool :=
  match order with
  | [] => (past, false)
  | x :: order => match cb past x with None => (past ++ [x], true) | Some _ => up_to_throw cb (past ++ [x]) order end
  end.
(** The traversal that makes the calls [order] and returns [n], cut at the first call that throws. *)
Definition cut {A} (cb : list A -> A -> option bool) (order : list A) (n : nat) : list A * option nat :=
  let (calls, thrown) := up_to_throw cb [] order in (calls, if thrown then None else Some n).
(** [f] answers as [cb] does where that does not throw. *)
Definition same_answers {A} (cb : list A -> A -> option bool) (f : list A -> A -> bool) : Prop :=
  forall past x b, cb past x = Some b -> f past x = b.
(** The callback throws at the nodes that meet [p] and never answers true. *)
Definition throw_at {A} (p : A -> bool) (past : list A) (x : A) : option bool := if p x then None else Some false.
(** [l] up to and including the first element that meets [p]. *)
Fixpoint up_to {A} (p : A -> bool) (l : list A) : list A :=
  match l with
  | [] => []
  | x :: l => if p x then [x] else x :: up_to p l
  end.
(** The calls of a traversal that such a callback ends, and what it returns. *)
Definition stops {A} (p : A -> bool) (order : list A) (n : nat) : list A * option nat := (up_to p order, if existsb p order then None else Some n).
