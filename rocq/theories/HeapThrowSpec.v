(** Specification of the array heap with moves that throw. *)
Require Import List Arith NArith Bool Permutation.
Require Import Verif.Base Verif.HeapModel Verif.HeapThrowModel.
Import ListNotations.

Section Spec.
Context {T : Type}.
(** Operations that throw leave source and target as they were. *)
Definition clean (f : fault T) : Prop := match f with Fine | Fail None None => True | _ => False end.
(** [h'] is [h] but for the positions that meet [p]. *)
Definition same_but (p : N -> Prop) (h h' : list T) : Prop :=
  length h' = length h /\ forall k, ~ p k -> cell h' k = cell h k.
(** [h'] is [h], or [h] with more elements [d] behind it. *)
Definition grown (d : T) (h h' : list T) : Prop := exists n, h' = h ++ repeat d n.
Definition threw (a : ending) : bool := match a with Threw => true | _ => false end.
(** The elements of [h] are those of [h'], but for the [lost] ones, in whose place are the [got] ones. *)
Definition exchanged_for (lost got h h' : list T) : Prop := Permutation (got ++ h) (lost ++ h').
(** What the swaps do when nothing throws (HeapModel). *)
Definition as_before (h : list T) (o : swap_op) : outcome (list T) :=
  match o with
  | Swap pos => swap h pos
  | SwapLeft pos => swap_with_left_child h pos
  | SwapRight pos => swap_with_right_child h pos
  end.
(** How a call that stores [x] at [child] ends, with the array [h'] and [x'] left of the caller's value;
    [quiet]: what it does when nothing throws. *)
Definition ends_well (d : T) (hollow : T -> T) (h : list T) (x : T) (sc : list (fault T)) (child : N)
    (quiet : outcome (list T)) (h' : list T) (x' : T) (a : ending) : Prop :=
  (a = Done -> quiet = Val h' /\ x' = hollow x) /\
  (a = Outside -> quiet = Exn OutOfRange /\ h' = h /\ x' = x) /\
  (a = Threw -> exists g, grown d h g /\ same_but (fun k => k = child) g h' /\ (Forall clean sc -> h' = g /\ x' = x)).
End Spec.
