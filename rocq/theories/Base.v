(** Shared vocabulary of all models: results of C++ calls, 64-bit arithmetic,
    array cells.  Nothing here models a particular function of /repo. *)
Require Import List Arith NArith ZArith Lia Bool.
Import ListNotations.

(** Exceptions thrown by the library (and by std:: members it calls). *)
Inductive exc : Type :=
| NotBuilt            (* fenwick_not_built_exception_t, fenwick_tree.h:10-17;
                         segment tree "not built", segment_tree.h *)
| OutOfRange          (* std::out_of_range of vector::at and of tree.h *)
| NullNode            (* null_node_exception_t, tree.h *)
| InvalidSequence     (* invalid_sequence_t, missing_element.h:12-15 *)
| OutOfResources      (* semaphore_t::out_of_resources_exception *)
| InvalidArgument.    (* std::invalid_argument / std::out_of_range of stoi/stod *)

(** Result of a call: a value, an exception, undefined behaviour, or "the
    model's recursion budget was not enough" (theorems exclude the last). *)
Inductive outcome (A : Type) : Type :=
| Val (a : A)
| Exn (e : exc)
| UB
| NoFuel.
Arguments Val {A} _.
Arguments Exn {A} _.
Arguments UB {A}.
Arguments NoFuel {A}.

Definition bind {A B} (x : outcome A) (f : A -> outcome B) : outcome B :=
  match x with
  | Val a => f a
  | Exn e => Exn e
  | UB => UB
  | NoFuel => NoFuel
  end.

Declare Scope outcome_scope.
Delimit Scope outcome_scope with outcome.
Notation "'let*' x ':=' a 'in' b" := (bind a (fun x => b))
  (at level 200, x pattern, a at level 100, b at level 200, right associativity)
  : outcome_scope.
Open Scope outcome_scope.

(** 64-bit unsigned arithmetic ([size_t]). *)
Definition two64 : N := (2 ^ 64)%N.
Definition wadd (a b : N) : N := ((a + b) mod two64)%N.
Definition wsub (a b : N) : N := ((a + two64 - b) mod two64)%N.
Definition wneg (a : N) : N := ((two64 - a) mod two64)%N.
Definition wmul (a b : N) : N := ((a * b) mod two64)%N.

(** [v[i]] on a std::vector without bounds check: [None] is out of bounds. *)
Definition cell {A} (l : list A) (i : N) : option A := nth_error l (N.to_nat i).

(** Overwrite position [i] (no effect out of bounds; callers check first). *)
Fixpoint set_nth {A} (l : list A) (i : nat) (x : A) : list A :=
  match l, i with
  | [], _ => []
  | _ :: t, O => x :: t
  | h :: t, S j => h :: set_nth t j x
  end.

Definition sizeN {A} (l : list A) : N := N.of_nat (length l).

Lemma set_nth_length {A} (l : list A) i x : length (set_nth l i x) = length l.
Proof. revert i; induction l; intros [|i]; simpl; auto. Qed.

Lemma nth_error_set_nth {A} (l : list A) i j x :
  nth_error (set_nth l i x) j =
  if Nat.eqb i j then (if Nat.ltb i (length l) then Some x else None)
  else nth_error l j.
Proof.
  revert i j; induction l as [|h t IH]; intros i j.
  - simpl. destruct (Nat.eqb_spec i j); subst; destruct j; simpl; auto.
  - destruct i, j; simpl; auto.
    rewrite IH. destruct (Nat.eqb i j); auto.
Qed.

Lemma nth_error_set_nth_eq {A} (l : list A) i x :
  i < length l -> nth_error (set_nth l i x) i = Some x.
Proof.
  intros H. rewrite nth_error_set_nth, Nat.eqb_refl.
  apply Nat.ltb_lt in H. now rewrite H.
Qed.

Lemma nth_error_set_nth_neq {A} (l : list A) i j x :
  i <> j -> nth_error (set_nth l i x) j = nth_error l j.
Proof.
  intros H. rewrite nth_error_set_nth. apply Nat.eqb_neq in H. now rewrite H.
Qed.

Lemma list_eq_nth_error {A} (l1 l2 : list A) :
  (forall i, nth_error l1 i = nth_error l2 i) -> l1 = l2.
Proof.
  revert l2; induction l1 as [|a l1 IH]; intros [|b l2] H; auto.
  - specialize (H 0). discriminate.
  - specialize (H 0). discriminate.
  - f_equal.
    + specialize (H 0). now injection H.
    + apply IH. intros i. exact (H (S i)).
Qed.
