(** Model of concurrency/safe.h: lockable_t<T, mutex_t>, for a T that can be default
    constructed, copied and moved.  [copy v] and [move v] are what the copy and the
    move operations of T give to the target and leave in the source. *)
Require Import List Bool.
Import ListNotations.

Section Lockable.
Context {V : Type}.
(** Operations of T on values: (target, source) afterwards; the default. *)
Variable copy move : V -> V * V.
Variable default : V.

(** safe.h:16-17: the two base classes; [held]: which thread holds the mutex. *)
Record lockable := { value : V; held : option nat }.
(** The argument of a constructor: an object of type T or a lockable_t. *)
Inductive arg := Lvalue | Const | Rvalue | LockableLvalue | LockableRvalue.

(** safe.h:23-26: the default constructor *)
Definition construct_default : lockable := {| value := default; held := None |}.
(** safe.h:31-32: the constructor for any arguments, called with one; T is built
    from std::forward<Args>(args) *)
Definition construct_any (rvalue : bool) (v : V) : lockable * V :=
  let (new, old) := if rvalue then move v else copy v in ({| value := new; held := None |}, old).
(** safe.h:37-40: lockable_t(const T&) *)
Definition construct_const (v : V) : lockable * V :=
  let (new, old) := copy v in ({| value := new; held := None |}, old).
(** safe.h:47-50: lockable_t(T&&); its parameter is an lvalue, so T is copied *)
Definition construct_rvalue (v : V) : lockable * V :=
  let (new, old) := copy v in ({| value := new; held := None |}, old).
(** Overload resolution: the general template is the best match for a non-const
    lvalue and for every lockable_t that is not const (its own copy constructor is
    deleted, as mutexes cannot be copied); for a const T and for an rvalue T the
    constructors for them are more specialised.  The new object and what is left of
    the argument. *)
Definition construct (a : arg) (v : V) : lockable * V :=
  match a with
  | Lvalue | LockableLvalue => construct_any false v
  | LockableRvalue => construct_any true v
  | Const => construct_const v
  | Rvalue => construct_rvalue v
  end.
(** safe.h:57-64: operator=(T&&) *)
Definition assign_rvalue (x : lockable) (v : V) : lockable * V :=
  let (new, old) := move v in ({| value := new; held := held x |}, old).
(** safe.h:69-76: operator=(const T&) *)
Definition assign_const (x : lockable) (v : V) : lockable * V :=
  let (new, old) := copy v in ({| value := new; held := held x |}, old).
Definition assign (rvalue : bool) (x : lockable) (v : V) : lockable * V :=
  if rvalue then assign_rvalue x v else assign_const x v.
End Lockable.
Arguments lockable V : clear implicits.

(** std::vector and the like: a copy leaves the source as it is, a move empties it. *)
Definition vector_copy {A} (l : list A) : list A * list A := (l, l).
Definition vector_move {A} (l : list A) : list A * list A := (l, []).
