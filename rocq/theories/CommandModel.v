(** Model of structures/command.h.  A pointer is a number, 0 is nullptr; a deque is
    the list of its elements from front to back. *)
Require Import List Arith NArith Bool.
Require Import Verif.Base.
Import ListNotations.

Notation ptr := N (only parsing).
(** command.h:79-81: the members; [deleted] is what was deleted so far, in order. *)
Record state := { first : list ptr; second : list ptr; deleted : list ptr }.
Definition start : state := {| first := []; second := []; deleted := [] |}.
Definition max_elements : N := 1024.

Section Command.
(** store (command.h:40-47) ends without a return statement, which is undefined
    when it is called; a compiler may make it return something arbitrary instead
    ([lenient]). *)
Variable lenient : bool.

(** delete: of nullptr nothing, of a deleted object undefined *)
Definition del (d : list ptr) (p : ptr) : outcome (list ptr) :=
  if (p =? 0)%N then Val d else if existsb (N.eqb p) d then UB else Val (d ++ [p]).
(** command.h:67-77: one loop of clip *)
Fixpoint clip_deque (l : list ptr) (d : list ptr) : outcome (list ptr * list ptr) :=
  match l with
  | [] => Val (l, d)
  | p :: r => if (max_elements <? sizeN l)%N then let* d := del d p in clip_deque r d else Val (l, d)
  end.
(** command.h:67-77: clip *)
Definition clip (s : state) : outcome state :=
  let* (f, d) := clip_deque (first s) (deleted s) in
  let* (g, d) := clip_deque (second s) d in
  Val {| first := f; second := g; deleted := d |}.
(** back() and pop_back(): undefined on an empty deque *)
Definition pop (l : list ptr) : outcome (list ptr * ptr) :=
  match l with [] => UB | _ => Val (removelast l, last l 0%N) end.
(** command.h:56-65: dispose of a deque, from the back *)
Fixpoint dispose_back (back_to_front : list ptr) (items : N) (d : list ptr) : outcome (list ptr * N) :=
  match back_to_front with
  | [] => Val (d, items)
  | p :: r => let* d := del d p in dispose_back r (items + 1) d
  end.
(** command.h:49-52: dispose *)
Definition dispose (s : state) : outcome (state * N) :=
  let* (d, items) := dispose_back (rev (second s)) 0 (deleted s) in
  Val ({| first := first s; second := []; deleted := d |}, items).
(** command.h:18-27: undo *)
Definition undo (s : state) : outcome (state * ptr) :=
  if (0 <? sizeN (first s))%N then
    let* (l, p) := pop (second s) in
    let* s := clip {| first := first s; second := l ++ [p]; deleted := deleted s |} in
    Val (s, p)
  else Val (s, 0%N).
(** command.h:29-38: redo *)
Definition redo (s : state) : outcome (state * ptr) :=
  if (0 <? sizeN (second s))%N then
    let* (l, p) := pop (first s) in
    let* s := clip {| first := l ++ [p]; second := second s; deleted := deleted s |} in
    Val (s, p)
  else Val (s, 0%N).
(** command.h:40-47: store *)
Definition store (new_command : ptr) (s : state) : outcome state :=
  let* s := if (0 <? sizeN (second s))%N then let* (s, _) := dispose s in Val s else Val s in
  let* s := clip {| first := first s ++ [new_command]; second := second s; deleted := deleted s |} in
  if lenient then Val s else UB.
(** command.h:13-16: the destructor; what has been deleted at the end *)
Definition destroy (s : state) : outcome (list ptr) :=
  let* (d, _) := dispose_back (rev (first s)) 0 (deleted s) in
  let* (d, _) := dispose_back (rev (second s)) 0 d in
  Val d.

(** A program that uses one manager; the answers are the pointers (or counts)
    returned. *)
Inductive call := Store (p : ptr) | Undo | Redo | Dispose.
Definition step (c : call) (s : state) : outcome (state * N) :=
  match c with
  | Store p => let* s := store p s in Val (s, 0%N)
  | Undo => undo s
  | Redo => redo s
  | Dispose => dispose s
  end.
Fixpoint run (cs : list call) (s : state) : outcome (state * list N) :=
  match cs with
  | [] => Val (s, [])
  | c :: cs => let* (s, r) := step c s in let* (s, rs) := run cs s in Val (s, r :: rs)
  end.
End Command.
