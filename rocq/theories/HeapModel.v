(** Model of the array heap (structures/heap.h).  The vector base class is the
    list of its elements; [d] is what [resize] puts into new cells ([T{}]).
    Left out: the members only re-exported from std::vector (heap.h:69-75), the limit on the size of a
    vector, what a move leaves in a moved-from [T] (each is overwritten). *)
Require Import List Arith NArith Bool.
Require Import Verif.Base.
Import ListNotations.

(** heap.h:23-26: left_child_of *)
Definition left_child_of (pos : N) : N :=
  if (pos =? 0)%N then 1%N else wadd (wmul pos 2) 1.
(** heap.h:28-31: right_child_of *)
Definition right_child_of (pos : N) : N :=
  if (pos =? 0)%N then 2%N else wadd (wmul pos 2) 2.
(** heap.h:33-36: parent_of *)
Definition parent_of (pos : N) : N :=
  if (pos =? 0)%N then pos else (wsub pos 1 / 2)%N.
(** heap.h:38-41: height_of; [lg pos] is std::log2(pos) + 1 in double, cut to
    size_t.  log2(0) is minus infinity, whose conversion is undefined. *)
Definition height_of (lg : N -> N) (pos : N) : outcome N :=
  if (pos =? 0)%N then UB else Val (lg pos).

Section Heap.
Context {T : Type}.
Variable d : T.

(** std::vector::at *)
Definition at_ (h : list T) (pos : N) : outcome T :=
  match cell h pos with Some x => Val x | None => Exn OutOfRange end.
(** Assignment through the reference that [at] returns. *)
Definition at_put (h : list T) (pos : N) (x : T) : outcome (list T) :=
  let* _ := at_ h pos in Val (set_nth h (N.to_nat pos) x).
(** std::vector::resize *)
Definition resize (h : list T) (n : N) : list T :=
  firstn (N.to_nat n) h ++ repeat d (N.to_nat n - length h).

(** heap.h:47-55: swap *)
Definition swap (h : list T) (pos : N) : outcome (list T) :=
  let parent := parent_of pos in
  if (pos =? parent)%N then Val h
  else
    let* temp := at_ h pos in
    let* x := at_ h parent in
    let* h := at_put h pos x in
    at_put h parent temp.
(** heap.h:61-67: swap_with_left_child *)
Definition swap_with_left_child (h : list T) (pos : N) : outcome (list T) :=
  let left := left_child_of pos in
  if (left <? sizeN h)%N then swap h left else Val h.
(** heap.h:104-110: swap_with_right_child *)
Definition swap_with_right_child (h : list T) (pos : N) : outcome (list T) :=
  let right := right_child_of pos in
  if (right <? sizeN h)%N then swap h right else Val h.
(** heap.h:77-84: set_left *)
Definition set_left (h : list T) (pos : N) (x : T) : outcome (list T) :=
  let left := left_child_of pos in
  let h := if (sizeN h <? left)%N then resize h (right_child_of left) else h in
  at_put h left x.
(** heap.h:86-93: set_right *)
Definition set_right (h : list T) (pos : N) (x : T) : outcome (list T) :=
  let right := right_child_of pos in
  let h := if (sizeN h <? right)%N then resize h (right_child_of right) else h in
  at_put h right x.
(** heap.h:95-98: set_root *)
Definition set_root (h : list T) (x : T) : outcome (list T) := at_put h 0 x.
(** heap.h:115-118: head() *)
Definition head (h : list T) : outcome T := at_ h 0.
(** heap.h:124-127: head() const, which is front() *)
Definition head_const (h : list T) : outcome T :=
  match h with x :: _ => Val x | [] => UB end.
(** heap.h:132-135, 140-143: tail(), which is back() *)
Definition tail (h : list T) : outcome T :=
  match h with [] => UB | x :: r => Val (List.last r x) end.

End Heap.
