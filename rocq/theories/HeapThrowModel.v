(** Model of the array heap (structures/heap.h) with elements whose moves and default
    constructions may throw, and with what a move leaves behind.

    [hollow x] is what is left where [x] was moved from.  A script says of each element operation
    in turn whether it throws, and what it then leaves in the source and in the target
    ([None]: what was there); a script that is used up throws no more.  Simplified: [resize] counts as one operation and
    has the strong guarantee, as std::vector gives it if elements can be copied or are moved
    without exceptions; the temporary of [swap] is destroyed without exceptions. *)
Require Import List Arith NArith Bool.
Require Import Verif.Base Verif.HeapModel.
Import ListNotations.

Section Heap.
Context {T : Type}.
Variable d : T.
Variable hollow : T -> T.

Inductive fault : Type := Fine | Fail (source target : option T).
Definition next (sc : list fault) : fault * list fault :=
  match sc with [] => (Fine, []) | f :: r => (f, r) end.
Definition left_in (o : option T) (x : T) : T := match o with Some y => y | None => x end.
(** How a call ends: it returns, an element operation threw, at() threw std::out_of_range. *)
Inductive ending : Type := Done | Threw | Outside.

(** heap.h:47-55: swap; three moves, lines 51, 52 and 53. *)
Definition t_swap (h : list T) (pos : N) (sc : list fault) : list T * ending * list fault :=
  let parent := parent_of pos in
  let put h i x := set_nth h (N.to_nat i) x in
  if (pos =? parent)%N then (h, Done, sc)
  else
    match cell h pos with
    | None => (h, Outside, sc)
    | Some x =>
        match next sc with
        | (Fail src _, sc) => (put h pos (left_in src x), Threw, sc)
        | (Fine, sc) =>
            let temp := x in
            let h := put h pos (hollow x) in
            match cell h parent with
            | None => (h, Outside, sc)
            | Some y =>
                match next sc with
                | (Fail src dst, sc) => (put (put h parent (left_in src y)) pos (left_in dst (hollow x)), Threw, sc)
                | (Fine, sc) =>
                    let h := put (put h parent (hollow y)) pos y in
                    match next sc with
                    | (Fail _ dst, sc) => (put h parent (left_in dst (hollow y)), Threw, sc)
                    | (Fine, sc) => (put h parent temp, Done, sc)
                    end
                end
            end
        end
    end.
(** heap.h:61-67: swap_with_left_child *)
Definition t_swap_left (h : list T) (pos : N) (sc : list fault) : list T * ending * list fault :=
  let left := left_child_of pos in
  if (left <? sizeN h)%N then t_swap h left sc else (h, Done, sc).
(** heap.h:104-110: swap_with_right_child *)
Definition t_swap_right (h : list T) (pos : N) (sc : list fault) : list T * ending * list fault :=
  let right := right_child_of pos in
  if (right <? sizeN h)%N then t_swap h right sc else (h, Done, sc).

(** Assignment of the caller's [x] through at(); what is left of [x] is returned too. *)
Definition t_put (h : list T) (pos : N) (x : T) (sc : list fault) : list T * T * ending * list fault :=
  match cell h pos with
  | None => (h, x, Outside, sc)
  | Some y =>
      match next sc with
      | (Fail src dst, sc) => (set_nth h (N.to_nat pos) (left_in dst y), left_in src x, Threw, sc)
      | (Fine, sc) => (set_nth h (N.to_nat pos) x, hollow x, Done, sc)
      end
  end.
(** heap.h:79-83, 88-92: the array grows if the position lies beyond its end. *)
Definition t_set (h : list T) (child : N) (x : T) (sc : list fault) : list T * T * ending * list fault :=
  if (sizeN h <? child)%N then
    match next sc with
    | (Fail _ _, sc) => (h, x, Threw, sc)
    | (Fine, sc) => t_put (resize d h (right_child_of child)) child x sc
    end
  else t_put h child x sc.
(** heap.h:77-84: set_left *)
Definition t_set_left (h : list T) (pos : N) (x : T) (sc : list fault) := t_set h (left_child_of pos) x sc.
(** heap.h:86-93: set_right *)
Definition t_set_right (h : list T) (pos : N) (x : T) (sc : list fault) := t_set h (right_child_of pos) x sc.
(** heap.h:95-98: set_root *)
Definition t_set_root (h : list T) (x : T) (sc : list fault) := t_put h 0 x sc.

(** Swaps one after the other; exceptions are caught by the caller. *)
Inductive swap_op : Type := Swap (pos : N) | SwapLeft (pos : N) | SwapRight (pos : N).
Definition t_swap_op (h : list T) (o : swap_op) (sc : list fault) : list T * ending * list fault :=
  match o with
  | Swap pos => t_swap h pos sc
  | SwapLeft pos => t_swap_left h pos sc
  | SwapRight pos => t_swap_right h pos sc
  end.
Fixpoint t_swaps (h : list T) (ops : list swap_op) (sc : list fault) : list T * list ending :=
  match ops with
  | [] => (h, [])
  | o :: r =>
      let '(h, a, sc) := t_swap_op h o sc in
      let (h, l) := t_swaps h r sc in (h, a :: l)
  end.
End Heap.
Arguments fault : clear implicits.
