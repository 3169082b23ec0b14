(** Model of structures/segment_tree.h with a transform that throws.

    A script says what happens at the points that can throw, in the order in which they are
    reached: [None] goes well, [Some Clean] throws and leaves everything as it was,
    [Some (Dirty a b c)] throws after the nodes that the operation may write (at most three) got
    the contents [a], [b], [c].  Points are: the calls of propagate, join, apply, criteria and build
    of the transform, the copy of a value into the result, and the growth of the heap.  At the end
    of the script nothing throws any more.  Simplified: default construction of values and updates
    and conversion to bool do not throw.  Moving a node cannot throw (segment_tree.h:84, 86,
    noexcept), so that set_root and the assignment of [update_t{}] cannot either, and resize leaves
    the heap as it was if it throws. *)
Require Import List Arith NArith Bool.
Require Import Verif.Base Verif.HeapModel Verif.SegmentModel.
Import ListNotations.

(** A part of a call returned [a], or an exception passes through. *)
Inductive ended (A : Type) : Type := Returned (a : A) | Thrown.
Arguments Returned {A} a.
Arguments Thrown {A}.
Inductive mishap (C : Type) : Type := Clean | Dirty (a b c : C).
Arguments Clean {C}.
Arguments Dirty {C} a b c.

Section Segment.
Context {T R U : Type}.
Variable tr : transform T R U.
Variable required : N -> N.
Local Notation node := (node R U).
Definition script : Type := list (option (mishap (R * U))).
(** The next point of a script. *)
Definition here (sc : script) : option (mishap (R * U)) := match sc with [] => None | x :: _ => x end.
Definition later (sc : script) : script := match sc with [] => [] | _ :: sc => sc end.
(** The nodes, the result or an exception, and the rest of the script. *)
Definition result (A : Type) : Type := outcome (list node * ended A * script).
(** An exception ends a function. *)
Definition after {A B} (x : result A) (k : list node -> A -> script -> result B) : result B :=
  match x with
  | Val (h, Returned a, sc) => k h a sc
  | Val (h, Thrown, sc) => Val (h, Thrown, sc)
  | Exn e => Exn e
  | UB => UB
  | NoFuel => NoFuel
  end.
(** segment_tree.h:347, 351, 369, 405, 408, 412, 430: an operation that writes no node. *)
Definition point {A} (h : list node) (x : A) (sc : script) : result A :=
  match here sc with
  | Some _ => Val (h, Thrown, later sc)
  | None => Val (h, Returned x, later sc)
  end.

(** segment_tree.h:360-363, 421-424 *)
Definition t_push_down (h : list node) (pos lb rb : N) (sc : script) : result unit :=
  let* n := get h pos in
  let* l := get h lb in
  let* r := get h rb in
  if has_lazy_updates tr n then
    match here sc with
    | Some Clean => Val (h, Thrown, later sc)
    | Some (Dirty a b c) =>
        let* h := put h pos (with_content n a) in
        let* h := put h lb (with_content l b) in
        let* h := put h rb (with_content r c) in
        Val (h, Thrown, later sc)
    | None =>
        let '(cn, cl, cr) := propagate tr (start n) (end_ n) (content n) (content l) (content r) in
        let* h := put h pos (with_content n cn) in
        let* h := put h lb (with_content l cl) in
        let* h := put h rb (with_content r cr) in
        Val (h, Returned tt, later sc)
    end
  else Val (h, Returned tt, sc).
(** A node is given the content [c], or an operation on it throws. *)
Definition t_write (h : list node) (pos : N) (c : R * U) (sc : script) : result unit :=
  let* n := get h pos in
  match here sc with
  | Some Clean => Val (h, Thrown, later sc)
  | Some (Dirty a _ _) => let* h := put h pos (with_content n a) in Val (h, Thrown, later sc)
  | None => let* h := put h pos (with_content n c) in Val (h, Returned tt, later sc)
  end.
(** segment_tree.h:378, 439, 484 *)
Definition t_pull_up (h : list node) (pos lb rb : N) (sc : script) : result unit :=
  let* l := get h lb in
  let* r := get h rb in
  let* n := get h pos in
  t_write h pos (join tr (value l) (value r), lazy_update n) sc.

(** segment_tree.h:336-380: _range_query *)
Fixpoint t_range_query (fuel : nat) (h : list node) (s e pos : N) (v : R) (sc : script) : result R :=
  match fuel with
  | O => NoFuel
  | S fuel =>
      let* n := get h pos in
      if (start n =? s)%N && (e =? end_ n)%N && (leaf n || negb (has_lazy_updates tr n))
      then point h (value n) sc
      else if leaf n then Val (h, Returned v, sc)
      else
        let c := center n in
        let lb := lower_bound n in
        let rb := upper_bound n in
        after (t_push_down h pos lb rb sc) (fun h _ sc =>
        after
          (if (s <=? c)%N && (c <? e)%N then
            after (t_range_query fuel h s (N.min e c) lb (no_value tr) sc) (fun h l sc =>
            after (t_range_query fuel h (wadd c 1) e rb (no_value tr) sc) (fun h r sc =>
            point h (join tr l r) sc))
          else if (s <=? c)%N then t_range_query fuel h s e lb v sc
          else if (c <? e)%N then t_range_query fuel h s e rb v sc
          else Val (h, Returned v, sc)) (fun h v sc =>
        after (t_pull_up h pos lb rb sc) (fun h _ sc => Val (h, Returned v, sc))))
  end.

(** segment_tree.h:402-404, 409-411 *)
Definition t_apply_change (h : list node) (pos : N) (change : U) (sc : script) : result unit :=
  let* n := get h pos in
  if active tr change then t_write h pos (apply tr (start n) (end_ n) (content n) change) sc
  else Val (h, Returned tt, sc).
(** segment_tree.h:390-441: _range_update *)
Fixpoint t_range_update (fuel : nat) (h : list node) (s e pos : N) (change : U) (v : R) (sc : script) : result R :=
  match fuel with
  | O => NoFuel
  | S fuel =>
      let* n := get h pos in
      let full := (start n =? s)%N && (e =? end_ n)%N in
      after
        (if full && negb (leaf n || negb (has_lazy_updates tr n))
         then point h (criteria tr (start n) (end_ n) (content n)) sc
         else Val (h, Returned full, sc)) (fun h here_ sc =>
      if here_ then
        after (t_apply_change h pos change sc) (fun h _ sc =>
        let* n := get h pos in point h (value n) sc)
      else if leaf n then Val (h, Returned v, sc)
      else
        let c := center n in
        let lb := lower_bound n in
        let rb := upper_bound n in
        after (t_push_down h pos lb rb sc) (fun h _ sc =>
        after
          (if (s <=? c)%N && (c <? e)%N then
            after (t_range_update fuel h s c lb change (no_value tr) sc) (fun h l sc =>
            after (t_range_update fuel h (wadd c 1) e rb change (no_value tr) sc) (fun h r sc =>
            point h (join tr l r) sc))
          else if (s <=? c)%N then t_range_update fuel h s e lb change v sc
          else if (c <? e)%N then t_range_update fuel h s e rb change v sc
          else Val (h, Returned v, sc)) (fun h v sc =>
        after (t_pull_up h pos lb rb sc) (fun h _ sc => Val (h, Returned v, sc)))))
  end.

(** segment_tree.h:466-489: the recursive build; all nodes get their ranges before anything throws
    below them. *)
Fixpoint t_build_range (fuel : nat) (h : list node) (input : list T) (pos : N) (sc : script) : result unit :=
  match fuel with
  | O => NoFuel
  | S fuel =>
      let* n := get h pos in
      if (start n <? end_ n)%N then
        let c := center n in
        let lb := lower_bound n in
        let rb := upper_bound n in
        let* h := set_range tr h lb (start n) c in
        let* h := set_range tr h rb (wadd c 1) (end_ n) in
        after (t_build_range fuel h input lb sc) (fun h _ sc =>
        after (t_build_range fuel h input rb sc) (fun h _ sc =>
        t_pull_up h pos lb rb sc))
      else
        match cell input (start n) with
        | None => UB
        | Some x => t_write h pos (build_leaf tr x (start n), lazy_update n) sc
        end
  end.
(** segment_tree.h:447-459: build; the size is set before anything can throw (line 449), is_built
    only at the end (line 457). *)
Definition t_build (fuel : nat) (t : tree R U) (input : list T) (number_of_elements : N) (sc : script)
  : outcome (tree R U * ended unit * script) :=
  let n := if (number_of_elements <? sizeN input)%N then number_of_elements else sizeN input in
  if (n =? 0)%N then Val (mkTree n (heap t) (built_heap t), Returned tt, sc)
  else
    let new_size := required n in
    let fill (h : list node) (sc : script) :=
      let* h := set_root h (mkNode 0 (wsub n 1) 0 (no_value tr, no_update tr)) in
      let* (h, r, sc) := t_build_range fuel h input 0 sc in
      Val (mkTree n h (match r with Returned _ => true | Thrown => built_heap t end), r, sc) in
    if (sizeN (heap t) <? new_size)%N then
      match here sc with
      | Some _ => Val (mkTree n (heap t) (built_heap t), Thrown, later sc)
      | None => fill (resize (blank tr) (heap t) new_size) (later sc)
      end
    else fill (heap t) sc.

(** segment_tree.h:148-203: one call; [Thrown] is an exception of the transform, the exceptions of
    the tree itself are answers as in SegmentModel. *)
Definition t_step (fuel : nat) (t : tree R U) (o : op T U) (sc : script)
  : outcome (tree R U * ended (answer R) * script) :=
  let caught (x : result R) :=
    match x with
    | Val (h, Returned v, sc) => Val (mkTree (size t) h (built_heap t), Returned (AValue v), sc)
    | Val (h, Thrown, sc) => Val (mkTree (size t) h (built_heap t), Thrown, sc)
    | Exn x => Val (t, Returned (AExn x), sc)
    | UB => UB
    | NoFuel => NoFuel
    end in
  match o with
  | ORebuild v k =>
      let* (t, r, sc) := t_build fuel t v k sc in
      Val (t, match r with Returned _ => Returned ADone | Thrown => Thrown end, sc)
  | OQuery s e =>
      caught (if negb (built_heap t) then Exn NotBuilt
              else let* _ := head (heap t) in
                   t_range_query fuel (heap t) (fixed_start t s e) (fixed_end t s e) 0 (no_value tr) sc)
  | OUpdate s e u =>
      caught (if negb (built_heap t) then Exn NotBuilt
              else let* _ := head (heap t) in
                   t_range_update fuel (heap t) (fixed_start t s e) (fixed_end t s e) 0 u (no_value tr) sc)
  end.
(** A history; a caller that catches goes on with the next call. *)
Fixpoint t_run (fuel : nat) (t : tree R U) (ops : list (op T U)) (sc : script)
  : outcome (tree R U * list (ended (answer R))) :=
  match ops with
  | [] => Val (t, [])
  | o :: ops =>
      let* (t, r, sc) := t_step fuel t o sc in
      let* (t, l) := t_run fuel t ops sc in
      Val (t, r :: l)
  end.
End Segment.
