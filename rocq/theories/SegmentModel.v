(** Model of the segment tree (structures/segment_tree.h).

    A node of the heap array is addressed by its position; a reference to a node
    is its position (the array is not resized while references are in use).
    Reading a cell that does not exist is UB ([operator[]] is unchecked).

    [transform] is the user's transform_t: [join], [apply] and [propagate] are
    functions of the values they are given (no hidden state, [join] does not read
    the old parent value) and do not touch start, end and index of the nodes.
    [required] is minimum_required_size_for_head, a floating-point computation.
    Left out: the virtual dispatch of the transform and of the two recursions,
    [_changes_not_applied] (never used), right_interval, left_interval,
    new_upper_bound, new_lower_bound (segment_tree.h:294-302, 311-326, never
    used), the limit on the size of a vector. *)
Require Import List Arith NArith Bool.
Require Import Verif.Base Verif.HeapModel.
Import ListNotations.

(** segment_tree.h:504-553: what a transform_t provides, with the conversion of
    update_t to bool (segment_tree.h:42-43, 113-119) and the default values of
    update_t and range_value_t.  A content is the value and the pending update of
    a node. *)
Record transform (T R U : Type) : Type := mkTransform {
  join : R -> R -> R;                                  (* 516-519 *)
  criteria : N -> N -> R * U -> bool;                  (* 529-532; start, end, content *)
  propagate : N -> N -> R * U -> R * U -> R * U -> (R * U) * (R * U) * (R * U);  (* 538-539 *)
  apply : N -> N -> R * U -> U -> R * U;               (* 545-546 *)
  build_leaf : T -> N -> R;                            (* 551-552 *)
  active : U -> bool;
  no_update : U;
  no_value : R
}.
Arguments join {T R U} _. Arguments criteria {T R U} _. Arguments propagate {T R U} _.
Arguments apply {T R U} _. Arguments build_leaf {T R U} _. Arguments active {T R U} _.
Arguments no_update {T R U} _. Arguments no_value {T R U} _.

Section Segment.
Context {T R U : Type}.
Variable tr : transform T R U.
Variable required : N -> N.

(** segment_tree.h:73-90: range_node_t *)
Record node : Type := mkNode { start : N; end_ : N; index : N; content : R * U }.
Definition value (n : node) : R := fst (content n).
Definition lazy_update (n : node) : U := snd (content n).
Definition with_content (n : node) (c : R * U) : node := mkNode (start n) (end_ n) (index n) c.
Definition with_value (n : node) (r : R) : node := with_content n (r, lazy_update n).
(** segment_tree.h:92-95: center *)
Definition center (n : node) : N := (wadd (start n) (end_ n) / 2)%N.
(** segment_tree.h:100-111: length, leaf *)
Definition leaf (n : node) : bool := (wsub (end_ n) (start n) =? 0)%N.
(** segment_tree.h:116-119: has_lazy_updates *)
Definition has_lazy_updates (n : node) : bool := active tr (lazy_update n).
(** What [resize] puts into new cells: start and end not_found, index
    indeterminate (written 0), segment_tree.h:74-80. *)
Definition blank : node := mkNode (two64 - 1) (two64 - 1) 0 (no_value tr, no_update tr).

Definition get (h : list node) (pos : N) : outcome node :=
  match cell h pos with Some n => Val n | None => UB end.
Definition put (h : list node) (pos : N) (n : node) : outcome (list node) :=
  let* _ := get h pos in Val (set_nth h (N.to_nat pos) n).
(** segment_tree.h:265-281, 239-255: lower_bound and upper_bound *)
Definition lower_bound (n : node) : N := left_child_of (index n).
Definition upper_bound (n : node) : N := right_child_of (index n).

(** segment_tree.h:360-363, 421-424: pending updates go to the children. *)
Definition push_down (h : list node) (pos lb rb : N) : outcome (list node) :=
  let* n := get h pos in
  let* l := get h lb in
  let* r := get h rb in
  if has_lazy_updates n then
    let '(cn, cl, cr) := propagate tr (start n) (end_ n) (content n) (content l) (content r) in
    let* h := put h pos (with_content n cn) in
    let* h := put h lb (with_content l cl) in
    put h rb (with_content r cr)
  else Val h.
(** segment_tree.h:378, 439: the node's value is joined from its children. *)
Definition pull_up (h : list node) (pos lb rb : N) : outcome (list node) :=
  let* l := get h lb in
  let* r := get h rb in
  let* n := get h pos in
  put h pos (with_value n (join tr (value l) (value r))).

(** segment_tree.h:336-380: _range_query; [v] is the out parameter, returned. *)
Fixpoint range_query (fuel : nat) (h : list node) (s e pos : N) (v : R) : outcome (list node * R) :=
  match fuel with
  | O => NoFuel
  | S fuel =>
      let* n := get h pos in
      if (start n =? s)%N && (e =? end_ n)%N && (leaf n || negb (has_lazy_updates n))
      then Val (h, value n)
      else if leaf n then Val (h, v)
      else
        let c := center n in
        let lb := lower_bound n in
        let rb := upper_bound n in
        let* h := push_down h pos lb rb in
        let* (h, v) :=
          if (s <=? c)%N && (c <? e)%N then
            let* (h, l) := range_query fuel h s (N.min e c) lb (no_value tr) in
            let* (h, r) := range_query fuel h (wadd c 1) e rb (no_value tr) in
            Val (h, join tr l r)
          else if (s <=? c)%N then range_query fuel h s e lb v
          else if (c <? e)%N then range_query fuel h s e rb v
          else Val (h, v) in
        let* h := pull_up h pos lb rb in
        Val (h, v)
  end.

(** segment_tree.h:402-404, 409-411: the change is applied if it is one. *)
Definition apply_change (h : list node) (pos : N) (change : U) : outcome (list node) :=
  let* n := get h pos in
  if active tr change then put h pos (with_content n (apply tr (start n) (end_ n) (content n) change))
  else Val h.

(** segment_tree.h:390-441: _range_update *)
Fixpoint range_update (fuel : nat) (h : list node) (s e pos : N) (change : U) (v : R)
  : outcome (list node * R) :=
  match fuel with
  | O => NoFuel
  | S fuel =>
      let* n := get h pos in
      if (start n =? s)%N && (e =? end_ n)%N &&
         (leaf n || (negb (has_lazy_updates n) || criteria tr (start n) (end_ n) (content n)))
      then
        let* h := apply_change h pos change in
        let* n := get h pos in
        Val (h, value n)
      else if leaf n then Val (h, v)
      else
        let c := center n in
        let lb := lower_bound n in
        let rb := upper_bound n in
        let* h := push_down h pos lb rb in
        let* (h, v) :=
          if (s <=? c)%N && (c <? e)%N then
            let* (h, l) := range_update fuel h s c lb change (no_value tr) in
            let* (h, r) := range_update fuel h (wadd c 1) e rb change (no_value tr) in
            Val (h, join tr l r)
          else if (s <=? c)%N then range_update fuel h s e lb change v
          else if (c <? e)%N then range_update fuel h s e rb change v
          else Val (h, v) in
        let* h := pull_up h pos lb rb in
        Val (h, v)
  end.

(** segment_tree.h:474-481: a child gets its range and index, and no pending update. *)
Definition set_range (h : list node) (pos s e : N) : outcome (list node) :=
  let* n := get h pos in put h pos (mkNode s e pos (value n, no_update tr)).

(** segment_tree.h:466-489: the recursive build *)
Fixpoint build_range (fuel : nat) (h : list node) (input : list T) (pos : N) : outcome (list node) :=
  match fuel with
  | O => NoFuel
  | S fuel =>
      let* n := get h pos in
      if (start n <? end_ n)%N then
        let c := center n in
        let lb := lower_bound n in
        let rb := upper_bound n in
        let* h := set_range h lb (start n) c in
        let* h := set_range h rb (wadd c 1) (end_ n) in
        let* h := build_range fuel h input lb in
        let* h := build_range fuel h input rb in
        pull_up h pos lb rb
      else
        match cell input (start n) with
        | None => UB
        | Some x => put h pos (with_value n (build_leaf tr x (start n)))
        end
  end.

(** segment_tree.h:491-494: the members *)
Record tree : Type := mkTree { size : N; heap : list node; built_heap : bool }.
(** segment_tree.h:133 *)
Definition empty_tree : tree := mkTree 0 [] false.

(** segment_tree.h:447-459: build (also 140-143 and 148-152) *)
Definition build (fuel : nat) (t : tree) (input : list T) (number_of_elements : N) : outcome tree :=
  let n := if (number_of_elements <? sizeN input)%N then number_of_elements else sizeN input in
  if (n =? 0)%N then Val (mkTree n (heap t) (built_heap t))
  else
    let new_size := required n in
    let h := if (sizeN (heap t) <? new_size)%N then resize blank (heap t) new_size else heap t in
    let* h := set_root h (mkNode 0 (wsub n 1) 0 (no_value tr, no_update tr)) in
    let* h := build_range fuel h input 0 in
    Val (mkTree n h true).

(** segment_tree.h:182-183, 198-199: the range is sorted and clamped. *)
Definition fixed_start (t : tree) (s e : N) : N := N.min (N.min s e) (wsub (size t) 1).
Definition fixed_end (t : tree) (s e : N) : N := N.min (N.max s e) (wsub (size t) 1).

(** segment_tree.h:178-187: query *)
Definition query (fuel : nat) (t : tree) (s e : N) : outcome (tree * R) :=
  if negb (built_heap t) then Exn NotBuilt
  else
    let* _ := head (heap t) in
    let* (h, v) := range_query fuel (heap t) (fixed_start t s e) (fixed_end t s e) 0 (no_value tr) in
    Val (mkTree (size t) h (built_heap t), v).
(** segment_tree.h:195-203: query_update *)
Definition query_update (fuel : nat) (t : tree) (s e : N) (change : U) : outcome (tree * R) :=
  if negb (built_heap t) then Exn NotBuilt
  else
    let* _ := head (heap t) in
    let* (h, v) := range_update fuel (heap t) (fixed_start t s e) (fixed_end t s e) 0 change (no_value tr) in
    Val (mkTree (size t) h (built_heap t), v).
(** segment_tree.h:226-229: head() *)
Definition tree_head (t : tree) : outcome node := head (heap t).
(** segment_tree.h:213-216: head() const *)
Definition tree_head_const (t : tree) : outcome node := head_const (heap t).

(** Calls on a tree, one after the other. *)
Inductive op : Type :=
| OQuery (s e : N)
| OUpdate (s e : N) (change : U)
| ORebuild (input : list T) (number_of_elements : N).
Inductive answer : Type := AValue (r : R) | AExn (e : exc) | ADone.
Definition step (fuel : nat) (t : tree) (o : op) : outcome (tree * answer) :=
  let caught r :=
    match r with
    | Val (t, v) => Val (t, AValue v)
    | Exn x => Val (t, AExn x)
    | UB => UB
    | NoFuel => NoFuel
    end in
  match o with
  | OQuery s e => caught (query fuel t s e)
  | OUpdate s e u => caught (query_update fuel t s e u)
  | ORebuild v k => let* t := build fuel t v k in Val (t, ADone)
  end.
Fixpoint run (fuel : nat) (t : tree) (ops : list op) : outcome (tree * list answer) :=
  match ops with
  | [] => Val (t, [])
  | o :: r =>
      let* (t, a) := step fuel t o in
      let* (t, l) := run fuel t r in
      Val (t, a :: l)
  end.
End Segment.
Arguments node : clear implicits. Arguments tree : clear implicits.
Arguments op : clear implicits. Arguments answer : clear implicits.

(** segment_tree.h:555-569: range_operation_t, with T = size_t (the only type for
    which join overrides); no updates (empty_update_t, 28-44). *)
Definition range_operation (operation : N -> N -> N) : transform N N unit :=
  mkTransform N N unit operation (fun _ _ _ => true) (fun _ _ n l r => (n, l, r)) (fun _ _ n _ => n)
    (fun x _ => x) (fun _ => false) tt 0%N.
(** segment_tree.h:571-581 with math_operation.h:22-48, 69-95, 120-130, 138-148 *)
Definition range_sum : transform N N unit := range_operation wadd.
Definition range_multiplication : transform N N unit := range_operation wmul.
Definition range_min : transform N N unit := range_operation N.min.
Definition range_max : transform N N unit := range_operation N.max.
