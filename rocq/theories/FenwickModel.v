(** Model of structures/fenwick_tree.h (class fenwick_tree_t). *)
Require Import List Arith NArith ZArith Bool.
Require Import Verif.Base.
Import ListNotations.
Local Open Scope N_scope.

(** fenwick_tree.h:205-208: [index & (-index)] on size_t. *)
Definition lsb (index : N) : N := N.land index (wneg index).

(** fenwick_tree.h:215-218 *)
Definition next_query (index : N) : N := wsub index (lsb index).

(** fenwick_tree.h:225-228 (wraps at 2^64) *)
Definition next_update (index : N) : N := wadd index (lsb index).

(** The template parameters [T] and [transform_t] (fenwick_tree.h:31) as an
    operation record:
    - [f_op]: transform_t::operator();
    - [f_discard]: transform_t::reverse_t::operator(); [None] is undefined
      behaviour of the operator (integer division by zero);
    - [f_null]: transform_t::null_value();
    - [f_zero]: [static_cast<T>(0)] / [A{}] of lines 302 and 318;
    - [f_truthy]: contextual conversion of T to bool. *)
Record transform (T : Type) : Type := {
  f_op      : T -> T -> T;
  f_discard : T -> T -> option T;
  f_null    : T;
  f_zero    : T;
  f_truthy  : T -> bool
}.
Arguments f_op {T} _ _ _.
Arguments f_discard {T} _ _ _.
Arguments f_null {T} _.
Arguments f_zero {T} _.
Arguments f_truthy {T} _ _.

(** fenwick_tree.h:323-324: [_processed], [_built_heap]. *)
Record fenwick (T : Type) : Type := mkF {
  processed : list T;
  built     : bool
}.
Arguments mkF {T} _ _.
Arguments processed {T} _.
Arguments built {T} _.

Section Code.
Context {T : Type} (tr : transform T).

(** fenwick_tree.h:38: default constructor. *)
Definition fenwick_default : fenwick T := mkF [] false.

(** fenwick_tree.h:126-129 *)
Definition fsize (t : fenwick T) : N := sizeN (processed t).

(** fenwick_tree.h:264-271: [_update]; tail recursion with a hop budget.
    The guard [position && position < size()] makes the access in bounds, the
    [cell] lookup re-checks it and would answer [UB]. *)
Fixpoint update_cells (fuel : nat) (cells : list T) (position : N) (value : T)
  : outcome (list T) :=
  if negb (position =? 0) && (position <? sizeN cells) then
    match fuel with
    | O => NoFuel
    | S fuel =>
        match cell cells position with
        | None => UB
        | Some c =>
            update_cells fuel
              (set_nth cells (N.to_nat position) (f_op tr c value))
              (next_update position) value
        end
    end
  else Val cells.

(** Hop budget used by the model: number of bits of size_t. *)
Definition hops : nat := 64.

(** fenwick_tree.h:280-288, the while loop of the one-argument [_range_query];
    [index] has just been used, [value] is the accumulated result. *)
Fixpoint query_loop (fuel : nat) (cells : list T) (index : N) (value : T)
  : outcome T :=
  let index := next_query index in
  if index =? 0 then Val value else
  match fuel with
  | O => NoFuel
  | S fuel =>
      match cell cells index with
      | None => UB
      | Some c => query_loop fuel cells index (f_op tr c value)
      end
  end.

(** fenwick_tree.h:280-288: one-argument [_range_query]; the first access
    [_processed[index]] is unchecked. *)
Definition prefix_query (cells : list T) (position : N) : outcome T :=
  match cell cells position with
  | None => UB
  | Some c => query_loop hops cells position c
  end.

(** fenwick_tree.h:298-305 and 314-321: two-argument [_range_query]; the class
    and the scalar version differ only in the default value [f_zero]. *)
Definition range_query (cells : list T) (start stop : N) : outcome T :=
  let* discarded :=
    (if start <=? 1 then Val (f_zero tr) else prefix_query cells (start - 1)) in
  let* value := prefix_query cells stop in
  if f_truthy tr discarded then
    match f_discard tr value discarded with
    | Some r => Val r
    | None => UB
    end
  else Val value.

(** fenwick_tree.h:166-172: [query]; [size() - 1] wraps when size() is 0. *)
Definition query (t : fenwick T) (start stop : N) : outcome T :=
  if negb (built t) then Exn NotBuilt else
  let fixed_start := N.min (N.min start stop) (wsub (fsize t) 1) in
  let fixed_end   := N.min (N.max start stop) (wsub (fsize t) 1) in
  range_query (processed t) fixed_start fixed_end.

(** fenwick_tree.h:89-99: [update].  The value is passed by copy here; see
    [update_alias] for a reference into the tree itself. *)
Definition update (t : fenwick T) (position : N) (value : T)
  : outcome (fenwick T * bool) :=
  if negb (built t) then Exn NotBuilt else
  let ok := position <? fsize t in
  if ok && f_truthy tr value then
    let* c := update_cells hops (processed t) position value in
    Val (mkF c (built t), ok)
  else Val (t, ok).

(** fenwick_tree.h:183-196: [set_value]. *)
Definition set_value (t : fenwick T) (position : N) (value : T)
  : outcome (fenwick T * bool) :=
  if negb (built t) then Exn NotBuilt else
  let ok := (position <? fsize t) && negb (position =? 0) in
  if ok then
    let* v := range_query (processed t) position position in
    match f_discard tr value v with
    | None => UB
    | Some diff =>
        if f_truthy tr diff then
          let* c := update_cells hops (processed t) position diff in
          Val (mkF c (built t), ok)
        else Val (t, ok)
    end
  else Val (t, ok).

(** fenwick_tree.h:107-121: [operator[]] and [at]. *)
Definition at_ (t : fenwick T) (position : N) : outcome T :=
  match cell (processed t) position with
  | None => Exn OutOfRange
  | Some c => Val c
  end.

(** fenwick_tree.h:136-141: [resize] only shrinks. *)
Definition resize (t : fenwick T) (size : N) : fenwick T :=
  if size <? fsize t then mkF (firstn (N.to_nat size) (processed t)) (built t)
  else t.

(** fenwick_tree.h:251-253: the building loop; [ii] runs over 1..size-1, the
    list argument is the part of [input] not yet consumed. *)
Fixpoint build_loop (fuel : nat) (cells : list T) (ii : N) (inp : list T)
  : outcome (list T) :=
  match inp with
  | [] => Val cells
  | v :: inp' =>
      let* c := update_cells fuel cells ii v in
      build_loop fuel c (ii + 1) inp'
  end.

(** [_processed.resize(size)] with [size] not above the current length, then
    [fill_n(begin, size, null)] (lines 247-248).  *)
Definition refill (cells : list T) (size : N) : list T :=
  repeat (f_null tr) (N.to_nat size).

(** fenwick_tree.h:236-256: [_build] (constructor 44-48 and rebuild 76-80 call
    it).  [size] cannot wrap because a vector has fewer than 2^64 elements. *)
Definition build (t : fenwick T) (input : list T) (number_of_elements : N)
  : outcome (fenwick T) :=
  let size := if number_of_elements <? sizeN input
              then number_of_elements + 1 else sizeN input + 1 in
  let cells :=
    if fsize t <? size then repeat (f_null tr) (N.to_nat size)
    else if built t then refill (processed t) size
    else processed t in
  let* c := build_loop hops cells 1 (firstn (N.to_nat (size - 1)) input) in
  Val (mkF c true).

(** fenwick_tree.h:44-48: building constructor. *)
Definition fenwick_of (input : list T) (number_of_elements : N)
  : outcome (fenwick T) :=
  build fenwick_default input number_of_elements.

(** fenwick_tree.h:54-68: move construction / assignment from a different
    object: (target, source) afterwards.  A moved-from std::vector is empty. *)
Definition move_assign (this other : fenwick T) : fenwick T * fenwick T :=
  (mkF (processed other) (built other), mkF [] false).

(** fenwick_tree.h:89-99 and 264-271 when the caller passes a reference to cell
    [src] of the same tree (e.g. [t.update(p, t.at(src))]): [value] is re-read
    from the array at every hop. *)
Fixpoint update_cells_alias (fuel : nat) (cells : list T) (position src : N)
  : outcome (list T) :=
  if negb (position =? 0) && (position <? sizeN cells) then
    match fuel with
    | O => NoFuel
    | S fuel =>
        match cell cells position, cell cells src with
        | Some c, Some v =>
            update_cells_alias fuel
              (set_nth cells (N.to_nat position) (f_op tr c v))
              (next_update position) src
        | _, _ => UB
        end
    end
  else Val cells.

Definition update_alias (t : fenwick T) (position src : N)
  : outcome (fenwick T * bool) :=
  let* v := at_ t src in
  if negb (built t) then Exn NotBuilt else
  let ok := position <? fsize t in
  if ok && f_truthy tr v then
    let* c := update_cells_alias hops (processed t) position src in
    Val (mkF c (built t), ok)
  else Val (t, ok).

(** The public interface as a labelled machine.  [OMoveOut] moves the tree into
    a temporary that is dropped, leaving the moved-from object. *)
Inductive fop : Type :=
| ORebuild (input : list T) (n : N)
| OUpdate (p : N) (v : T)
| OSet (p : N) (v : T)
| OQuery (s e : N)
| OAt (p : N)
| OResize (n : N)
| OSize
| OIsBuilt
| OMoveOut.

Inductive fout : Type :=
| RUnit
| RBool (b : bool)
| RVal (v : T)
| RSize (n : N)
| RExn (e : exc).

(** One call.  An exception leaves the state unchanged. *)
Definition fstep (t : fenwick T) (o : fop) : outcome (fenwick T * fout) :=
  match o with
  | ORebuild input n => let* t' := build t input n in Val (t', RUnit)
  | OUpdate p v =>
      match update t p v with
      | Val (t', b) => Val (t', RBool b)
      | Exn e => Val (t, RExn e) | UB => UB | NoFuel => NoFuel
      end
  | OSet p v =>
      match set_value t p v with
      | Val (t', b) => Val (t', RBool b)
      | Exn e => Val (t, RExn e) | UB => UB | NoFuel => NoFuel
      end
  | OQuery s e =>
      match query t s e with
      | Val v => Val (t, RVal v)
      | Exn x => Val (t, RExn x) | UB => UB | NoFuel => NoFuel
      end
  | OAt p =>
      match at_ t p with
      | Val v => Val (t, RVal v)
      | Exn x => Val (t, RExn x) | UB => UB | NoFuel => NoFuel
      end
  | OResize n => Val (resize t n, RUnit)
  | OSize => Val (t, RSize (fsize t))
  | OIsBuilt => Val (t, RBool (built t))
  | OMoveOut => Val (snd (move_assign fenwick_default t), RUnit)
  end.

(** A whole history: final state and all results. *)
Fixpoint frun (t : fenwick T) (ops : list fop) : outcome (fenwick T * list fout) :=
  match ops with
  | [] => Val (t, [])
  | o :: ops =>
      let* (t', r) := fstep t o in
      let* (t'', rs) := frun t' ops in
      Val (t'', r :: rs)
  end.

End Code.
Arguments fop : clear implicits.
Arguments fout : clear implicits.

(** tools/math_operation.h: sum_t<int type> with unbounded integers; reverse_t
    is subtraction, null_value 0. *)
Definition sumZ : transform Z := {|
  f_op := Z.add; f_discard := fun a b => Some (Z.sub a b);
  f_null := 0%Z; f_zero := 0%Z; f_truthy := fun v => negb (Z.eqb v 0) |}.

(** The same for an unsigned type of [w] bits (wrap-around arithmetic). *)
Definition sumW (w : Z) : transform Z := {|
  f_op := fun a b => ((a + b) mod 2 ^ w)%Z;
  f_discard := fun a b => Some ((a - b) mod 2 ^ w)%Z;
  f_null := 0%Z; f_zero := 0%Z; f_truthy := fun v => negb (Z.eqb v 0) |}.

(** multiplication_t<int>: reverse_t is (truncating) division, null_value 1. *)
Definition mulZ : transform Z := {|
  f_op := Z.mul;
  f_discard := fun a b => if Z.eqb b 0 then None else Some (Z.quot a b);
  f_null := 1%Z; f_zero := 0%Z; f_truthy := fun v => negb (Z.eqb v 0) |}.
