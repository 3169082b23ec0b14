(** Model of structures/fenwick_tree.h with transform sum_t for a signed integer type of [b]
    bits (int or wider) whose overflow is undefined behaviour, and for double. *)
Require Import List Arith NArith ZArith Bool.
Require Import Floats.SpecFloat.
Require Import Verif.Base Verif.Cint Verif.FenwickModel Verif.DoubleModel.
Import ListNotations.
Local Open Scope N_scope.

Section Signed.
Context (b : Z).

(** math_operation.h:22-26: sum_t *)
Definition add (x y : Z) : outcome Z := chk b (x + y).
(** math_operation.h:56-60: subtraction_t, the reverse of sum_t *)
Definition sub (x y : Z) : outcome Z := chk b (x - y).
(** fenwick_tree.h:94, 304: a number converted to bool *)
Definition truthy (x : Z) : bool := negb (Z.eqb x 0).

(** fenwick_tree.h:264-271: [_update] *)
Fixpoint s_update_cells (fuel : nat) (cells : list Z) (position : N) (value : Z) : outcome (list Z) :=
  if negb (position =? 0) && (position <? sizeN cells) then
    match fuel with
    | O => NoFuel
    | S fuel =>
        match cell cells position with
        | None => UB
        | Some c =>
            let* r := add c value in
            s_update_cells fuel (set_nth cells (N.to_nat position) r) (next_update position) value
        end
    end
  else Val cells.

(** fenwick_tree.h:280-288: the loop of the one-argument [_range_query] *)
Fixpoint s_query_loop (fuel : nat) (cells : list Z) (index : N) (value : Z) : outcome Z :=
  let index := next_query index in
  if index =? 0 then Val value else
  match fuel with
  | O => NoFuel
  | S fuel =>
      match cell cells index with
      | None => UB
      | Some c => let* value := add c value in s_query_loop fuel cells index value
      end
  end.

(** fenwick_tree.h:280-288 *)
Definition s_prefix_query (cells : list Z) (position : N) : outcome Z :=
  match cell cells position with
  | None => UB
  | Some c => s_query_loop hops cells position c
  end.

(** fenwick_tree.h:314-321: two-argument [_range_query] for scalars *)
Definition s_range_query (cells : list Z) (start stop : N) : outcome Z :=
  let* discarded := (if start <=? 1 then Val 0%Z else s_prefix_query cells (start - 1)) in
  let* value := s_prefix_query cells stop in
  if truthy discarded then sub value discarded else Val value.

(** fenwick_tree.h:166-172: [query] *)
Definition s_query (t : fenwick Z) (start stop : N) : outcome Z :=
  if negb (built t) then Exn NotBuilt else
  let fixed_start := N.min (N.min start stop) (wsub (fsize t) 1) in
  let fixed_end   := N.min (N.max start stop) (wsub (fsize t) 1) in
  s_range_query (processed t) fixed_start fixed_end.

(** fenwick_tree.h:89-99: [update] *)
Definition s_update (t : fenwick Z) (position : N) (value : Z) : outcome (fenwick Z * bool) :=
  if negb (built t) then Exn NotBuilt else
  let ok := position <? fsize t in
  if ok && truthy value then
    let* c := s_update_cells hops (processed t) position value in
    Val (mkF c (built t), ok)
  else Val (t, ok).

(** fenwick_tree.h:183-196: [set_value] *)
Definition s_set_value (t : fenwick Z) (position : N) (value : Z) : outcome (fenwick Z * bool) :=
  if negb (built t) then Exn NotBuilt else
  let ok := (position <? fsize t) && negb (position =? 0) in
  if ok then
    let* v := s_range_query (processed t) position position in
    let* diff := sub value v in
    if truthy diff then
      let* c := s_update_cells hops (processed t) position diff in
      Val (mkF c (built t), ok)
    else Val (t, ok)
  else Val (t, ok).

(** fenwick_tree.h:251-253: the building loop *)
Fixpoint s_build_loop (fuel : nat) (cells : list Z) (ii : N) (inp : list Z) : outcome (list Z) :=
  match inp with
  | [] => Val cells
  | v :: inp' =>
      let* c := s_update_cells fuel cells ii v in
      s_build_loop fuel c (ii + 1) inp'
  end.

(** fenwick_tree.h:236-256: [_build] *)
Definition s_build (t : fenwick Z) (input : list Z) (number_of_elements : N) : outcome (fenwick Z) :=
  let size := if number_of_elements <? sizeN input then number_of_elements + 1 else sizeN input + 1 in
  let cells :=
    if fsize t <? size then repeat 0%Z (N.to_nat size)
    else if built t then repeat 0%Z (N.to_nat size)
    else processed t in
  let* c := s_build_loop hops cells 1 (firstn (N.to_nat (size - 1)) input) in
  Val (mkF c true).

(** One call of the interface; the calls without arithmetic (fenwick_tree.h:107-141, 54-68) are
    those of FenwickModel. *)
Definition s_step (t : fenwick Z) (o : fop Z) : outcome (fenwick Z * fout Z) :=
  match o with
  | ORebuild input n => let* t' := s_build t input n in Val (t', RUnit)
  | OUpdate p v =>
      match s_update t p v with
      | Val (t', r) => Val (t', RBool r)
      | Exn e => Val (t, RExn e) | UB => UB | NoFuel => NoFuel
      end
  | OSet p v =>
      match s_set_value t p v with
      | Val (t', r) => Val (t', RBool r)
      | Exn e => Val (t, RExn e) | UB => UB | NoFuel => NoFuel
      end
  | OQuery s e =>
      match s_query t s e with
      | Val v => Val (t, RVal v)
      | Exn x => Val (t, RExn x) | UB => UB | NoFuel => NoFuel
      end
  | OAt p =>
      match at_ t p with
      | Val v => Val (t, RVal v)
      | Exn x => Val (t, RExn x) | UB => UB | NoFuel => NoFuel
      end
  | OResize n => Val (resize t n, RUnit)
  | OSize => Val (t, RSize (fsize t))
  | OIsBuilt => Val (t, RBool (built t))
  | OMoveOut => Val (snd (move_assign fenwick_default t), RUnit)
  end.

(** A whole history. *)
Fixpoint s_run (t : fenwick Z) (ops : list (fop Z)) : outcome (fenwick Z * list (fout Z)) :=
  match ops with
  | [] => Val (t, [])
  | o :: ops =>
      let* (t', r) := s_step t o in
      let* (t'', rs) := s_run t' ops in
      Val (t'', r :: rs)
  end.
End Signed.

(** math_operation.h:22-48, 56-60: sum_t<double>; a double converted to bool is false if it is
    zero. *)
Definition sumD : transform double := {|
  f_op := dadd; f_discard := fun x y => Some (dsub x y);
  f_null := of_int 0; f_zero := of_int 0;
  f_truthy := fun d => match d with S754_zero _ => false | _ => true end |}.
