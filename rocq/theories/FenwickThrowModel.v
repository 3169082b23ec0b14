(** Model of structures/fenwick_tree.h with operations of the element type that throw.

    A script says what happens at the points that can throw, in the order in which they are
    reached: [None] goes well, [Some k] throws.  Points are: a call of the transform together with
    the assignment of its result, a call of the reverse transform, the copy of a cell, and
    [assign] or [fill_n] of the whole vector; there [k] cells have been overwritten before the
    exception (none if the vector is reallocated).  At the end of the script nothing throws any
    more.  Simplified: conversion to bool and default construction do not throw, an assignment
    that throws leaves the old value. *)
Require Import List Arith NArith ZArith Bool.
Require Import Verif.Base Verif.FenwickModel.
Import ListNotations.
Local Open Scope N_scope.

Definition script := list (option nat).
(** The next point of a script. *)
Definition here (sc : script) : option nat := match sc with [] => None | x :: _ => x end.
Definition later (sc : script) : script := match sc with [] => [] | _ :: sc => sc end.

(** A part of a call returned [a], or an exception passes through. *)
Inductive flow (A : Type) : Type := Returns (a : A) | Throws.
Arguments Returns {A} a.
Arguments Throws {A}.

Section Code.
Context {T : Type} (tr : transform T).

(** fenwick_tree.h:264-271: [_update].  The cells, whether an exception passes, the rest of the
    script. *)
Fixpoint t_update_cells (fuel : nat) (cells : list T) (position : N) (value : T) (sc : script)
  : outcome (list T * flow unit * script) :=
  if negb (position =? 0) && (position <? sizeN cells) then
    match fuel with
    | O => NoFuel
    | S fuel =>
        match cell cells position with
        | None => UB
        | Some c =>
            match here sc with
            | Some _ => Val (cells, Throws, later sc)
            | None =>
                t_update_cells fuel (set_nth cells (N.to_nat position) (f_op tr c value))
                  (next_update position) value (later sc)
            end
        end
    end
  else Val (cells, Returns tt, sc).

(** fenwick_tree.h:280-288: the loop of the one-argument [_range_query]. *)
Fixpoint t_query_loop (fuel : nat) (cells : list T) (index : N) (value : T) (sc : script)
  : outcome (flow T * script) :=
  let index := next_query index in
  if index =? 0 then Val (Returns value, sc) else
  match fuel with
  | O => NoFuel
  | S fuel =>
      match cell cells index with
      | None => UB
      | Some c =>
          match here sc with
          | Some _ => Val (Throws, later sc)
          | None => t_query_loop fuel cells index (f_op tr c value) (later sc)
          end
      end
  end.

(** fenwick_tree.h:280-288: one-argument [_range_query]; line 283 copies a cell. *)
Definition t_prefix_query (cells : list T) (position : N) (sc : script) : outcome (flow T * script) :=
  match cell cells position with
  | None => UB
  | Some c =>
      match here sc with
      | Some _ => Val (Throws, later sc)
      | None => t_query_loop hops cells position c (later sc)
      end
  end.

(** fenwick_tree.h:298-305, 314-321: two-argument [_range_query]. *)
Definition t_range_query (cells : list T) (start stop : N) (sc : script) : outcome (flow T * script) :=
  let* (discarded, sc) :=
    (if start <=? 1 then Val (Returns (f_zero tr), sc) else t_prefix_query cells (start - 1) sc) in
  match discarded with
  | Throws => Val (Throws, sc)
  | Returns discarded =>
      let* (value, sc) := t_prefix_query cells stop sc in
      match value with
      | Throws => Val (Throws, sc)
      | Returns value =>
          if f_truthy tr discarded then
            match here sc with
            | Some _ => Val (Throws, later sc)
            | None =>
                match f_discard tr value discarded with
                | Some r => Val (Returns r, later sc)
                | None => UB
                end
            end
          else Val (Returns value, sc)
      end
  end.

(** fenwick_tree.h:166-172: [query] of a built tree. *)
Definition t_query (t : fenwick T) (start stop : N) (sc : script) : outcome (flow T * script) :=
  t_range_query (processed t)
    (N.min (N.min start stop) (wsub (fsize t) 1)) (N.min (N.max start stop) (wsub (fsize t) 1)) sc.

(** fenwick_tree.h:251-253: the building loop. *)
Fixpoint t_build_loop (fuel : nat) (cells : list T) (ii : N) (inp : list T) (sc : script)
  : outcome (list T * flow unit * script) :=
  match inp with
  | [] => Val (cells, Returns tt, sc)
  | v :: inp' =>
      let* (c, f, sc) := t_update_cells fuel cells ii v sc in
      match f with
      | Throws => Val (c, Throws, sc)
      | Returns _ => t_build_loop fuel c (ii + 1) inp' sc
      end
  end.

(** The first [k] of the cells overwritten. *)
Definition overwritten (k : nat) (cells : list T) : list T :=
  repeat (f_null tr) (Nat.min k (length cells)) ++ skipn k cells.

(** fenwick_tree.h:236-256: [_build]; [_built_heap] is only set at the end (line 255).  A vector
    that is neither too short nor of a built tree is used as it is (lines 242-249). *)
Definition t_build (t : fenwick T) (input : list T) (number_of_elements : N) (sc : script)
  : outcome (fenwick T * flow unit * script) :=
  let size := if number_of_elements <? sizeN input
              then number_of_elements + 1 else sizeN input + 1 in
  let start (cells : list T) (sc : script) :=
    let* (c, f, sc) := t_build_loop hops cells 1 (firstn (N.to_nat (size - 1)) input) sc in
    match f with
    | Throws => Val (mkF c (built t), Throws, sc)
    | Returns _ => Val (mkF c true, Returns tt, sc)
    end in
  if fsize t <? size then
    match here sc with
    | Some k => Val (mkF (overwritten k (processed t)) (built t), Throws, later sc)
    | None => start (repeat (f_null tr) (N.to_nat size)) (later sc)
    end
  else if built t then
    match here sc with
    | Some k => Val (mkF (overwritten k (firstn (N.to_nat size) (processed t))) (built t), Throws, later sc)
    | None => start (repeat (f_null tr) (N.to_nat size)) (later sc)
    end
  else start (processed t) sc.

(** fenwick_tree.h:89-99: [update] of a built tree. *)
Definition t_update (t : fenwick T) (position : N) (value : T) (sc : script)
  : outcome (fenwick T * flow bool * script) :=
  let ok := position <? fsize t in
  if ok && f_truthy tr value then
    let* (c, f, sc) := t_update_cells hops (processed t) position value sc in
    match f with
    | Throws => Val (mkF c (built t), Throws, sc)
    | Returns _ => Val (mkF c (built t), Returns ok, sc)
    end
  else Val (t, Returns ok, sc).

(** fenwick_tree.h:183-196: [set_value] of a built tree. *)
Definition t_set_value (t : fenwick T) (position : N) (value : T) (sc : script)
  : outcome (fenwick T * flow bool * script) :=
  let ok := (position <? fsize t) && negb (position =? 0) in
  if ok then
    let* (v, sc) := t_range_query (processed t) position position sc in
    match v with
    | Throws => Val (t, Throws, sc)
    | Returns v =>
        match here sc with
        | Some _ => Val (t, Throws, later sc)
        | None =>
            match f_discard tr value v with
            | None => UB
            | Some diff =>
                if f_truthy tr diff then
                  let* (c, f, sc) := t_update_cells hops (processed t) position diff (later sc) in
                  match f with
                  | Throws => Val (mkF c (built t), Throws, sc)
                  | Returns _ => Val (mkF c (built t), Returns ok, sc)
                  end
                else Val (t, Returns ok, later sc)
            end
        end
    end
  else Val (t, Returns ok, sc).

(** One call; [Throws] is an exception of the element type, the exceptions of the tree itself are
    answers as in FenwickModel. *)
Definition t_step (t : fenwick T) (o : fop T) (sc : script) : outcome (fenwick T * flow (fout T) * script) :=
  match o with
  | ORebuild input n =>
      let* (t', f, sc) := t_build t input n sc in
      Val (t', match f with Returns _ => Returns RUnit | Throws => Throws end, sc)
  | OUpdate p v =>
      if negb (built t) then Val (t, Returns (RExn NotBuilt), sc) else
      let* (t', f, sc) := t_update t p v sc in
      Val (t', match f with Returns b => Returns (RBool b) | Throws => Throws end, sc)
  | OSet p v =>
      if negb (built t) then Val (t, Returns (RExn NotBuilt), sc) else
      let* (t', f, sc) := t_set_value t p v sc in
      Val (t', match f with Returns b => Returns (RBool b) | Throws => Throws end, sc)
  | OQuery s e =>
      if negb (built t) then Val (t, Returns (RExn NotBuilt), sc) else
      let* (f, sc) := t_query t s e sc in
      Val (t, match f with Returns v => Returns (RVal v) | Throws => Throws end, sc)
  | OAt p =>
      Val (t, Returns (match cell (processed t) p with Some c => RVal c | None => RExn OutOfRange end), sc)
  | OResize n => Val (resize t n, Returns RUnit, sc)
  | OSize => Val (t, Returns (RSize (fsize t)), sc)
  | OIsBuilt => Val (t, Returns (RBool (built t)), sc)
  | OMoveOut => Val (mkF [] false, Returns RUnit, sc)
  end.

(** A history; a caller that catches goes on with the next call. *)
Fixpoint t_run (t : fenwick T) (ops : list (fop T)) (sc : script) : outcome (fenwick T * list (flow (fout T))) :=
  match ops with
  | [] => Val (t, [])
  | o :: ops =>
      let* (t', f, sc) := t_step t o sc in
      let* (t'', fs) := t_run t' ops sc in
      Val (t'', f :: fs)
  end.
End Code.
