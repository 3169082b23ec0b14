(** structures/cache.h with an on_discard (cache.h:298-300, overridable) that
    calls the cache it belongs to.

    [hook c k] is the sequence of calls the override makes when it is called
    with the key k in the state c.  The key is handed over by value: an
    override that reads its argument after a call that discards is worse off.
    The calls nest, so that the interpreter has fuel; [NoFuel] for every fuel
    is a recursion without end. *)
Require Import List NArith Bool Arith.
Require Import Verif.Base Verif.LruModel.
Import ListNotations.

Section LruHook.
Context {K : Type} (keq : forall a b : K, {a = b} + {a <> b}).
Context (hook : cache K -> K -> list (cop K)).
Notation cache := (cache K).

(** One public call, [cl] being clip().  cache.h:135-145, 81-90, 152-163 and
    187-196; the other calls do not reach the hook. *)
Definition hstep (cl : cache -> outcome (cache * list K)) (c : cache) (o : cop K)
  : outcome (cache * cout K * list K) :=
  let add k :=
    let ok := negb (contains keq c k) in
    if ok then
      let* (c', log) := cl (mkC (max_elements c) (clipped_values c) (last_result c)
                      (map_set keq (kmap c) k (fresh c))
                      ((fresh c, k) :: klist c) (S (fresh c))) in
      Val (set_last c' ok, log)
    else Val (set_last c ok, []) in
  match o with
  | CAdd k => let* (c', log) := add k in Val (c', AUnit, log)
  | CIndex k =>
      let* (c1, log) := (if negb (contains keq c k) then add k
                         else Val (set_last c false, [])) in
      let* (c2, (_, r)) := find keq c1 k in
      match r with
      | None => UB
      | Some k' => Val (c2, AKey k', log)
      end
  | CClip => let* (c', log) := cl c in Val (c', AUnit, log)
  | CSetCap n =>
      let* (c', log) := cl (mkC n (clipped_values c) (last_result c) (kmap c) (klist c) (fresh c)) in
      Val (c', AUnit, log)
  | _ => cstep keq c o
  end.

(** The calls of one run of the hook. *)
Fixpoint hcalls (cl : cache -> outcome (cache * list K)) (c : cache) (ops : list (cop K))
  : outcome (cache * list K) :=
  match ops with
  | [] => Val (c, [])
  | o :: ops =>
      let* (c', _, log) := hstep cl c o in
      let* (c'', log') := hcalls cl c' ops in
      Val (c'', log ++ log')
  end.

(** cache.h:155-161 *)
Fixpoint hloop (fuel : nat) (c : cache) : outcome (cache * list K) :=
  if (max_elements c <? csize c)%N then
    match fuel with
    | O => NoFuel
    | S fuel =>
        match rev (klist c) with
        | [] => UB (* back() of an empty list *)
        | (_, back) :: _ =>
            let c1 := mkC (max_elements c) (clipped_values c) (last_result c)
                          (map_erase keq (kmap c) back) (klist c) (fresh c) in
            let* (c2, log) := hcalls (fun d => hloop fuel
                (mkC (max_elements d) 0 (last_result d) (kmap d) (klist d) (fresh d)))
              c1 (hook c1 back) in
            match klist c2 with
            | [] => UB (* pop_back() of an empty list *)
            | _ :: _ =>
                let* (c3, log') := hloop fuel
                  (mkC (max_elements c2) (clipped_values c2 + 1)%N (last_result c2)
                       (kmap c2) (removelast (klist c2)) (fresh c2)) in
                Val (c3, back :: log ++ log')
            end
        end
    end
  else Val (c, []).

(** cache.h:152-163 *)
Definition hclip (fuel : nat) (c : cache) : outcome (cache * list K) :=
  hloop fuel (mkC (max_elements c) 0 (last_result c) (kmap c) (klist c) (fresh c)).

Definition hcall (fuel : nat) : cache -> cop K -> outcome (cache * cout K * list K) :=
  hstep (hclip fuel).
End LruHook.
