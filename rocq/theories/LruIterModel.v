(** Model of the iterators of structures/cache.h: begin(), end(), rbegin(),
    rend(), the iterator answered by find() and the references answered by
    operator[], most_recent(), least_recent() and values() while the cache is used.

    An iterator is the identity of a list node (LruModel.v) or the end of the
    list, which is never erased.  A reference to a key is the identity of the
    node that holds the key. *)
Require Import List NArith Bool Arith.
Require Import Verif.Base Verif.LruModel.
Import ListNotations.

Section LruIter.
Context {K : Type} (keq : forall a b : K, {a = b} + {a <> b}).
Notation cache := (cache K).
Notation cop := (cop K).

Inductive iter : Type := At (i : node_id) | End.

(** cache.h:96-99 and 105-108 *)
Definition begin_ (c : cache) : iter :=
  match klist c with [] => End | (i, _) :: _ => At i end.
Definition end_ (c : cache) : iter := End.

(** *it of a std::list iterator; an iterator to an erased node must not be used. *)
Definition deref (c : cache) (it : iter) : outcome K :=
  match it with
  | End => UB
  | At i => match list_deref (klist c) i with Some k => Val k | None => UB end
  end.

(** ++it and --it of a std::list iterator. *)
Fixpoint list_next (l : list (node_id * K)) (i : node_id) : outcome iter :=
  match l with
  | [] => UB
  | (j, _) :: l =>
      if Nat.eqb i j then Val (match l with [] => End | (j', _) :: _ => At j' end)
      else list_next l i
  end.
Definition next (c : cache) (it : iter) : outcome iter :=
  match it with End => UB | At i => list_next (klist c) i end.

Fixpoint list_prev (before : outcome iter) (l : list (node_id * K)) (it : iter) : outcome iter :=
  match l with
  | [] => match it with End => before | At _ => UB end
  | (j, _) :: l =>
      match it with
      | At i => if Nat.eqb i j then before else list_prev (Val (At j)) l it
      | End => list_prev (Val (At j)) l it
      end
  end.
Definition prev (c : cache) (it : iter) : outcome iter := list_prev UB (klist c) it.

Definition iter_eqb (a b : iter) : bool :=
  match a, b with At i, At j => Nat.eqb i j | End, End => true | _, _ => false end.

(** for (auto k : cache) { body(k); }, cache.h:96-108.  The loop variable is a
    copy of the key.  Second result: the keys the body was called with. *)
Fixpoint for_each (fuel : nat) (c : cache) (it : iter) (body : K -> list cop)
  : outcome (cache * list K) :=
  match it with
  | End => Val (c, [])
  | At _ =>
      match fuel with
      | O => NoFuel
      | S fuel =>
          let* k := deref c it in
          let* (c1, _) := crun keq c (body k) in
          let* it := next c1 it in
          let* (c2, ks) := for_each fuel c1 it body in
          Val (c2, k :: ks)
      end
  end.

(** for (auto it = cache.rbegin(); it != cache.rend(); ++it) { body( *it); },
    cache.h:114-126.  A reverse iterator is its base; it refers to the element
    before the base. *)
Fixpoint for_each_reversed (fuel : nat) (c : cache) (base : iter) (body : K -> list cop)
  : outcome (cache * list K) :=
  if iter_eqb base (begin_ c) then Val (c, [])
  else
    match fuel with
    | O => NoFuel
    | S fuel =>
        let* at_ := prev c base in
        let* k := deref c at_ in
        let* (c1, _) := crun keq c (body k) in
        let* base := prev c1 base in
        let* (c2, ks) := for_each_reversed fuel c1 base body in
        Val (c2, k :: ks)
    end.

End LruIter.
