(** Calls of union_set.h and union_find.h that end with an exception: the state they
    leave behind.  The containers give the strong guarantee for one insertion at the
    end or one resize; hashing, comparing and copying elements and allocating may throw. *)
Require Import List NArith Bool Arith.
Require Import Verif.Base Verif.UnionModel.
Import ListNotations.

(** What throws: the lookup or the insertion of the map, or the growth of one of the
    vectors. *)
Inductive place := InMap | InRanks | InItems.

(** union_set.h:43-54: resize throws; _items grows before _ranks, the loop that follows
    does not throw. *)
Definition resize_throws (p : place) (u : uset) (size : nat) : uset :=
  let old_size := length (parents u) in
  if old_size <? size then
    match p with
    | InRanks => mkU (parents u ++ repeat 0 (size - old_size)) (ranks u) (disjoint u) (acorn u) (compress u)
    | _ => u
    end
  else u.

Section Elements.
Context {T : Type} (teq : forall a b : T, {a = b} + {a <> b}).

(** union_find.h:54-65: insert throws; the map comes first, then _ranks, then _items. *)
Definition insert_throws (p : place) (f : ufind T) (e : T) : ufind T :=
  if has teq f e then f else
  let id := length (elems f) in
  let u := core f in
  match p with
  | InMap => f
  | InRanks => mkUF u (elems f) ((e, id) :: ids f)
  | InItems => mkUF (mkU (parents u) (ranks u ++ [1%N]) (disjoint u) (acorn u) (compress u)) (elems f) ((e, id) :: ids f)
  end.
(** union_find.h:74-85: emplace throws; the map comes first, then _items, then _ranks. *)
Definition emplace_throws (p : place) (f : ufind T) (e : T) : ufind T :=
  if has teq f e then f else
  let id := length (elems f) in
  let u := core f in
  match p with
  | InMap => f
  | InItems => mkUF u (elems f) ((e, id) :: ids f)
  | InRanks => mkUF (mkU (parents u ++ [id]) (ranks u) (disjoint u) (acorn u) (compress u)) (elems f ++ [e]) ((e, id) :: ids f)
  end.
(** union_find.h:175-179: join_sets throws, at the latest in the lookup of the element
    whose root is searched second; [first] is the other one. *)
Definition join_throws (searched : bool) (f : ufind T) (first : T) : outcome (ufind T) :=
  if searched then let* (f', _) := uf_find teq f first in Val f' else Val f.

(** A program: calls that return, and insertions that throw. *)
Inductive top : Type :=
| TCall (o : eop T)
| TInsert (p : place) (e : T)
| TEmplace (p : place) (e : T)
| TJoin (searched : bool) (first : T).
Definition tstep (f : ufind T) (o : top) : outcome (ufind T * list uout) :=
  match o with
  | TCall o => let* (f, r) := estep teq f o in Val (f, [r])
  | TInsert p e => Val (insert_throws p f e, [])
  | TEmplace p e => Val (emplace_throws p f e, [])
  | TJoin searched a => let* f := join_throws searched f a in Val (f, [])
  end.
Fixpoint trun (f : ufind T) (ops : list top) : outcome (ufind T * list uout) :=
  match ops with
  | [] => Val (f, [])
  | o :: ops => let* (f, rs) := tstep f o in let* (f, rs') := trun f ops in Val (f, rs ++ rs')
  end.
End Elements.
Arguments top : clear implicits.
