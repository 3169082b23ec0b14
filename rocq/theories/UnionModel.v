(** Model of structures/union_set.h (union_set_t) and structures/union_find.h
    (union_find_t).

    An id is a [nat] (size_t index into the arrays).  [not_found], the largest
    size_t, is never an index of a vector, so [find] answers [None] for it.
    Counters and ranks are size_t with wrap-around. *)
Require Import List NArith Bool Arith.
Require Import Verif.Base.
Import ListNotations.
Local Open Scope outcome_scope.

(** union_set.h:14-18 (and union_find.h:16-19 without the elements).  The first
    component of the pairs in [_items] is only written, never read, and is left
    out. *)
Record uset : Type := mkU {
  parents  : list nat;
  ranks    : list N;
  disjoint : N;
  acorn    : N;
  compress : bool
}.

Definition set_parent (u : uset) (i p : nat) : uset :=
  mkU (set_nth (parents u) i p) (ranks u) (disjoint u) (acorn u) (compress u).
Definition set_rank (u : uset) (i : nat) (r : N) : uset :=
  mkU (parents u) (set_nth (ranks u) i r) (disjoint u) (acorn u) (compress u).

(** Reading an array cell; outside the array it is undefined behaviour. *)
Definition get_parent (u : uset) (i : nat) : outcome nat :=
  match nth_error (parents u) i with Some p => Val p | None => UB end.
Definition get_rank (u : uset) (i : nat) : outcome N :=
  match nth_error (ranks u) i with Some r => Val r | None => UB end.

(** union_set.h:75-77 *)
Definition exists_ (u : uset) (x : nat) : bool := x <? length (parents u).

(** union_set.h:225-231, union_find.h:299-305 *)
Definition join_set (u : uset) (slave master : nat) : outcome uset :=
  let* _ := get_rank u slave in
  let* _ := get_rank u master in
  let* _ := get_parent u slave in
  let u1 := set_parent u slave master in
  let* ms := get_rank u1 master in
  let* sl := get_rank u1 slave in
  Val (set_rank u1 master (wadd ms sl)).

(** union_set.h:147-183, union_find.h:221-257.  [fuel] bounds the depth of the
    recursion.  [parent], [rank] and [parent_rank] are references: they are
    read again after the recursive call. *)
Fixpoint find_ (fuel : nat) (u : uset) (elem : nat) : outcome (uset * nat) :=
  match fuel with
  | O => NoFuel
  | S fuel =>
      let* parent := get_parent u elem in
      let* _ := get_rank u elem in
      let* _ := get_rank u parent in
      if elem =? parent then Val (u, elem)
      else if compress u then
        let* (u1, root) := find_ fuel u parent in
        let* parent1 := get_parent u1 elem in
        let* u2 :=
          (if root =? parent1 then Val u1 else
             let* prank := get_rank u1 parent in
             let* rank := get_rank u1 elem in
             let u1' := (if (1 <? prank)%N then set_rank u1 parent (wsub prank rank)
                         else set_rank u1 elem 0%N) in
             join_set u1' elem root) in
        let* _ := get_rank u2 elem in
        Val (set_rank u2 elem 1%N, root)
      else find_ fuel u parent
  end.

(** Recursion budget of the model: the number of elements. *)
Definition find_root (u : uset) (elem : nat) : outcome (uset * nat) :=
  find_ (length (parents u)) u elem.

(** Two nested finds; C++ leaves the order of evaluation open: [true] evaluates
    the left one first. *)
Definition find_two (ord : bool) (u : uset) (a b : nat) : outcome (uset * nat * nat) :=
  if ord then
    let* (u1, ra) := find_root u a in
    let* (u2, rb) := find_root u1 b in
    Val (u2, ra, rb)
  else
    let* (u1, rb) := find_root u b in
    let* (u2, ra) := find_root u1 a in
    Val (u2, ra, rb).

(** union_set.h:193-195, union_find.h:267-269 *)
Definition same_set (ord : bool) (u : uset) (a b : nat) : outcome (uset * bool) :=
  if a =? b then Val (u, true) else
  let* (u', ra, rb) := find_two ord u a b in
  Val (u', ra =? rb).

Definition not_bit (r : N) : N := if (r =? 0)%N then 1%N else 0%N.

(** union_set.h:202-219: the ranks are copied before [_join_set];
    union_find.h:276-293: they are references and re-read after it ([byref]). *)
Definition join_roots (byref ord : bool) (u : uset) (a b : nat) : outcome (uset * bool) :=
  let* ra := get_rank u a in
  let* rb := get_rank u b in
  let* (u1, same) := same_set ord u a b in
  if same then Val (u1, negb same) else
  let* ra1 := (if byref then get_rank u1 a else Val ra) in
  let* rb1 := (if byref then get_rank u1 b else Val rb) in
  let* u2 := (if (ra1 <=? rb1)%N then join_set u1 a b else join_set u1 b a) in
  let* ra2 := (if byref then get_rank u2 a else Val ra) in
  let* rb2 := (if byref then get_rank u2 b else Val rb) in
  Val (mkU (parents u2) (ranks u2) (wsub (disjoint u2) 1)
           (wsub (acorn u2) (wadd (not_bit ra2) (not_bit rb2))) (compress u2),
       negb same).

(** union_set.h:98-103 *)
Definition find (u : uset) (x : nat) : outcome (uset * option nat) :=
  if negb (exists_ u x) then Val (u, None) else
  let* (u', r) := find_root u x in Val (u', Some r).

(** union_set.h:87-89 *)
Definition same (ord : bool) (u : uset) (a b : nat) : outcome (uset * bool) :=
  if exists_ u a && exists_ u b then same_set ord u a b else Val (u, false).

(** union_set.h:110-114; [ord1]: order of the two argument finds, [ord2]: order
    inside [_same_set]. *)
Definition join (ord1 ord2 : bool) (u : uset) (a b : nat) : outcome (uset * bool) :=
  if exists_ u a && exists_ u b then
    let* (u', ra, rb) := find_two ord1 u a b in
    join_roots false ord2 u' ra rb
  else Val (u, false).

(** union_set.h:134-137 *)
Definition size_of (u : uset) (x : nat) : outcome (uset * N) :=
  let* (u', r) := find u x in
  match r with
  | None => Val (u', 0%N)
  | Some root => let* k := get_rank u' root in Val (u', k)
  end.

(** union_set.h:60-69 *)
Definition insert (u : uset) (x : nat) : uset * bool :=
  let can_be_inserted := exists_ u x in
  ((if can_be_inserted
    then mkU (set_nth (parents u) x x) (set_nth (ranks u) x 1%N)
             (wadd (disjoint u) 1) (wadd (acorn u) 1) (compress u)
    else u), negb can_be_inserted).

(** union_set.h:43-54; both arrays get [size] cells, whatever they had. *)
Definition resize (u : uset) (size : nat) : uset * bool :=
  let old_size := length (parents u) in
  if old_size <? size then
    (fold_left (fun u ii => fst (insert u ii)) (seq old_size (size - old_size))
       (mkU (parents u ++ repeat 0 (size - old_size))
            (firstn size (ranks u) ++ repeat 0%N (size - length (ranks u)))
            (disjoint u) (acorn u) (compress u)), true)
  else (u, false).

(** union_set.h:34-38 and 28 (capacity 32, compression on). *)
Definition uset_of (capacity : nat) (apply_compression : bool) : uset :=
  fst (resize (mkU [] [] 0 0 apply_compression) capacity).
Definition uset_default : uset := uset_of 32 true.

(** Public interface without [insert]; the booleans are the evaluation orders
    chosen by the compiler for that call. *)
Inductive uop : Type :=
| UJoin (ord1 ord2 : bool) (a b : nat)
| USame (ord : bool) (a b : nat)
| UFind (x : nat)
| USizeOf (x : nat)
| UResize (n : nat)
| UExists (x : nat)
| UDisjoint
| UAcorn.

Inductive uout : Type :=
| VBool (b : bool) | VId (i : option nat) | VNum (n : N).

Definition ustep (u : uset) (o : uop) : outcome (uset * uout) :=
  match o with
  | UJoin o1 o2 a b => let* (u', r) := join o1 o2 u a b in Val (u', VBool r)
  | USame o a b => let* (u', r) := same o u a b in Val (u', VBool r)
  | UFind x => let* (u', r) := find u x in Val (u', VId r)
  | USizeOf x => let* (u', r) := size_of u x in Val (u', VNum r)
  | UResize n => let (u', r) := resize u n in Val (u', VBool r)
  | UExists x => Val (u, VBool (exists_ u x))
  | UDisjoint => Val (u, VNum (disjoint u))
  | UAcorn => Val (u, VNum (acorn u))
  end.

Fixpoint urun (u : uset) (ops : list uop) : outcome (uset * list uout) :=
  match ops with
  | [] => Val (u, [])
  | o :: ops =>
      let* (u', r) := ustep u o in
      let* (u'', rs) := urun u' ops in
      Val (u'', r :: rs)
  end.

(** ** union_find.h *)
Section Elements.
Context {T : Type} (teq : forall a b : T, {a = b} + {a <> b}).

(** union_find.h:16-20; [core] holds the ids' parents, ranks and counters, the
    template parameter apply_compression is [compress core]. *)
Record ufind : Type := mkUF {
  core  : uset;
  elems : list T;
  ids   : list (T * nat)
}.

(** union_find.h:27 *)
Definition ufind_new (apply_compression : bool) : ufind :=
  mkUF (mkU [] [] 0 0 apply_compression) [] [].

Fixpoint id_of (m : list (T * nat)) (e : T) : option nat :=
  match m with
  | [] => None
  | (e', i) :: m => if teq e e' then Some i else id_of m e
  end.

(** union_find.h:91-93 *)
Definition has (f : ufind) (e : T) : bool :=
  match id_of (ids f) e with Some _ => true | None => false end.

(** union_find.h:54-65 and 74-85 (emplace does the same in another order). *)
Definition uf_insert (f : ufind) (e : T) : ufind * bool :=
  if has f e then (f, false) else
  let id := length (elems f) in
  let u := core f in
  (mkUF (mkU (parents u ++ [id]) (ranks u ++ [1%N])
             (wadd (disjoint u) 1) (wadd (acorn u) 1) (compress u))
        (elems f ++ [e]) ((e, id) :: ids f), true).

Definition with_core (f : ufind) (u : uset) : ufind := mkUF u (elems f) (ids f).

(** union_find.h:111-115 *)
Definition uf_same (ord : bool) (f : ufind) (a b : T) : outcome (ufind * bool) :=
  match id_of (ids f) a, id_of (ids f) b with
  | Some i, Some j =>
      let* (u, r) := same_set ord (core f) i j in Val (with_core f u, r)
  | _, _ => Val (f, false)
  end.

(** union_find.h:138-143 *)
Definition uf_find (f : ufind) (e : T) : outcome (ufind * option nat) :=
  match id_of (ids f) e with
  | None => Val (f, None)
  | Some i => let* (u, r) := find_root (core f) i in Val (with_core f u, Some r)
  end.

(** union_find.h:175-179 *)
Definition uf_join (ord1 ord2 : bool) (f : ufind) (a b : T) : outcome (ufind * bool) :=
  match id_of (ids f) a, id_of (ids f) b with
  | Some i, Some j =>
      let* (u, ri, rj) := find_two ord1 (core f) i j in
      let* (u', r) := join_roots true ord2 u ri rj in
      Val (with_core f u', r)
  | _, _ => Val (f, false)
  end.

(** union_find.h:208-211 *)
Definition uf_size_of (f : ufind) (e : T) : outcome (ufind * N) :=
  let* (f', r) := uf_find f e in
  match r with
  | None => Val (f', 0%N)
  | Some root => let* k := get_rank (core f') root in Val (f', k)
  end.

Inductive eop : Type :=
| EInsert (e : T)
| EJoin (ord1 ord2 : bool) (a b : T)
| ESame (ord : bool) (a b : T)
| EFind (e : T)
| ESizeOf (e : T)
| EExists (e : T)
| EExistsSet (i : nat)
| EDisjoint
| EAcorn.

Definition estep (f : ufind) (o : eop) : outcome (ufind * uout) :=
  match o with
  | EInsert e => let (f', r) := uf_insert f e in Val (f', VBool r)
  | EJoin o1 o2 a b => let* (f', r) := uf_join o1 o2 f a b in Val (f', VBool r)
  | ESame o a b => let* (f', r) := uf_same o f a b in Val (f', VBool r)
  | EFind e => let* (f', r) := uf_find f e in Val (f', VId r)
  | ESizeOf e => let* (f', r) := uf_size_of f e in Val (f', VNum r)
  | EExists e => Val (f, VBool (has f e))
  | EExistsSet i => Val (f, VBool (i <? length (elems f)))   (* union_find.h:99-101 *)
  | EDisjoint => Val (f, VNum (disjoint (core f)))           (* union_find.h:184-186 *)
  | EAcorn => Val (f, VNum (acorn (core f)))                 (* union_find.h:191-193 *)
  end.

Fixpoint erun (f : ufind) (ops : list eop) : outcome (ufind * list uout) :=
  match ops with
  | [] => Val (f, [])
  | o :: ops =>
      let* (f', r) := estep f o in
      let* (f'', rs) := erun f' ops in
      Val (f'', r :: rs)
  end.

(** The id-level members call [exists(set)], the element test, with an id that
    is converted to T ([conv]). *)
Context (conv : nat -> T).

(** union_find.h:152-157 *)
Definition uf_find_id (f : ufind) (i : nat) : outcome (ufind * option nat) :=
  if negb (has f (conv i)) then Val (f, None) else
  let* (u, r) := find_root (core f) i in Val (with_core f u, Some r).

(** union_find.h:125-129 *)
Definition uf_same_id (ord : bool) (f : ufind) (a b : nat) : outcome (ufind * bool) :=
  if has f (conv a) && has f (conv b) then
    let* (u, r) := same_set ord (core f) a b in Val (with_core f u, r)
  else Val (f, false).

(** union_find.h:164-168 *)
Definition uf_join_id (ord1 ord2 : bool) (f : ufind) (a b : nat) : outcome (ufind * bool) :=
  if has f (conv a) && has f (conv b) then
    let* (u, ra, rb) := find_two ord1 (core f) a b in
    let* (u', r) := join_roots true ord2 u ra rb in
    Val (with_core f u', r)
  else Val (f, false).

(** union_find.h:199-202 *)
Definition uf_size_of_id (f : ufind) (i : nat) : outcome (ufind * N) :=
  let* (f', r) := uf_find_id f i in
  match r with
  | None => Val (f', 0%N)
  | Some root => let* k := get_rank (core f') root in Val (f', k)
  end.

End Elements.
Arguments ufind : clear implicits.
Arguments eop : clear implicits.
