(** tree_node_t (structures/tree.h) on a heap: nodes are addresses, [_children] is a
    vector of pointers, so that two nodes may have the same child.  With the defaulted
    assignments of the nodes, which KaryModel.v leaves out. *)
Require Import List NArith Bool Arith.
Require Import Verif.Base Verif.KaryModel.
Import ListNotations.

Section Heap.
Context {V : Type}.
(** tree.h:228: template parameter max_node_size. *)
Variable max_node_size : N.
(** operator== of T, used by find. *)
Variable veq : V -> V -> bool.
(** What the move assignment of T leaves in its source. *)
Variable moved_from : V -> V.

(** tree.h:224-225, 848: [_parent], [_node], [_children]. *)
Record hnode : Type := mkH { hparent : option nat; hvalue : V; hchildren : list (option nat) }.
(** The memory; [None]: deleted.  Addresses are not used again. *)
Notation heap := (list (option hnode)).

(** Using a node: undefined if it is not there. *)
Definition read (h : heap) (a : nat) : outcome hnode :=
  match nth_error h a with Some (Some n) => Val n | _ => UB end.
Definition write (h : heap) (a : nat) (n : hnode) : heap := set_nth h a (Some n).
Definition with_children (n : hnode) (cs : list (option nat)) : hnode := mkH (hparent n) (hvalue n) cs.
(** tree.h:250-257: [new node_type_t{ v, parent }] *)
Definition alloc (h : heap) (parent : option nat) (v : V) : heap * nat :=
  (h ++ [Some (mkH parent v [])], length h).

(** tree.h:293-296, 458-464: delete runs the destructor, which deletes the children
    first to last.  Any other use of a node is undefined from the begin of its
    destruction on, so it is taken out of the heap first.  [fuel]: see
    [release_fuel] for how much is enough. *)
Fixpoint release (fuel : nat) (h : heap) (a : nat) : outcome heap :=
  match fuel with
  | O => NoFuel
  | S fuel =>
      let* n := read h a in
      (fix each (cs : list (option nat)) (h : heap) : outcome heap :=
         match cs with
         | [] => Val h
         | None :: cs => each cs h
         | Some c :: cs => let* h := release fuel h c in each cs h
         end) (hchildren n) (set_nth h a None)
  end.
Definition release_fuel (h : heap) : nat := S (length h).
Definition hdelete (h : heap) (a : nat) : outcome heap := release (release_fuel h) h a.
(** The loop of clear(), tree.h:460-462. *)
Fixpoint delete_each (h : heap) (cs : list (option nat)) : outcome heap :=
  match cs with
  | [] => Val h
  | None :: cs => delete_each h cs
  | Some c :: cs => let* h := hdelete h c in delete_each h cs
  end.

(** tree.h:304-311: add_child *)
Definition hadd (h : heap) (a : nat) (v : V) : outcome (heap * bool) :=
  let* n := read h a in
  if (sizeN (hchildren n) <? max_node_size)%N
  then let (h, x) := alloc h (Some a) v in Val (write h a (with_children n (hchildren n ++ [Some x])), true)
  else Val (h, false).
(** std::find(begin, end, nullptr) *)
Fixpoint null_index (cs : list (option nat)) : option nat :=
  match cs with
  | [] => None
  | None :: _ => Some 0
  | Some _ :: cs => option_map S (null_index cs)
  end.
(** tree.h:319-330: insert_at_first_null *)
Definition hinsert_null (h : heap) (a : nat) (v : V) : outcome (heap * bool) :=
  let* n := read h a in
  match null_index (hchildren n) with
  | Some p => let (h, x) := alloc h (Some a) v in Val (write h a (with_children n (set_nth (hchildren n) p (Some x))), true)
  | None => hadd h a v
  end.
(** vector::resize(size, nullptr) with a size that is not smaller *)
Definition resized (cs : list (option nat)) (size : nat) : list (option nat) := cs ++ repeat None (size - length cs).
(** tree.h:346-362: insert_at *)
Definition hinsert_at (h : heap) (a : nat) (position : N) (v : V) : outcome (heap * bool) :=
  let* n := read h a in
  if (position <? max_node_size)%N then
    match cell (hchildren n) position with
    | Some (Some _) => Val (h, false)
    | Some None =>
        let (h, x) := alloc h (Some a) v in
        Val (write h a (with_children n (set_nth (hchildren n) (N.to_nat position) (Some x))), true)
    | None =>
        let cs := resized (hchildren n) (N.to_nat (wadd position 1)) in
        let (h, x) := alloc h (Some a) v in
        Val (write h a (with_children n (set_nth cs (N.to_nat position) (Some x))), true)
    end
  else Val (h, false).
(** tree.h:219-222: set_parent(nullptr), on a node handed back *)
Definition orphan (h : heap) (c : nat) : outcome heap :=
  let* n := read h c in Val (write h c (mkH None (hvalue n) (hchildren n))).
(** tree.h:380-398: replace_at; the write in line 396 is not guarded. *)
Definition hreplace_at (h : heap) (a : nat) (position : N) (v : V) : outcome (heap * option nat) :=
  let* n := read h a in
  let* (h, cs, replaced) :=
    if (position <? max_node_size)%N then
      match cell (hchildren n) position with
      | Some (Some c) =>
          let* h := orphan h c in Val (h, set_nth (hchildren n) (N.to_nat position) None, Some c)
      | Some None => Val (h, hchildren n, None)
      | None => Val (h, resized (hchildren n) (N.to_nat (wadd position 1)), None)
      end
    else Val (h, hchildren n, None) in
  match cell cs position with
  | None => UB
  | Some _ =>
      let* n := read h a in
      let (h, x) := alloc h (Some a) v in
      Val (write h a (with_children n (set_nth cs (N.to_nat position) (Some x))), replaced)
  end.
(** tree.h:408-419: delete_child; the node itself must have survived. *)
Definition hdelete_child (h : heap) (a : nat) (child : N) : outcome (heap * bool) :=
  let* n := read h a in
  match cell (hchildren n) child with
  | None => Val (h, false)
  | Some c =>
      let* h := match c with Some c => hdelete h c | None => Val h end in
      let* n := read h a in
      Val (write h a (with_children n (erase (hchildren n) (N.to_nat child))), true)
  end.
(** tree.h:432-443: extract_child *)
Definition hextract (h : heap) (a : nat) (child : N) : outcome (heap * option nat) :=
  let* n := read h a in
  match cell (hchildren n) child with
  | Some (Some c) =>
      let* h := orphan h c in
      let* n := read h a in
      Val (write h a (with_children n (set_nth (hchildren n) (N.to_nat child) None)), Some c)
  | _ => Val (h, None)
  end.
(** tree.h:458-464: clear *)
Definition hclear (h : heap) (a : nat) : outcome heap :=
  let* n := read h a in
  let* h := delete_each h (hchildren n) in
  let* n := read h a in
  Val (write h a (with_children n [])).
(** tree.h:94-107: set_value *)
Definition hset (h : heap) (a : nat) (v : V) : outcome heap :=
  let* n := read h a in Val (write h a (mkH (hparent n) v (hchildren n))).
(** tree.h:114-131: swap_move and swap; for a node with itself both end with the
    value it had. *)
Definition hswap (h : heap) (a b : nat) : outcome heap :=
  let* n := read h a in
  let* m := read h b in
  let* h := hset h b (hvalue n) in
  hset h a (hvalue m).

(** tree.h:84, 290: the defaulted copy assignment [a = b]: parent, value and the
    pointers of the children. *)
Definition hassign (h : heap) (a b : nat) : outcome heap :=
  let* _ := read h a in
  let* m := read h b in
  Val (write h a (mkH (hparent m) (hvalue m) (hchildren m))).
(** tree.h:85, 291: the defaulted move assignment [a = std::move(b)]; the vector of
    the source is empty afterwards.  What std::vector does when moved to itself is
    unspecified; undefined here. *)
Definition hmove (h : heap) (a b : nat) : outcome heap :=
  if Nat.eqb a b then UB
  else
    let* _ := read h a in
    let* m := read h b in
    Val (write (write h a (mkH (hparent m) (hvalue m) (hchildren m))) b
               (mkH (hparent m) (moved_from (hvalue m)) [])).

(** ** Accessors *)

(** tree.h:450-453: has_child *)
Definition hhas (h : heap) (a : nat) (pos : N) : outcome bool :=
  let* n := read h a in Val (match cell (hchildren n) pos with Some (Some _) => true | _ => false end).
(** tree.h:470-476: children_count *)
Definition hcount (h : heap) (a : nat) : outcome N :=
  let* n := read h a in
  Val (wsub (sizeN (hchildren n))
            (N.of_nat (length (filter (fun c => match c with None => true | Some _ => false end) (hchildren n))))).
(** tree.h:511-525, 598-612: child *)
Definition hchild (h : heap) (a : nat) (pos : N) : outcome nat :=
  let* n := read h a in
  match cell (hchildren n) pos with
  | Some (Some c) => Val c
  | Some None => Exn NullNode
  | None => Exn OutOfRange
  end.
(** tree.h:531-541, 547-557: first *)
Fixpoint first_of (cs : list (option nat)) : outcome nat :=
  match cs with [] => Exn NullNode | Some c :: _ => Val c | None :: cs => first_of cs end.
Definition hfirst (h : heap) (a : nat) : outcome nat := let* n := read h a in first_of (hchildren n).
(** tree.h:563-573, 579-589: last *)
Definition hlast (h : heap) (a : nat) : outcome nat := let* n := read h a in first_of (rev (hchildren n)).
(** tree.h:486-503: find; the predicate reads the children. *)
Fixpoint find_from (h : heap) (cs : list (option nat)) (v : V) (p : nat) : outcome (bool * N) :=
  match cs with
  | [] => Val (false, (two64 - 1)%N)
  | None :: cs => find_from h cs v (S p)
  | Some c :: cs => let* m := read h c in if veq (hvalue m) v then Val (true, N.of_nat p) else find_from h cs v (S p)
  end.
Definition hfind (h : heap) (a : nat) (v : V) : outcome (bool * N) := let* n := read h a in find_from h (hchildren n) v 0.
(** tree.h:138-141: has_parent *)
Definition hhas_parent (h : heap) (a : nat) : outcome bool :=
  let* n := read h a in Val (match hparent n with Some _ => true | None => false end).
(** tree.h:148-154, 161-167: parent; a reference to a node that is gone is
    undefined. *)
Definition hparent_of (h : heap) (a : nat) : outcome nat :=
  let* n := read h a in
  match hparent n with
  | Some p => let* _ := read h p in Val p
  | None => Exn NullNode
  end.
(** tree.h:172-203: get, operator*, operator T *)
Definition hget (h : heap) (a : nat) : outcome V := let* n := read h a in Val (hvalue n).

(** ** Programs *)
Inductive hop : Type :=
| HNew (v : V)                 (* a node of the program, without parent *)
| HDestroy (a : nat)
| HCall (a : nat) (c : call V)
| HSwap (a b : nat)
| HAssign (a b : nat)
| HMove (a b : nat)
| HHas (a : nat) (pos : N) | HCount (a : nat) | HChild (a : nat) (pos : N) | HFirst (a : nat) | HLast (a : nat)
| HFind (a : nat) (v : V) | HHasParent (a : nat) | HParent (a : nat) | HGet (a : nat).
Inductive reply : Type :=
| RUnit | RBool (b : bool) | RNum (n : N) | RNode (a : nat) | RFound (r : bool * N) | RVal (v : V) | RThrow (e : exc)
| RHanded (o : option nat).    (* the std::unique_ptr handed back *)

(** An accessor: the heap stays, an exception is an answer. *)
Definition look {A} (h : heap) (r : outcome A) (f : A -> reply) : outcome (heap * reply) :=
  match r with Val x => Val (h, f x) | Exn e => Val (h, RThrow e) | UB => UB | NoFuel => NoFuel end.

Definition hcall (h : heap) (a : nat) (c : call V) : outcome (heap * reply) :=
  match c with
  | CAdd v => let* (h, b) := hadd h a v in Val (h, RBool b)
  | CInsertNull v => let* (h, b) := hinsert_null h a v in Val (h, RBool b)
  | CInsertAt p v => let* (h, b) := hinsert_at h a p v in Val (h, RBool b)
  | CReplaceAt p v => let* (h, o) := hreplace_at h a p v in Val (h, RHanded o)
  | CDelete p => let* (h, b) := hdelete_child h a p in Val (h, RBool b)
  | CExtract p => let* (h, o) := hextract h a p in Val (h, RHanded o)
  | CClear => let* h := hclear h a in Val (h, RUnit)
  | CSetValue v => let* h := hset h a v in Val (h, RUnit)
  end.
Definition hstep (h : heap) (o : hop) : outcome (heap * reply) :=
  match o with
  | HNew v => let (h, x) := alloc h None v in Val (h, RNode x)
  | HDestroy a => let* h := hdelete h a in Val (h, RUnit)
  | HCall a c => hcall h a c
  | HSwap a b => let* h := hswap h a b in Val (h, RUnit)
  | HAssign a b => let* h := hassign h a b in Val (h, RUnit)
  | HMove a b => let* h := hmove h a b in Val (h, RUnit)
  | HHas a p => look h (hhas h a p) RBool
  | HCount a => look h (hcount h a) RNum
  | HChild a p => look h (hchild h a p) RNode
  | HFirst a => look h (hfirst h a) RNode
  | HLast a => look h (hlast h a) RNode
  | HFind a v => look h (hfind h a v) RFound
  | HHasParent a => look h (hhas_parent h a) RBool
  | HParent a => look h (hparent_of h a) RNode
  | HGet a => look h (hget h a) RVal
  end.

(** Each call may depend on the answers of the earlier ones. *)
Inductive prog : Type := Stop | Call (o : hop) (k : reply -> prog).
Fixpoint hrun (h : heap) (p : prog) : outcome (heap * list (hop * reply)) :=
  match p with
  | Stop => Val (h, [])
  | Call o k =>
      let* (h, r) := hstep h o in
      let* (h, rs) := hrun h (k r) in
      Val (h, (o, r) :: rs)
  end.
(** Destroying nodes one after the other. *)
Fixpoint destroy_all (h : heap) (l : list nat) : outcome heap :=
  match l with
  | [] => Val h
  | a :: l => let* h := hdelete h a in destroy_all h l
  end.
End Heap.
Arguments hnode : clear implicits.
Arguments hop : clear implicits.
Arguments reply : clear implicits.
Arguments prog : clear implicits.
