(** Model of tree_node_t and of the ownership of tree_t over it
    (structures/tree.h).

    Every node carries an identity (its address) and its parent pointer, so that
    ownership and parent links can be stated.  Identities are handed out in the
    order of the calls to [new].  Nodes that a program owns (the root of a tree,
    a node in a std::unique_ptr that was handed back) are the roots of a state. *)
Require Import List NArith Bool Arith.
Require Import Verif.Base.
Import ListNotations.

Section Kary.
Context {V : Type}.
(** tree.h:228: template parameter max_node_size. *)
Variable max_node_size : N.
(** operator== of T, used by find. *)
Variable veq : V -> V -> bool.

(** tree.h:224-225, 848: [_parent], [_node], [_children]. *)
Inductive knode : Type := KN (id : nat) (parent : option nat) (v : V) (slots : list (option knode)).

Definition id_of (n : knode) : nat := match n with KN i _ _ _ => i end.
Definition parent_of (n : knode) : option nat := match n with KN _ p _ _ => p end.
Definition value_of (n : knode) : V := match n with KN _ _ v _ => v end.
Definition slots_of (n : knode) : list (option knode) := match n with KN _ _ _ s => s end.

(** [_children = s] *)
Definition with_slots (n : knode) (s : list (option knode)) : knode :=
  match n with KN i p v _ => KN i p v s end.
(** tree.h:219-222: set_parent *)
Definition set_parent (n : knode) (p : option nat) : knode :=
  match n with KN i _ v s => KN i p v s end.
(** tree.h:94-107: set_value *)
Definition set_value (n : knode) (v : V) : knode :=
  match n with KN i p _ s => KN i p v s end.

(** tree.h:250-257: [new node_type_t{ child, this }] *)
Definition new_node (i : nat) (parent : option nat) (v : V) : knode := KN i parent v [].

(** tree.h:293-296, 458-464: the destructor calls clear(), which deletes the
    children first to last; the list is the order in which the memory is
    released. *)
Fixpoint del (n : knode) : list nat :=
  match n with
  | KN i _ _ s => flat_map (fun c => match c with Some c => del c | None => [] end) s ++ [i]
  end.

(** tree.h:304-311: add_child; the result has the next free identity. *)
Definition add_child (i : nat) (n : knode) (child : V) : knode * bool * nat :=
  if (sizeN (slots_of n) <? max_node_size)%N
  then (with_slots n (slots_of n ++ [Some (new_node i (Some (id_of n)) child)]), true, S i)
  else (n, false, i).

(** std::find(begin, end, nullptr) *)
Fixpoint index_null (s : list (option knode)) : option nat :=
  match s with
  | [] => None
  | None :: _ => Some 0
  | Some _ :: s => option_map S (index_null s)
  end.

(** tree.h:319-330: insert_at_first_null *)
Definition insert_at_first_null (i : nat) (n : knode) (child : V) : knode * bool * nat :=
  match index_null (slots_of n) with
  | Some p => (with_slots n (set_nth (slots_of n) p (Some (new_node i (Some (id_of n)) child))), true, S i)
  | None => add_child i n child
  end.

(** vector::resize(size, nullptr) with a size that is not smaller *)
Definition resize_null (s : list (option knode)) (size : nat) : list (option knode) :=
  s ++ repeat None (size - length s).

(** tree.h:346-362: insert_at *)
Definition insert_at (i : nat) (n : knode) (position : N) (child : V) : knode * bool * nat :=
  let node := Some (new_node i (Some (id_of n)) child) in
  if (position <? max_node_size)%N then
    match cell (slots_of n) position with
    | Some (Some _) => (n, false, i)
    | Some None => (with_slots n (set_nth (slots_of n) (N.to_nat position) node), true, S i)
    | None =>
        let s := resize_null (slots_of n) (N.to_nat (wadd position 1)) in
        (with_slots n (set_nth s (N.to_nat position) node), true, S i)
    end
  else (n, false, i).

(** tree.h:380-398: replace_at; the write in line 396 is not guarded. *)
Definition replace_at (i : nat) (n : knode) (position : N) (child : V)
  : outcome (knode * option knode * nat) :=
  let (s, replaced) :=
    if (position <? max_node_size)%N then
      match cell (slots_of n) position with
      | Some (Some c) =>
          (set_nth (slots_of n) (N.to_nat position) None, Some (set_parent c None))
      | Some None => (slots_of n, None)
      | None => (resize_null (slots_of n) (N.to_nat (wadd position 1)), None)
      end
    else (slots_of n, None) in
  match cell s position with
  | None => UB
  | Some _ =>
      Val (with_slots n (set_nth s (N.to_nat position) (Some (new_node i (Some (id_of n)) child))), replaced, S i)
  end.

(** vector::erase(begin + p) *)
Fixpoint erase {A} (l : list A) (p : nat) : list A :=
  match l, p with
  | [], _ => []
  | _ :: l, 0 => l
  | x :: l, S p => x :: erase l p
  end.

(** tree.h:408-419: delete_child; third component: the memory released. *)
Definition delete_child (n : knode) (child : N) : knode * bool * list nat :=
  match cell (slots_of n) child with
  | None => (n, false, [])
  | Some c =>
      (with_slots n (erase (slots_of n) (N.to_nat child)), true,
       match c with Some c => del c | None => [] end)
  end.

(** tree.h:432-443: extract_child *)
Definition extract_child (n : knode) (child : N) : knode * option knode :=
  match cell (slots_of n) child with
  | Some (Some c) =>
      (with_slots n (set_nth (slots_of n) (N.to_nat child) None), Some (set_parent c None))
  | _ => (n, None)
  end.

(** tree.h:458-464: clear *)
Definition clear (n : knode) : knode * list nat :=
  (with_slots n [], flat_map (fun c => match c with Some c => del c | None => [] end) (slots_of n)).

(** tree.h:450-453: has_child *)
Definition has_child (n : knode) (pos : N) : bool :=
  match cell (slots_of n) pos with Some (Some _) => true | _ => false end.

(** tree.h:470-476: children_count; std::count counts the null pointers. *)
Definition children_count (n : knode) : N :=
  wsub (sizeN (slots_of n))
       (N.of_nat (length (filter (fun c => match c with None => true | Some _ => false end) (slots_of n)))).

(** std::find_if(begin, end, pred): position of the first match *)
Fixpoint find_if (pred : option knode -> bool) (s : list (option knode)) : option nat :=
  match s with
  | [] => None
  | c :: s => if pred c then Some 0 else option_map S (find_if pred s)
  end.

(** tree.h:486-503: find *)
Definition find (n : knode) (child : V) : bool * N :=
  match find_if (fun c => match c with Some c => veq (value_of c) child | None => false end) (slots_of n) with
  | Some i => (true, N.of_nat i)
  | None => (false, two64 - 1)%N
  end.

(** tree.h:511-525, 598-612: child *)
Definition child (n : knode) (pos : N) : outcome knode :=
  match cell (slots_of n) pos with
  | Some (Some c) => Val c
  | Some None => Exn NullNode
  | None => Exn OutOfRange
  end.

Definition non_null (c : option knode) : bool := match c with Some _ => true | None => false end.

(** tree.h:531-541, 547-557: first *)
Definition first (n : knode) : outcome knode :=
  match find_if non_null (slots_of n) with
  | Some i => match nth_error (slots_of n) i with Some (Some c) => Val c | _ => UB end
  | None => Exn NullNode
  end.
(** tree.h:563-573, 579-589: last; the search runs over the reversed vector. *)
Definition last (n : knode) : outcome knode :=
  match find_if non_null (rev (slots_of n)) with
  | Some i => match nth_error (rev (slots_of n)) i with Some (Some c) => Val c | _ => UB end
  | None => Exn NullNode
  end.

(** ** Programs over nodes *)

(** A member call on a node. *)
Inductive call : Type :=
| CAdd (v : V)
| CInsertNull (v : V)
| CInsertAt (position : N) (v : V)
| CReplaceAt (position : N) (v : V)
| CDelete (child : N)
| CExtract (child : N)
| CClear
| CSetValue (v : V).

(** What a call answers: nothing, a bool, whether a node was handed back, or an
    exception on the way to the node. *)
Inductive answer : Type := ANone | ABool (b : bool) | ANode (b : bool) | AExn (e : exc).

(** One call; result: the node, the answer, the node handed back, the memory
    released, the next free identity. *)
Definition do_call (i : nat) (c : call) (n : knode)
  : outcome (knode * (answer * option knode * list nat * nat)) :=
  match c with
  | CAdd v => let '(n, b, i) := add_child i n v in Val (n, (ABool b, None, [], i))
  | CInsertNull v => let '(n, b, i) := insert_at_first_null i n v in Val (n, (ABool b, None, [], i))
  | CInsertAt p v => let '(n, b, i) := insert_at i n p v in Val (n, (ABool b, None, [], i))
  | CReplaceAt p v =>
      let* r := replace_at i n p v in
      let '(n, o, i) := r in Val (n, (ANode (match o with Some _ => true | None => false end), o, [], i))
  | CDelete p => let '(n, b, f) := delete_child n p in Val (n, (ABool b, None, f, i))
  | CExtract p =>
      let (n, o) := extract_child n p in
      Val (n, (ANode (match o with Some _ => true | None => false end), o, [], i))
  | CClear => let (n, f) := clear n in Val (n, (ANone, None, f, i))
  | CSetValue v => Val (set_value n v, (ANone, None, [], i))
  end.

(** tree.h:511-525: walking from a root to a node with child(pos), then a call
    on that node. *)
Fixpoint visit {R} (path : list N) (f : knode -> outcome (knode * R)) (n : knode) : outcome (knode * R) :=
  match path with
  | [] => f n
  | p :: path =>
      let* c := child n p in
      let* r := visit path f c in
      let (c, r) := r in
      Val (with_slots n (set_nth (slots_of n) (N.to_nat p) (Some c)), r)
  end.

Record state : Type := mkS { roots : list (option knode); freed : list nat; fresh : nat }.

Inductive op : Type :=
| KCall (root : nat) (path : list N) (c : call)
| KNew (v : V)              (* a new owned node without parent (tree.h:255-257, 1033-1038) *)
| KDrop (root : nat).       (* destroying an owned node (tree.h:293-296, 1182-1188) *)

(** A call through a root that the program does not own any more is no program;
    it does nothing here. *)
Definition step (s : state) (o : op) : outcome (state * answer) :=
  match o with
  | KNew v => Val (mkS (roots s ++ [Some (new_node (fresh s) None v)]) (freed s) (S (fresh s)), ANone)
  | KDrop h =>
      match nth_error (roots s) h with
      | Some (Some n) => Val (mkS (set_nth (roots s) h None) (freed s ++ del n) (fresh s), ANone)
      | _ => Val (s, ANone)
      end
  | KCall h path c =>
      match nth_error (roots s) h with
      | Some (Some n) =>
          match visit path (do_call (fresh s) c) n with
          | Val (n, (a, handed, f, i)) =>
              Val (mkS (set_nth (roots s) h (Some n) ++
                        match handed with Some m => [Some m] | None => [] end)
                       (freed s ++ f) i, a)
          | Exn e => Val (s, AExn e)
          | UB => UB
          | NoFuel => NoFuel
          end
      | _ => Val (s, ANone)
      end
  end.

Fixpoint run (s : state) (ops : list op) : outcome (state * list answer) :=
  match ops with
  | [] => Val (s, [])
  | o :: ops => let* r := step s o in let (s, a) := r in
                let* r := run s ops in let (s, l) := r in Val (s, a :: l)
  end.

Definition start : state := mkS [] [] 0.

(** ** Copying and moving a tree *)

(** tree.h:290: the defaulted assignment copies the pointers of the children. *)
Definition node_assign (target source : knode) : knode :=
  match target, source with KN i _ _ _, KN _ p v s => KN i p v s end.

(** tree.h:898-900, 916-923: copy constructor and copy assignment of tree_t;
    the old root is not deleted. *)
Definition copy_assign (i : nat) (target source : option knode) (v0 : V) : option knode * nat :=
  match source with
  | None => (target, i)
  | Some n => (Some (node_assign (new_node i None v0) n), S i)
  end.

(** tree.h:930-935: move assignment of tree_t (target, source). *)
Definition move_assign (target source : option knode) : option knode * option knode := (source, None).

(** tree.h:880-883, 1182-1188, 293-296: destroying a tree when the nodes in
    [freed] are gone already; touching one of them is undefined. *)
Fixpoint destroy (n : knode) (freed : list nat) : outcome (list nat) :=
  match n with
  | KN i _ _ s =>
      if existsb (Nat.eqb i) freed then UB
      else
        let* freed :=
          (fix each (s : list (option knode)) (freed : list nat) : outcome (list nat) :=
             match s with
             | [] => Val freed
             | None :: s => each s freed
             | Some c :: s => let* freed := destroy c freed in each s freed
             end) s freed in
        Val (freed ++ [i])
  end.
Definition destroy_tree (t : option knode) (freed : list nat) : outcome (list nat) :=
  match t with None => Val freed | Some n => destroy n freed end.

End Kary.
Arguments knode : clear implicits.
Arguments call : clear implicits.
Arguments op : clear implicits.
Arguments state : clear implicits.
