(** Specification of traversals of k-ary trees whose callback changes the nodes. *)
Require Import List NArith Bool Arith.
Require Import Verif.Base Verif.KaryModel Verif.KarySpec Verif.KaryIterModel Verif.KaryIterSpec Verif.KaryWalkModel.
Import ListNotations.

Section Spec.
Context {V : Type}.
Variable max_node_size : N.
Notation knode := (knode V).
Notation kst := (kst V).
Notation sound := (sound max_node_size).
Definition callback : Type := list nat -> kst -> nat -> outcome (kst * bool).

(** The non-null children. *)
Definition kids (n : knode) : list knode :=
  flat_map (fun c => match c with Some c => [c] | None => [] end) (slots_of n).
Definition put_slot (n : knode) (p : nat) (c : option knode) : knode := with_slots n (set_nth (slots_of n) p c).

(** From [s] to [s'] the part [u] at [a] of the tree [t] became [u']; the rest of the
    tree and its vectors stay.  Other trees may change, come and go. *)
Definition changed (s s' : kst) (t : knode) (a : nat) (u u' : knode) : Prop :=
  sound s' /\ id_of u' = a /\ In (put a u' t) (roots s') /\
  forall x, In x (ids t) -> ~ In x (ids u) -> nth_error (vecs s') x = nth_error (vecs s) x.
(** What a callback does to the part of the tree below and including its node:
    [R answer kept before after]; the iterators of the node at positions below
    [kept], and no others, are still good. *)
Definition effect : Type := bool -> nat -> knode -> knode -> Prop.
Definition keeps (s' : kst) (a : nat) (v : vec) (u u' : knode) (kept : nat) : Prop :=
  (forall p t, nth_error (stamps v) p = Some t -> (good s' (mkI a p t) = true <-> p < kept)) /\
  (forall p, p < kept -> p < length (slots_of u) -> p < length (slots_of u')).
Definition does (R : effect) (cb : callback) : Prop :=
  forall past s t a u v, sound s -> In t (roots s) -> sub a t = Some u -> nth_error (vecs s) a = Some v ->
  exists s' b kept u', cb past s a = Val (s', b) /\ changed s s' t a u u' /\ keeps s' a v u u' kept /\ R b kept u u'.

(** The callback may also take its node out of the slot of the parent. *)
Fixpoint cut (a : nat) (n : knode) : knode :=
  match n with
  | KN i p v s =>
      KN i p v (map (fun c => match c with Some c => if Nat.eqb (id_of c) a then None else Some (cut a c) | None => None end) s)
  end.
Definition graft (a : nat) (o : option knode) (t : knode) : knode :=
  match o with Some u => put a u t | None => cut a t end.
(** The part [u] at [a] became [o], or is gone from the tree. *)
Definition taken (s s' : kst) (t : knode) (a : nat) (u : knode) (o : option knode) : Prop :=
  sound s' /\ (match o with Some u' => id_of u' = a | None => id_of t <> a end) /\ In (graft a o t) (roots s') /\
  forall x, In x (ids t) -> ~ In x (ids u) -> nth_error (vecs s') x = nth_error (vecs s) x.
Definition does_or_extracts (R : knode -> option knode -> Prop) (cb : callback) : Prop :=
  forall past s t a u, sound s -> In t (roots s) -> sub a t = Some u ->
  exists s' b o, cb past s a = Val (s', b) /\ taken s s' t a u o /\ R u o.

(** Effects: anything; no new nodes; only new values, never stopping. *)
Definition anything : effect := fun _ _ _ _ => True.
Inductive part_of {A} : list A -> list A -> Prop :=
| part_nil : part_of [] []
| part_keep x l m : part_of l m -> part_of (x :: l) (x :: m)
| part_drop x l m : part_of l m -> part_of l (x :: m).
Definition sheds : effect := fun _ _ u u' => part_of (ids u') (ids u).
Fixpoint revalued (u u' : knode) : Prop :=
  match u, u' with
  | KN i _ _ s, KN j _ _ s' =>
      i = j /\
      (fix each (s s' : list (option knode)) : Prop :=
         match s, s' with
         | [], [] => True
         | None :: s, None :: s' => each s s'
         | Some c :: s, Some c' :: s' => revalued c c' /\ each s s'
         | _, _ => False
         end) s s'
  end.
Definition values_only : effect := fun b kept u u' => b = false /\ length (slots_of u) < kept /\ revalued u u'.
(** No iterator is invalidated but perhaps the one past the end. *)
Definition spares_iterators : effect := fun _ kept u u' => length (slots_of u) <= kept /\ length (slots_of u) <= length (slots_of u').
(** The node has a child afterwards, and the traversal goes on. *)
Definition grows : effect := fun b _ _ u' => b = false /\ kids u' <> [].

(** The walks: [walk R u calls o], [o]: the part afterwards.  [over W slots calls
    slots']: [W] on each child. *)
Inductive over (W : knode -> list nat -> option knode -> Prop) : list (option knode) -> list nat -> list (option knode) -> Prop :=
| over_nil : over W [] [] []
| over_null s cs s' : over W s cs s' -> over W (None :: s) cs (None :: s')
| over_child c ds o s cs s' : W c ds o -> over W s cs s' -> over W (Some c :: s) (ds ++ cs) (o :: s').
Inductive pre_walk (R : effect) : knode -> list nat -> option knode -> Prop :=
| pre_stop u k u' : R true k u u' -> pre_walk R u [id_of u] (Some u')
| pre_go u k u1 cs s' : R false k u u1 -> over (pre_walk R) (slots_of u1) cs s' ->
    pre_walk R u (id_of u :: cs) (Some (with_slots u1 s')).
Inductive pos_walk (R : knode -> option knode -> Prop) : knode -> list nat -> option knode -> Prop :=
| pos_go u cs s' o : over (pos_walk R) (slots_of u) cs s' -> R (with_slots u s') o ->
    pos_walk R u (cs ++ [id_of u]) o.

(** in_order: [in_walk R u calls visited r u'], [r]: the traversal is told to stop,
    or goes on, or (None) uses an iterator that is not good. *)
Inductive in_walk (R : effect) : knode -> list nat -> nat -> option bool -> knode -> Prop :=
| in_leaf u b k u' : slots_of u = [] -> R b k u u' -> in_walk R u [id_of u] 1 (Some false) u'
| in_node u cs n r u' : slots_of u <> [] ->
    in_slots R (N.max (wsub (N.of_nat (length (slots_of u))) 1) 1) 0 u cs n r u' ->
    in_walk R u cs (S n) r u'
with in_slots (R : effect) : N -> nat -> knode -> list nat -> nat -> option bool -> knode -> Prop :=
| in_end calls p u : p = length (slots_of u) -> in_slots R calls p u [] 0 (Some false) u
| in_null calls p u cs n r u' : nth_error (slots_of u) p = Some None ->
    in_own R calls p u cs n r u' -> in_slots R calls p u cs n r u'
| in_child calls p u c ds m c' cs n r u' : nth_error (slots_of u) p = Some (Some c) ->
    in_walk R c ds m (Some false) c' -> in_own R calls p (put_slot u p (Some c')) cs n r u' ->
    in_slots R calls p u (ds ++ cs) (m + n) r u'
| in_child_stops calls p u c ds m c' : nth_error (slots_of u) p = Some (Some c) ->
    in_walk R c ds m (Some true) c' -> in_slots R calls p u ds m (Some true) (put_slot u p (Some c'))
| in_child_bad calls p u c ds m c' : nth_error (slots_of u) p = Some (Some c) ->
    in_walk R c ds m None c' -> in_slots R calls p u ds m None (put_slot u p (Some c'))
with in_own (R : effect) : N -> nat -> knode -> list nat -> nat -> option bool -> knode -> Prop :=
| own_none p u cs n r u' : in_slots R (wsub 0 1) (S p) u cs n r u' -> in_own R 0 p u cs n r u'
| own_stops calls p u k u' : calls <> 0%N -> R true k u u' -> in_own R calls p u [id_of u] 0 (Some true) u'
| own_bad calls p u k u' : calls <> 0%N -> R false k u u' -> k <= p -> in_own R calls p u [id_of u] 0 None u'
| own_goes calls p u k u1 cs n r u' : calls <> 0%N -> R false k u u1 -> p < k ->
    in_slots R (wsub calls 1) (S p) u1 cs n r u' -> in_own R calls p u (id_of u :: cs) n r u'.

(** A search: the parts that are waiting, the calls. *)
Inductive search_walk (join : list knode -> list knode -> list knode) (R : effect) : list knode -> list nat -> Prop :=
| search_nil : search_walk join R [] []
| search_stop u k u' q : R true k u u' -> search_walk join R (u :: q) [id_of u]
| search_go u k u' q cs : R false k u u' -> search_walk join R (join q (kids u')) cs ->
    search_walk join R (u :: q) (id_of u :: cs).
Definition bfs_walk := search_walk (fun q cs => q ++ cs).
Definition dfs_walk := search_walk (fun q cs => cs ++ q).

(** The orders; [ids] is pre-order. *)
Definition slotwise {A} (f : knode -> list A) (s : list (option knode)) : list (list A) :=
  map (fun c => match c with Some c => f c | None => [] end) s.
Fixpoint postorder (u : knode) : list nat :=
  match u with KN i _ _ s => concat (slotwise postorder s) ++ [i] end.
(** The node after its only slot, or between any two neighbouring slots. *)
Definition between {A} (x : A) (l : list (list A)) : list A :=
  match l with
  | [] => [x]
  | [a] => a ++ [x]
  | a :: l => a ++ concat (map (cons x) l)
  end.
Fixpoint inorder (u : knode) : list nat :=
  match u with KN i _ _ s => between i (slotwise inorder s) end.
Fixpoint level (k : nat) (u : knode) : list nat :=
  match k with 0 => [id_of u] | S k => flat_map (level k) (kids u) end.
Fixpoint depth (u : knode) : nat :=
  match u with KN _ _ _ s => S (list_max (map (fun c => match c with Some c => depth c | None => 0 end) s)) end.
Definition level_order (u : knode) : list nat := flat_map (fun k => level k u) (seq 0 (depth u)).

(** Callbacks whose calls are in range; that add no node; that only extract children
    and change values; that only change values and never stop. *)
Fixpoint in_ranges (p : body V) : Prop :=
  match p with
  | Answer _ => True
  | Do c _ k => in_range max_node_size c /\ forall r, in_ranges (k r)
  end.
Fixpoint adds_none (p : body V) : Prop :=
  match p with
  | Answer _ => True
  | Do c _ k => match c with CDelete _ | CExtract _ | CClear | CSetValue _ => True | _ => False end /\ forall r, adds_none (k r)
  end.
Fixpoint extracts_only (p : body V) : Prop :=
  match p with
  | Answer _ => True
  | Do c _ k => match c with CExtract _ | CSetValue _ => True | _ => False end /\ forall r, extracts_only (k r)
  end.
Fixpoint sets_only (p : body V) : Prop :=
  match p with
  | Answer b => b = false
  | Do c _ k => match c with CSetValue _ => True | _ => False end /\ forall r, sets_only (k r)
  end.
End Spec.
Arguments callback : clear implicits.
Arguments effect : clear implicits.
