(** Properties C48-C51, C53 and C98: k-ary nodes (tree.h). *)
Require Import List Arith NArith Bool Permutation.
Require Import Verif.Base Verif.KaryModel Verif.KarySpec Verif.KaryProofs.
Import ListNotations.

Local Ltac run := repeat (apply conj); (vm_compute; reflexivity).

(** A program on nodes with at most three children: two owned nodes, children
    at two levels, a refused insertion, a replacement, an extraction, a
    deletion, a call on a missing child, a node destroyed. *)
Definition demo : list (op nat) :=
  [KNew 10; KCall 0 [] (CAdd 11); KCall 0 [] (CInsertAt 2 13); KCall 0 [] (CInsertNull 12);
   KCall 0 [] (CAdd 14); KCall 0 [0%N] (CInsertAt 1 21); KCall 0 [] (CReplaceAt 0 15);
   KCall 0 [] (CExtract 2); KCall 0 [2%N] (CAdd 31); KCall 1 [1%N] (CAdd 32);
   KCall 0 [] (CDelete 1); KCall 0 [7%N] CClear; KDrop 1; KNew 40; KCall 3 [] (CSetValue 41)].

Example demo_answers : exists s, run 3 start demo =
    Val (s, [ANone; ABool true; ABool true; ABool true; ABool false; ABool true; ANode true; ANode true;
             AExn NullNode; ABool true; ABool true; AExn OutOfRange; ANone; ANone; ANone]) /\
  roots s = [Some (KN 0 None 10 [Some (KN 5 (Some 0) 15 []); None]); None; Some (KN 2 None 13 []); Some (KN 7 None 41 [])] /\
  freed s = [3; 6; 4; 1] /\ fresh s = 8 /\ attached s = [0; 5; 2; 7].
Proof. eexists. run. Qed.
Example demo_ok : (3 < two64)%N /\ Forall (in_range 3) demo.
Proof. split; [reflexivity|]. repeat constructor. Qed.

(** C48: no node ever has more than max_node_size slots. *)
Theorem C48_never_too_many_children : forall V (m : N), (m < two64)%N ->
  forall ops : list (op V), Forall (in_range m) ops ->
  exists s l, run m start ops = Val (s, l) /\ each_root (narrow (N.to_nat m)) s.
Proof.
  intros V m M ops R. destruct (histories m M ops R) as (s & l & E & H & _). exact (ex_intro _ s (ex_intro _ l (conj E H))).
Qed.
Print Assumptions C48_never_too_many_children.

(** C48: a full node answers false and stays as it is. *)
Theorem C48_full_node_refuses : forall V (m : N) i (n : knode V) v n' b i', length (slots_of n) <= N.to_nat m ->
  insert_at_first_null m i n v = (n', b, i') ->
  (b = true <-> exists p, p < N.to_nat m /\ slot (slots_of n) p = None) /\ (b = false -> n' = n /\ i' = i) /\
  (b = true -> i' = S i /\ exists p, p < N.to_nat m /\ slot (slots_of n) p = None /\
     (forall j, j < p -> slot (slots_of n) j <> None) /\
     slot (slots_of n') p = Some (new_node i (Some (id_of n)) v) /\ same_but n n' p).
Proof. exact @insert_null_spec. Qed.
Print Assumptions C48_full_node_refuses.
Theorem C48_add_child : forall V (m : N) i (n : knode V) v n' b i', add_child m i n v = (n', b, i') ->
  (b = true <-> length (slots_of n) < N.to_nat m) /\ (b = false -> n' = n /\ i' = i) /\
  (b = true -> i' = S i /\ n' = with_slots n (slots_of n ++ [Some (new_node i (Some (id_of n)) v)])).
Proof. exact @add_child_spec. Qed.
Print Assumptions C48_add_child.

(** C49: after any program, the nodes attached to something owned and the nodes
    released are together exactly the nodes created, each once. *)
Theorem C49_owned_exactly_once : forall V (m : N), (m < two64)%N ->
  forall ops : list (op V), Forall (in_range m) ops ->
  exists s l, run m start ops = Val (s, l) /\ Permutation (attached s ++ freed s) (seq 0 (fresh s)).
Proof.
  intros V m M ops R. destruct (histories m M ops R) as (s & l & E & _ & _ & H). exact (ex_intro _ s (ex_intro _ l (conj E H))).
Qed.
Print Assumptions C49_owned_exactly_once.

(** C50: insert_at refuses every position that is not below the maximum. *)
Theorem C50_insert_at_refuses_partial : forall V (m : N) i (n : knode V) p v,
  (m <= p)%N -> insert_at m i n p v = (n, false, i).
Proof. exact @inserts_refused. Qed.
Print Assumptions C50_insert_at_refuses_partial.

(** C50 is false for replace_at: it writes outside the vector, for every node
    and every such position. *)
Theorem C50_replace_at_refuted : exists (n : knode nat) p,
  length (slots_of n) <= 3 /\ (3 <= p)%N /\ replace_at 3 9 n p 5 = UB.
Proof. exists (KN 0 None 1 [None; Some (KN 1 (Some 0) 2 [])]), 3%N. split; [cbn; auto|]. split; [apply N.le_refl|reflexivity]. Qed.
Print Assumptions C50_replace_at_refuted.
Theorem C50_replace_at_always_out_of_bounds : forall V (m : N) i (n : knode V) p v,
  (m <= p)%N -> length (slots_of n) <= N.to_nat m -> replace_at m i n p v = UB.
Proof. exact @replace_at_ub. Qed.
Print Assumptions C50_replace_at_always_out_of_bounds.

Definition full : knode nat :=
  KN 0 None 1 [Some (KN 1 (Some 0) 2 []); None; Some (KN 2 (Some 0) 3 [None])].
Example C50_case : insert_at 3 9 full 3 5 = (full, false, 9) /\ insert_at 3 9 full (2 ^ 64 - 1) 5 = (full, false, 9).
Proof. run. Qed.

(** C51: insert_at fills exactly the slot asked for, if it is free. *)
Theorem C51_insert_at : forall V (m : N), (m < two64)%N -> forall i (n : knode V) p v n' b i',
  insert_at m i n p v = (n', b, i') ->
  (b = true <-> (p < m)%N /\ slot (slots_of n) (N.to_nat p) = None) /\
  (b = false -> n' = n /\ i' = i) /\
  (b = true -> i' = S i /\ slot (slots_of n') (N.to_nat p) = Some (new_node i (Some (id_of n)) v) /\
     same_but n n' (N.to_nat p) /\ length (slots_of n') = Nat.max (length (slots_of n)) (S (N.to_nat p))).
Proof. exact @insert_at_spec. Qed.
Print Assumptions C51_insert_at.

(** C51: replace_at below the maximum hands back what was there, without
    parent. *)
Theorem C51_replace_at : forall V (m : N), (m < two64)%N -> forall i (n : knode V) p v, (p < m)%N -> exists n',
  replace_at m i n p v = Val (n', option_map (fun c => set_parent c None) (slot (slots_of n) (N.to_nat p)), S i) /\
  slot (slots_of n') (N.to_nat p) = Some (new_node i (Some (id_of n)) v) /\ same_but n n' (N.to_nat p) /\
  length (slots_of n') = Nat.max (length (slots_of n)) (S (N.to_nat p)).
Proof. exact @replace_at_spec. Qed.
Print Assumptions C51_replace_at.

(** C51: extract_child empties the slot and hands the child back; delete_child
    removes the slot, moves the later ones down, and releases the child with
    everything below it. *)
Theorem C51_extract_child : forall V (n : knode V) p n' o, extract_child n p = (n', o) ->
  o = option_map (fun c => set_parent c None) (slot (slots_of n) (N.to_nat p)) /\
  slot (slots_of n') (N.to_nat p) = None /\ same_but n n' (N.to_nat p) /\ length (slots_of n') = length (slots_of n).
Proof. exact @extract_child_spec. Qed.
Print Assumptions C51_extract_child.
Theorem C51_delete_child : forall V (n : knode V) p n' b f, delete_child n p = (n', b, f) ->
  (b = true <-> N.to_nat p < length (slots_of n)) /\ (b = false -> n' = n /\ f = []) /\
  (b = true -> n' = with_slots n (firstn (N.to_nat p) (slots_of n) ++ skipn (S (N.to_nat p)) (slots_of n)) /\
     Permutation f (match slot (slots_of n) (N.to_nat p) with Some c => ids c | None => [] end)).
Proof. exact @delete_child_spec. Qed.
Print Assumptions C51_delete_child.

(** C51: the queries agree with the slots. *)
Theorem C51_child_and_has_child : forall V (n : knode V) p,
  has_child n p = match slot (slots_of n) (N.to_nat p) with Some _ => true | None => false end /\
  child n p = match slot (slots_of n) (N.to_nat p) with
              | Some c => Val c
              | None => if Nat.ltb (N.to_nat p) (length (slots_of n)) then Exn NullNode else Exn OutOfRange
              end.
Proof. exact @child_spec. Qed.
Print Assumptions C51_child_and_has_child.
Theorem C51_children_count : forall V (n : knode V), (N.of_nat (length (slots_of n)) < two64)%N ->
  children_count n = N.of_nat (length (filter (fun c => match c with Some _ => true | None => false end) (slots_of n))).
Proof. exact @count_spec. Qed.
Print Assumptions C51_children_count.
Theorem C51_find : forall V veq (n : knode V) v, match find veq n v with
  | (true, k) => (exists c, slot (slots_of n) (N.to_nat k) = Some c /\ veq (value_of c) v = true) /\
      forall j c, j < N.to_nat k -> slot (slots_of n) j = Some c -> veq (value_of c) v = false
  | (false, k) => k = (2 ^ 64 - 1)%N /\ forall j c, slot (slots_of n) j = Some c -> veq (value_of c) v = false
  end.
Proof. exact @find_spec. Qed.
Print Assumptions C51_find.
Theorem C51_first : forall V (n : knode V),
  (exists c k, first n = Val c /\ slot (slots_of n) k = Some c /\ forall j, j < k -> slot (slots_of n) j = None) \/
  (first n = Exn NullNode /\ forall j, slot (slots_of n) j = None).
Proof. exact @first_spec. Qed.
Print Assumptions C51_first.
Theorem C51_last : forall V (n : knode V),
  (exists c k, last n = Val c /\ slot (slots_of n) k = Some c /\ forall j, k < j -> slot (slots_of n) j = None) \/
  (last n = Exn NullNode /\ forall j, slot (slots_of n) j = None).
Proof. exact @last_spec. Qed.
Print Assumptions C51_last.

Example C51_case :
  fst (fst (insert_at 9 7 full 1 5)) = KN 0 None 1 [Some (KN 1 (Some 0) 2 []); Some (KN 7 (Some 0) 5 []); Some (KN 2 (Some 0) 3 [None])] /\
  fst (fst (insert_at 9 7 full 4 5)) = KN 0 None 1 [Some (KN 1 (Some 0) 2 []); None; Some (KN 2 (Some 0) 3 [None]); None; Some (KN 7 (Some 0) 5 [])] /\
  snd (fst (insert_at 9 7 full 2 5)) = false /\
  insert_at_first_null 3 7 full 5 = (KN 0 None 1 [Some (KN 1 (Some 0) 2 []); Some (KN 7 (Some 0) 5 []); Some (KN 2 (Some 0) 3 [None])], true, 8) /\
  delete_child full 0 = (KN 0 None 1 [None; Some (KN 2 (Some 0) 3 [None])], true, [1]) /\
  extract_child full 2 = (KN 0 None 1 [Some (KN 1 (Some 0) 2 []); None; None], Some (KN 2 None 3 [None])) /\
  find Nat.eqb full 3 = (true, 2%N) /\ find Nat.eqb full 9 = (false, (2 ^ 64 - 1)%N) /\
  children_count full = 2%N /\ first full = Val (KN 1 (Some 0) 2 []) /\ last full = Val (KN 2 (Some 0) 3 [None]) /\
  child full 1 = Exn NullNode /\ child full 3 = Exn OutOfRange.
Proof. run. Qed.

(** C53 is false: after copying a tree whose root has a child, destroying both
    trees releases that child twice; assigning over a tree loses its nodes. *)
Theorem C53_double_free_refuted : exists (n : knode nat) m f,
  NoDup (ids n) /\ copy_assign 7 None (Some n) 0 = (m, 8) /\
  destroy_tree m [] = Val f /\ destroy_tree (Some n) f = UB.
Proof.
  exists full. eexists _, _. split; [|run]. cbn. repeat constructor; cbn; intuition discriminate.
Qed.
Print Assumptions C53_double_free_refuted.

Theorem C53_assignment_leaks_refuted : exists (t n : knode nat) m f g,
  copy_assign 7 (Some t) (Some n) 0 = (m, 8) /\ destroy_tree m [] = Val f /\ destroy_tree (Some n) f = Val g /\
  ids t = [5] /\ g = [7; 6].
Proof. exists (KN 5 None 1 []), (KN 6 None 2 [None]). eexists _, _, _. run. Qed.
Print Assumptions C53_assignment_leaks_refuted.
(** C53: whenever a copy is assigned over a tree, none of the old nodes is ever
    released. *)
Theorem C53_assignment_always_leaks : forall V (t n : knode V) i v0,
  NoDup (ids n) -> ~ In i (ids n) -> ~ In i (ids t) -> (forall x, In x (ids t) -> ~ In x (ids n)) ->
  forall m j f, copy_assign i (Some t) (Some n) v0 = (m, j) -> destroy_tree m [] = Val f ->
  forall g, destroy_tree (Some n) f = Val g -> forall x, In x (ids t) -> ~ In x g.
Proof. exact @assign_leaks. Qed.
Print Assumptions C53_assignment_always_leaks.

(** C53, exactly: copying into an empty tree is right if and only if the root
    has no child; then each of the two nodes is released once, in both orders. *)
Theorem C53_copy_partial : forall V (n : knode V) i v0, NoDup (ids n) -> ~ In i (ids n) ->
  exists m, copy_assign i None (Some n) v0 = (Some m, S i) /\
  exists f g, destroy_tree (Some m) [] = Val f /\ destroy_tree (Some n) [] = Val g /\
  ((forall j, slot (slots_of n) j = None) ->
     destroy_tree (Some n) f = Val [i; id_of n] /\ destroy_tree (Some m) g = Val [id_of n; i]) /\
  ((exists j c, slot (slots_of n) j = Some c) ->
     destroy_tree (Some n) f = UB /\ destroy_tree (Some m) g = UB).
Proof. exact @copy_destroyed. Qed.
Print Assumptions C53_copy_partial.

(** C53: a move into an empty tree hands over the whole tree; destroying it
    releases every node once. *)
Theorem C53_move_partial : forall V (n : knode V), NoDup (ids n) -> move_assign None (Some n) = (Some n, None) /\
  destroy_tree (Some n) [] = Val (del n) /\ Permutation (del n) (ids n).
Proof. exact @move_owns. Qed.
Print Assumptions C53_move_partial.
Example C53_case : NoDup (ids full) /\ ~ In 7 (ids full) /\ destroy_tree (Some full) [] = Val [1; 2; 0] /\
  (exists j c, slot (slots_of full) j = Some c) /\ (forall j, slot (slots_of (KN 6 None 2 [None])) j = None).
Proof.
  split; [cbn; repeat constructor; cbn; intuition discriminate|]. split; [cbn; intuition discriminate|]. split; [reflexivity|].
  split; [exists 0; eexists; reflexivity|]. intros [|[|j]]; reflexivity.
Qed.

(** C98: every child's parent() is the node that holds it, owned nodes (also
    those handed back) have no parent. *)
Theorem C98_parent_links : forall V (m : N), (m < two64)%N ->
  forall ops : list (op V), Forall (in_range m) ops ->
  exists s l, run m start ops = Val (s, l) /\ each_root (linked None) s.
Proof.
  intros V m M ops R. destruct (histories m M ops R) as (s & l & E & _ & H & _). exact (ex_intro _ s (ex_intro _ l (conj E H))).
Qed.
Print Assumptions C98_parent_links.
Example C98_case : linked None (KN 0 None 10 [Some (KN 5 (Some 0) 15 [Some (KN 6 (Some 5) 1 [])]); None]) /\
  ~ linked None (KN 0 None 10 [Some (KN 5 (Some 3) 15 [])]).
Proof. cbn. intuition discriminate. Qed.
