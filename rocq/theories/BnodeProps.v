(** Properties C52 and C99: the binary nodes (binary_tree.h). *)
Require Import List Arith NArith Bool.
Require Import Verif.Base Verif.BnodeModel Verif.BnodeSpec Verif.BnodeProofs.
Import ListNotations.

Local Ltac run := repeat (apply conj); (vm_compute; reflexivity).
Local Ltac nodup := repeat (constructor; [cbn; intuition congruence|]); constructor.

(** Two trees in one heap: 10(11(12, -), 13) at 0..3 and 20(21, 22(-, 23)) at
    4..7; address 8 was deleted earlier.  Node 4 has parent 3 (a stack node may
    have any parent pointer). *)
Definition hp : heap nat :=
  [Some (mkB None 10 (Some 1) (Some 3)); Some (mkB (Some 0) 11 (Some 2) None);
   Some (mkB (Some 1) 12 None None); Some (mkB (Some 0) 13 None None);
   Some (mkB (Some 3) 20 (Some 5) (Some 6)); Some (mkB (Some 4) 21 None None);
   Some (mkB (Some 4) 22 None (Some 7)); Some (mkB (Some 6) 23 None None); None].
Definition ta : atree nat := ANode 0 10 (ANode 1 11 (ANode 2 12 ALeaf ALeaf) ALeaf) (ANode 3 13 ALeaf ALeaf).
Definition tb : atree nat := ANode 4 20 (ANode 5 21 ALeaf ALeaf) (ANode 6 22 ALeaf (ANode 7 23 ALeaf ALeaf)).
Example case_trees : tree_at hp None ta /\ tree_at hp (Some 3) tb /\ apart ta tb /\ depth ta = 3 /\ depth tb = 3.
Proof.
  split; [split; [run|nodup]|]. split; [split; [run|nodup]|]. split; [|run].
  intros x H K. cbn in H, K. intuition congruence.
Qed.

(** C52: assigning from a node of another tree copies it: the node keeps its
    address and parent and gets the shape and values of the other, made of new
    nodes; the other tree and everything else stay, the old children are deleted.
    What is missing for C52 is aliasing, below. *)
Theorem C52_copy_from_another_tree_partial : forall V (v0 : V) fuel (h : heap V) p q a v l r b w bl br,
  tree_at h p (ANode a v l r) -> tree_at h q (ANode b w bl br) ->
  apart (ANode a v l r) (ANode b w bl br) ->
  depth (ANode a v l r) <= fuel -> depth (ANode b w bl br) <= fuel ->
  exists h' t', assign v0 fuel h a b = Val h' /\ root t' = Some a /\ tree_at h' p t' /\
    alike (ANode b w bl br) t' /\ tree_at h' q (ANode b w bl br) /\
    (forall x, In x (addrs t') <-> x = a \/ length h <= x < length h') /\
    only [a] (addrs l ++ addrs r) h h'.
Proof. exact (fun V => @assign_apart V). Qed.
Print Assumptions C52_copy_from_another_tree_partial.
Example C52_copy_case : assign 0 3 hp 0 4 = Val
  [Some (mkB None 20 (Some 9) (Some 10)); None; None; None;
   Some (mkB (Some 3) 20 (Some 5) (Some 6)); Some (mkB (Some 4) 21 None None);
   Some (mkB (Some 4) 22 None (Some 7)); Some (mkB (Some 6) 23 None None); None;
   Some (mkB (Some 0) 21 None None); Some (mkB (Some 0) 22 None (Some 11)); Some (mkB (Some 10) 23 None None)].
Proof. run. Qed.

(** C52: the same for a new node built from another. *)
Theorem C52_copy_constructor : forall V (v0 : V) fuel (h : heap V) q b w bl br,
  tree_at h q (ANode b w bl br) -> depth (ANode b w bl br) <= fuel ->
  exists h' t', copy_construct v0 fuel h b = Val (h', length h) /\ root t' = Some (length h) /\
    tree_at h' None t' /\ alike (ANode b w bl br) t' /\ tree_at h' q (ANode b w bl br) /\
    (forall x, In x (addrs t') <-> length h <= x < length h') /\ only [] [] h h'.
Proof. exact (fun V => @copy_construct_ok V). Qed.
Print Assumptions C52_copy_constructor.
Example C52_construct_case : exists h', copy_construct 0 3 hp 4 = Val (h', 9) /\
  skipn 9 h' = [Some (mkB None 20 (Some 10) (Some 11)); Some (mkB (Some 9) 21 None None);
                Some (mkB (Some 9) 22 None (Some 12)); Some (mkB (Some 11) 23 None None)].
Proof. eexists. run. Qed.

(** C52: moving from a node of another tree hands its children over, with their
    parent updated; the other is left childless and without parent; the old
    children are deleted; nothing else changes. *)
Theorem C52_move_from_another_tree_partial : forall V fuel (h : heap V) p q a v l r b w bl br,
  tree_at h p (ANode a v l r) -> tree_at h q (ANode b w bl br) ->
  apart (ANode a v l r) (ANode b w bl br) -> depth (ANode a v l r) <= fuel ->
  exists h', move fuel h a b = Val h' /\ length h' = length h /\
    tree_at h' p (ANode a w bl br) /\ tree_at h' None (ANode b w ALeaf ALeaf) /\
    only (a :: b :: roots bl br) (addrs l ++ addrs r) h h'.
Proof. exact (fun V => @move_apart V). Qed.
Print Assumptions C52_move_from_another_tree_partial.
Example C52_move_case : move 3 hp 0 4 = Val
  [Some (mkB None 20 (Some 5) (Some 6)); None; None; None; Some (mkB None 20 None None);
   Some (mkB (Some 0) 21 None None); Some (mkB (Some 0) 22 None (Some 7)); Some (mkB (Some 6) 23 None None); None].
Proof. run. Qed.

(** C52 fails for [n = n]: the children are always deleted. *)
Theorem C52_self_assignment_drops_children : forall V (v0 : V) fuel (h : heap V) p a v l r,
  tree_at h p (ANode a v l r) -> depth (ANode a v l r) <= fuel ->
  exists h', assign v0 fuel h a a = Val h' /\ tree_at h' p (ANode a v ALeaf ALeaf) /\
    only [a] (addrs l ++ addrs r) h h'.
Proof. exact (fun V => @assign_self V). Qed.
Print Assumptions C52_self_assignment_drops_children.

(** C52 fails for [n = d] with [d] below [n]: [d] is read after it was deleted. *)
Theorem C52_assignment_from_descendant_is_UB : forall V (v0 : V) fuel (h : heap V) p a v l r b,
  tree_at h p (ANode a v l r) -> depth (ANode a v l r) <= fuel -> In b (addrs l ++ addrs r) ->
  assign v0 fuel h a b = UB.
Proof. exact (fun V => @assign_from_descendant V). Qed.
Print Assumptions C52_assignment_from_descendant_is_UB.

(** C52 fails for [n.left() = n]: the copy reads the nodes it makes and never ends. *)
Theorem C52_assignment_to_left_child_never_ends : forall V (v0 : V) fuel (h : heap V) p a v lv b ll lr r,
  tree_at h p (ANode a v (ANode b lv ll lr) r) -> depth (ANode b lv ll lr) <= fuel ->
  assign v0 fuel h b a = NoFuel.
Proof. exact (fun V => @assign_child_from_node V). Qed.
Print Assumptions C52_assignment_to_left_child_never_ends.

(** C52 fails for moving from itself: children and parent are lost. *)
Theorem C52_self_move_drops_children_and_parent : forall V fuel (h : heap V) p a v l r,
  tree_at h p (ANode a v l r) -> depth (ANode a v l r) <= fuel ->
  exists h', move fuel h a a = Val h' /\ tree_at h' None (ANode a v ALeaf ALeaf) /\
    only [a] (addrs l ++ addrs r) h h'.
Proof. exact (fun V => @move_self V). Qed.
Print Assumptions C52_self_move_drops_children_and_parent.

(** C52 fails for moving from below: the source is read after it was deleted. *)
Theorem C52_move_from_descendant_is_UB : forall V fuel (h : heap V) p a v l r b,
  tree_at h p (ANode a v l r) -> depth (ANode a v l r) <= fuel -> In b (addrs l ++ addrs r) ->
  move fuel h a b = UB.
Proof. exact (fun V => @move_from_descendant V). Qed.
Print Assumptions C52_move_from_descendant_is_UB.

(** C52 in short: there are a tree and an alias for which the assignment does
    not leave the node alike to what was assigned. *)
Theorem C52_aliasing_is_safe_refuted : exists (h : heap nat) (t : atree nat) a,
  tree_at h None t /\ root t = Some a /\
  (exists h' t', assign 0 3 h a a = Val h' /\ tree_at h' None t' /\ root t' = Some a /\ ~ alike t t') /\
  assign 0 3 h a 1 = UB /\ assign 0 3 h a 2 = UB /\ assign 0 100 h 1 a = NoFuel /\
  move 3 h a 1 = UB /\
  (exists h' t', move 3 h a a = Val h' /\ tree_at h' None t' /\ root t' = Some a /\ ~ alike t t').
Proof.
  exists hp, ta, 0. split; [apply case_trees|]. split; [reflexivity|]. split.
  { eexists. exists (ANode 0 10 ALeaf ALeaf). split; [vm_compute; reflexivity|].
    split; [split; [run|nodup]|]. split; [reflexivity|]. now intros (_ & [] & _). }
  split; [run|]. split; [run|]. split; [run|]. split; [run|].
  eexists. exists (ANode 0 10 ALeaf ALeaf). split; [vm_compute; reflexivity|].
  split; [split; [run|nodup]|]. split; [reflexivity|]. now intros (_ & [] & _).
Qed.
Print Assumptions C52_aliasing_is_safe_refuted.

(** C99: adding a child where there is one changes nothing and answers false. *)
Theorem C99_add_refuses_taken_side : forall V (h : heap V) p t a dir v, tree_at h p t -> root t = Some a ->
  child dir t <> ALeaf -> add_child h a dir v = Val (h, false).
Proof. exact (fun V => @add_child_taken V). Qed.
Print Assumptions C99_add_refuses_taken_side.
(** C99: otherwise the child is added, with this node as parent; no other node changes. *)
Theorem C99_add_to_free_side : forall V (h : heap V) p t a dir v, tree_at h p t -> root t = Some a ->
  child dir t = ALeaf ->
  exists h', add_child h a dir v = Val (h', true) /\ length h' = S (length h) /\
    tree_at h' p (set_child dir t (ANode (length h) v ALeaf ALeaf)) /\ only [a] [] h h'.
Proof. exact (fun V => @add_child_free V). Qed.
Print Assumptions C99_add_to_free_side.
Example C99_add_case : add_child hp 0 false 99 = Val (hp, false) /\
  tree_at hp (Some 4) (ANode 6 22 ALeaf (ANode 7 23 ALeaf ALeaf)) /\
  exists h', add_child hp 6 false 99 = Val (h', true) /\
    nth_error h' 6 = Some (Some (mkB (Some 4) 22 (Some 9) (Some 7))) /\
    nth_error h' 9 = Some (Some (mkB (Some 6) 99 None None)).
Proof. split; [run|]. split; [split; [run|nodup]|]. eexists. run. Qed.

(** C99: deleting a child removes and releases exactly its subtree and tells
    whether there was one. *)
Theorem C99_delete_child_by_side : forall V fuel (h : heap V) p t a dir, tree_at h p t -> root t = Some a ->
  depth t <= fuel ->
  exists h', delete_child fuel h a dir = Val (h', match child dir t with ALeaf => false | _ => true end) /\
    length h' = length h /\ tree_at h' p (set_child dir t ALeaf) /\
    only [a] (addrs (child dir t)) h h'.
Proof. exact (fun V => @delete_child_ok V). Qed.
Print Assumptions C99_delete_child_by_side.
(** C99: by index, for indices below 2^32: 0 is left, 1 is right, others do nothing. *)
Theorem C99_delete_child_by_index_partial : forall V fuel (h : heap V) a i, (i < 2 ^ 32)%N ->
  delete_child_at fuel h a i =
    if (i <? 2)%N then delete_child fuel h a (i =? 1)%N else Val (h, false).
Proof. exact (fun V => @delete_child_at_ok V). Qed.
Print Assumptions C99_delete_child_by_index_partial.
Example C99_delete_case : delete_child_at 3 hp 0 0 = Val
  (set_nth (set_nth (set_nth hp 0 (Some (mkB None 10 None (Some 3)))) 1 None) 2 None, true) /\
  delete_child_at 3 hp 1 1 = Val (hp, false) /\ delete_child_at 3 hp 0 2 = Val (hp, false).
Proof. run. Qed.
(** C99 fails for an index of 2^32, which is no child: the left child is deleted. *)
Theorem C99_delete_child_by_index_refuted : exists (h h' : heap nat) t a i,
  tree_at h None t /\ root t = Some a /\ (2 <= i < two64)%N /\
  delete_child_at 3 h a i = Val (h', true) /\ nth_error h' 1 = Some None.
Proof.
  exists hp. eexists. exists ta, 0, (2 ^ 32)%N. split; [apply case_trees|]. split; [reflexivity|].
  split; [split; [discriminate|reflexivity]|]. split; vm_compute; reflexivity.
Qed.
Print Assumptions C99_delete_child_by_index_refuted.

(** C99: swap exchanges the values of the node and its child, the tree keeps its
    shape; without that child nothing happens. *)
Theorem C99_swap_exchanges_values : forall V (h : heap V) p t a v dir c w cl cr, tree_at h p t -> root t = Some a ->
  (exists l r, t = ANode a v l r) -> child dir t = ANode c w cl cr ->
  exists h', swap h a dir = Val h' /\ length h' = length h /\
    tree_at h' p (set_val (set_child dir t (ANode c v cl cr)) w) /\ only [a; c] [] h h'.
Proof. exact (fun V => @swap_ok V). Qed.
Print Assumptions C99_swap_exchanges_values.
Theorem C99_swap_without_child : forall V (h : heap V) p t a dir, tree_at h p t -> root t = Some a ->
  child dir t = ALeaf -> swap h a dir = Val h.
Proof. exact (fun V => @swap_none V). Qed.
Print Assumptions C99_swap_without_child.
Example C99_swap_case : swap hp 0 true = Val
  (set_nth (set_nth hp 0 (Some (mkB None 13 (Some 1) (Some 3)))) 3 (Some (mkB (Some 0) 10 None None))) /\
  swap hp 1 true = Val hp.
Proof. run. Qed.

(** C99: clear and delete release exactly the subtree. *)
Theorem C99_clear_and_delete : forall V fuel (h : heap V) p a v l r, tree_at h p (ANode a v l r) ->
  depth (ANode a v l r) <= fuel ->
  (exists h', clear fuel h a = Val h' /\ length h' = length h /\
    nth_error h' a = Some (Some (mkB p v None None)) /\ only [a] (addrs l ++ addrs r) h h') /\
  (exists h', delete fuel h a = Val h' /\ length h' = length h /\ only [] (addrs (ANode a v l r)) h h').
Proof. exact (fun V => @clear_and_delete V). Qed.
Print Assumptions C99_clear_and_delete.
Example C99_clear_case : clear 3 hp 0 = Val (set_nth (None :: None :: None :: None :: skipn 4 hp) 0 (Some (mkB None 10 None None))) /\
  delete 3 hp 0 = Val (None :: None :: None :: None :: skipn 4 hp).
Proof. run. Qed.
