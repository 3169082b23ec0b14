(** Theorems about traversals whose callback changes binary nodes (C128). *)
Require Import List NArith Bool Arith Lia.
Require Import Verif.Base Verif.BnodeModel Verif.BnodeSpec Verif.BnodeNavModel Verif.BnodeNavSpec
  Verif.BnodeWalkModel Verif.BnodeWalkSpec Verif.BnodeWalkProofs.
Import ListNotations.

(** ** Callbacks that change only the part below and including their node *)

(** A callback that works on the node it got, with any calls of its members, is of
    this kind; without add_left and add_right it only prunes; with set_value and
    swap alone it keeps the shape. *)
Theorem C128_own_node : forall {V} (v0 : V) f, does anything (own v0 f).
Proof. exact (fun V => @own_does V). Qed.
Print Assumptions C128_own_node.
Theorem C128_own_node_no_adding : forall {V} (v0 : V) f, (forall past a, adds_none (f past a)) ->
  does prunes (own v0 f).
Proof. exact (fun V => @own_prunes V). Qed.
Print Assumptions C128_own_node_no_adding.
Theorem C128_own_node_values : forall {V} (v0 : V) f, (forall past a, sets_only (f past a)) ->
  does values_only (own v0 f).
Proof. exact (fun V => @own_values V). Qed.
Print Assumptions C128_own_node_values.

(** Whatever such a callback does, a traversal that ends is defined, counts its
    calls, calls the nodes that are there when it comes to them, and leaves the
    rest of the tree alone; nothing leaks. *)
Theorem C128_pre_order : forall {V} R (cb : callback V), does R cb -> forall fuel h past t os a u,
  holds h (t :: os) -> sub a t = Some u ->
  pre_order cb fuel h past a = NoFuel \/
  exists h' cs u' os', pre_order cb fuel h past a = Val (h', past ++ cs, length cs) /\ pre_walk R u cs u' /\
    (root u' = Some a \/ u' = ALeaf /\ root t <> Some a) /\ holds h' (put a u' t :: os').
Proof. exact (fun V => @pre_ok V). Qed.
Print Assumptions C128_pre_order.
Theorem C128_in_order : forall {V} R (cb : callback V), does R cb -> forall fuel h past t os a u,
  holds h (t :: os) -> sub a t = Some u ->
  in_order cb fuel h past a = NoFuel \/
  exists h' cs u' os', in_order cb fuel h past a = Val (h', past ++ cs, length cs) /\ in_walk R u cs u' /\
    (root u' = Some a \/ u' = ALeaf /\ root t <> Some a) /\ holds h' (put a u' t :: os').
Proof. exact (fun V => @in_ok V). Qed.
Print Assumptions C128_in_order.
Theorem C128_breadth_first : forall {V} R (cb : callback V) fuel h t os a, does R cb ->
  holds h (t :: os) -> root t = Some a ->
  bfs cb fuel h [a] [] 0 = NoFuel \/
  exists h' cs t' os', bfs cb fuel h [a] [] 0 = Val (h', cs, length cs) /\ bfs_walk R [t] cs /\
    root t' = Some a /\ holds h' (t' :: os').
Proof. exact (fun V => @bfs_ok V). Qed.
Print Assumptions C128_breadth_first.
Theorem C128_depth_first : forall {V} R (cb : callback V) fuel h t os a, does R cb ->
  holds h (t :: os) -> root t = Some a ->
  dfs cb fuel h [a] [] 0 = NoFuel \/
  exists h' cs t' os', dfs cb fuel h [a] [] 0 = Val (h', cs, length cs) /\ dfs_walk R [t] cs /\
    root t' = Some a /\ holds h' (t' :: os').
Proof. exact (fun V => @dfs_ok V). Qed.
Print Assumptions C128_depth_first.

(** pos_order always ends and calls every node once, in post-order, also when the
    callback deletes its own node from the node's parent. *)
Theorem C128_pos_order : forall {V} R (cb : callback V) fuel h past t os a u, does_or_deletes R cb ->
  holds h (t :: os) -> sub a t = Some u -> depth u <= fuel ->
  exists h' u' os', pos_order cb fuel h past a = Val (h', past ++ postorder u, length (postorder u)) /\
    pos_walk R u (postorder u) u' /\ holds h' (put a u' t :: os').
Proof. exact (fun V => @pos_all V). Qed.
Print Assumptions C128_pos_order.
Theorem C128_deleting_its_node : forall {V} (v0 : V),
  does_or_deletes (V := V) (fun _ u u' => u' = u \/ u' = ALeaf) remove_self.
Proof. exact (fun V => @remove_self_does V). Qed.
Print Assumptions C128_deleting_its_node.

(** ** Callbacks that add no nodes: every traversal ends and calls no node twice *)
Theorem C128_pre_order_pruning : forall {V} (cb : callback V) fuel h past t os a u, does prunes cb ->
  holds h (t :: os) -> sub a t = Some u -> depth u <= fuel ->
  exists h' cs u' os', pre_order cb fuel h past a = Val (h', past ++ cs, length cs) /\
    part_of cs (addrs u) /\ pruned u u' /\ holds h' (put a u' t :: os').
Proof. exact (fun V => @pre_prunes_all V). Qed.
Print Assumptions C128_pre_order_pruning.
Theorem C128_in_order_pruning : forall {V} (cb : callback V) fuel h past t os a u, does prunes cb ->
  holds h (t :: os) -> sub a t = Some u -> depth u <= fuel ->
  exists h' cs u' os', in_order cb fuel h past a = Val (h', past ++ cs, length cs) /\
    part_of cs (inorder u) /\ pruned u u' /\ holds h' (put a u' t :: os').
Proof. exact (fun V => @in_prunes_all V). Qed.
Print Assumptions C128_in_order_pruning.
Theorem C128_breadth_first_pruning : forall {V} (cb : callback V) fuel h t os a, does prunes cb ->
  holds h (t :: os) -> root t = Some a -> length (addrs t) <= fuel ->
  exists h' cs t' os', bfs cb fuel h [a] [] 0 = Val (h', cs, length cs) /\ NoDup cs /\ incl cs (addrs t) /\
    root t' = Some a /\ holds h' (t' :: os').
Proof. exact (fun V => @bfs_prunes_all V). Qed.
Print Assumptions C128_breadth_first_pruning.
Theorem C128_depth_first_pruning : forall {V} (cb : callback V) fuel h t os a, does prunes cb ->
  holds h (t :: os) -> root t = Some a -> length (addrs t) <= fuel ->
  exists h' cs t' os', dfs cb fuel h [a] [] 0 = Val (h', cs, length cs) /\ NoDup cs /\ incl cs (addrs t) /\
    root t' = Some a /\ holds h' (t' :: os').
Proof. exact (fun V => @dfs_prunes_all V). Qed.
Print Assumptions C128_depth_first_pruning.

(** ** Callbacks that only change values and never stop: every node once, in the
    order of the traversal *)
Theorem C128_pre_order_values : forall {V} (cb : callback V) fuel h past t os a u, does values_only cb ->
  holds h (t :: os) -> sub a t = Some u -> depth u <= fuel ->
  exists h' u' os', pre_order cb fuel h past a = Val (h', past ++ addrs u, length (addrs u)) /\
    revalued u u' /\ holds h' (put a u' t :: os').
Proof. exact (fun V => @pre_values_all V). Qed.
Print Assumptions C128_pre_order_values.
Theorem C128_in_order_values : forall {V} (cb : callback V) fuel h past t os a u, does values_only cb ->
  holds h (t :: os) -> sub a t = Some u -> depth u <= fuel ->
  exists h' u' os', in_order cb fuel h past a = Val (h', past ++ inorder u, length (inorder u)) /\
    revalued u u' /\ holds h' (put a u' t :: os').
Proof. exact (fun V => @in_values_all V). Qed.
Print Assumptions C128_in_order_values.
Theorem C128_breadth_first_values : forall {V} (cb : callback V) fuel h t os a, does values_only cb ->
  holds h (t :: os) -> root t = Some a -> length (addrs t) <= fuel ->
  exists h' t' os', bfs cb fuel h [a] [] 0 = Val (h', level_order t, length (level_order t)) /\
    root t' = Some a /\ holds h' (t' :: os').
Proof. exact (fun V => @bfs_values_all V). Qed.
Print Assumptions C128_breadth_first_values.
Theorem C128_depth_first_values : forall {V} (cb : callback V) fuel h t os a, does values_only cb ->
  holds h (t :: os) -> root t = Some a -> length (addrs t) <= fuel ->
  exists h' t' os', dfs cb fuel h [a] [] 0 = Val (h', addrs t, length (addrs t)) /\
    root t' = Some a /\ holds h' (t' :: os').
Proof. exact (fun V => @dfs_values_all V). Qed.
Print Assumptions C128_depth_first_values.

(** ** What goes wrong *)

(** A callback that adds a child on the way of the traversal, on the node it got:
    the traversal does not end, on any tree. *)
Theorem C128_ends_refuted : exists f : list nat -> nat -> body nat, exists g : list nat -> nat -> body nat,
  does anything (own 0 f) /\ does anything (own 0 g) /\
  forall h past t os a u, holds h (t :: os) -> sub a t = Some u -> forall fuel,
  pre_order (own 0 f) fuel h past a = NoFuel /\ in_order (own 0 g) fuel h past a = NoFuel /\
  (root t = Some a -> bfs (own 0 f) fuel h [a] [] 0 = NoFuel /\ dfs (own 0 f) fuel h [a] [] 0 = NoFuel).
Proof.
  exists (grow false 7), (grow true 7). split; [apply own_does|]. split; [apply own_does|].
  intros h past t os a u H S fuel. exact (growing_all 0 7 fuel h past t os a u H S).
Qed.
Print Assumptions C128_ends_refuted.

(** The tree of the examples: 0 with children 1 and 2, 2 with child 3 on the left. *)
Definition c128_heap : heap nat :=
  [Some (mkB None 10 (Some 1) (Some 2)); Some (mkB (Some 0) 11 None None);
   Some (mkB (Some 0) 12 (Some 3) None); Some (mkB (Some 2) 13 None None)].
Definition c128_tree : atree nat :=
  ANode 0 10 (ANode 1 11 ALeaf ALeaf) (ANode 2 12 (ANode 3 13 ALeaf ALeaf) ALeaf).
Lemma c128_holds : holds c128_heap [c128_tree].
Proof.
  split; [|split].
  - intros t [<-|[]]; cbn; auto 10.
  - repeat constructor; cbn; intuition congruence.
  - intros [|[|[|[|x]]]] n E; cbn; auto 10. now destruct x.
Qed.

(** A callback that deletes its own node from the node's parent, which is fine in
    pos_order, is undefined in the other traversals. *)
Theorem C128_deleting_its_node_refuted : exists (h : heap nat) t a, holds h [t] /\ root t = Some a /\
  pre_order remove_self 9 h [] a = UB /\ in_order remove_self 9 h [] a = UB /\
  bfs remove_self 9 h [a] [] 0 = UB /\ dfs remove_self 9 h [a] [] 0 = UB.
Proof.
  exists c128_heap, c128_tree, 0. split; [exact c128_holds|]. split; [reflexivity|]. now vm_compute.
Qed.
Print Assumptions C128_deleting_its_node_refuted.

(** A callback that deletes a node that the search has put aside but not yet
    called is undefined; pre_order and in_order do not mind. *)
Theorem C128_deleting_another_node_refuted : exists (h : heap nat) t a x y, holds h [t] /\ root t = Some a /\
  bfs (remove_other x y) 9 h [a] [] 0 = UB /\ dfs (remove_other x y) 9 h [a] [] 0 = UB /\
  (exists h', pre_order (remove_other x y) 9 h [] a = Val (h', [0; 1], 2)) /\
  (exists h', in_order (remove_other x y) 9 h [] a = Val (h', [1; 0], 2)).
Proof.
  exists c128_heap, c128_tree, 0, 2, 1. split; [exact c128_holds|]. split; [reflexivity|].
  split; [now vm_compute|]. split; [now vm_compute|]. split; eexists; vm_compute; reflexivity.
Qed.
Print Assumptions C128_deleting_another_node_refuted.

(** ** Cases *)

(** Delete the left child of every node, or read and double the value. *)
Definition c128_prune : list nat -> nat -> body nat := fun _ _ => Do (ODelete false) (fun _ => Answer false).
Definition c128_double : list nat -> nat -> body nat :=
  fun _ _ => Do OGet (fun r => match r with RVal v => Do (OSet (2 * v)) (fun _ => Answer false) | _ => Answer false end).

Example C128_case :
  holds c128_heap [c128_tree] /\ sub 0 c128_tree = Some c128_tree /\ root c128_tree = Some 0 /\ depth c128_tree = 3 /\
  (forall past a, adds_none (c128_prune past a)) /\ (forall past a, sets_only (c128_double past a)) /\
  pre_order (own 0 c128_prune) 3 c128_heap [] 0 = Val
    ([Some (mkB None 10 None (Some 2)); None; Some (mkB (Some 0) 12 None None); None], [0; 2], 2) /\
  bfs (own 0 c128_double) 4 c128_heap [0] [] 0 = Val
    ([Some (mkB None 20 (Some 1) (Some 2)); Some (mkB (Some 0) 22 None None);
      Some (mkB (Some 0) 24 (Some 3) None); Some (mkB (Some 2) 26 None None)], [0; 1; 2; 3], 4) /\
  pos_order remove_self 3 c128_heap [] 0 = Val ([Some (mkB None 10 None None); None; None; None], [1; 3; 2; 0], 4).
Proof.
  split; [exact c128_holds|]. split; [reflexivity|]. split; [reflexivity|]. split; [reflexivity|].
  split; [cbn; auto|]. split.
  { intros past a. cbn. split; [easy|]. intros []; cbn; auto. }
  split; [|split]; vm_compute; reflexivity.
Qed.
