(** Properties C43-C47 and C97: traversals (tree.h, binary_tree.h). *)
Require Import List Arith NArith Bool Permutation.
Require Import Verif.Base Verif.AvlModel Verif.TraverseModel Verif.TraverseSpec Verif.TraverseProofs.
Import ListNotations.

Local Ltac run := repeat (apply conj); (vm_compute; reflexivity).

(** A binary tree with five nodes, in order 1 2 3 4 5, root 4. *)
Definition b1 : btree nat := BNode 1 BLeaf BLeaf.
Definition b3 : btree nat := BNode 3 BLeaf BLeaf.
Definition b2 : btree nat := BNode 2 b1 b3.
Definition b5 : btree nat := BNode 5 BLeaf BLeaf.
Definition b4 : btree nat := BNode 4 b2 b5.
(** A k-ary tree with a node of three slots, one of them null, a node of one
    slot, and a node whose only slot is null. *)
Definition k5 : ktree nat := KNode 5 [].
Definition k4 : ktree nat := KNode 4 [None].
Definition k3 : ktree nat := KNode 3 [].
Definition k2 : ktree nat := KNode 2 [Some k5].
Definition k1 : ktree nat := KNode 1 [Some k2; None; Some k3; Some k4].

(** C43: with a callback that never answers true, the three traversals call it
    on every node once, in their order, and return the number of nodes. *)
Theorem C43_binary_traversals : forall V (t : btree V),
  in_order never t [] = (inorder t, bcount t) /\ pre_order never t [] = (preorder t, bcount t) /\
  pos_order never t [] = (postorder t, bcount t) /\
  length (inorder t) = bcount t /\ length (preorder t) = bcount t /\ length (postorder t) = bcount t.
Proof. exact @binary_traversals. Qed.
Print Assumptions C43_binary_traversals.

Example C43_case : inorder b4 = [b1; b2; b3; b4; b5] /\ preorder b4 = [b4; b2; b1; b3; b5] /\
  postorder b4 = [b1; b3; b2; b5; b4] /\ bcount b4 = 5.
Proof. run. Qed.

(** C43: the in-order walk of the AVL model (AvlModel.v) is this traversal. *)
Theorem C43_avl_in_order : forall T (t : tree T),
  flat_map (fun s => match s with BNode v _ _ => [v] | BLeaf => [] end) (inorder (of_avl t)) = AvlModel.in_order t /\
  bcount (of_avl t) = AvlModel.visited t.
Proof. exact @avl_in_order. Qed.
Print Assumptions C43_avl_in_order.

(** C44: the calls made by breadth_first_search are those of a level-order walk
    that ends right after the first true; the result is their number. *)
Theorem C44_breadth_first : forall V (cb : list (ktree V) -> ktree V -> bool) (t : ktree V), exists tr,
  bfs cb (Some t) = Val (tr, length tr) /\ tr = until_true cb [] (level_order t).
Proof. exact @bfs_level_order. Qed.
Print Assumptions C44_breadth_first.

(** C44: level order has every node exactly once. *)
Theorem C44_level_order_complete : forall V (t : ktree V), Permutation (level_order t) (kpre t).
Proof. exact @level_order_perm. Qed.
Print Assumptions C44_level_order_complete.

(** C44, C45: the same for a tree_t over binary nodes; an empty tree calls
    nothing. *)
Theorem C44_C45_binary : forall V (cb : list (ktree V) -> ktree V -> bool) (t : btree V),
  bfs cb (of_btree t) = Val (match as_kary t with None => [] | Some k => until_true cb [] (level_order k) end,
                             length (match as_kary t with None => [] | Some k => until_true cb [] (level_order k) end)) /\
  dfs cb (of_btree t) = Val (match as_kary t with None => [] | Some k => until_true cb [] (kpre k) end,
                             length (match as_kary t with None => [] | Some k => until_true cb [] (kpre k) end)).
Proof. exact @binary_bfs_dfs. Qed.
Print Assumptions C44_C45_binary.

Example C44_case :
  level_order k1 = [k1; k2; k3; k4; k5] /\
  bfs never (Some k1) = Val ([k1; k2; k3; k4; k5], 5) /\
  bfs (fun past t => Nat.eqb (kvalue t) 3) (Some k1) = Val ([k1; k2; k3], 3) /\
  bfs (fun past t => Nat.eqb (length past) 1) (Some k1) = Val ([k1; k2], 2) /\
  bfs never (@None (ktree nat)) = Val ([], 0).
Proof. run. Qed.

(** C45: depth_first_search is a pre-order walk that ends right after the first
    true; the result is the number of calls. *)
Theorem C45_depth_first : forall V (cb : list (ktree V) -> ktree V -> bool) (t : ktree V), exists tr,
  dfs cb (Some t) = Val (tr, length tr) /\ tr = until_true cb [] (kpre t).
Proof. exact @dfs_pre_order. Qed.
Print Assumptions C45_depth_first.

(** C45: on binary trees that is the pre-order of the binary traversal. *)
Theorem C45_binary_pre_order : forall V (t : btree V) k, as_kary t = Some k ->
  map kvalue (kpre k) = flat_map (fun s => match s with BNode v _ _ => [v] | BLeaf => [] end) (preorder t).
Proof. exact @as_kary_preorder. Qed.
Print Assumptions C45_binary_pre_order.

Example C45_case :
  kpre k1 = [k1; k2; k5; k3; k4] /\
  dfs never (Some k1) = Val ([k1; k2; k5; k3; k4], 5) /\
  dfs (fun past t => Nat.eqb (kvalue t) 3) (Some k1) = Val ([k1; k2; k5; k3], 4).
Proof. run. Qed.
Example C45_binary_case : exists k, as_kary b4 = Some k /\ map kvalue (kpre k) = [4; 2; 1; 3; 5].
Proof. eexists. run. Qed.

(** C46 is false: in_order only leaves out the right subtree of the node,
    pre_order only the subtree of the node, pos_order nothing. *)
Theorem C46_binary_stop_refuted : exists (t : btree nat) (f : btree nat -> bool),
  (exists p x q, fst (in_order (fun _ y => f y) t []) = p ++ x :: q /\ f x = true /\ q <> []) /\
  (exists p x q, fst (pre_order (fun _ y => f y) t []) = p ++ x :: q /\ f x = true /\ q <> []) /\
  (exists p x q, fst (pos_order (fun _ y => f y) t []) = p ++ x :: q /\ f x = true /\ q <> []).
Proof.
  exists b4, (fun t => match t with BNode 2 _ _ => true | _ => false end). split; [|split].
  - exists [b1], b2, [b4; b5]. split; [reflexivity|]. split; [reflexivity|discriminate].
  - exists [b4], b2, [b5]. split; [reflexivity|]. split; [reflexivity|discriminate].
  - exists [b1; b3], b2, [b5; b4]. split; [reflexivity|]. split; [reflexivity|discriminate].
Qed.
Print Assumptions C46_binary_stop_refuted.

(** C46, what holds for every callback: calls are made in the order of the full
    traversal, none twice, and the number returned is the number of calls;
    pos_order ignores the answers. *)
Theorem C46_binary_calls_partial : forall V (cb : list (btree V) -> btree V -> bool) (t : btree V),
  (exists tr, in_order cb t [] = (tr, length tr) /\ sub tr (inorder t)) /\
  (exists tr, pre_order cb t [] = (tr, length tr) /\ sub tr (preorder t)) /\
  pos_order cb t [] = (postorder t, bcount t).
Proof. exact @binary_stop. Qed.
Print Assumptions C46_binary_calls_partial.

(** C46, what a true answer does, for callbacks that look at the node only:
    pre_order calls exactly the nodes without an ancestor that answers true,
    in_order exactly those not on the right of one. *)
Theorem C46_binary_pruning_partial : forall V (f : btree V -> bool) (t : btree V),
  fst (pre_order (fun _ x => f x) t []) =
    map snd (filter (fun x => negb (existsb (fun a => f (fst a)) (fst x))) (pre_anc [] t)) /\
  fst (in_order (fun _ x => f x) t []) =
    map snd (filter (fun x => negb (existsb (fun a => snd a && f (fst a)) (fst x))) (in_anc [] t)) /\
  map snd (pre_anc [] t) = preorder t /\ map snd (in_anc [] t) = inorder t.
Proof. exact @binary_pruning. Qed.
Print Assumptions C46_binary_pruning_partial.

Example C46_case :
  let f := fun t => match t with BNode 2 _ _ => true | _ => false end in
  in_order (fun _ x => f x) b4 [] = ([b1; b2; b4; b5], 4) /\
  pre_order (fun _ x => f x) b4 [] = ([b4; b2; b5], 3) /\
  pos_order (fun _ x => f x) b4 [] = ([b1; b3; b2; b5; b4], 5).
Proof. run. Qed.

(** C47: k-ary traversals with a callback that never answers true. *)
Theorem C47_kary_traversals : forall V (t : ktree V),
  kpre_order never t [] = (kpre t, kcount t) /\ kpos_order never t [] = (kpost t, kcount t) /\
  length (kpre t) = kcount t /\ length (kpost t) = kcount t /\
  (fits t -> kin_order never t [] = (kin t, kcount t, false)).
Proof. exact @kary_traversals. Qed.
Print Assumptions C47_kary_traversals.

(** C47: between the walks of [s] slots, in_order calls the node itself
    max(1, s - 1) times. *)
Theorem C47_calls_per_node : forall A (mine : A -> bool) (x : A) (l : list (list A)),
  mine x = true -> Forall (fun a => filter mine a = []) l ->
  length (filter mine (between x l)) = Nat.max 1 (length l - 1).
Proof. exact @between_counts. Qed.
Print Assumptions C47_calls_per_node.

Example C47_case :
  fits k1 /\ kin_order never k1 [] = ([k5; k2; k1; k1; k3; k1; k4], 5, false) /\
  kpre_order never k1 [] = ([k1; k2; k5; k3; k4], 5) /\
  kpos_order never k1 [] = ([k5; k2; k3; k4; k1], 5).
Proof. cbn [fits fold_right k1 k2 k3 k4 k5]. repeat split. Qed.
Example C47_calls_case :
  Forall (fun a => filter (Nat.eqb 1) a = []) [[2; 3]; []; [4]; [5]] /\ between 1 [[2; 3]; []; [4]; [5]] = [2; 3; 1; 1; 4; 1; 5].
Proof. split; [repeat constructor|reflexivity]. Qed.

(** C97 is false: pre_order goes on after a true, pos_order ignores it, and
    in_order ignores the answer on a node without slots. *)
Theorem C97_kary_stop_refuted :
  (exists (t : ktree nat) (f : ktree nat -> bool) p x q,
     fst (kpre_order (fun _ y => f y) t []) = p ++ x :: q /\ f x = true /\ q <> []) /\
  (exists (t : ktree nat) (f : ktree nat -> bool) p x q,
     fst (kpos_order (fun _ y => f y) t []) = p ++ x :: q /\ f x = true /\ q <> []) /\
  (exists (t : ktree nat) (f : ktree nat -> bool) p x q,
     fst (fst (kin_order (fun _ y => f y) t [])) = p ++ x :: q /\ f x = true /\ q <> [] /\ slots_of x = []).
Proof.
  split; [|split].
  - exists k1, (fun t => Nat.eqb (kvalue t) 2), [k1], k2, [k3; k4]. split; [reflexivity|]. split; [reflexivity|discriminate].
  - exists k1, (fun t => Nat.eqb (kvalue t) 2), [k5], k2, [k3; k4; k1]. split; [reflexivity|]. split; [reflexivity|discriminate].
  - exists k1, (fun t => Nat.eqb (kvalue t) 5), [], k5, [k2; k1; k1; k3; k1; k4].
    split; [reflexivity|]. split; [reflexivity|]. split; [discriminate|reflexivity].
Qed.
Print Assumptions C97_kary_stop_refuted.

(** C97, what holds: for every callback the calls come in the order of the full
    traversal, and in_order makes no call after a true on a node with slots. *)
Theorem C97_kary_calls_partial : forall V (cb : list (ktree V) -> ktree V -> bool) (t : ktree V),
  (exists tr, kpre_order cb t [] = (tr, length tr) /\ sub tr (kpre t)) /\
  kpos_order cb t [] = (kpost t, kcount t) /\
  (fits t -> exists tr n brk, kin_order cb t [] = (tr, n, brk) /\ sub tr (kin t) /\
     forall p x q, tr = p ++ x :: q -> slots_of x <> [] -> cb p x = true -> q = []).
Proof. exact @kary_stop. Qed.
Print Assumptions C97_kary_calls_partial.

Example C97_case :
  fits k1 /\ kin_order (fun _ t => Nat.eqb (kvalue t) 2) k1 [] = ([k5; k2], 3, true) /\
  kin_order (fun past t => Nat.eqb (length past) 3) k1 [] = ([k5; k2; k1; k1], 3, true).
Proof. cbn [fits fold_right k1 k2 k3 k4 k5]. repeat split. Qed.
