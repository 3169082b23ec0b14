(** Property C54: the array heap (heap.h). *)
Require Import List Arith NArith Bool.
Require Import Verif.Base Verif.HeapModel Verif.HeapSpec Verif.HeapProofs.
Import ListNotations.
Local Open Scope N_scope.

Local Ltac run := repeat (apply conj); (vm_compute; reflexivity).

(** C54: the parent of a child is the position; the largest positions for which
    this is claimed are those whose children are representable. *)
Theorem C54_parent_inverts_children : forall pos,
  (pos < 2 ^ 63 -> parent_of (left_child_of pos) = pos) /\
  (pos < 2 ^ 63 - 1 -> parent_of (right_child_of pos) = pos).
Proof. exact (fun pos => conj (parent_left pos) (parent_right pos)). Qed.
Print Assumptions C54_parent_inverts_children.
Example C54_parent_case : left_child_of 4611686018427387904 = 9223372036854775809 /\
  parent_of 9223372036854775809 = 4611686018427387904 /\ parent_of 0 = 0 /\ right_child_of 5 = 12.
Proof. run. Qed.
(** At the first position beyond, the child wraps around. *)
Theorem C54_parent_inverts_all_positions_refuted : exists pos, pos < two64 /\
  parent_of (left_child_of pos) <> pos /\ left_child_of pos = left_child_of 0.
Proof. exists (2 ^ 63). split; [reflexivity|]. split; [discriminate|reflexivity]. Qed.
Print Assumptions C54_parent_inverts_all_positions_refuted.

(** C54: distinct positions have distinct children. *)
Theorem C54_children_are_distinct : forall p q, p < 2 ^ 63 - 1 -> q < 2 ^ 63 - 1 ->
  left_child_of p <> right_child_of q /\
  (left_child_of p = left_child_of q -> p = q) /\ (right_child_of p = right_child_of q -> p = q).
Proof. exact children_distinct. Qed.
Print Assumptions C54_children_are_distinct.
(** C54: every position other than 0 is a child of its parent, which is smaller. *)
Theorem C54_every_position_is_a_child : forall pos, 0 < pos < two64 ->
  parent_of pos < pos /\ (pos = left_child_of (parent_of pos) \/ pos = right_child_of (parent_of pos)).
Proof. exact child_of_parent. Qed.
Print Assumptions C54_every_position_is_a_child.

(** C54: the positions are the level order of the full binary tree: the functions
    follow and drop the last step of a path, every position has exactly one path. *)
Theorem C54_level_order : forall p, level_order p < 2 ^ 63 - 1 ->
  left_child_of (level_order p) = level_order (p ++ [false]) /\
  right_child_of (level_order p) = level_order (p ++ [true]) /\
  parent_of (level_order (p ++ [false])) = level_order p /\
  parent_of (level_order (p ++ [true])) = level_order p.
Proof. exact level_order_children. Qed.
Print Assumptions C54_level_order.
Theorem C54_one_path_each : (forall pos, exists p, level_order p = pos) /\
  (forall p q, level_order p = level_order q -> p = q).
Proof. exact (conj path_of_position path_unique). Qed.
Print Assumptions C54_one_path_each.
Example C54_path_case : level_order [true; false; true] = 12 /\ level_order [true; false] = 5 /\
  map level_order [[]; [false]; [true]; [false; false]; [false; true]; [true; false]; [true; true]] = [0; 1; 2; 3; 4; 5; 6].
Proof. run. Qed.

(** C54: swap exchanges an element with its parent's and touches no other; the
    root is left alone, positions outside throw. *)
Theorem C54_swap_with_parent : forall T (h : list T) pos, 0 < pos < sizeN h -> sizeN h <= two64 ->
  exists h', swap h pos = Val h' /\ exchanged pos (parent_of pos) h h'.
Proof. exact (fun T => @swap_ok T). Qed.
Print Assumptions C54_swap_with_parent.
Theorem C54_swap_outside : forall T (h : list T),
  swap h 0 = Val h /\ forall pos, 0 < pos < two64 -> sizeN h <= pos -> swap h pos = Exn OutOfRange.
Proof. exact (fun T h => conj (swap_root h) (swap_out h)). Qed.
Print Assumptions C54_swap_outside.
Theorem C54_swap_with_children : forall T (h : list T) pos, pos < sizeN h -> sizeN h < 2 ^ 63 ->
  (if (2 * pos + 1 <? sizeN h)%N
   then exists h', swap_with_left_child h pos = Val h' /\ exchanged (2 * pos + 1) pos h h'
   else swap_with_left_child h pos = Val h) /\
  (if (2 * pos + 2 <? sizeN h)%N
   then exists h', swap_with_right_child h pos = Val h' /\ exchanged (2 * pos + 2) pos h h'
   else swap_with_right_child h pos = Val h).
Proof. exact (fun T => @swap_children T). Qed.
Print Assumptions C54_swap_with_children.
Example C54_swap_case : swap [10; 11; 12; 13] 3 = Val [10; 13; 12; 11] /\
  swap_with_left_child [10; 11; 12; 13] 1 = Val [10; 13; 12; 11] /\
  swap_with_right_child [10; 11; 12; 13] 1 = Val [10; 11; 12; 13] /\
  swap [10; 11] 2 = Exn OutOfRange.
Proof. run. Qed.
(** A position that is not in the array can still change it: its left child
    wraps around to position 1. *)
Theorem C54_swap_with_child_of_no_element_refuted : exists (h h' : list N) pos, sizeN h <= pos < two64 /\
  swap_with_left_child h pos = Val h' /\ h' <> h.
Proof.
  exists [10; 11], [11; 10], (2 ^ 63). split; [split; [discriminate|reflexivity]|].
  split; [reflexivity|discriminate].
Qed.
Print Assumptions C54_swap_with_child_of_no_element_refuted.

(** C54: set_left and set_right store the value and grow the array as needed,
    except when the child is the first position behind the end. *)
Theorem C54_set_left_partial : forall T (d : T) h pos x, pos < 2 ^ 61 -> sizeN h <> 2 * pos + 1 ->
  exists h', set_left d h pos x = Val h' /\ stored d (2 * pos + 1) x h h' /\
    sizeN h' = if 2 * pos + 1 <? sizeN h then sizeN h else 4 * pos + 4.
Proof. exact (fun T => @set_left_ok T). Qed.
Print Assumptions C54_set_left_partial.
Theorem C54_set_right_partial : forall T (d : T) h pos x, pos < 2 ^ 61 - 1 -> sizeN h <> 2 * pos + 2 ->
  exists h', set_right d h pos x = Val h' /\ stored d (2 * pos + 2) x h h' /\
    sizeN h' = if 2 * pos + 2 <? sizeN h then sizeN h else 4 * pos + 6.
Proof. exact (fun T => @set_right_ok T). Qed.
Print Assumptions C54_set_right_partial.
Example C54_set_case : set_left 0 [10] 1 77 = Val [10; 0; 0; 77; 0; 0; 0; 0] /\
  set_right 0 [10; 11; 12] 0 77 = Val [10; 11; 77].
Proof. run. Qed.
(** There they always throw. *)
Theorem C54_set_at_boundary_throws : forall T (d : T) h pos x, pos < 2 ^ 61 ->
  (sizeN h = 2 * pos + 1 -> set_left d h pos x = Exn OutOfRange) /\
  (sizeN h = 2 * pos + 2 -> set_right d h pos x = Exn OutOfRange).
Proof. exact (fun T d h pos x H => conj (set_left_boundary d h pos x H) (set_right_boundary d h pos x H)). Qed.
Print Assumptions C54_set_at_boundary_throws.
Theorem C54_set_child_refuted : exists (h : list N) x,
  h = [10] /\ set_left 0 h 0 x = Exn OutOfRange /\ set_right 0 [10; 11] 0 x = Exn OutOfRange.
Proof. exists [10], 77. run. Qed.
Print Assumptions C54_set_child_refuted.

(** C54: the ends; reading them from an empty heap throws or is undefined. *)
Theorem C54_root_head_tail : forall T (h : list T) x,
  (h = [] -> set_root h x = Exn OutOfRange /\ head h = Exn OutOfRange /\ head_const h = UB /\ tail h = UB) /\
  (forall y r, h = y :: r ->
     set_root h x = Val (x :: r) /\ head h = Val y /\ head_const h = Val y) /\
  (forall r y, h = r ++ [y] -> tail h = Val y).
Proof. exact (fun T => @root_head_tail T). Qed.
Print Assumptions C54_root_head_tail.
Example C54_ends_case : set_root [10; 11; 12] 77 = Val [77; 11; 12] /\ head [10; 11; 12] = Val 10 /\ tail [10; 11; 12] = Val 12.
Proof. run. Qed.

(** C117: height_of(pos) is the number of nodes on the path from the root to
    pos.  True unless the path only goes left. *)
Theorem C117_height_partial : forall lg path, exact_below_2_40 lg -> In true path ->
  level_order path < 2 ^ 40 ->
  height_of lg (level_order path) = Val (N.of_nat (length path) + 1).
Proof. exact height_right. Qed.
Print Assumptions C117_height_partial.
(** The leftmost node of every level is reported one level too high. *)
Theorem C117_leftmost_too_small : forall lg path, exact_below_2_40 lg -> ~ In true path -> path <> [] ->
  level_order path < 2 ^ 40 ->
  height_of lg (level_order path) = Val (N.of_nat (length path)).
Proof. exact height_left. Qed.
Print Assumptions C117_leftmost_too_small.
(** The root has no height at all, and two siblings have different ones. *)
Theorem C117_height_refuted : exists lg, exact_below_2_40 lg /\
  height_of lg (level_order []) = UB /\
  height_of lg (level_order [false]) = Val 1 /\ height_of lg (level_order [true]) = Val 2.
Proof. exists (fun pos => N.log2 pos + 1). split; [intros pos _; reflexivity|]. run. Qed.
Print Assumptions C117_height_refuted.
Example C117_case : In true [false; true; false] /\ level_order [false; true; false] = 9 /\
  level_order [false; false; false] = 7 /\ exact_below_2_40 (fun pos => N.log2 pos + 1) /\
  height_of (fun pos => N.log2 pos + 1) 9 = Val 4 /\ height_of (fun pos => N.log2 pos + 1) 7 = Val 3.
Proof. split; [cbn; auto|]. split; [reflexivity|]. split; [reflexivity|]. split; [intros pos _; reflexivity|]. run. Qed.
