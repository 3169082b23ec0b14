(** Property C133: traversals of k-ary trees whose callback changes the nodes
    (structures/tree.h). *)
Require Import List NArith Bool Arith Lia.
Require Import Verif.Base Verif.KaryModel Verif.KarySpec Verif.KaryIterModel Verif.KaryIterSpec Verif.KaryIterProofs Verif.KaryIterProps
  Verif.KaryWalkModel Verif.KaryWalkSpec Verif.KaryWalkProofs.
Import ListNotations.

(** The tree of [iter_state]: node 0 with the children 1, null, 3; node 1 with the
    child 4. *)
Definition walk_tree : knode nat :=
  Eval vm_compute in match fsub 0 (roots iter_state) with Some n => n | None => new_node 0 None 0 end.
Lemma walk_sound : sound 5 iter_state /\ In walk_tree (roots iter_state) /\ sub 0 walk_tree = Some walk_tree.
Proof. split; [exact (reached_sound 5 five doubling iter_state (proj1 iter_reached))|]. split; [now left|reflexivity]. Qed.

(** What callbacks that use their node do. *)
Theorem C133_callbacks :
  forall (V : Type) (max : N), (max < two64)%N -> forall (grow : nat -> nat -> nat -> nat) (f : list nat -> nat -> body V),
  ((forall past a, in_ranges max (f past a)) -> does max (@anything V) (own max grow f)) /\
  ((forall past a, adds_none (f past a)) -> does max (@sheds V) (own max grow f)) /\
  ((forall past a, extracts_only (f past a)) ->
     does max (fun b k (u u' : knode V) => sheds b k u u' /\ spares_iterators b k u u') (own max grow f)) /\
  ((forall past a, sets_only (f past a)) -> does max (@values_only V) (own max grow f)).
Proof.
  exact (fun V max MAX grow f => conj (own_anything max MAX grow f)
    (conj (own_sheds max MAX grow f) (conj (own_spares max MAX grow f) (own_values max MAX grow f)))).
Qed.
Print Assumptions C133_callbacks.
Theorem C133_extracting_callback :
  forall (V : Type) (max : N), (max < two64)%N -> forall (grow : nat -> nat -> nat -> nat),
  does_or_extracts max (fun (u : knode V) o => match parent_of u with None => o = Some u | Some _ => o = None end) (extract_self max grow).
Proof. exact @extract_self_ok. Qed.
Print Assumptions C133_extracting_callback.

(** The traversals, whatever the callback does to its node and below. *)
Theorem C133_pre_order :
  forall (V : Type) (max : N), (max < two64)%N -> forall width, N.to_nat max <= width ->
  forall (R : effect V) (cb : callback V) fuel (s : kst V) past t a u,
  does max R cb -> sound max s -> In t (roots s) -> sub a t = Some u ->
  pre_order cb width fuel s past a = NoFuel \/
  exists s' cs u', pre_order cb width fuel s past a = Val (s', past ++ cs, length cs) /\
    pre_walk R u cs (Some u') /\ changed max s s' t a u u'.
Proof. exact @pre_order_ok. Qed.
Print Assumptions C133_pre_order.
Theorem C133_searches :
  forall (V : Type) (max : N) (R : effect V) (cb : callback V) fuel (s : kst V) past t a u,
  does max R cb -> sound max s -> In t (roots s) -> sub a t = Some u ->
  (bfs cb fuel s [a] past 0 = NoFuel \/
   exists s' cs u', bfs cb fuel s [a] past 0 = Val (s', past ++ cs, length cs) /\ bfs_walk R [u] cs /\ changed max s s' t a u u') /\
  (dfs cb fuel s [a] past 0 = NoFuel \/
   exists s' cs u', dfs cb fuel s [a] past 0 = Val (s', past ++ cs, length cs) /\ dfs_walk R [u] cs /\ changed max s s' t a u u').
Proof. exact @searches_ok. Qed.
Print Assumptions C133_searches.
(** in_order goes on with an iterator of the node after calling back: undefined
    exactly if the walk comes to one that the callback has invalidated. *)
Theorem C133_in_order :
  forall (V : Type) (max : N), (max < two64)%N -> forall width, N.to_nat max <= width ->
  forall (R : effect V) (cb : callback V) fuel (s : kst V) past t a u,
  does max R cb -> sound max s -> In t (roots s) -> sub a t = Some u ->
  in_order cb width fuel s past a = NoFuel \/
  (exists s' cs n b u', in_order cb width fuel s past a = Val (s', past ++ cs, n, b) /\
     in_walk R u cs n (Some b) u' /\ changed max s s' t a u u') \/
  (in_order cb width fuel s past a = UB /\ exists cs n u', in_walk R u cs n None u').
Proof. exact @in_order_ok. Qed.
Print Assumptions C133_in_order.
(** pos_order always ends and calls exactly the nodes that were there, even if the
    callback adds nodes, empties its node or takes it out of the tree. *)
Theorem C133_pos_order :
  forall (V : Type) (max : N), (max < two64)%N -> forall width, N.to_nat max <= width ->
  forall (R : knode V -> option (knode V) -> Prop) (cb : callback V) fuel (s : kst V) past t a u,
  does_or_extracts max R cb -> sound max s -> In t (roots s) -> sub a t = Some u -> length (ids u) <= fuel ->
  exists s' o, pos_order cb width fuel s past a = Val (s', past ++ postorder u, length (postorder u)) /\
    pos_walk R u (postorder u) o /\ taken max s s' t a u o.
Proof. exact @pos_order_ok. Qed.
Print Assumptions C133_pos_order.
Theorem C133_pos_order_any_callback :
  forall (V : Type) (max : N) (R : effect V) (cb : callback V),
  does max R cb -> does_or_extracts max (fun u o => exists b k u', o = Some u' /\ R b k u u') cb.
Proof. exact @does_as_extracts. Qed.
Print Assumptions C133_pos_order_any_callback.

(** Callbacks that add no node: every traversal ends, and only nodes that were there
    are called, by pre_order in their order, by the searches at most once. *)
Theorem C133_no_new_nodes :
  forall (V : Type) (max : N), (max < two64)%N -> forall width, N.to_nat max <= width ->
  forall (R : effect V) (cb : callback V) fuel (s : kst V) past t a u,
  does max R cb -> (forall b k u u', R b k u u' -> sheds b k u u') ->
  sound max s -> In t (roots s) -> sub a t = Some u -> length (ids u) <= fuel ->
  exists s' cs u', pre_order cb width fuel s past a = Val (s', past ++ cs, length cs) /\
    pre_walk R u cs (Some u') /\ changed max s s' t a u u' /\ part_of cs (ids u) /\ part_of (ids u') (ids u).
Proof. exact @pre_order_sheds. Qed.
Print Assumptions C133_no_new_nodes.
Theorem C133_no_new_nodes_searches :
  forall (V : Type) (max : N), (max < two64)%N -> forall width, N.to_nat max <= width ->
  forall (R : effect V) (cb : callback V) fuel (s : kst V) past t a u,
  does max R cb -> (forall b k u u', R b k u u' -> sheds b k u u') ->
  sound max s -> In t (roots s) -> sub a t = Some u -> length (ids u) <= fuel ->
  (exists s' cs u', bfs cb fuel s [a] past 0 = Val (s', past ++ cs, length cs) /\
     bfs_walk R [u] cs /\ changed max s s' t a u u' /\ NoDup cs /\ incl cs (ids u)) /\
  (exists s' cs u', dfs cb fuel s [a] past 0 = Val (s', past ++ cs, length cs) /\
     dfs_walk R [u] cs /\ changed max s s' t a u u' /\ NoDup cs /\ incl cs (ids u)).
Proof. exact @searches_shed. Qed.
Print Assumptions C133_no_new_nodes_searches.
Theorem C133_no_new_nodes_in_order :
  forall (V : Type) (max : N), (max < two64)%N -> forall width, N.to_nat max <= width ->
  forall (R : effect V) (cb : callback V) fuel (s : kst V) past t a u,
  does max R cb -> (forall b k u u', R b k u u' -> sheds b k u u') ->
  sound max s -> In t (roots s) -> sub a t = Some u -> length (ids u) <= fuel ->
  (exists s' cs n b u', in_order cb width fuel s past a = Val (s', past ++ cs, n, b) /\
     in_walk R u cs n (Some b) u' /\ changed max s s' t a u u' /\ incl cs (ids u) /\ part_of (ids u') (ids u)) \/
  (in_order cb width fuel s past a = UB /\ exists cs n u', in_walk R u cs n None u').
Proof. exact @in_order_sheds. Qed.
Print Assumptions C133_no_new_nodes_in_order.
(** If it invalidates no iterator either, in_order is defined. *)
Theorem C133_in_order_defined :
  forall (V : Type) (max : N), (max < two64)%N -> forall width, N.to_nat max <= width ->
  forall (R : effect V) (cb : callback V) fuel (s : kst V) past t a u,
  does max R cb -> (forall b k u u', R b k u u' -> sheds b k u u' /\ spares_iterators b k u u') ->
  sound max s -> In t (roots s) -> sub a t = Some u -> length (ids u) <= fuel ->
  exists s' cs n b u', in_order cb width fuel s past a = Val (s', past ++ cs, n, b) /\
    in_walk R u cs n (Some b) u' /\ changed max s s' t a u u' /\ incl cs (ids u) /\ part_of (ids u') (ids u).
Proof. exact @in_order_spares. Qed.
Print Assumptions C133_in_order_defined.

(** Callbacks that only set values: the five orders, and the same tree but for the
    values. *)
Theorem C133_setting_values :
  forall (V : Type) (max : N), (max < two64)%N -> forall width, N.to_nat max <= width ->
  forall (cb : callback V) fuel (s : kst V) past t a u,
  does max (@values_only V) cb -> sound max s -> In t (roots s) -> sub a t = Some u -> length (ids u) <= fuel ->
  (exists s' u', pre_order cb width fuel s past a = Val (s', past ++ ids u, length (ids u)) /\ changed max s s' t a u u' /\ revalued u u') /\
  (exists s' u', in_order cb width fuel s past a = Val (s', past ++ inorder u, length (ids u), false) /\ changed max s s' t a u u' /\ revalued u u') /\
  (exists s' u', pos_order cb width fuel s past a = Val (s', past ++ postorder u, length (postorder u)) /\ changed max s s' t a u u') /\
  (exists s' u', bfs cb fuel s [a] past 0 = Val (s', past ++ level_order u, length (level_order u)) /\ changed max s s' t a u u') /\
  (exists s' u', dfs cb fuel s [a] past 0 = Val (s', past ++ ids u, length (ids u)) /\ changed max s s' t a u u').
Proof. exact @values_orders. Qed.
Print Assumptions C133_setting_values.
Definition ten_times : list nat -> nat -> body nat := fun past _ => Do (CSetValue (10 * length past)) false (fun _ => Answer false).
Example C133_setting_values_case :
  does 5 (@values_only nat) (own 5 doubling ten_times) /\ length (ids walk_tree) <= 4 /\
  (let* r := pre_order (own 5 doubling ten_times) 5 4 iter_state [] 0 in Val (snd (fst r))) = Val [0; 1; 4; 3] /\
  (let* r := in_order (own 5 doubling ten_times) 5 4 iter_state [] 0 in Val (snd (fst (fst r)))) = Val [4; 1; 0; 0; 3] /\
  (let* r := pos_order (own 5 doubling ten_times) 5 4 iter_state [] 0 in Val (snd (fst r))) = Val [4; 1; 3; 0] /\
  (let* r := bfs (own 5 doubling ten_times) 4 iter_state [0] [] 0 in Val (snd (fst r))) = Val [0; 1; 3; 4] /\
  (let* r := dfs (own 5 doubling ten_times) 4 iter_state [0] [] 0 in Val (snd (fst r))) = Val [0; 1; 4; 3] /\
  (let* r := dfs (own 5 doubling ten_times) 4 iter_state [0] [] 0 in
   Val (option_map value_of (fsub 3 (roots (fst (fst r)))))) = Val (Some 30).
Proof.
  split; [apply (C133_callbacks nat 5 five doubling ten_times); intros; cbn; auto|]. split; [vm_compute; lia|].
  repeat (split; [vm_compute; reflexivity|]). vm_compute. reflexivity.
Qed.

(** A callback that deletes the first slot of its node: no new nodes, but in_order
    must not go on. *)
Definition pruning : list nat -> nat -> body nat := fun _ _ => Do (CDelete 0%N) false (fun _ => Answer false).
Example C133_no_new_nodes_case :
  does 5 (@sheds nat) (own 5 doubling pruning) /\ sound 5 iter_state /\ In walk_tree (roots iter_state) /\
  (let* r := pre_order (own 5 doubling pruning) 5 4 iter_state [] 0 in Val (snd (fst r), snd r)) = Val ([0; 3], 2) /\
  (let* r := pos_order (own 5 doubling pruning) 5 4 iter_state [] 0 in Val (snd (fst r), snd r)) = Val ([4; 1; 3; 0], 4) /\
  (let* r := bfs (own 5 doubling pruning) 4 iter_state [0] [] 0 in Val (snd (fst r), snd r)) = Val ([0; 3], 2) /\
  (let* r := dfs (own 5 doubling pruning) 4 iter_state [0] [] 0 in Val (snd (fst r), snd r)) = Val ([0; 3], 2) /\
  in_order (own 5 doubling pruning) 5 4 iter_state [] 0 = UB.
Proof.
  split; [apply (C133_callbacks nat 5 five doubling pruning); intros; cbn; auto|]. destruct walk_sound as (H1 & H2 & _). split; [assumption|]. split; [assumption|].
  repeat (split; [vm_compute; reflexivity|]). vm_compute. reflexivity.
Qed.
(** Extracting and deleting the children instead: in_order is defined. *)
Definition emptying : list nat -> nat -> body nat :=
  fun _ _ => Do (CExtract 0%N) true (fun _ => Do (CExtract 2%N) true (fun _ => Answer false)).
Example C133_in_order_defined_case :
  does 5 (fun b k (u u' : knode nat) => sheds b k u u' /\ spares_iterators b k u u') (own 5 doubling emptying) /\
  exists s', in_order (own 5 doubling emptying) 5 4 iter_state [] 0 = Val (s', [4; 1; 0; 0], 3, false) /\
    option_map (@pointers nat) (fsub 0 (roots s')) = Some [None; None; None] /\ fsub 3 (roots s') = None.
Proof.
  split; [apply (C133_callbacks nat 5 five doubling emptying); intros; cbn; auto|]. eexists. split; [vm_compute; reflexivity|]. split; vm_compute; reflexivity.
Qed.

(** Taking every node out while it is called by pos_order: only the root is left. *)
Theorem C133_taking_nodes_out :
  forall (V : Type) (max : N), (max < two64)%N -> forall (grow : nat -> nat -> nat -> nat) width, N.to_nat max <= width ->
  forall fuel (s : kst V) past t, sound max s -> In t (roots s) -> length (ids t) <= fuel ->
  exists s', pos_order (extract_self max grow) width fuel s past (id_of t) = Val (s', past ++ postorder t, length (postorder t)) /\ sound max s' /\
    In (with_slots t (map (fun _ => None) (slots_of t))) (roots s').
Proof. exact @extracting_all. Qed.
Print Assumptions C133_taking_nodes_out.
Example C133_taking_nodes_out_case :
  exists s', pos_order (extract_self 5 doubling) 5 4 iter_state [] 0 = Val (s', [4; 1; 3; 0], 4) /\
    map (@ids nat) (roots s') = [[0]] /\ map (@pointers nat) (roots s') = [[None; None; None]].
Proof. eexists. split; [vm_compute; reflexivity|]. split; vm_compute; reflexivity. Qed.
(** With delete_child it is undefined for every node that has a child. *)
Theorem C133_deleting_nodes :
  forall (V : Type) (max : N), (max < two64)%N -> forall (grow : nat -> nat -> nat -> nat) width fuel, N.to_nat max <= width ->
  forall (s : kst V) past t a u, sound max s -> In t (roots s) -> sub a t = Some u ->
  length (ids u) <= fuel -> kids u <> [] -> pos_order (delete_self max grow) width fuel s past a = UB.
Proof. exact @delete_self_ub. Qed.
Print Assumptions C133_deleting_nodes.
Theorem C133_pos_order_may_delete_refuted :
  exists (s : kst nat) (t : knode nat), sound 5 s /\ In t (roots s) /\ forall fuel, length (ids t) <= fuel -> pos_order (delete_self 5 doubling) 5 fuel s [] (id_of t) = UB.
Proof.
  exists iter_state, walk_tree. destruct walk_sound as (H1 & H2 & H3). split; [assumption|]. split; [assumption|]. intros fuel F.
  apply (delete_self_ub 5 five doubling 5 fuel (le_n 5) iter_state [] walk_tree 0 walk_tree H1 H2 H3 F). discriminate.
Qed.
Print Assumptions C133_pos_order_may_delete_refuted.

(** Callbacks that leave a child at every node: pre_order and the searches go on
    forever. *)
Theorem C133_growing :
  forall (V : Type) (max : N), (max < two64)%N -> forall width, N.to_nat max <= width ->
  forall (cb : callback V) (s : kst V) past t a u,
  does max (@grows V) cb -> sound max s -> In t (roots s) -> sub a t = Some u -> forall fuel,
  pre_order cb width fuel s past a = NoFuel /\ bfs cb fuel s [a] past 0 = NoFuel /\ dfs cb fuel s [a] past 0 = NoFuel.
Proof. exact @grows_forever. Qed.
Print Assumptions C133_growing.
Definition replacing : list nat -> nat -> body nat := fun _ _ => Do (CReplaceAt 0%N 9) true (fun _ => Answer false).
Theorem C133_traversals_end_refuted :
  exists (s : kst nat) (t : knode nat) (f : list nat -> nat -> body nat), sound 5 s /\ In t (roots s) /\ (forall past a, in_ranges 5 (f past a)) /\
    forall fuel, pre_order (own 5 doubling f) 5 fuel s [] (id_of t) = NoFuel /\
      bfs (own 5 doubling f) fuel s [id_of t] [] 0 = NoFuel /\ dfs (own 5 doubling f) fuel s [id_of t] [] 0 = NoFuel.
Proof.
  exists iter_state, walk_tree, replacing. destruct walk_sound as (H1 & H2 & H3). split; [assumption|]. split; [assumption|]. split; [intros; cbn; repeat split|].
  exact (grows_forever 5 five 5 (le_n 5) _ iter_state [] walk_tree 0 walk_tree (replacing_grows 5 five doubling 5 (le_n 5) 9 eq_refl) H1 H2 H3).
Qed.
Print Assumptions C133_traversals_end_refuted.
Example C133_pos_order_case :
  (let* r := pos_order (own 5 doubling replacing) 5 4 iter_state [] 0 in Val (snd (fst r), snd r)) = Val ([4; 1; 3; 0], 4).
Proof. vm_compute. reflexivity. Qed.

(** Adding in in_order: fine while the capacity suffices, undefined after it. *)
Definition adding (n : nat) : list nat -> nat -> body nat :=
  fun past a => if (a =? 0) && (length (filter (Nat.eqb 0) past) <? n) then Do (CAdd 9) false (fun _ => Answer false) else Answer false.
Theorem C133_in_order_may_add_refuted :
  exists (s : kst nat) (t : knode nat), sound 5 s /\ In t (roots s) /\
    in_order (own 5 doubling (adding 1)) 5 9 s [] (id_of t) <> UB /\
    (forall past a, in_ranges 5 (adding 2 past a)) /\ in_order (own 5 doubling (adding 2)) 5 9 s [] (id_of t) = UB.
Proof.
  exists iter_state, walk_tree. destruct walk_sound as (H1 & H2 & H3). split; [assumption|]. split; [assumption|]. split; [vm_compute; discriminate|]. split; [|vm_compute; reflexivity].
  intros past a. unfold adding. destruct (_ && _); cbn; auto.
Qed.
Print Assumptions C133_in_order_may_add_refuted.
