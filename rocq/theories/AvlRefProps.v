(** Properties C129 and C130: references to nodes of the AVL tree, and traversals
    whose callbacks use the tree. *)
Require Import List Arith NArith ZArith Bool Lia.
Require Import Verif.Base Verif.AvlModel Verif.AvlSpec Verif.AvlProofs Verif.AvlProps.
Require Import Verif.AvlRefModel Verif.AvlRefSpec Verif.AvlRefProofs.
Import ListNotations.

Local Ltac run := repeat (apply conj); (vm_compute; reflexivity).

(** C129: insertions, queries, moves and changes of the flag leave every reference
    valid, with the same value. *)
Theorem C129_references_survive_insertions :
  forall (T : Type) (o : order T), lawful o ->
  forall ops1 ops2 s1 outs1 s2 outs2, (N.of_nat (length ops1 + length ops2) < big)%N ->
  arun o avl_new ops1 = Val (s1, outs1) -> Forall keeps ops2 -> arun o s1 ops2 = Val (s2, outs2) ->
  forall k v, get k s1 = Val v -> get k s2 = Val v.
Proof. exact @survive. Qed.
Print Assumptions C129_references_survive_insertions.
(** The node of 5, the root, goes down in a rotation and keeps its value. *)
Example C129_survive_case : exists s1 outs1 s2 outs2,
  arun zord avl_new (ins [5; 3; 8]%Z) = Val (s1, outs1) /\
  arun zord s1 (ins [9; 10; 11; 12; 13]%Z ++ [ASetDup true; AInsert 5%Z; AMove; ASize]) = Val (s2, outs2) /\
  Forall keeps (ins [9; 10; 11; 12; 13]%Z ++ [ASetDup true; AInsert 5%Z; AMove; ASize]) /\
  root_ref s1 = Val 0 /\ get 0 s1 = Val 5%Z /\ root_ref s2 = Val 3 /\ get 0 s2 = Val 5%Z.
Proof.
  do 4 eexists. split; [vm_compute; reflexivity|]. split; [vm_compute; reflexivity|]. split; [repeat constructor|]. run.
Qed.

(** C129: without duplicates, a removal ends exactly one reference: that of the removed
    value or that of the next larger one.  In the second case the node of the removed
    value now has the larger value.  All other references keep their values. *)
Theorem C129_removal_ends_one_reference :
  forall (T : Type) (o : order T), lawful o ->
  forall ops v s outs s', (N.of_nat (length ops) < big)%N -> Forall never_dup ops ->
  arun o avl_new ops = Val (s, outs) -> remove o s v = Val (s', true) ->
  exists d w, get d s = Val w /\
    (w = v \/ lt_ o v w = true /\ forall k x, get k s = Val x -> lt_ o v x = true -> lt_ o x w = false) /\
    (forall k x, get k s = Val x -> get k s' = UB <-> k = d) /\
    (forall k x, get k s = Val x -> x <> v -> k <> d -> get k s' = Val x) /\
    (forall k, get k s = Val v -> k <> d -> get k s' = Val w).
Proof. exact @removed_distinct. Qed.
Print Assumptions C129_removal_ends_one_reference.

(** C129: with duplicates too, a removal ends exactly one reference, and none of a value
    smaller than the removed one; those keep their values. *)
Theorem C129_removal_with_duplicates :
  forall (T : Type) (o : order T), lawful o ->
  forall ops v s outs s', (N.of_nat (length ops) < big)%N ->
  arun o avl_new ops = Val (s, outs) -> remove o s v = Val (s', true) ->
  (exists d w, get d s = Val w /\ lt_ o w v = false /\
     forall k x, get k s = Val x -> (get k s' = UB <-> k = d)) /\
  (forall k x, get k s = Val x -> lt_ o x v = true -> get k s' = Val x).
Proof. exact @removed_all_histories. Qed.
Print Assumptions C129_removal_with_duplicates.
Example C129_removal_case : exists s outs s' outs2 t t',
  arun zord avl_new (ins [5; 3; 8; 7; 9]%Z) = Val (s, outs) /\ remove zord s 5%Z = Val (s', true) /\
  Forall never_dup (ins [5; 3; 8; 7; 9]%Z) /\
  map (fun k => get k s) [0; 1; 2; 3; 4] = map Val [5; 3; 8; 7; 9]%Z /\
  map (fun k => get k s') [0; 1; 2; 3; 4] = [Val 7; Val 3; Val 8; UB; Val 9]%Z /\
  arun zord avl_new (ASetDup true :: ins [5; 3; 5; 5; 9]%Z) = Val (t, outs2) /\ remove zord t 5%Z = Val (t', true) /\
  map (fun k => get k t) [0; 1; 2; 3; 4] = map Val [5; 3; 5; 5; 9]%Z /\
  map (fun k => get k t') [0; 1; 2; 3; 4] = [Val 5; Val 3; Val 5; Val 9; UB]%Z.
Proof.
  do 6 eexists. split; [vm_compute; reflexivity|]. split; [vm_compute; reflexivity|].
  split; [repeat constructor; discriminate|]. run.
Qed.

(** C129: the references that the tree hands out can be used and have the values one
    expects. *)
Theorem C129_references_handed_out :
  forall (T : Type) (o : order T), lawful o ->
  forall ops s outs, (N.of_nat (length ops) < big)%N -> arun o avl_new ops = Val (s, outs) ->
  (forall k, root_ref s = Val k -> exists v, get k s = Val v) /\
  (forall k, most_ref false s = Val k -> exists v, get k s = Val v /\ left_most s = Val v) /\
  (forall k, most_ref true s = Val k -> exists v, get k s = Val v /\ right_most s = Val v) /\
  (forall k x c, get k s = Val x -> child_ref k false s = Val c -> exists y, get c s = Val y /\ lt_ o x y = false) /\
  (forall k x c, get k s = Val x -> child_ref k true s = Val c -> exists y, get c s = Val y /\ lt_ o y x = false).
Proof. exact @refs_ok. Qed.
Print Assumptions C129_references_handed_out.
Example C129_handed_out_case : exists s outs, arun zord avl_new (ins [5; 3; 8; 7]%Z) = Val (s, outs) /\
  root_ref s = Val 0 /\ most_ref false s = Val 1 /\ most_ref true s = Val 2 /\ child_ref 2 false s = Val 3 /\
  get 3 s = Val 7%Z /\ child_ref 2 true s = Exn NullNode /\ root_ref (@avl_new Z) = Exn NullNode.
Proof. do 2 eexists. run. Qed.

(** C129, refuted: a reference stays valid as long as its value is in the tree.  The
    removal of 5 deletes the node of 7 and stores 7 in the other node. *)
Theorem C129_valid_while_value_present_refuted :
  exists ops v w k s outs s', arun zord avl_new ops = Val (s, outs) /\ get k s = Val v /\ v <> w /\
    remove zord s w = Val (s', true) /\ contains zord s' v = true /\ get k s' = UB.
Proof.
  exists (ins [5; 3; 7]%Z), 7%Z, 5%Z, 2. do 3 eexists.
  split; [vm_compute; reflexivity|]. split; [vm_compute; reflexivity|]. split; [discriminate|]. run.
Qed.
Print Assumptions C129_valid_while_value_present_refuted.

(** C129, refuted: a reference that is valid still has its value. *)
Theorem C129_same_value_refuted :
  exists ops v w k s outs s', arun zord avl_new ops = Val (s, outs) /\ get k s = Val v /\
    remove zord s v = Val (s', true) /\ get k s' = Val w /\ v <> w.
Proof.
  exists (ins [5; 3; 7]%Z), 5%Z, 7%Z, 0. do 3 eexists.
  split; [vm_compute; reflexivity|]. split; [vm_compute; reflexivity|]. split; [vm_compute; reflexivity|].
  split; [vm_compute; reflexivity|discriminate].
Qed.
Print Assumptions C129_same_value_refuted.

(** C130: callbacks that only ask the tree.  Every traversal calls every node once, in
    its order, and the tree is unchanged. *)
Theorem C130_asking_callbacks :
  forall (T : Type) (o : order T), lawful o ->
  forall (f : list nat -> T -> body T) ops s outs w, (N.of_nat (length ops) < big)%N ->
  arun o avl_new ops = Val (s, outs) ->
  (forall past v, does reads (f past v)) -> (forall past v, goes_on (f past v)) ->
  exists c, forall fuel m, visited (root s) < fuel ->
    traverse (uses o f) w fuel (s, c + m) = Val ((s, m), visits w (root s), visited (root s)).
Proof. exact @traverse_reads. Qed.
Print Assumptions C130_asking_callbacks.
(** The callback asks for the double of its value and for the size. *)
Definition asks (past : list nat) (v : Z) : body Z :=
  Do (AContains (2 * v)%Z) (fun _ => Do ASize (fun _ => Answer false)).
Example C130_asking_case : exists s outs, arun zord avl_new (ins [4; 2; 6; 1; 3]%Z) = Val (s, outs) /\
  (forall past v, does reads (asks past v)) /\ (forall past v, goes_on (asks past v)) /\
  map (fun w => traverse (uses zord asks) w 10 (s, 17)) [InOrder; PreOrder; PosOrder; Breadth; Depth] =
  map (fun calls => Val ((s, 7), calls, 5)) [[3; 1; 4; 0; 2]; [0; 1; 3; 4; 2]; [3; 4; 1; 2; 0]; [0; 1; 2; 3; 4]; [0; 1; 3; 4; 2]].
Proof. do 2 eexists. split; [vm_compute; reflexivity|]. split; [cbn; auto|]. split; [cbn; auto|]. run. Qed.

(** C130: callbacks that insert, ask, move the tree or change the flag, but delete
    nothing.  The traversal never uses a deleted node; it returns the number of calls. *)
Theorem C130_inserting_callbacks_are_safe :
  forall (T : Type) (o : order T), lawful o ->
  forall (f : list nat -> T -> body T) ops s outs w fuel m, (N.of_nat (length ops + m) < big)%N ->
  arun o avl_new ops = Val (s, outs) -> (forall past v, does keeps (f past v)) ->
  traverse (uses o f) w fuel (s, m) = NoFuel \/
  exists s' m' calls n, traverse (uses o f) w fuel (s, m) = Val ((s', m'), calls, n) /\ kept_all s s' calls n.
Proof. exact @traverse_keeps. Qed.
Print Assumptions C130_inserting_callbacks_are_safe.
(** Inserts the double of its value, until 10. *)
Definition doubles (past : list nat) (v : Z) : body Z :=
  if (v <? 10)%Z then Do (AInsert (2 * v)%Z) (fun _ => Answer false) else Answer false.
Example C130_inserting_case : exists s outs, arun zord avl_new (ins [3; 5; 7]%Z) = Val (s, outs) /\
  (forall past v, does keeps (doubles past v)) /\
  exists s', traverse (uses zord doubles) InOrder 20 (s, 20) = Val ((s', 16), [0; 1; 3; 2; 4; 5; 6], 7) /\
    in_order (root s') = [3; 5; 6; 7; 10; 12; 14]%Z.
Proof.
  do 2 eexists. split; [vm_compute; reflexivity|]. split.
  - intros past v. unfold doubles. destruct (v <? 10)%Z; cbn; auto.
  - eexists. run.
Qed.

(** C130, refuted: with callbacks that only insert, every value that was in the tree is
    seen.  The insertion turns the tree under the traversal. *)
Theorem C130_all_values_seen_refuted :
  forall w, exists ops a x s outs s' m' calls n k v, arun zord avl_new ops = Val (s, outs) /\
    traverse (uses zord (insert_at zord a x)) w 20 (s, 20) = Val ((s', m'), calls, n) /\
    get k s = Val v /\ get k s' = Val v /\ ~ In k calls.
Proof.
  assert (C : forall ops a x w k v, match arun zord avl_new ops with
    | Val (s, _) => match traverse (uses zord (insert_at zord a x)) w 20 (s, 20) with
        | Val ((s', _), calls, _) => get k s = Val v /\ get k s' = Val v /\ existsb (Nat.eqb k) calls = false | _ => False end
    | _ => False end -> exists ops a x s outs s' m' calls n k v, arun zord avl_new ops = Val (s, outs) /\
    traverse (uses zord (insert_at zord a x)) w 20 (s, 20) = Val ((s', m'), calls, n) /\
    get k s = Val v /\ get k s' = Val v /\ ~ In k calls).
  { intros ops a x w k v H. exists ops, a, x. destruct (arun zord avl_new ops) as [[s outs]| | |] eqn:EA; try tauto.
    destruct (traverse _ w 20 (s, 20)) as [[[[s' m'] calls] n]| | |] eqn:ET; try tauto. destruct H as (H1 & H2 & H3).
    exists s, outs, s', m', calls, n, k, v. do 4 (split; [auto|]). intros I.
    assert (existsb (Nat.eqb k) calls = true) by (apply existsb_exists; exists k; split; [exact I|apply Nat.eqb_refl]). congruence. }
  intros w. destruct w.
  1, 2, 4, 5: apply (C (ins [10; 20]%Z) 10%Z 30%Z _ 1 20%Z); vm_compute; auto.
  apply (C (ins [20; 10; 40; 30; 50]%Z) 10%Z 60%Z _ 2 40%Z); vm_compute; auto.
Qed.
Print Assumptions C130_all_values_seen_refuted.

(** C130, refuted: with callbacks that only insert, no node is seen twice. *)
Theorem C130_seen_once_refuted :
  forall w, exists ops a x s outs s' m' calls n, arun zord avl_new ops = Val (s, outs) /\
    traverse (uses zord (insert_at zord a x)) w 20 (s, 20) = Val ((s', m'), calls, n) /\ ~ NoDup calls.
Proof.
  assert (C : forall ops a x w i j k A B D, match arun zord avl_new ops with
    | Val (s, _) => match traverse (uses zord (insert_at zord a x)) w 20 (s, 20) with
        | Val (_, calls, _) => i = k /\ j = k /\ calls = A ++ i :: B ++ j :: D | _ => False end
    | _ => False end -> exists ops a x s outs s' m' calls n, arun zord avl_new ops = Val (s, outs) /\
    traverse (uses zord (insert_at zord a x)) w 20 (s, 20) = Val ((s', m'), calls, n) /\ ~ NoDup calls).
  { intros ops a x w i j k A B D H. exists ops, a, x. destruct (arun zord avl_new ops) as [[s outs]| | |] eqn:EA; try tauto.
    destruct (traverse _ w 20 (s, 20)) as [[[[s' m'] calls] n]| | |] eqn:ET; try tauto. destruct H as (-> & -> & ->).
    do 6 eexists. split; [reflexivity|]. split; [exact ET|]. intros N. apply NoDup_remove_2 in N. apply N.
    apply in_or_app. right. apply in_or_app. right. left. reflexivity. }
  intros w. destruct w.
  - apply (C (ins [30; 20]%Z) 20%Z 10%Z _ 0 0 0 [1] [] []); vm_compute; auto.
  - apply (C (ins [30; 20]%Z) 20%Z 10%Z _ 0 0 0 [] [1; 2] []); vm_compute; auto.
  - apply (C (ins [30; 10; 40; 5; 20]%Z) 5%Z 1%Z _ 2 2 2 [3; 4] [0; 1] [0]); vm_compute; auto.
  - apply (C (ins [30; 20]%Z) 20%Z 10%Z _ 0 0 0 [] [1; 2] []); vm_compute; auto.
  - apply (C (ins [30; 20]%Z) 20%Z 10%Z _ 0 0 0 [] [1; 2] []); vm_compute; auto.
Qed.
Print Assumptions C130_seen_once_refuted.

(** C130, refuted: with callbacks that only insert, the traversal ends.  When every call
    inserts the next value, in_order goes on for ever: no number of steps is enough, and
    no number of calls of the tree. *)
Theorem C130_ends_refuted :
  forall (T : Type) (o : order T), lawful o ->
  forall next, (forall x, lt_ o x (next x) = true) ->
  forall v s r m fuel, astep o avl_new (AInsert v) = Val (s, r) -> (N.of_nat (S m) < big)%N ->
  traverse (uses o (insert_next next)) InOrder fuel (s, m) = NoFuel.
Proof. exact @endless. Qed.
Print Assumptions C130_ends_refuted.
Example C130_ends_case : (forall x, lt_ zord x (x + 1)%Z = true) /\
  exists s, astep zord avl_new (AInsert 5%Z) = Val (s, ABool true) /\
  traverse (uses zord (insert_next (fun x => x + 1)%Z)) InOrder 30 (s, 20) = NoFuel.
Proof. split; [intros x; apply Z.ltb_lt; lia|]. eexists. split; [vm_compute; reflexivity|]. vm_compute; reflexivity. Qed.

(** C130, refuted: a callback may remove the value it is called for.  in_order and
    pre_order use the node again ... *)
Theorem C130_remove_own_refuted :
  exists ops s outs, arun zord avl_new ops = Val (s, outs) /\
    forall w, w <> PosOrder -> traverse (uses zord (remove_own false)) w 20 (s, 20) = UB.
Proof.
  exists (ins [4]%Z). do 2 eexists. split; [vm_compute; reflexivity|].
  intros w N. destruct w; try congruence; vm_compute; reflexivity.
Qed.
Print Assumptions C130_remove_own_refuted.
(** ... the searches even when the callback answers that they stop ... *)
Theorem C130_remove_and_stop_refuted :
  exists ops s outs, arun zord avl_new ops = Val (s, outs) /\
    traverse (uses zord (remove_own true)) Breadth 20 (s, 20) = UB /\
    traverse (uses zord (remove_own true)) Depth 20 (s, 20) = UB.
Proof. exists (ins [4]%Z). do 2 eexists. run. Qed.
Print Assumptions C130_remove_and_stop_refuted.
(** ... and pos_order leaves values in the tree, or uses a deleted node. *)
Theorem C130_remove_in_pos_order_refuted :
  (exists ops s outs s' m' calls n, arun zord avl_new ops = Val (s, outs) /\
     traverse (uses zord (remove_own false)) PosOrder 20 (s, 20) = Val ((s', m'), calls, n) /\
     in_order (root s') = [5; 6; 7]%Z) /\
  (exists ops s outs, arun zord avl_new ops = Val (s, outs) /\
     traverse (uses zord (remove_own false)) PosOrder 50 (s, 50) = UB).
Proof.
  split.
  - exists (ins [4; 2; 6; 1; 3; 5; 7]%Z). do 6 eexists.
    split; [vm_compute; reflexivity|]. split; [vm_compute; reflexivity|]. vm_compute; reflexivity.
  - assert (C : forall ops, match arun zord avl_new ops with
      | Val (s, _) => traverse (uses zord (remove_own false)) PosOrder 50 (s, 50) = UB | _ => False end ->
      exists ops s outs, arun zord avl_new ops = Val (s, outs) /\
        traverse (uses zord (remove_own false)) PosOrder 50 (s, 50) = UB).
    { intros ops H. exists ops. destruct (arun zord avl_new ops) as [[s outs]| | |]; try tauto. exists s, outs. auto. }
    apply (C (ins [29; 19; 16; 21; 25; 32; 18; 31; 27; 15; 14; 24; 22; 5; 28; 2; 33; 20; 7; 3; 11; 17; 30]%Z ++ [ARemove 11%Z; ARemove 15%Z])).
    vm_compute. reflexivity.
Qed.
Print Assumptions C130_remove_in_pos_order_refuted.
