(** Properties C31-C42: the AVL tree (binary_tree.h, tree.h). *)
Require Import List Arith NArith ZArith Bool Lia.
Require Import Verif.Base Verif.AvlModel Verif.AvlSpec Verif.AvlProofs Verif.AvlWorstProofs.
Import ListNotations.

(** Evaluates closed instances. *)
Local Ltac run := repeat (apply conj); (vm_compute; reflexivity).

(** Integers with their usual operators. *)
Definition zord : order Z := mkOrder Z.ltb Z.gtb Z.eqb.
Example zord_lawful : lawful zord.
Proof.
  constructor; cbn.
  - intros a b. apply Z.gtb_ltb.
  - apply Z.eqb_eq.
  - apply Z.ltb_irrefl.
  - intros a b c. rewrite !Z.ltb_lt. lia.
  - intros a b. rewrite !Z.ltb_lt. lia.
Qed.

Definition ins (l : list Z) : list (aop Z) := map AInsert l.
(** A history with insertions (also of present values), removals (of a node with
    two children, of an absent value), a copy, a move and a change of the flag. *)
Definition demo : list (aop Z) :=
  ins [5; 3; 8; 1; 4; 7; 9; 2; 5]%Z ++ [ARemove 5%Z; ARemove 6%Z; ACopy; AInsert 6%Z; AMove; ASetDup true]
  ++ ins [6; 6; 3]%Z ++ [ARemoveAll 3%Z; ASetDup false; AInsert 6%Z; ARemove 6%Z].
Definition plain : list (aop Z) :=
  ins [5; 3; 8; 1; 4; 7; 9; 2; 5]%Z ++ [ARemove 5%Z; ARemove 6%Z; ACopy; AInsert 6%Z; AClear] ++ ins [4; 2; 4]%Z.
Example demo_small : (N.of_nat (S (length demo)) < big)%N /\ (N.of_nat (S (length plain)) < big)%N.
Proof. split; reflexivity. Qed.
Example demo_mult : map (fun v => mult zord false 0 v demo) [1; 2; 3; 4; 5; 6; 7; 8; 9]%Z = [1; 1; 0; 1; 0; 2; 1; 1; 1].
Proof. reflexivity. Qed.
Example plain_never_dup : Forall never_dup plain /\
  map (fun v => member zord false v plain) [1; 2; 3; 4; 5]%Z = [false; true; false; true; false].
Proof. split; [|reflexivity]. repeat constructor; discriminate. Qed.

(** C31: as long as duplicates are never allowed the tree is a set.  [member]
    computes membership from the history one value at a time; copies and moves
    of the tree are part of the histories. *)
Theorem C31_set_semantics :
  forall (T : Type) (o : order T), lawful o ->
  forall ops, (N.of_nat (S (length ops)) < big)%N -> Forall never_dup ops ->
  exists s outs, arun o avl_new ops = Val (s, outs) /\
  (forall v, (exists s', insert o s v = Val (s', negb (member o false v ops)))
          /\ (exists s', remove o s v = Val (s', member o false v ops))
          /\ contains o s v = member o false v ops) /\
  (forall l, NoDup l -> (forall v, In v l <-> member o false v ops = true) -> count s = N.of_nat (length l)).
Proof. exact @set_behaviour. Qed.
Print Assumptions C31_set_semantics.
Example C31_case : exists s s1 s2 s3 outs, arun zord avl_new plain = Val (s, outs) /\
  insert zord s 2%Z = Val (s1, false) /\ insert zord s 5%Z = Val (s2, true) /\ remove zord s 4%Z = Val (s3, true) /\
  contains zord s 4%Z = true /\ contains zord s 5%Z = false /\ count s = 2%N.
Proof. do 5 eexists. run. Qed.

(** C32: the tree is a multiset, also when duplicates are switched on and off. *)
Theorem C32_multiset_semantics :
  forall (T : Type) (o : order T), lawful o ->
  forall ops, (N.of_nat (S (length ops)) < big)%N ->
  exists s outs, arun o avl_new ops = Val (s, outs) /\
  (forall v, (exists s', insert o s v = Val (s', dup_after false ops || (mult o false 0 v ops =? 0)))
          /\ (exists s', remove o s v = Val (s', 0 <? mult o false 0 v ops))
          /\ contains o s v = (0 <? mult o false 0 v ops)) /\
  (forall l, (forall v, occ o v l = mult o false 0 v ops) -> count s = N.of_nat (length l)).
Proof. exact @multiset_behaviour. Qed.
Print Assumptions C32_multiset_semantics.
Example C32_case : exists s s1 s2 outs, arun zord avl_new demo = Val (s, outs) /\
  insert zord s 6%Z = Val (s1, false) /\ remove zord s 6%Z = Val (s2, true) /\ contains zord s2 6%Z = true /\ count s = 8%N.
Proof. do 4 eexists. run. Qed.

(** C33: in_order visits the multiset in non-decreasing order and returns size(). *)
Theorem C33_in_order_sorted_and_complete :
  forall (T : Type) (o : order T), lawful o ->
  forall ops, (N.of_nat (length ops) < big)%N ->
  exists s outs l, arun o avl_new (ops ++ [ASize; AInOrder]) =
      Val (s, outs ++ [ANum (N.of_nat (length l)); AVals l (N.of_nat (length l))]) /\
    sorted o l /\ forall v, occ o v l = mult o false 0 v ops.
Proof. exact @in_order_behaviour. Qed.
Print Assumptions C33_in_order_sorted_and_complete.
Example C33_case : exists s outs, arun zord avl_new (demo ++ [ASize; AInOrder]) =
  Val (s, outs ++ [ANum 8; AVals [1; 2; 4; 6; 6; 7; 8; 9]%Z 8]).
Proof. do 2 eexists.
  match goal with |- context [?o ++ [ANum 8; ?x]] =>
    unify o (firstn 22 (match arun zord avl_new (demo ++ [ASize; AInOrder]) with Val p => snd p | _ => [] end)) end.
  vm_compute. reflexivity. Qed.

(** C34: insertions without duplicates keep every node balanced; the number of
    elements is at least Fibonacci in the height, hence height() is at most
    log base 1.6 of size() + 1.  [grows] also allows contains, size, in_order,
    clear and moves in between. *)
Theorem C34_insertions_keep_balance :
  forall (T : Type) (o : order T), lawful o ->
  forall ops, (N.of_nat (length ops) < big)%N -> Forall grows ops -> Forall never_dup ops ->
  exists s outs, arun o avl_new ops = Val (s, outs) /\ balanced (root s) /\
    (N.of_nat (8 ^ height s) <= N.of_nat (5 ^ height s) * (count s + 1))%N /\
    (N.of_nat (fib (2 + height s)) <= count s + 1)%N.
Proof. exact @growth_balanced. Qed.
Print Assumptions C34_insertions_keep_balance.
Definition sequential : list (aop Z) := ins [1; 2; 3; 4; 5; 6; 7; 8; 9; 10; 11; 12]%Z ++ [AMove; AContains 3%Z].
Example C34_case : Forall grows sequential /\ Forall never_dup sequential /\
  exists s outs, arun zord avl_new sequential = Val (s, outs) /\ height s = 4 /\ count s = 12%N.
Proof.
  split; [repeat constructor|]. split; [repeat constructor; discriminate|]. do 2 eexists. run.
Qed.

(** C35: height() is the length of the longest path, after any history of
    insertions (with or without duplicates), removals and clears; copies are
    treated under C41. *)
Theorem C35_height_is_depth :
  forall (T : Type) (o : order T), lawful o ->
  forall ops, (N.of_nat (length ops) < big)%N -> Forall no_copy ops ->
  exists s outs, arun o avl_new ops = Val (s, outs) /\ height s = depth (root s).
Proof. exact @height_is_depth. Qed.
Print Assumptions C35_height_is_depth.
Definition churn : list (aop Z) :=
  ins [8; 1; 3; 2; 5; 6; 4; 7]%Z ++ [ARemove 1%Z; ARemove 4%Z].
Example C35_case : Forall no_copy churn /\ exists s outs, arun zord avl_new churn = Val (s, outs) /\
  height s = 4 /\ count s = 6%N.
Proof. split; [repeat constructor; discriminate|]. do 2 eexists. run. Qed.

(** C36: removal does not keep the tree balanced: after eight insertions and
    two removals the root's right child has children of heights 0 and 2, and
    height() exceeds what any balanced tree of that size can have. *)
Theorem C36_removal_keeps_balance_refuted :
  exists s outs, arun zord avl_new churn = Val (s, outs) /\ ~ balanced (root s) /\
    ~ (N.of_nat (fib (2 + height s)) <= count s + 1)%N.
Proof.
  eexists _, _. split; [vm_compute; reflexivity|]. split.
  - cbn. lia.
  - vm_compute. intros H. apply H. reflexivity.
Qed.
Print Assumptions C36_removal_keeps_balance_refuted.
(** It gets as bad as it can: insertions and removals of distinct values can turn the
    tree into a list, whatever its size.  After 47 k + 4 calls there are k + 4
    elements and the height is k + 3. *)
Theorem C36_logarithmic_refuted : forall k, (N.of_nat (47 * k + 4) < big)%N ->
  exists ops s outs, Forall simple ops /\ length ops = 47 * k + 4 /\ arun zord avl_new ops = Val (s, outs) /\
    count s = N.of_nat (k + 4) /\ height s = k + 3 /\ depth (root s) = k + 3.
Proof.
  intros k H. destruct (degenerate k H) as (s & outs & Len & E). exists (history k), s, outs.
  split; [exact (history_simple k)|]. split; [exact Len|exact E].
Qed.
Print Assumptions C36_logarithmic_refuted.
(** What does hold: one removal after any insertions leaves at most one node out of
    balance, by two, and only if the height stays; the height does not grow. *)
Theorem C36_one_removal_partial :
  forall (T : Type) (o : order T), lawful o ->
  forall ops v, (N.of_nat (S (length ops)) < big)%N -> Forall grows ops -> Forall never_dup ops ->
  exists s outs s' outs', arun o avl_new ops = Val (s, outs) /\ arun o avl_new (ops ++ [ARemove v]) = Val (s', outs') /\
    (balanced (root s') \/ uneven (root s') = 1 /\ skew (root s') <= 2 /\ height s' = height s) /\
    height s' <= height s <= S (height s') /\ (N.of_nat (fib (2 + height s')) <= count s' + 2)%N.
Proof. exact @one_removal. Qed.
Print Assumptions C36_one_removal_partial.
Example C36_case :
  (exists s outs, arun zord avl_new (history 6) = Val (s, outs) /\ length (history 6) = 286 /\ count s = 10%N /\ height s = 9) /\
  exists s outs, arun zord avl_new (ins [1; 2; 3; 6; 7; 5; 4; 8]%Z ++ [ARemove 1%Z]) = Val (s, outs) /\
    uneven (root s) = 1 /\ skew (root s) = 2 /\ height s = 4.
Proof. split; do 2 eexists; run. Qed.

(** C37: nor do insertions with duplicates: ten equal values. *)
Theorem C37_duplicates_keep_balance_refuted :
  exists s outs, arun zord avl_new (ASetDup true :: ins [1; 1; 1; 1; 1; 1; 1; 1; 1; 1]%Z) = Val (s, outs) /\
    ~ balanced (root s) /\ ~ (N.of_nat (fib (2 + height s)) <= count s + 1)%N.
Proof.
  eexists _, _. split; [vm_compute; reflexivity|]. split.
  - cbn. lia.
  - vm_compute. intros H. apply H. reflexivity.
Qed.
Print Assumptions C37_duplicates_keep_balance_refuted.

(** C38: on a non-empty tree left_most() is the minimum and right_most() the
    maximum of the contents. *)
Theorem C38_extremes_partial :
  forall (T : Type) (o : order T), lawful o ->
  forall ops, (N.of_nat (length ops) < big)%N ->
  forall v, mult o false 0 v ops <> 0 ->
  exists s outs lo hi, arun o avl_new ops = Val (s, outs) /\ left_most s = Val lo /\ right_most s = Val hi /\
    mult o false 0 lo ops <> 0 /\ mult o false 0 hi ops <> 0 /\
    forall w, mult o false 0 w ops <> 0 -> lt_ o w lo = false /\ lt_ o hi w = false.
Proof. exact @extremes. Qed.
Print Assumptions C38_extremes_partial.
Example C38_case : exists s outs, arun zord avl_new demo = Val (s, outs) /\
  left_most s = Val 1%Z /\ right_most s = Val 9%Z.
Proof. do 2 eexists. run. Qed.

(** ... but on an empty tree the null root is dereferenced: no error is
    reported. *)
Theorem C38_empty_is_reported_refuted :
  exists s outs, arun zord avl_new [AInsert 4%Z; ARemove 4%Z] = Val (s, outs) /\ count s = 0%N /\
    left_most s = UB /\ right_most s = UB.
Proof. do 2 eexists. run. Qed.
Print Assumptions C38_empty_is_reported_refuted.

(** C39: remove_all(v) returns the multiplicity and removes exactly [v], when
    [v] is not stored inside the tree. *)
Theorem C39_remove_all_partial :
  forall (T : Type) (o : order T), lawful o ->
  forall ops v, (N.of_nat (length ops) < big)%N ->
  exists s outs s' l, arun o avl_new ops = Val (s, outs) /\
    remove_all o s v = Val (s', N.of_nat (mult o false 0 v ops)) /\
    contains o s' v = false /\
    arun o s' [ASize; AInOrder] = Val (s', [ANum (N.of_nat (length l)); AVals l (N.of_nat (length l))]) /\
    occ o v l = 0 /\ forall w, w <> v -> occ o w l = mult o false 0 w ops.
Proof. exact @remove_all_behaviour. Qed.
Print Assumptions C39_remove_all_partial.
Example C39_case : exists s outs s', arun zord avl_new demo = Val (s, outs) /\ remove_all zord s 6%Z = Val (s', 2%N) /\
  in_order (root s') = [1; 2; 4; 7; 8; 9]%Z.
Proof. do 3 eexists. run. Qed.

(** By reference to a stored value the call always ends in a dangling read, for
    every tree and every node: the referenced node is found again in every
    round until it is deleted. *)
Theorem C39_every_reference_dangles :
  forall (T : Type) (o : order T), lawful o ->
  forall ops k, (N.of_nat (length ops) < big)%N ->
  exists s outs, arun o avl_new ops = Val (s, outs) /\ remove_all_ref o s k = UB.
Proof. exact @remove_all_ref_ub. Qed.
Print Assumptions C39_every_reference_dangles.
Theorem C39_by_reference_refuted :
  exists s outs, arun zord avl_new (ins [2; 1; 3]%Z) = Val (s, outs) /\
    value_at 0 (root s) = Some 2%Z /\ remove_all_ref zord s 0 = UB.
Proof. do 2 eexists. run. Qed.
Print Assumptions C39_by_reference_refuted.

(** C40: has_parent() is false for the root and true for every other node. *)
Theorem C40_has_parent_partial :
  forall (T : Type) (o : order T), lawful o ->
  forall ops, (N.of_nat (length ops) < big)%N ->
  exists s outs, arun o avl_new ops = Val (s, outs) /\
    match root s with
    | Leaf => True
    | Node _ p _ _ l r => p = None /\ ~ In None (parent_fields l ++ parent_fields r)
    end.
Proof. exact @root_only_no_parent. Qed.
Print Assumptions C40_has_parent_partial.
Example C40_case : exists s outs p h l r, arun zord avl_new demo = Val (s, outs) /\ root s = Node p None h 4%Z l r /\
  length (parent_fields l ++ parent_fields r) = 7.
Proof. do 6 eexists. run. Qed.

(** Right after a copy every parent() is right. *)
Theorem C40_copy_parents_partial :
  forall (T : Type) (o : order T), lawful o ->
  forall ops, (N.of_nat (length ops) < big)%N ->
  exists s outs, arun o avl_new (ops ++ [ACopy]) = Val (s, outs ++ [ANone]) /\ links None (root s).
Proof. exact @copy_links_history. Qed.
Print Assumptions C40_copy_parents_partial.
Example C40_copy_case : exists s outs, arun zord avl_new (demo ++ [ACopy]) = Val (s, outs) /\ visited (root s) = 8.
Proof. do 2 eexists. run. Qed.

(** parent() is wrong after a rotation: node 4 (value 7) is a child of node 0
    (value 10) and reports node 1 (value 5). *)
Theorem C40_parent_refuted :
  exists s outs, arun zord avl_new (ins [10; 5; 15; 3; 7; 2]%Z) = Val (s, outs) /\
    child_of 4 0 (root s) /\ ~ child_of 4 1 (root s) /\ parent_ptr 4 (root s) = Some (Some 1) /\
    value_at 4 (root s) = Some 7%Z /\ value_at 0 (root s) = Some 10%Z /\ value_at 1 (root s) = Some 5%Z.
Proof.
  eexists _, _. split; [vm_compute; reflexivity|]. split; [cbn; tauto|]. split; [|repeat split; reflexivity].
  cbn. intuition discriminate.
Qed.
Print Assumptions C40_parent_refuted.
(** After a removal parent() can point to a deleted node. *)
Theorem C40_parent_dangling_refuted :
  exists s outs, arun zord avl_new (ins [8; 9; 1; 7; 5; 6; 4; 2; 3]%Z ++ [ARemove 9%Z; ARemove 4%Z]) = Val (s, outs) /\
    value_at 8 (root s) = Some 3%Z /\ parent_ptr 8 (root s) = Some (Some 6) /\ value_at 6 (root s) = None.
Proof. do 2 eexists. run. Qed.
Print Assumptions C40_parent_dangling_refuted.

(** C41: assigning (or constructing from) a non-empty tree copies contents,
    shape, size and the duplicates flag, and the copy then answers every later
    history like the original would.  The stored heights are not copied. *)
Theorem C41_copy_contents_partial :
  forall (T : Type) (o : order T), lawful o ->
  forall ops1 ops2 ops3, (N.of_nat (length ops2 + length ops3) < big)%N -> (N.of_nat (length ops1) < big)%N ->
  exists target outs1 s outs2, arun o avl_new ops1 = Val (target, outs1) /\ arun o avl_new ops2 = Val (s, outs2) /\
  (root s <> Leaf ->
     depth (root (copy_assign target s)) = depth (root s) /\
     dup (copy_assign target s) = dup s /\ count (copy_assign target s) = count s /\
     in_order (root (copy_assign target s)) = in_order (root s) /\
     exists s' outs l, arun o (copy_assign target s) (ops3 ++ [ASize; AInOrder]) =
         Val (s', outs ++ [ANum (N.of_nat (length l)); AVals l (N.of_nat (length l))]) /\
       sorted o l /\ forall v, occ o v l = mult o false 0 v (ops2 ++ ops3)).
Proof. exact @copy_assign_histories. Qed.
Print Assumptions C41_copy_contents_partial.
Example C41_case : exists target s outs1 outs2 s', arun zord avl_new (ins [100; 50]%Z) = Val (target, outs1) /\
  arun zord avl_new demo = Val (s, outs2) /\
  in_order (root (copy_assign target s)) = [1; 2; 4; 6; 6; 7; 8; 9]%Z /\
  insert zord (copy_assign target s) 3%Z = Val (s', true) /\ in_order (root s') = [1; 2; 3; 4; 6; 6; 7; 8; 9]%Z.
Proof. do 5 eexists. run. Qed.

(** height() of a copy is 1 whatever the source. *)
Theorem C41_copy_height_refuted :
  exists s outs, arun zord avl_new (ins [1; 2; 3; 4]%Z) = Val (s, outs) /\ height s = 3 /\
    height (copy_construct s) = 1 /\ depth (root (copy_construct s)) = 3.
Proof. do 2 eexists. run. Qed.
Print Assumptions C41_copy_height_refuted.
(** A copy does not stay balanced under insertions; the original does. *)
Theorem C41_copy_stays_balanced_refuted :
  exists s outs, arun zord avl_new (ins [5; 7; 2; 6; 1]%Z ++ ACopy :: ins [4; 3]%Z) = Val (s, outs) /\ ~ balanced (root s).
Proof. eexists _, _. split; [vm_compute; reflexivity|]. cbn. lia. Qed.
Print Assumptions C41_copy_stays_balanced_refuted.
(** Assigning an empty tree leaves the old contents in place with size() 0. *)
Theorem C41_assign_empty_refuted :
  exists s outs, arun zord avl_new (ins [1; 2; 3]%Z) = Val (s, outs) /\
    let s' := copy_assign s avl_new in
    in_order (root s') = [1; 2; 3]%Z /\ count s' = 0%N /\ contains zord s' 2%Z = true.
Proof. do 2 eexists. run. Qed.
Print Assumptions C41_assign_empty_refuted.
(** Assigning a tree to itself loses the contents. *)
Theorem C41_self_assign_refuted :
  exists s outs, arun zord avl_new (ins [1; 2; 3]%Z) = Val (s, outs) /\
    let s' := self_assign 0%Z s in
    in_order (root s') = [0]%Z /\ count s' = 3%N.
Proof. do 2 eexists. run. Qed.
Print Assumptions C41_self_assign_refuted.

(** C42: the target of a move has everything; the source has no nodes but keeps
    size(), so only after clear() it is a correct empty tree. *)
Theorem C42_move_partial :
  forall (T : Type) (o : order T), lawful o ->
  forall ops, (N.of_nat (length ops) < big)%N ->
  exists s outs, arun o avl_new ops = Val (s, outs) /\
    let (target, source) := move_assign s in
    in_order (root target) = in_order (root s) /\ height target = height s /\ count target = count s /\ dup target = dup s /\
    root source = Leaf /\ dup source = dup s /\ (forall v, contains o source v = false) /\ count source = count s /\
    forall ops', (N.of_nat (length ops') < big)%N ->
    exists s' outs' l, arun o source (AClear :: ops' ++ [ASize; AInOrder]) =
        Val (s', ANone :: outs' ++ [ANum (N.of_nat (length l)); AVals l (N.of_nat (length l))]) /\
      sorted o l /\ forall v, occ o v l = mult o (dup s) 0 v ops'.
Proof. exact @move_histories. Qed.
Print Assumptions C42_move_partial.
Example C42_case : exists s outs, arun zord avl_new demo = Val (s, outs) /\
  height (fst (move_assign s)) = 4 /\ contains zord (snd (move_assign s)) 6%Z = false.
Proof. do 2 eexists. run. Qed.
Theorem C42_moved_from_size_refuted :
  exists s outs s1 s2, arun zord avl_new (ins [1; 2; 3]%Z) = Val (s, outs) /\
    move_assign s = (s1, s2) /\ in_order (root s2) = [] /\ count s2 = 3%N /\
    exists s3, insert zord s2 7%Z = Val (s3, true) /\ in_order (root s3) = [7]%Z /\ count s3 = 4%N.
Proof. do 4 eexists. split; [vm_compute; reflexivity|]. split; [reflexivity|]. split; [reflexivity|]. split; [reflexivity|].
  eexists. run. Qed.
Print Assumptions C42_moved_from_size_refuted.
