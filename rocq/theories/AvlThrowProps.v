(** Exceptions out of the AVL tree (C123) and out of its copy assignment (C124). *)
Require Import List NArith ZArith Bool Arith Lia Permutation.
Require Import Verif.Base Verif.AvlModel Verif.AvlSpec Verif.AvlProofs Verif.AvlProps
  Verif.AvlThrowModel Verif.AvlThrowSpec Verif.AvlThrowProofs.
Import ListNotations.

Local Ltac run := repeat (apply conj); (vm_compute; reflexivity).

Definition all_risky (k : kind) : bool := true.
Definition copies_risky (k : kind) : bool := match k with Compare => false | Copy => true end.
Definition comparisons_risky (k : kind) : bool := match k with Compare => true | Copy => false end.

(** ** C123: every history with exceptions anywhere *)
Theorem C123_histories :
  forall (T : Type) (o : order T) (dflt : T) (risk : kind -> bool), lawful o ->
  forall ops : list (aop T * list bool), (N.of_nat (length ops) < big)%N ->
  exists s rs, trun o dflt risk avl_new ops = Val (s, rs) /\
    conforms o false [] (map fst ops) rs (in_order (root s)).
Proof. exact @histories. Qed.
Print Assumptions C123_histories.

(** An insertion, a removal, a remove_all and a search that throw, each followed by
    calls that tell what happened. *)
Definition stormy : list (aop Z * list bool) :=
  map (fun v => (AInsert v, [])) [5; 3; 8; 7; 9]%Z ++
  [(AInsert 1%Z, [false; true]); (AInOrder, []);          (* a comparison on the way down *)
   (AInsert 10%Z, [false; false; false; false; false; false; false; true]); (AInOrder, []); (* while rebalancing: in *)
   (ARemove 8%Z, [false; false; false; false; false; false; false; true]); (AInOrder, []);  (* 8 lost, 9 twice *)
   (ASize, []); (AContains 8%Z, []); (AContains 9%Z, [true]);
   (ASetDup true, []); (AInsert 9%Z, []); (ARemoveAll 9%Z, []); (AInOrder, []); (ACopy, [false; false; true]); (ASize, [])].
Example C123_case : (N.of_nat (length stormy) < big)%N /\
  match trun zord 0%Z all_risky avl_new stormy with
  | Val (_, rs) => skipn 5 rs
  | _ => []
  end =
  [None; Some (AVals [3; 5; 7; 8; 9]%Z 5);
   None; Some (AVals [3; 5; 7; 8; 9; 10]%Z 6);
   None; Some (AVals [3; 5; 7; 9; 9; 10]%Z 6);
   Some (ANum 6); Some (ABool false); None;
   Some ANone; Some (ABool true); Some (ANum 3); Some (AVals [3; 5; 7; 10]%Z 4); None; Some (ANum 4)].
Proof. run. Qed.

(** A call that returns does exactly what it does when nothing throws; when no
    point of the call throws it returns. *)
Theorem C123_returning_calls :
  forall (T : Type) (o : order T) (dflt : T) (risk : kind -> bool) (s : avl T) (op : aop T) (fs : list bool),
  match tstep o dflt risk s op fs with
  | Done r _ => astep o s op = Val r
  | Undef => forall r, astep o s op <> Val r
  | Threw _ => True
  end.
Proof. exact @returns. Qed.
Print Assumptions C123_returning_calls.

Theorem C123_only_faults_throw :
  forall (T : Type) (o : order T) (dflt : T) (risk : kind -> bool) (s : avl T) (op : aop T) (fs : list bool) s',
  (forall k, In true fs -> risk k = false) -> tstep o dflt risk s op fs <> Threw s'.
Proof. exact @nothing_thrown. Qed.
Print Assumptions C123_only_faults_throw.

(** If comparing never throws, an insertion that throws changes nothing. *)
Theorem C123_insert_without_throwing_comparisons :
  forall (T : Type) (o : order T) (risk : kind -> bool) (s : avl T) (v : T) (fs : list bool) (s' : avl T),
  risk Compare = false -> tinsert o risk s v fs = Threw s' ->
  root s' = root s /\ dup s' = dup s /\ count s' = count s.
Proof. exact @insert_strong. Qed.
Print Assumptions C123_insert_without_throwing_comparisons.
Example C123_insert_case : exists s s', copies_risky Compare = false /\
  arun zord avl_new (map AInsert [2; 1; 3]%Z) = Val (s, [ABool true; ABool true; ABool true]) /\
  tinsert zord copies_risky s 4%Z (repeat true 9) = Threw s' /\ in_order (root s') = [1; 2; 3]%Z.
Proof. eexists. eexists. run. Qed.

(** Otherwise an insertion can throw although the value was inserted; the value is
    then found and counted. *)
Theorem C123_insert_changes_nothing_refuted : exists (s s' : avl Z) fs,
  arun zord avl_new [AInsert 1%Z; AInsert 2%Z] = Val (s, [ABool true; ABool true]) /\
  tinsert zord comparisons_risky s 3%Z fs = Threw s' /\
  contains zord s 3%Z = false /\ contains zord s' 3%Z = true /\ count s' = 3%N.
Proof. eexists. eexists. exists (repeat false 5 ++ [true]). run. Qed.
Print Assumptions C123_insert_changes_nothing_refuted.

(** A removal that throws, even if only copying can throw, can lose the value,
    store another value twice in a tree without duplicates, and still count it. *)
Theorem C123_remove_changes_nothing_refuted : exists (s s' : avl Z) fs,
  arun zord avl_new [AInsert 2%Z; AInsert 1%Z; AInsert 3%Z] = Val (s, [ABool true; ABool true; ABool true]) /\
  tremove zord copies_risky s 2%Z fs = Threw s' /\ dup s' = false /\
  contains zord s' 2%Z = false /\ in_order (root s') = [1; 3; 3]%Z /\ count s' = 3%N.
Proof. eexists. eexists. exists (repeat false 4 ++ [true]). run. Qed.
Print Assumptions C123_remove_changes_nothing_refuted.

(** Insertions that throw while rebalancing can turn the tree into a list of any
    length whose height() says 3. *)
Theorem C123_throwing_comparisons_make_a_list :
  forall (dflt : nat) (n : nat), 3 <= n -> (N.of_nat n < two64)%N -> exists s rs,
  trun natord dflt comparisons_risky avl_new (spoiled n) = Val (s, rs) /\
  in_order (root s) = seq 0 n /\ depth (root s) = n /\ height s = 3.
Proof. exact becomes_list. Qed.
Print Assumptions C123_throwing_comparisons_make_a_list.
Example C123_list_case : exists s rs, trun natord 0 comparisons_risky avl_new (spoiled 6) = Val (s, rs) /\
  rs = [Some (ABool true); Some (ABool true); None; None; None; None] /\
  in_order (root s) = seq 0 6 /\ depth (root s) = 6 /\ height s = 3.
Proof. eexists. eexists. repeat (apply conj); [vm_compute; reflexivity..]. Qed.

Theorem C123_balance_refuted : exists (s : avl nat) rs,
  trun natord 0 comparisons_risky avl_new (spoiled 4) = Val (s, rs) /\ ~ balanced (root s) /\ height s <> depth (root s).
Proof.
  eexists. eexists. split; [vm_compute; reflexivity|]. split; [|vm_compute; discriminate].
  intros (_ & H & _). vm_compute in H. lia.
Qed.
Print Assumptions C123_balance_refuted.

(** ** C124: copy assignment *)
(** A copy assignment that returns is that of C41; one that throws leaves the target
    as it was or with a part of the copy whose root holds a default value, under
    the old size. *)
Theorem C124_copy_assignment :
  forall (T : Type) (dflt : T) (risk : kind -> bool) (target source : avl T) (fs : list bool),
  match tcopy_assign dflt risk target source fs with
  | Done r _ => copy_assign target source = r
  | Undef => False
  | Threw s' => s' = target \/
      dup s' = dup target /\ count s' = count target /\
      (exists i l r, root s' = Node i None 1 dflt l r) /\
      incl (in_order (root s')) (dflt :: in_order (root source)) /\
      length (in_order (root s')) <= length (in_order (root source))
  end.
Proof. exact @copy_assign_sim. Qed.
Print Assumptions C124_copy_assignment.

(** The target has then lost what it held, its size() is wrong, it is not sorted
    and contains() does not find a value that in_order shows. *)
Theorem C124_target_stays_valid_refuted : exists (t s s' : avl Z) rs1 rs2 fs,
  arun zord avl_new (map AInsert [1; 2; 3]%Z) = Val (t, rs1) /\
  arun zord avl_new (map AInsert [-7; -6; -5]%Z) = Val (s, rs2) /\
  tcopy_assign 0%Z all_risky t s fs = Threw s' /\
  in_order (root s') = [-7; 0; -5]%Z /\ count s' = 3%N /\ contains zord s' (-5)%Z = false /\
  exists fs2 s2, tcopy_assign 0%Z all_risky t s fs2 = Threw s2 /\ in_order (root s2) = [-7; 0]%Z /\ count s2 = 3%N.
Proof.
  eexists. eexists. eexists. eexists. eexists. exists (repeat false 5 ++ [true]).
  repeat (apply conj); [vm_compute; reflexivity..|]. exists (repeat false 3 ++ [true]). eexists. run.
Qed.
Print Assumptions C124_target_stays_valid_refuted.
