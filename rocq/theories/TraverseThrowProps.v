(** C151: traversals with a callback that throws. *)
Require Import List NArith Bool Arith.
Require Import Verif.Base Verif.TraverseModel Verif.TraverseSpec Verif.TraverseThrowModel Verif.TraverseThrowSpec Verif.TraverseThrowProofs.
Import ListNotations.
Local Ltac run := repeat (apply conj); (vm_compute; reflexivity).

(** C151. An exception ends a traversal at once: the calls made are those that are made when the
    callback does not throw, whatever it answers instead, up to and including the first that throws;
    if none throws, the traversal returns what it returned. *)
Theorem C151_binary : forall V (cb : list (btree V) -> btree V -> option bool) f, same_answers cb f -> forall t,
  (let (l, n) := in_order f t [] in t_in_order cb t [] = cut cb l n) /\
  (let (l, n) := pre_order f t [] in t_pre_order cb t [] = cut cb l n) /\
  (let (l, n) := pos_order f t [] in t_pos_order cb t [] = cut cb l n).
Proof. exact binary_cut. Qed.
Print Assumptions C151_binary.
(** The same for k-ary nodes, whatever the static variable of in_order holds. *)
Theorem C151_kary : forall V (cb : list (ktree V) -> ktree V -> option bool) f, same_answers cb f -> forall t flag,
  (let '(l, n, _) := kin_order f t [] in fst (t_kin_order cb t [] flag) = cut cb l n) /\
  (let (l, n) := kpre_order f t [] in t_kpre_order cb t [] = cut cb l n) /\
  (let (l, n) := kpos_order f t [] in t_kpos_order cb t [] = cut cb l n).
Proof. exact kary_cut. Qed.
Print Assumptions C151_kary.
Theorem C151_levels : forall V (cb : list (ktree V) -> ktree V -> option bool) f, same_answers cb f -> forall t,
  (let* (l, n) := bfs f (Some t) in Val (cut cb l n)) = t_bfs cb (Some t) /\
  (let* (l, n) := dfs f (Some t) in Val (cut cb l n)) = t_dfs cb (Some t).
Proof. exact levels_cut. Qed.
Print Assumptions C151_levels.
(** A callback that throws at the first node it looks for, and else answers false, sees the nodes in
    the order of the traversal up to that one: so all eight traversals can be stopped, which an
    answer cannot do (C46, C97). *)
Theorem C151_binary_stop : forall V (p : btree V -> bool) t,
  t_in_order (throw_at p) t [] = stops p (inorder t) (bcount t) /\
  t_pre_order (throw_at p) t [] = stops p (preorder t) (bcount t) /\
  t_pos_order (throw_at p) t [] = stops p (postorder t) (bcount t).
Proof. exact binary_stops. Qed.
Print Assumptions C151_binary_stop.
Theorem C151_kary_stop : forall V (p : ktree V -> bool) t flag,
  (fits t -> fst (t_kin_order (throw_at p) t [] flag) = stops p (kin t) (kcount t)) /\
  t_kpre_order (throw_at p) t [] = stops p (kpre t) (kcount t) /\
  t_kpos_order (throw_at p) t [] = stops p (kpost t) (kcount t) /\
  t_bfs (throw_at p) (Some t) = Val (stops p (level_order t) (kcount t)) /\
  t_dfs (throw_at p) (Some t) = Val (stops p (kpre t) (kcount t)).
Proof. exact kary_stops. Qed.
Print Assumptions C151_kary_stop.
(** A traversal that was ended by an exception does not show in the next one, of whatever tree. *)
Theorem C151_again : forall V (cb : list (ktree V) -> ktree V -> option bool) t past b1 b2,
  t_kin_order cb t past b1 = t_kin_order cb t past b2.
Proof. exact @kin_flag. Qed.
Print Assumptions C151_again.

(** A callback that answers true at the second call and throws at the node 5. *)
Example C151_case :
  let b1 := BNode 1 BLeaf BLeaf in let b3 := BNode 3 BLeaf BLeaf in let b2 := BNode 2 b1 b3 in
  let b5 := BNode 5 BLeaf BLeaf in let b4 := BNode 4 b2 b5 in
  let cb (past : list (btree nat)) (t : btree nat) :=
    match t with BNode 5 _ _ => None | _ => Some (Nat.eqb (length past) 1) end in
  let f (past : list (btree nat)) (t : btree nat) := Nat.eqb (length past) 1 in
  (forall past x b, cb past x = Some b -> f past x = b) /\
  in_order f b4 [] = ([b1; b2; b4; b5], 4) /\ t_in_order cb b4 [] = ([b1; b2; b4; b5], None) /\
  pre_order f b4 [] = ([b4; b2; b5], 3) /\ t_pre_order cb b4 [] = ([b4; b2; b5], None) /\
  t_pos_order cb b4 [] = ([b1; b3; b2; b5], None) /\
  t_in_order (throw_at (fun t => match t with BNode 2 _ _ => true | _ => false end)) b4 [] = ([b1; b2], None) /\
  t_in_order (throw_at (fun t => match t with BNode 7 _ _ => true | _ => false end)) b4 [] = ([b1; b2; b3; b4; b5], Some 5).
Proof.
  split; [|run]. intros past [|v l r] b H; cbn in H; [now injection H as <-|]. do 6 (destruct v as [|v]; try (now injection H as <-); try discriminate).
Qed.
Example C151_kary_case :
  let k5 := KNode 5 [] in let k4 := KNode 4 [None] in let k3 := KNode 3 [] in let k2 := KNode 2 [Some k5] in
  let k1 := KNode 1 [Some k2; None; Some k3; Some k4] in
  let at3 := throw_at (fun t => match t with KNode 3 _ => true | _ => false end) in
  fits k1 /\ kin k1 = [k5; k2; k1; k1; k3; k1; k4] /\
  t_kin_order at3 k1 [] true = ([k5; k2; k1; k1; k3], None, false) /\
  t_kpre_order at3 k1 [] = ([k1; k2; k5; k3], None) /\ t_kpos_order at3 k1 [] = ([k5; k2; k3], None) /\
  t_bfs at3 (Some k1) = Val ([k1; k2; k3], None) /\ t_dfs at3 (Some k1) = Val ([k1; k2; k5; k3], None) /\
  t_kin_order (fun past t => if Nat.eqb (length past) 1 then Some true else Some false) k1 [] false = ([k5; k2], Some 3, true).
Proof. split; [repeat split|run]. Qed.
(** Refuted: answering true does what an exception does.  The nodes 4 and 5 are called after the
    answer at 2. *)
Theorem C151_answer_refuted : exists (t : btree nat) p,
  fst (t_in_order (throw_at p) t []) <> fst (t_in_order (fun _ x => Some (p x)) t []) /\
  snd (t_in_order (throw_at p) t []) = None.
Proof.
  exists (BNode 4 (BNode 2 BLeaf BLeaf) (BNode 5 BLeaf BLeaf)), (fun t => match t with BNode 2 _ _ => true | _ => false end).
  split; [|reflexivity]. vm_compute. discriminate.
Qed.
Print Assumptions C151_answer_refuted.
