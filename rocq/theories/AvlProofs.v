(** Proofs about the AVL tree. *)
Require Import List NArith ZArith Bool Arith Lia Permutation Sorting.Sorted.
Require Import Verif.Base Verif.AvlModel Verif.AvlSpec.
Import ListNotations.
Local Open Scope outcome_scope.

Definition big : N := (2 ^ 63)%N.

Lemma diff_spec a b d : (N.of_nat a < big)%N -> (N.of_nat b < big)%N -> (d < big)%N ->
  diff a b d = true <-> N.of_nat a = (N.of_nat b + d)%N.
Proof.
  unfold diff, wsub, big. intros Ha Hb Hd. rewrite N.eqb_eq.
  set (x := N.of_nat a) in *. set (y := N.of_nat b) in *. unfold two64.
  change (2 ^ 64)%N with 18446744073709551616%N. change (2 ^ 63)%N with 9223372036854775808%N in *.
  destruct (N.lt_ge_cases x y) as [L|L].
  - rewrite N.mod_small by lia. lia.
  - replace (x + 18446744073709551616 - y)%N with ((x - y) + 1 * 18446744073709551616)%N by lia.
    rewrite N.mod_add by lia. rewrite N.mod_small by lia. lia.
Qed.

Lemma diff2 a b : (N.of_nat a < big)%N -> (N.of_nat b < big)%N -> diff a b 2 = true <-> a = b + 2.
Proof. intros Ha Hb. rewrite diff_spec by (try assumption; reflexivity). lia. Qed.
Lemma diff1 a b : (N.of_nat a < big)%N -> (N.of_nat b < big)%N -> diff a b 1 = true <-> a = b + 1.
Proof. intros Ha Hb. rewrite diff_spec by (try assumption; reflexivity). lia. Qed.

Section P.
Context {T : Type} (o : order T).

Notation tree := (tree T).
Notation avl := (avl T).

(** ** Shape invariant: stored heights are bounded by the number of nodes and,
    when [e], exact; inner nodes have a parent pointer. *)
Definition ppar (t : tree) : option nat := match t with Leaf => None | Node _ p _ _ _ _ => p end.
Definition haspar (t : tree) : Prop := match t with Leaf => True | Node _ p _ _ _ _ => p <> None end.
Definition size (t : tree) : nat := length (in_order t).

Fixpoint wf (e : bool) (t : tree) : Prop :=
  match t with
  | Leaf => True
  | Node i p h v l r =>
      h <= size t /\ (e = true -> h = S (Nat.max (ht l) (ht r))) /\
      wf e l /\ wf e r /\ haspar l /\ haspar r
  end.

Lemma size_node i p h v l r : size (Node i p h v l r) = S (size l + size r).
Proof. unfold size. cbn. rewrite app_length. cbn. lia. Qed.
Lemma visited_size t : visited t = size t.
Proof. induction t as [|i p h v l IHl r IHr]; [reflexivity|]. rewrite size_node. cbn. lia. Qed.
Lemma ht_size e t : wf e t -> ht t <= size t.
Proof. destruct t; cbn [wf ht]; [intros _; unfold size; cbn; lia|tauto]. Qed.

Lemma wf_node e i p v l r : wf e l -> wf e r -> haspar l -> haspar r ->
  wf e (Node i p (S (Nat.max (ht l) (ht r))) v l r).
Proof.
  intros Wl Wr Hl Hr. pose proof (ht_size _ _ Wl). pose proof (ht_size _ _ Wr). cbn [wf].
  rewrite size_node. split; [lia|]. tauto.
Qed.

Lemma in_order_rotate_right (t : tree) : in_order (rotate_right t) = in_order t.
Proof. destruct t as [|j p h x [|k q g y ll lr] r]; try reflexivity. cbn. rewrite <- app_assoc. reflexivity. Qed.
Lemma in_order_rotate_left (t : tree) : in_order (rotate_left t) = in_order t.
Proof. destruct t as [|j p h x l [|k q g y rl rr]]; try reflexivity. cbn. rewrite <- app_assoc. reflexivity. Qed.
Lemma in_order_double_left (t : tree) : in_order (double_rotate_left t) = in_order t.
Proof. destruct t; [reflexivity|]. cbn [double_rotate_left]. rewrite in_order_rotate_left. cbn. rewrite in_order_rotate_right. reflexivity. Qed.
Lemma in_order_double_right (t : tree) : in_order (double_rotate_right t) = in_order t.
Proof. destruct t; [reflexivity|]. cbn [double_rotate_right]. rewrite in_order_rotate_right. cbn. rewrite in_order_rotate_left. reflexivity. Qed.

Lemma ppar_rotate_right (t : tree) : ppar (rotate_right t) = ppar t.
Proof. destruct t as [|j p h x [|k q g y ll lr] r]; reflexivity. Qed.
Lemma ppar_rotate_left (t : tree) : ppar (rotate_left t) = ppar t.
Proof. destruct t as [|j p h x l [|k q g y rl rr]]; reflexivity. Qed.
Lemma ppar_double_left (t : tree) : ppar (double_rotate_left t) = ppar t.
Proof. destruct t; [reflexivity|]. cbn [double_rotate_left]. rewrite ppar_rotate_left. reflexivity. Qed.
Lemma ppar_double_right (t : tree) : ppar (double_rotate_right t) = ppar t.
Proof. destruct t; [reflexivity|]. cbn [double_rotate_right]. rewrite ppar_rotate_right. reflexivity. Qed.

Lemma haspar_ppar (t t' : tree) : ppar t' = ppar t -> haspar t -> t <> Leaf -> haspar t'.
Proof. destruct t, t'; cbn; try congruence; auto. Qed.

Lemma wf_rotate_right e t : wf e t -> wf e (rotate_right t).
Proof.
  destruct t as [|j p h x [|k q g y ll lr] r]; intros W; try exact W.
  cbn [wf] in W. destruct W as (_ & _ & (_ & _ & W1 & W2 & H1 & H2) & W3 & _ & H3).
  cbn [rotate_right]. apply wf_node; auto; [apply wf_node; auto|discriminate].
Qed.
Lemma wf_rotate_left e t : wf e t -> wf e (rotate_left t).
Proof.
  destruct t as [|j p h x l [|k q g y rl rr]]; intros W; try exact W.
  cbn [wf] in W. destruct W as (_ & _ & W3 & (_ & _ & W1 & W2 & H1 & H2) & H3 & _).
  cbn [rotate_left]. rewrite (Nat.max_comm (ht rr)). apply wf_node; auto; [apply wf_node; auto|discriminate].
Qed.

Lemma rotate_right_not_leaf (t : tree) : t <> Leaf -> rotate_right t <> Leaf.
Proof. destruct t as [|j p h x [|k q g y ll lr] r]; cbn; congruence. Qed.
Lemma rotate_left_not_leaf (t : tree) : t <> Leaf -> rotate_left t <> Leaf.
Proof. destruct t as [|j p h x l [|k q g y rl rr]]; cbn; congruence. Qed.

(** The height of the root is recomputed only if the inner rotation does
    something; [h] may be stale, [wf] without exactness is used there. *)
Lemma wf_rotate_right' e j p h x l r : wf e l -> wf e r -> haspar l -> haspar r -> l <> Leaf ->
  wf e (rotate_right (Node j p h x l r)).
Proof.
  destruct l as [|k q g y ll lr]; [congruence|]. intros (_ & _ & W1 & W2 & H1 & H2) W3 _ H3 _.
  cbn [rotate_right]. apply wf_node; auto; [apply wf_node; auto|discriminate].
Qed.
Lemma wf_rotate_left' e j p h x l r : wf e l -> wf e r -> haspar l -> haspar r -> r <> Leaf ->
  wf e (rotate_left (Node j p h x l r)).
Proof.
  destruct r as [|k q g y rl rr]; [congruence|]. intros W3 (_ & _ & W1 & W2 & H1 & H2) H3 _ _.
  cbn [rotate_left]. rewrite (Nat.max_comm (ht rr)). apply wf_node; auto; [apply wf_node; auto|discriminate].
Qed.
Lemma wf_double_right e j p h x l r : wf e l -> wf e r -> haspar l -> haspar r -> l <> Leaf ->
  wf e (double_rotate_right (Node j p h x l r)).
Proof.
  intros Wl Wr Hl Hr NL. cbn [double_rotate_right].
  apply wf_rotate_right'; auto; [apply wf_rotate_left; auto| |apply rotate_left_not_leaf; auto].
  apply (haspar_ppar l); auto. apply ppar_rotate_left.
Qed.
Lemma wf_double_left e j p h x l r : wf e l -> wf e r -> haspar l -> haspar r -> r <> Leaf ->
  wf e (double_rotate_left (Node j p h x l r)).
Proof.
  intros Wl Wr Hl Hr NL. cbn [double_rotate_left].
  apply wf_rotate_left'; auto; [apply wf_rotate_right; auto| |apply rotate_right_not_leaf; auto].
  apply (haspar_ppar r); auto. apply ppar_rotate_right.
Qed.

Definition kept e (t t' : tree) : Prop :=
  in_order t' = in_order t /\ ppar t' = ppar t /\ wf e t'.

Lemma kept_not_leaf e t t' : t <> Leaf -> kept e t t' -> t' <> Leaf.
Proof.
  intros N (K & _) ->. destruct t; [congruence|]. cbn in K. destruct (in_order t1); discriminate.
Qed.

Lemma rotate_if_needed_ok e i p h x l r value :
  wf e l -> wf e r -> haspar l -> haspar r -> (N.of_nat (size l + size r) < big)%N ->
  exists t', rotate_if_needed o (Node i p h x l r) value = Val t' /\ kept e (Node i p h x l r) t'.
Proof.
  intros Wl Wr Hl Hr B. pose proof (ht_size _ _ Wl) as Sl. pose proof (ht_size _ _ Wr) as Sr.
  assert (Bl : (N.of_nat (ht l) < big)%N) by lia. assert (Br : (N.of_nat (ht r) < big)%N) by lia.
  cbn [rotate_if_needed].
  destruct (diff (ht l) (ht r) 2) eqn:D1.
  - apply diff2 in D1; try assumption. destruct l as [|k q g y ll lr]; [cbn in D1; lia|].
    destruct (lt_ o value y); eexists; (split; [reflexivity|]); split; try split.
    + rewrite in_order_rotate_right; reflexivity.
    + rewrite ppar_rotate_right; reflexivity.
    + apply wf_rotate_right'; auto; discriminate.
    + rewrite in_order_double_right; reflexivity.
    + rewrite ppar_double_right; reflexivity.
    + apply wf_double_right; auto; discriminate.
  - destruct (diff (ht r) (ht l) 2) eqn:D2.
    + apply diff2 in D2; try assumption. destruct r as [|k q g y rl rr]; [cbn in D2; lia|].
      destruct (gt_ o value y); eexists; (split; [reflexivity|]); split; try split.
      * rewrite in_order_rotate_left; reflexivity.
      * rewrite ppar_rotate_left; reflexivity.
      * apply wf_rotate_left'; auto; discriminate.
      * rewrite in_order_double_left; reflexivity.
      * rewrite ppar_double_left; reflexivity.
      * apply wf_double_left; auto; discriminate.
    + eexists; (split; [reflexivity|]); split; try split; try reflexivity. apply wf_node; auto.
Qed.

Lemma rebalance_ok e i p h x l r :
  wf e l -> wf e r -> haspar l -> haspar r -> (N.of_nat (size l + size r) < big)%N ->
  exists t', rebalance (Node i p h x l r) = Val t' /\ kept e (Node i p h x l r) t'.
Proof.
  intros Wl Wr Hl Hr B. pose proof (ht_size _ _ Wl) as Sl. pose proof (ht_size _ _ Wr) as Sr.
  assert (Bl : (N.of_nat (ht l) < big)%N) by lia. assert (Br : (N.of_nat (ht r) < big)%N) by lia.
  cbn [rebalance rotate_on_remove_if_needed].
  destruct (diff (ht l) (ht r) 2) eqn:D1.
  - apply diff2 in D1; try assumption. destruct l as [|k q g y ll lr]; [cbn in D1; lia|].
    destruct (diff (ht ll) (ht lr) 1); eexists; (split; [reflexivity|]); split; try split.
    + rewrite in_order_rotate_right; reflexivity.
    + rewrite ppar_rotate_right; reflexivity.
    + apply wf_rotate_right'; auto; discriminate.
    + rewrite in_order_double_right; reflexivity.
    + rewrite ppar_double_right; reflexivity.
    + apply wf_double_right; auto; discriminate.
  - destruct (diff (ht r) (ht l) 2) eqn:D2.
    + apply diff2 in D2; try assumption. destruct r as [|k q g y rl rr]; [cbn in D2; lia|].
      destruct (diff (ht rr) (ht rl) 1); eexists; (split; [reflexivity|]); split; try split.
      * rewrite in_order_rotate_left; reflexivity.
      * rewrite ppar_rotate_left; reflexivity.
      * apply wf_rotate_left'; auto; discriminate.
      * rewrite in_order_double_left; reflexivity.
      * rewrite ppar_double_left; reflexivity.
      * apply wf_double_left; auto; discriminate.
    + eexists; (split; [reflexivity|]); split; try split; try reflexivity. apply wf_node; auto.
Qed.

(** ** Order *)
Context (LAW : lawful o).

Definition le (a b : T) : Prop := lt_ o b a = false.

Lemma le_trans a b c : le a b -> le b c -> le a c.
Proof.
  unfold le. intros H1 H2. destruct (lt_ o c a) eqn:E; [|reflexivity].
  destruct (lt_total o LAW b a) as [L|[->|L]].
  - congruence.
  - congruence.
  - rewrite (lt_trans o LAW c a b E L) in H2. discriminate.
Qed.
Lemma lt_le a b : lt_ o a b = true -> le a b.
Proof.
  unfold le. intros H. destruct (lt_ o b a) eqn:E; [|reflexivity].
  pose proof (lt_trans o LAW _ _ _ H E) as F. rewrite (lt_irrefl o LAW) in F. discriminate.
Qed.
Lemma le_antisym a b : le a b -> le b a -> a = b.
Proof. unfold le. intros. destruct (lt_total o LAW a b) as [L|[L|L]]; congruence. Qed.
Lemma lt_le_trans a b c : lt_ o a b = true -> le b c -> lt_ o a c = true.
Proof.
  intros H1 H2. destruct (lt_total o LAW a c) as [L|[->|L]]; auto.
  - unfold le in H2. congruence.
  - pose proof (lt_trans o LAW _ _ _ L H1). unfold le in H2. congruence.
Qed.

Lemma sorted_app l x r : sorted o (l ++ x :: r) <->
  sorted o l /\ sorted o r /\ Forall (fun a => le a x) l /\ Forall (fun b => le x b) r.
Proof.
  unfold sorted. induction l as [|a l IH]; cbn [app].
  - split; [|intros (_ & A & _ & B); constructor; auto].
    intros H. inversion H; subst. split; [constructor|]. auto.
  - split.
    + intros H. inversion H as [|? ? S F]; subst. apply IH in S. destruct S as (S1 & S2 & S3 & S4).
      apply Forall_app in F. destruct F as [F1 F2]. inversion F2; subst.
      split; [constructor; auto|]. split; [assumption|]. split; [constructor; auto|assumption].
    + intros (S1 & S2 & S3 & S4). inversion S1 as [|? ? S F]; subst. inversion S3; subst.
      constructor; [apply IH; auto|]. apply Forall_app. split; [assumption|]. constructor; [assumption|].
      eapply Forall_impl; [|exact S4]. cbn. intros b Hb. eapply le_trans; eauto.
Qed.

Lemma Forall_perm {A} (P : A -> Prop) l l' : Permutation l' l -> Forall P l -> Forall P l'.
Proof. intros H F. rewrite Forall_forall in *. intros x Hx. apply F. eapply Permutation_in; eauto. Qed.

Lemma not_lt_gt v x : lt_ o v x = false -> gt_ o v x = false -> v = x.
Proof. intros A B. rewrite (gt_is_lt o LAW) in B. destruct (lt_total o LAW v x) as [L|[L|L]]; congruence. Qed.

Lemma in_left v x l r : Forall (fun b => le x b) r -> lt_ o v x = true ->
  (In v (l ++ x :: r) <-> In v l).
Proof.
  intros F L. rewrite in_app_iff. cbn. split; [|auto]. intros [H|[->|H]]; auto.
  - rewrite (lt_irrefl o LAW) in L. discriminate.
  - rewrite Forall_forall in F. specialize (F v H). unfold le in F. congruence.
Qed.
Lemma in_right v x l r : Forall (fun a => le a x) l -> lt_ o x v = true ->
  (In v (l ++ x :: r) <-> In v r).
Proof.
  intros F L. rewrite in_app_iff. cbn. split; [|auto]. intros [H|[->|H]]; auto.
  - rewrite Forall_forall in F. specialize (F v H). unfold le in F. congruence.
  - rewrite (lt_irrefl o LAW) in L. discriminate.
Qed.

(** ** insert *)
Definition inserted_ok e dup value (t t' : tree) (b : bool) : Prop :=
  (b = false -> t' = t /\ dup = false /\ In value (in_order t)) /\
  (b = true -> (dup = false -> ~ In value (in_order t)) /\
     Permutation (in_order t') (value :: in_order t) /\ sorted o (in_order t') /\
     wf e t' /\ t' <> Leaf /\ (t <> Leaf -> ppar t' = ppar t) /\ (t = Leaf -> ppar t' = None)).

Lemma perm_size (t t' : tree) v : Permutation (in_order t') (v :: in_order t) -> size t' = S (size t).
Proof. intros H. apply Permutation_length in H. exact H. Qed.

Lemma insert_ok e dup i value t : wf e t -> sorted o (in_order t) -> (N.of_nat (S (size t)) < big)%N ->
  exists t' b, insert_node o dup i value t = Val (t', b) /\ inserted_ok e dup value t t' b.
Proof.
  induction t as [|j p h x l IHl r IHr]; intros W S B.
  - exists (Node i None 1 value Leaf Leaf), true. split; [reflexivity|]. split; [discriminate|].
    intros _. cbn. split; [tauto|]. split; [reflexivity|]. split; [repeat constructor|].
    split; [|split; [discriminate|split; [congruence|reflexivity]]].
    unfold size; cbn; repeat split; lia.
  - rewrite size_node in B. pose proof S as S0. cbn [in_order] in S. apply sorted_app in S. destruct S as (Sl & Sr & Fl & Fr).
    pose proof W as (_ & _ & Wl & Wr & Hl & Hr). cbn [insert_node].
    destruct (lt_ o value x) eqn:LT.
    + assert (C : exists l' b, match l with
          | Leaf => Val (Node i (Some j) 1 value Leaf Leaf, true)
          | Node _ _ _ _ _ _ => insert_node o dup i value l end = Val (l', b) /\
          (b = false -> l' = l /\ dup = false /\ In value (in_order l)) /\
          (b = true -> (dup = false -> ~ In value (in_order l)) /\
             Permutation (in_order l') (value :: in_order l) /\ sorted o (in_order l') /\ wf e l' /\ haspar l')).
      { destruct l as [|k q g y ll lr].
        - exists (Node i (Some j) 1 value Leaf Leaf), true. split; [reflexivity|]. split; [discriminate|].
          intros _. cbn. split; [tauto|]. split; [reflexivity|]. split; [repeat constructor|].
          split; [|discriminate]. unfold size; cbn; repeat split; lia.
        - destruct IHl as (l' & b & E & I1 & I2); auto; [lia|]. exists l', b. split; [assumption|].
          split; [assumption|]. intros ->. destruct (I2 eq_refl) as (A1 & A2 & A3 & A4 & A5 & A6 & _).
          split; [assumption|]. split; [assumption|]. split; [assumption|]. split; [assumption|].
          eapply haspar_ppar; [apply A6|apply Hl|]; discriminate. }
      destruct C as (l' & b & E & I1 & I2). rewrite E. cbn [bind]. destruct b.
      * destruct (I2 eq_refl) as (A1 & A2 & A3 & A4 & A5). pose proof (perm_size _ _ _ A2) as SZ.
        destruct (rotate_if_needed_ok e j p h x l' r value) as (t' & R & K1 & K2 & K3); auto; [lia|].
        rewrite R. cbn [bind]. exists t', true. split; [reflexivity|]. split; [discriminate|]. intros _.
        split; [|split; [|split; [|split; [|split; [|split]]]]].
        -- intros ND. cbn [in_order]. rewrite in_left by assumption. auto.
        -- rewrite K1. cbn [in_order]. rewrite A2. reflexivity.
        -- rewrite K1. cbn [in_order]. apply sorted_app. split; [assumption|]. split; [assumption|]. split; [|assumption].
           eapply Forall_perm; [exact A2|]. constructor; [apply lt_le; assumption|assumption].
        -- assumption.
        -- intros ->. cbn in K1. destruct (in_order l'); discriminate.
        -- intros _. exact K2.
        -- discriminate.
      * destruct (I1 eq_refl) as (-> & D & IN). exists (Node j p h x l r), false. split; [reflexivity|].
        split; [|discriminate]. intros _. split; [reflexivity|]. split; [assumption|].
        cbn [in_order]. apply in_or_app. auto.
    + destruct (gt_ o value x || dup) eqn:GD.
      * assert (LE : le x value) by exact LT.
        assert (C : exists r' b, match r with
          | Leaf => Val (Node i (Some j) 1 value Leaf Leaf, true)
          | Node _ _ _ _ _ _ => insert_node o dup i value r end = Val (r', b) /\
          (b = false -> r' = r /\ dup = false /\ In value (in_order r)) /\
          (b = true -> (dup = false -> ~ In value (in_order r)) /\
             Permutation (in_order r') (value :: in_order r) /\ sorted o (in_order r') /\ wf e r' /\ haspar r')).
        { destruct r as [|k q g y rl rr].
          - exists (Node i (Some j) 1 value Leaf Leaf), true. split; [reflexivity|]. split; [discriminate|].
            intros _. cbn. split; [tauto|]. split; [reflexivity|]. split; [repeat constructor|].
            split; [|discriminate]. unfold size; cbn; repeat split; lia.
          - destruct IHr as (r' & b & E & I1 & I2); auto; [lia|]. exists r', b. split; [assumption|].
            split; [assumption|]. intros ->. destruct (I2 eq_refl) as (A1 & A2 & A3 & A4 & A5 & A6 & _).
            split; [assumption|]. split; [assumption|]. split; [assumption|]. split; [assumption|].
            eapply haspar_ppar; [apply A6|apply Hr|]; discriminate. }
        destruct C as (r' & b & E & I1 & I2). rewrite E. cbn [bind]. destruct b.
        -- destruct (I2 eq_refl) as (A1 & A2 & A3 & A4 & A5). pose proof (perm_size _ _ _ A2) as SZ.
           destruct (rotate_if_needed_ok e j p h x l r' value) as (t' & R & K1 & K2 & K3); auto; [lia|].
           rewrite R. cbn [bind]. exists t', true. split; [reflexivity|]. split; [discriminate|]. intros _.
           split; [|split; [|split; [|split; [|split; [|split]]]]].
           ++ intros ND. cbn [in_order]. rewrite ND, orb_false_r, (gt_is_lt o LAW) in GD.
              rewrite in_right by assumption. auto.
           ++ rewrite K1. cbn [in_order]. rewrite A2. rewrite (perm_swap value x).
              symmetry. apply Permutation_middle.
           ++ rewrite K1. cbn [in_order]. apply sorted_app. split; [assumption|]. split; [assumption|]. split; [assumption|].
              eapply Forall_perm; [exact A2|]. constructor; assumption.
           ++ assumption.
           ++ intros ->. cbn in K1. destruct (in_order l); discriminate.
           ++ intros _. exact K2.
           ++ discriminate.
        -- destruct (I1 eq_refl) as (-> & D & IN). exists (Node j p h x l r), false. split; [reflexivity|].
           split; [|discriminate]. intros _. split; [reflexivity|]. split; [assumption|].
           cbn [in_order]. apply in_or_app. right. right. assumption.
      * apply orb_false_iff in GD. destruct GD as [G D]. exists (Node j p h x l r), false. split; [reflexivity|].
        split; [|discriminate]. intros _. split; [reflexivity|]. split; [assumption|].
        cbn [in_order]. apply in_or_app. right. left. symmetry. apply not_lt_gt; assumption.
Qed.

(** ** remove *)
Lemma leftmost_head d (t : tree) :
  t = Leaf /\ leftmost d t = d \/ exists tl, in_order t = leftmost d t :: tl.
Proof.
  revert d. induction t as [|i p h v l IHl r IHr]; intros d; [left; auto|right].
  cbn [leftmost in_order]. destruct (IHl v) as [(-> & E)|(tl & E)].
  - rewrite E. cbn. eauto.
  - rewrite E. cbn. eauto.
Qed.

Lemma leftmost_hd j p h v (l r : tree) : exists tl, in_order (Node j p h v l r) = leftmost v l :: tl.
Proof.
  cbn [in_order]. destruct (leftmost_head v l) as [(-> & E)|(tl & E)].
  - cbn. eauto.
  - rewrite E. cbn. eauto.
Qed.

Lemma rightmost_last j p h v (l r : tree) : exists tl, in_order (Node j p h v l r) = tl ++ [rightmost v r].
Proof.
  revert j p h v l. induction r as [|j' p' h' v' l' IHl r IHr]; intros j p h v l; cbn [in_order rightmost].
  - eauto.
  - destruct (IHr j' p' h' v' l') as (tl & E). cbn [in_order] in E. rewrite E. exists (in_order l ++ v :: tl).
    rewrite <- app_assoc. reflexivity.
Qed.

Definition removed_ok e value (t t' : tree) (b : bool) : Prop :=
  wf e t' /\ (t' <> Leaf -> ppar t' = ppar t) /\ sorted o (in_order t') /\
  (b = false -> in_order t' = in_order t /\ ~ In value (in_order t)) /\
  (b = true -> Permutation (in_order t) (value :: in_order t')).

Lemma set_parent_wf e t p : wf e t -> wf e (set_parent t p).
Proof. destruct t; auto. Qed.
Lemma set_parent_in_order (t : tree) p : in_order (set_parent t p) = in_order t.
Proof. destruct t; reflexivity. Qed.

Lemma remove_ok e value t : wf e t -> sorted o (in_order t) -> (N.of_nat (size t) < big)%N ->
  exists t' b, remove_node o value t = Val (t', b) /\ removed_ok e value t t' b /\ (t = Leaf -> t' = Leaf).
Proof.
  revert value. induction t as [|j p h x l IHl r IHr]; intros value W S B.
  - exists Leaf, false. split; [reflexivity|]. split; [|auto]. split; [exact I|]. split; [congruence|].
    split; [constructor|]. split; [cbn; auto|discriminate].
  - rewrite size_node in B. pose proof S as S0. cbn [in_order] in S. apply sorted_app in S. destruct S as (Sl & Sr & Fl & Fr).
    pose proof W as (_ & _ & Wl & Wr & Hl & Hr). cbn [remove_node].
    assert (HP : forall t t' : tree, haspar t -> (t' <> Leaf -> ppar t' = ppar t) -> (t = Leaf -> t' = Leaf) -> haspar t').
    { clear. intros t t' H K Z. destruct t as [|i p h v l r]; [rewrite Z by reflexivity; exact I|].
      destruct t' as [|i' p' h' v' l' r']; [exact I|]. cbn in *. rewrite K by discriminate. assumption. }
    destruct (lt_ o value x) eqn:LT; [|destruct (gt_ o value x) eqn:GT].
    + destruct (IHl value) as (l' & b & E & (A1 & A2 & A3 & A4 & A5) & A6); auto; [lia|].
      rewrite E. cbn [bind].
      assert (SZ : size l' <= size l).
      { destruct b; [apply Permutation_length in A5; auto; cbn in A5; unfold size; lia|].
        destruct A4 as [A4 _]; auto. unfold size. rewrite A4. lia. }
      assert (FP : Forall (fun a => le a x) (in_order l')).
      { rewrite Forall_forall in *. intros y Hy. apply Fl. destruct b.
        - eapply Permutation_in; [symmetry; apply A5; reflexivity|]. right. assumption.
        - destruct A4 as [A4 _]; auto. rewrite <- A4. assumption. }
      destruct (rebalance_ok e j p h x l' r) as (t' & R & K1 & K2 & K3); auto; [apply (HP l l'); auto|lia|].
      rewrite R. cbn [bind]. exists t', b. split; [reflexivity|]. split; [|congruence].
      split; [assumption|]. split; [intros _; exact K2|]. split; [|split].
      * rewrite K1. cbn [in_order]. apply sorted_app. auto.
      * intros ->. destruct A4 as [A4 A4']; auto. split; [rewrite K1; cbn [in_order]; rewrite A4; reflexivity|].
        cbn [in_order]. rewrite in_left; assumption.
      * intros ->. rewrite K1. cbn [in_order]. rewrite A5 by reflexivity. reflexivity.
    + rewrite (gt_is_lt o LAW) in GT.
      destruct (IHr value) as (r' & b & E & (A1 & A2 & A3 & A4 & A5) & A6); auto; [lia|].
      rewrite E. cbn [bind].
      assert (SZ : size r' <= size r).
      { destruct b; [apply Permutation_length in A5; auto; cbn in A5; unfold size; lia|].
        destruct A4 as [A4 _]; auto. unfold size. rewrite A4. lia. }
      assert (FP : Forall (fun a => le x a) (in_order r')).
      { rewrite Forall_forall in *. intros y Hy. apply Fr. destruct b.
        - eapply Permutation_in; [symmetry; apply A5; reflexivity|]. right. assumption.
        - destruct A4 as [A4 _]; auto. rewrite <- A4. assumption. }
      destruct (rebalance_ok e j p h x l r') as (t' & R & K1 & K2 & K3); auto; [apply (HP r r'); auto|lia|].
      rewrite R. cbn [bind]. exists t', b. split; [reflexivity|]. split; [|congruence].
      split; [assumption|]. split; [intros _; exact K2|]. split; [|split].
      * rewrite K1. cbn [in_order]. apply sorted_app. auto.
      * intros ->. destruct A4 as [A4 A4']; auto. split; [rewrite K1; cbn [in_order]; rewrite A4; reflexivity|].
        cbn [in_order]. rewrite in_right; assumption.
      * intros ->. rewrite K1. cbn [in_order]. rewrite A5 by reflexivity.
        rewrite (perm_swap value x). symmetry. apply Permutation_middle.
    + assert (VX : value = x) by (apply not_lt_gt; assumption). subst value.
      assert (ONE : forall c : tree, c = l /\ r = Leaf \/ c = r /\ l = Leaf ->
        exists t', rebalance (set_parent c p) = Val t' /\ removed_ok e x (Node j p h x l r) t' true).
      { intros c HC.
        assert (Wc : wf e c) by (destruct HC as [[-> _]|[-> _]]; assumption).
        assert (Ic : in_order (Node j p h x l r) = in_order c ++ [x] \/ in_order (Node j p h x l r) = x :: in_order c).
        { destruct HC as [[-> ->]|[-> ->]]; cbn; auto. }
        assert (Bc : (N.of_nat (size c) < big)%N).
        { destruct HC as [[-> ->]|[-> ->]]; unfold size in *; cbn in *; lia. }
        assert (Sc : sorted o (in_order c)) by (destruct HC as [[-> _]|[-> _]]; assumption).
        assert (PERM : Permutation (in_order (Node j p h x l r)) (x :: in_order c)).
        { destruct Ic as [-> | ->]; [|reflexivity]. symmetry. apply Permutation_cons_append. }
        destruct c as [|k q g y cl cr].
        - exists Leaf. split; [reflexivity|]. split; [exact I|]. split; [congruence|]. split; [constructor|].
          split; [discriminate|]. intros _. exact PERM.
        - cbn [set_parent]. pose proof Wc as (_ & _ & W1 & W2 & H1 & H2). rewrite size_node in Bc.
          destruct (rebalance_ok e k p g y cl cr) as (t' & R & K1 & K2 & K3); auto; [lia|].
          exists t'. split; [assumption|]. split; [assumption|]. split; [intros _; exact K2|].
          split; [rewrite K1; exact Sc|]. split; [discriminate|]. intros _. rewrite K1. exact PERM. }
      destruct l as [|k q g y ll lr].
      * destruct (ONE r) as (t' & R & RO); [auto|]. rewrite R. cbn [bind]. exists t', true.
        split; [reflexivity|]. split; [assumption|congruence].
      * destruct r as [|k' q' g' y' rl rr].
        -- destruct (ONE (Node k q g y ll lr)) as (t' & R & RO); [auto|]. rewrite R. cbn [bind]. exists t', true.
           split; [reflexivity|]. split; [assumption|congruence].
        -- set (l := Node k q g y ll lr) in *. set (r := Node k' q' g' y' rl rr) in *.
           destruct (leftmost_hd k' q' g' y' rl rr) as (tl & HD). fold r in HD. set (m := leftmost y' rl) in *.
           destruct (IHr m) as (r' & b & E & (A1 & A2 & A3 & A4 & A5) & A6); auto; [lia|].
           assert (b = true).
           { destruct b; [reflexivity|]. destruct A4 as [_ A4]; auto. exfalso. apply A4. rewrite HD. left. reflexivity. }
           subst b. specialize (A5 eq_refl). rewrite E. cbn [bind].
           assert (P2 : Permutation tl (in_order r')).
           { rewrite HD in A5. apply Permutation_cons_inv in A5. exact A5. }
           assert (LM : le x m) by (rewrite HD in Fr; inversion Fr; assumption).
           assert (SZ : size r' <= size r) by (apply Permutation_length in A5; unfold size; rewrite A5; cbn [length]; lia).
           destruct (rebalance_ok e j p h m l r') as (t' & R & K1 & K2 & K3); auto; [apply (HP r r'); auto|lia|].
           rewrite R. cbn [bind]. exists t', true. split; [reflexivity|]. split; [|congruence].
           split; [assumption|]. split; [intros _; exact K2|]. split; [|split; [discriminate|]].
           ++ rewrite K1. cbn [in_order]. apply sorted_app. split; [assumption|]. split; [assumption|]. split.
              ** eapply Forall_impl; [|exact Fl]. intros a Ha. exact (le_trans a x m Ha LM).
              ** rewrite HD in Sr. inversion Sr; subst. eapply Forall_perm; [symmetry; exact P2|]. assumption.
           ++ intros _. rewrite K1. cbn [in_order]. rewrite A5.
              rewrite <- (Permutation_middle (in_order l) (m :: in_order r') x). reflexivity.
Qed.

(** ** contains, extremes *)
Lemma contains_ok value t : sorted o (in_order t) -> contains_node o value t = true <-> In value (in_order t).
Proof.
  induction t as [|j p h x l IHl r IHr]; intros S; [cbn; split; [discriminate|tauto]|].
  cbn [in_order] in S. apply sorted_app in S. destruct S as (Sl & Sr & Fl & Fr).
  cbn [contains_node in_order]. destruct (lt_ o value x) eqn:LT; [|destruct (gt_ o value x) eqn:GT].
  - rewrite in_left by assumption. auto.
  - rewrite (gt_is_lt o LAW) in GT. rewrite in_right by assumption. auto.
  - rewrite (not_lt_gt _ _ LT GT). split; [intros _; apply in_or_app; right; left; reflexivity|].
    intros _. apply (eq_is_eq o LAW). reflexivity.
Qed.

(** ** occurrences *)
Lemma occ_app v l1 l2 : occ o v (l1 ++ l2) = occ o v l1 + occ o v l2.
Proof. unfold occ. rewrite filter_app, app_length. reflexivity. Qed.
Lemma occ_cons v a l : occ o v (a :: l) = (if eq_ o v a then 1 else 0) + occ o v l.
Proof. unfold occ. cbn. destruct (eq_ o v a); reflexivity. Qed.
Lemma occ_perm v l1 l2 : Permutation l1 l2 -> occ o v l1 = occ o v l2.
Proof. induction 1; rewrite ?occ_cons; lia. Qed.
Lemma occ_in v l : 0 < occ o v l <-> In v l.
Proof.
  induction l as [|a l IH]; [cbn; split; [lia|tauto]|]. rewrite occ_cons. cbn.
  destruct (eq_ o v a) eqn:E.
  - apply (eq_is_eq o LAW) in E. subst. split; [auto|lia].
  - cbn. rewrite IH. split; [auto|]. intros [->|H]; auto.
    assert (eq_ o v v = true) by (apply (eq_is_eq o LAW); reflexivity). congruence.
Qed.
Lemma occ_le_length v l : occ o v l <= length l.
Proof. unfold occ. induction l as [|a l IH]; cbn; [lia|]. destruct (eq_ o v a); cbn; lia. Qed.

(** ** Histories *)
Definition inv e (s : avl) (m : nat) : Prop :=
  wf e (root s) /\ sorted o (in_order (root s)) /\ ppar (root s) = None /\
  count s = N.of_nat (size (root s)) /\ (N.of_nat (size (root s) + m) < big)%N.

Lemma big_two64 n : (N.of_nat n < big)%N -> (N.of_nat n < two64)%N.
Proof. unfold big, two64. change (2 ^ 64)%N with (2 * 2 ^ 63)%N. lia. Qed.

Lemma wadd1 n : (N.of_nat (S n) < big)%N -> wadd (N.of_nat n) 1 = N.of_nat (S n).
Proof. intros H. apply big_two64 in H. unfold wadd. rewrite N.mod_small; lia. Qed.
Lemma wsub1 n : (N.of_nat (S n) < big)%N -> wsub (N.of_nat (S n)) 1 = N.of_nat n.
Proof.
  intros H. apply big_two64 in H. unfold wsub.
  replace (N.of_nat (S n) + two64 - 1)%N with (N.of_nat n + 1 * two64)%N by lia.
  rewrite N.mod_add by (unfold two64; lia). apply N.mod_small. lia.
Qed.

Lemma insert_state e s v m : inv e s (S m) ->
  exists s' b, insert o s v = Val (s', b) /\ inv e s' m /\ dup s' = dup s /\
    (b = true <-> dup s = true \/ ~ In v (in_order (root s))) /\
    (b = true -> Permutation (in_order (root s')) (v :: in_order (root s))) /\
    (b = false -> root s' = root s).
Proof.
  intros (W & S & P & C & B).
  destruct (insert_ok e (dup s) (fresh s) v (root s) W S) as (t' & b & E & I1 & I2); [lia|].
  unfold insert. rewrite E. cbn [bind]. eexists _, b. split; [reflexivity|]. unfold inv. cbn [root dup count fresh].
  destruct b.
  - destruct (I2 eq_refl) as (A1 & A2 & A3 & A4 & A5 & A6 & A7). pose proof (perm_size _ _ _ A2) as SZ.
    split; [|split; [reflexivity|split; [|split; [auto|discriminate]]]].
    + split; [assumption|]. split; [assumption|]. split; [|split].
      * destruct (root s) eqn:R; [apply A7; reflexivity|rewrite A6 by discriminate; exact P].
      * rewrite C, SZ. apply wadd1. lia.
      * rewrite SZ. lia.
    + split; [|auto]. intros _. destruct (dup s); auto.
  - destruct (I1 eq_refl) as (-> & D & IN).
    split; [|split; [reflexivity|split; [|split; [discriminate|auto]]]].
    + split; [assumption|]. split; [assumption|]. split; [assumption|]. split; [assumption|lia].
    + split; [discriminate|]. intros [H|H]; [congruence|tauto].
Qed.

Lemma remove_state e s v m : inv e s m ->
  exists s' b, remove o s v = Val (s', b) /\ inv e s' m /\ dup s' = dup s /\
    (b = true <-> In v (in_order (root s))) /\
    (b = true -> Permutation (in_order (root s)) (v :: in_order (root s'))) /\
    (b = false -> in_order (root s') = in_order (root s)).
Proof.
  intros (W & S & P & C & B).
  destruct (remove_ok e v (root s) W S) as (t' & b & E & (A1 & A2 & A3 & A4 & A5) & A6); [lia|].
  unfold remove. rewrite E. cbn [bind]. eexists _, b. split; [reflexivity|]. unfold inv. cbn [root dup count fresh].
  assert (P' : ppar t' = None).
  { destruct t'; [reflexivity|]. rewrite A2 by discriminate. exact P. }
  destruct b.
  - specialize (A5 eq_refl). assert (SZ : size (root s) = Datatypes.S (size t')).
    { unfold size. apply Permutation_length in A5. exact A5. }
    split; [|split; [reflexivity|split; [|split; [auto|discriminate]]]].
    + split; [assumption|]. split; [assumption|]. split; [assumption|]. split.
      * rewrite C, SZ. apply wsub1. rewrite SZ in B. lia.
      * rewrite SZ in B. lia.
    + split; [|auto]. intros _. eapply Permutation_in; [symmetry; exact A5|left; reflexivity].
  - destruct A4 as [A4 A4']; [reflexivity|].
    assert (SZ : size t' = size (root s)) by (unfold size; rewrite A4; reflexivity).
    split; [|split; [reflexivity|split; [|split; [discriminate|auto]]]].
    + split; [assumption|]. split; [assumption|]. split; [assumption|]. rewrite SZ. auto.
    + split; [discriminate|tauto].
Qed.

Lemma wadd_big a b : (N.of_nat (a + b) < big)%N -> wadd (N.of_nat a) (N.of_nat b) = N.of_nat (a + b).
Proof. intros H. apply big_two64 in H. unfold wadd. rewrite N.mod_small; lia. Qed.

Lemma occ_self v l : occ o v (v :: l) = Datatypes.S (occ o v l).
Proof.
  rewrite occ_cons. assert (E : eq_ o v v = true) by (apply (eq_is_eq o LAW); reflexivity).
  rewrite E. reflexivity.
Qed.

Lemma remove_all_loop_ok e v m : forall fuel s k, inv e s m -> occ o v (in_order (root s)) < fuel ->
  (N.of_nat (k + occ o v (in_order (root s))) < big)%N ->
  exists s', remove_all_loop o fuel s v (N.of_nat k) = Val (s', N.of_nat (k + occ o v (in_order (root s)))) /\
    inv e s' m /\ dup s' = dup s /\ occ o v (in_order (root s')) = 0 /\
    forall w, w <> v -> occ o w (in_order (root s')) = occ o w (in_order (root s)).
Proof.
  induction fuel as [|fuel IH]; intros s k I F B; [lia|].
  destruct (remove_state e s v m I) as (s' & b & E & I' & D & Hb & P1 & P2).
  cbn [remove_all_loop]. rewrite E. cbn [bind]. destruct b.
  - specialize (P1 eq_refl). assert (O : occ o v (in_order (root s)) = S (occ o v (in_order (root s')))).
    { rewrite (occ_perm v _ _ P1). apply occ_self. }
    rewrite O in *. rewrite wadd1 by lia.
    destruct (IH s' (S k) I') as (s'' & E2 & I2 & D2 & O2 & O3); [lia|replace (S k + occ o v (in_order (root s'))) with (k + S (occ o v (in_order (root s')))) by lia; exact B|].
    exists s''. rewrite E2. split; [do 3 f_equal; lia|]. split; [assumption|]. split; [congruence|].
    split; [assumption|]. intros w Hw. rewrite O3 by assumption. rewrite (occ_perm w _ _ P1), occ_cons.
    destruct (eq_ o w v) eqn:EQ; [|reflexivity]. apply (eq_is_eq o LAW) in EQ. congruence.
  - specialize (P2 eq_refl). assert (O : occ o v (in_order (root s)) = 0).
    { destruct (occ o v (in_order (root s))) eqn:Z; [reflexivity|].
      assert (false = true); [|discriminate]. apply Hb. apply occ_in; lia. }
    exists s'. rewrite O, Nat.add_0_r. split; [reflexivity|]. split; [assumption|]. split; [assumption|].
    rewrite P2. auto.
Qed.

Lemma remove_all_state e s v m : inv e s m ->
  exists s', remove_all o s v = Val (s', N.of_nat (occ o v (in_order (root s)))) /\
    inv e s' m /\ dup s' = dup s /\ occ o v (in_order (root s')) = 0 /\
    forall w, w <> v -> occ o w (in_order (root s')) = occ o w (in_order (root s)).
Proof.
  intros I. pose proof (occ_le_length v (in_order (root s))) as L. fold (size (root s)) in L.
  pose proof I as (_ & _ & _ & _ & B). unfold remove_all. rewrite visited_size.
  apply (remove_all_loop_ok e v m (S (size (root s))) s 0 I); lia.
Qed.

Lemma wf_weaken e (t : tree) : wf e t -> wf false t.
Proof. induction t; cbn [wf]; [auto|]. intros (A & _ & B & C & D & E). split; [assumption|]. split; [discriminate|auto]. Qed.

Lemma copy_ok (t : tree) : forall i p, let t' := fst (copy_node i p t) in
  in_order t' = in_order t /\ wf false t' /\ (t <> Leaf -> ppar t' = p) /\ (t = Leaf -> t' = Leaf).
Proof.
  induction t as [|j q h v l IHl r IHr]; intros i p; cbn [copy_node].
  - cbn. split; [reflexivity|]. split; [exact I|]. split; congruence.
  - specialize (IHl (S i) (Some i)). destruct (copy_node (S i) (Some i) l) as [l' i1].
    specialize (IHr i1 (Some i)). destruct (copy_node i1 (Some i) r) as [r' i2].
    cbn [fst] in *. destruct IHl as (L1 & L2 & L3 & L4). destruct IHr as (R1 & R2 & R3 & R4).
    split; [cbn [in_order]; rewrite L1, R1; reflexivity|]. split; [|split; [reflexivity|discriminate]].
    assert (HP : forall c c' : tree, (c <> Leaf -> ppar c' = Some i) -> (c = Leaf -> c' = Leaf) -> haspar c').
    { intros c c' A B. destruct c; [rewrite B by reflexivity; exact I|]. destruct c'; [exact I|].
      cbn in *. rewrite A by discriminate. discriminate. }
    cbn [wf]. rewrite size_node. split; [lia|]. split; [discriminate|]. split; [assumption|]. split; [assumption|].
    split; eapply HP; eassumption.
Qed.

Lemma copy_construct_facts (s : avl) :
  in_order (root (copy_construct s)) = in_order (root s) /\ dup (copy_construct s) = dup s /\
  count (copy_construct s) = count s /\ wf false (root (copy_construct s)) /\ ppar (root (copy_construct s)) = None.
Proof.
  unfold copy_construct, copy_assign. destruct (root s) as [|j q h v l r] eqn:R; cbn [root dup count fresh].
  - repeat split.
  - pose proof (copy_ok (Node j q h v l r) (fresh s) None) as (A & B & C & _).
    destruct (copy_node (fresh s) None (Node j q h v l r)) as [t' i]. cbn [fst root dup count] in *.
    split; [assumption|]. split; [reflexivity|]. split; [reflexivity|]. split; [assumption|].
    apply C. discriminate.
Qed.

Lemma astep_ok e s op m : inv e s (S m) -> (op = ACopy -> e = false) ->
  exists s' r, astep o s op = Val (s', r) /\ inv e s' m /\ dup s' = dup_after (dup s) [op] /\
    forall v, occ o v (in_order (root s')) = mult o (dup s) (occ o v (in_order (root s))) v [op].
Proof.
  intros I CP. assert (I' : inv e s m) by (destruct I as (? & ? & ? & ? & ?); repeat split; auto; lia).
  destruct op as [v|v|v|v| | | |b| |]; cbn [astep dup_after mult].
  - destruct (insert_state e s v m I) as (s' & b & E & I2 & D & Hb & P1 & P2).
    rewrite E. cbn [bind]. eexists _, _. split; [reflexivity|]. split; [assumption|]. split; [assumption|].
    intros w. destruct b.
    + rewrite (occ_perm w _ _ (P1 eq_refl)), occ_cons. destruct (eq_ o w v) eqn:EQ; [|reflexivity].
      apply (eq_is_eq o LAW) in EQ. subst w. destruct Hb as [Hb _]. destruct (Hb eq_refl) as [-> |NI]; [reflexivity|].
      rewrite <- occ_in in NI. replace (occ o v (in_order (root s))) with 0 by lia. rewrite orb_true_r. reflexivity.
    + rewrite (P2 eq_refl). destruct (eq_ o w v) eqn:EQ; [|reflexivity]. apply (eq_is_eq o LAW) in EQ. subst w.
      destruct (dup s || (occ o v (in_order (root s)) =? 0)) eqn:Z; [|reflexivity]. exfalso.
      assert (false = true); [|discriminate]. apply Hb. apply orb_true_iff in Z. destruct Z as [Z|Z]; [auto|].
      right. rewrite <- occ_in. apply Nat.eqb_eq in Z. lia.
  - destruct (remove_state e s v m I') as (s' & b & E & I2 & D & Hb & P1 & P2).
    rewrite E. cbn [bind]. eexists _, _. split; [reflexivity|]. split; [assumption|]. split; [assumption|].
    intros w. destruct b.
    + rewrite (occ_perm w _ _ (P1 eq_refl)), occ_cons. destruct (eq_ o w v); lia.
    + rewrite (P2 eq_refl). destruct (eq_ o w v) eqn:EQ; [|reflexivity]. apply (eq_is_eq o LAW) in EQ. subst w.
      destruct (occ o v (in_order (root s))) eqn:Z; [reflexivity|]. exfalso.
      assert (false = true); [|discriminate]. apply Hb. apply occ_in. lia.
  - destruct (remove_all_state e s v m I') as (s' & E & I2 & D & O1 & O2).
    rewrite E. cbn [bind]. eexists _, _. split; [reflexivity|]. split; [assumption|]. split; [assumption|].
    intros w. destruct (eq_ o w v) eqn:EQ.
    + apply (eq_is_eq o LAW) in EQ. subst w. assumption.
    + apply O2. intros ->. assert (eq_ o v v = true) by (apply (eq_is_eq o LAW); reflexivity). congruence.
  - eexists _, _. split; [reflexivity|]. auto.
  - eexists _, _. split; [reflexivity|]. auto.
  - eexists _, _. split; [reflexivity|]. auto.
  - eexists _, _. split; [reflexivity|]. unfold clear. destruct I as (_ & _ & _ & _ & B).
    split; [|auto]. unfold inv, size. cbn in *. repeat split; auto; [constructor|lia].
  - eexists _, _. split; [reflexivity|]. auto.
  - eexists _, _. split; [reflexivity|]. rewrite (CP eq_refl) in *.
    destruct (copy_construct_facts s) as (A & B & C & D & E). destruct I' as (I1 & I2 & I3 & I4 & I5).
    split; [|split; [assumption|intros w; rewrite A; reflexivity]]. unfold inv. unfold size in *. rewrite A. auto 6.
    rewrite C. auto 6.
  - eexists _, _. split; [reflexivity|]. auto.
Qed.

Lemma mult_cons d n v op ops : mult o d n v (op :: ops) = mult o (dup_after d [op]) (mult o d n v [op]) v ops.
Proof. destruct op; reflexivity. Qed.
Lemma dup_after_cons d (op : aop T) ops : dup_after d (op :: ops) = dup_after (dup_after d [op]) ops.
Proof. destruct op; reflexivity. Qed.

Lemma arun_ok e ops : forall s m, inv e s (length ops + m) -> (e = true -> Forall no_copy ops) ->
  exists s' outs, arun o s ops = Val (s', outs) /\ inv e s' m /\ dup s' = dup_after (dup s) ops /\
    forall v, occ o v (in_order (root s')) = mult o (dup s) (occ o v (in_order (root s))) v ops.
Proof.
  induction ops as [|op ops IH]; intros s m I NC.
  - exists s, []. split; [reflexivity|]. auto.
  - destruct (astep_ok e s op (length ops + m) I) as (s1 & r & E & I1 & D1 & O1).
    { intros ->. destruct e; [|reflexivity]. specialize (NC eq_refl). inversion NC; subst. congruence. }
    destruct (IH s1 m I1) as (s' & outs & E2 & I2 & D2 & O2).
    { intros He. specialize (NC He). inversion NC; assumption. }
    exists s', (r :: outs). cbn [arun]. rewrite E. cbn [bind]. rewrite E2. cbn [bind].
    split; [reflexivity|]. split; [assumption|].
    rewrite dup_after_cons, <- D1. split; [assumption|]. intros v. rewrite mult_cons, <- D1, <- O1. apply O2.
Qed.

Lemma new_inv e m : (N.of_nat m < big)%N -> inv e (@avl_new T) m.
Proof. intros H. unfold inv, size. cbn. repeat split; auto. constructor. Qed.

Lemma new_run e ops : (N.of_nat (length ops) < big)%N -> (e = true -> Forall no_copy ops) ->
  exists s outs, arun o avl_new ops = Val (s, outs) /\ inv e s 0 /\ dup s = dup_after false ops /\
    forall v, occ o v (in_order (root s)) = mult o false 0 v ops.
Proof.
  intros B NC. destruct (arun_ok e ops avl_new 0) as (s & outs & E & I & D & O); auto.
  - apply new_inv. rewrite Nat.add_0_r. assumption.
  - exists s, outs. auto.
Qed.

Lemma arun_app s ops1 : forall ops2, arun o s (ops1 ++ ops2) =
  bind (arun o s ops1) (fun p => bind (arun o (fst p) ops2) (fun q => Val (fst q, snd p ++ snd q))).
Proof.
  revert s. induction ops1 as [|op ops1 IH]; intros s ops2; cbn [app arun bind fst snd].
  - destruct (arun o s ops2) as [[? ?]| | |]; reflexivity.
  - destruct (astep o s op) as [[s1 r]| | |]; cbn [bind]; try reflexivity. rewrite IH.
    destruct (arun o s1 ops1) as [[s2 rs]| | |]; cbn [bind fst snd]; try reflexivity.
    destruct (arun o s2 ops2) as [[s3 rs3]| | |]; reflexivity.
Qed.

(** The list of the contents is determined by the multiplicities. *)
Lemma occ_length (l1 : list T) : forall l2, (forall v, occ o v l1 = occ o v l2) -> length l1 = length l2.
Proof.
  induction l1 as [|a l1 IH]; intros l2 H.
  - destruct l2 as [|b l2]; [reflexivity|]. specialize (H b). rewrite occ_self in H. discriminate.
  - assert (IN : In a l2) by (apply occ_in; rewrite <- H, occ_self; lia).
    apply in_split in IN. destruct IN as (x & y & ->). rewrite app_length. cbn. rewrite <- plus_n_Sm, <- app_length.
    f_equal. apply IH. intros v. specialize (H v). rewrite occ_app, !occ_cons in H. rewrite occ_app. lia.
Qed.

Lemma member_mult (ops : list (aop T)) : Forall never_dup ops -> forall (b : bool) (v : T),
  mult o false (if b then 1 else 0) v ops = if member o b v ops then 1 else 0.
Proof.
  induction 1 as [|op ops H F IH]; intros b v; [reflexivity|].
  destruct op as [w|w|w|w| | | |d| |]; cbn [mult member orb]; try apply IH.
  - destruct (eq_ o v w); [|apply IH]. rewrite <- (IH true). f_equal. destruct b; reflexivity.
  - destruct (eq_ o v w); [|apply IH]. rewrite <- (IH false). f_equal. destruct b; reflexivity.
  - destruct (eq_ o v w); [|apply IH]. rewrite <- (IH false). reflexivity.
  - rewrite <- (IH false). reflexivity.
  - destruct d; [congruence|]. apply IH.
Qed.

Lemma dup_after_never (ops : list (aop T)) : Forall never_dup ops -> dup_after (T := T) false ops = false.
Proof.
  induction 1 as [|op ops H F IH]; [reflexivity|]. destruct op as [w|w|w|w| | | |d| |]; cbn; auto.
  destruct d; [congruence|assumption].
Qed.

(** ** C31 *)
Lemma set_behaviour ops : (N.of_nat (S (length ops)) < big)%N -> Forall never_dup ops ->
  exists s outs, arun o avl_new ops = Val (s, outs) /\
  (forall v, (exists s', insert o s v = Val (s', negb (member o false v ops)))
          /\ (exists s', remove o s v = Val (s', member o false v ops))
          /\ contains o s v = member o false v ops) /\
  (forall l, NoDup l -> (forall v, In v l <-> member o false v ops = true) -> count s = N.of_nat (length l)).
Proof.
  intros B ND. destruct (arun_ok false ops avl_new 1) as (s & outs & E & I & D & O); [|discriminate|].
  { apply new_inv. rewrite Nat.add_1_r. assumption. }
  exists s, outs. split; [assumption|]. cbn in D. rewrite dup_after_never in D by assumption.
  assert (M : forall v, In v (in_order (root s)) <-> member o false v ops = true).
  { intros v. rewrite <- occ_in, O. cbn. rewrite (member_mult ops ND false v).
    destruct (member o false v ops); split; auto; lia || discriminate. }
  split.
  - intros v. split; [|split].
    + destruct (insert_state false s v 0 I) as (s' & b & E' & _ & _ & Hb & _). exists s'. rewrite E'. do 2 f_equal.
      rewrite M, D in Hb. destruct b, (member o false v ops); try reflexivity; exfalso.
      * destruct Hb as [Hb _]. destruct (Hb eq_refl); [discriminate|tauto].
      * destruct Hb as [_ Hb]. discriminate Hb. right. discriminate.
    + assert (I0 : inv false s 0) by (destruct I as (? & ? & ? & ? & ?); repeat split; auto; lia).
      destruct (remove_state false s v 0 I0) as (s' & b & E' & _ & _ & Hb & _). exists s'. rewrite E'. do 2 f_equal.
      rewrite M in Hb. destruct b, (member o false v ops); try reflexivity; exfalso; destruct Hb as [H1 H2]; auto; [discriminate H1; auto|discriminate H2; auto].
    + destruct I as (_ & S & _). pose proof (contains_ok v (root s) S) as C. rewrite M in C. unfold contains.
      destruct (contains_node o v (root s)), (member o false v ops); try reflexivity; exfalso; destruct C as [H1 H2]; [discriminate H1; auto|discriminate H2; auto].
  - intros l NDl L. destruct I as (_ & _ & _ & C & _). rewrite C. f_equal. unfold size. apply occ_length.
    intros v. rewrite O. cbn. rewrite (member_mult ops ND false v).
    assert (LE : occ o v l <= 1).
    { clear L. induction NDl as [|a l NI NDl IH]; [cbn; lia|]. rewrite occ_cons. destruct (eq_ o v a) eqn:EQ; [|lia].
      apply (eq_is_eq o LAW) in EQ. subst a. rewrite <- occ_in in NI. lia. }
    pose proof (occ_in v l) as OI. rewrite L in OI. destruct (member o false v ops).
    + destruct OI as [_ OI]. specialize (OI eq_refl). lia.
    + destruct (occ o v l) eqn:Z; [reflexivity|]. destruct OI as [OI _]. discriminate OI. lia.
Qed.

(** ** C32, C33 *)
Lemma multiset_behaviour ops : (N.of_nat (S (length ops)) < big)%N ->
  exists s outs, arun o avl_new ops = Val (s, outs) /\
  (forall v, (exists s', insert o s v = Val (s', dup_after false ops || (mult o false 0 v ops =? 0)))
          /\ (exists s', remove o s v = Val (s', 0 <? mult o false 0 v ops))
          /\ contains o s v = (0 <? mult o false 0 v ops)) /\
  (forall l, (forall v, occ o v l = mult o false 0 v ops) -> count s = N.of_nat (length l)).
Proof.
  intros B. destruct (arun_ok false ops avl_new 1) as (s & outs & E & I & D & O); [|discriminate|].
  { apply new_inv. rewrite Nat.add_1_r. assumption. }
  exists s, outs. split; [assumption|]. cbn in D.
  assert (M : forall v, In v (in_order (root s)) <-> (0 <? mult o false 0 v ops) = true).
  { intros v. rewrite <- occ_in, O, Nat.ltb_lt. reflexivity. }
  split.
  - intros v. split; [|split].
    + destruct (insert_state false s v 0 I) as (s' & b & E' & _ & _ & Hb & _). exists s'. rewrite E'. do 2 f_equal.
      rewrite M, D, Nat.ltb_lt in Hb. apply eq_true_iff_eq. rewrite Hb, orb_true_iff, Nat.eqb_eq. intuition lia.
    + assert (I0 : inv false s 0) by (destruct I as (? & ? & ? & ? & ?); repeat split; auto; lia).
      destruct (remove_state false s v 0 I0) as (s' & b & E' & _ & _ & Hb & _). exists s'. rewrite E'. do 2 f_equal.
      rewrite M in Hb. apply eq_true_iff_eq. exact Hb.
    + destruct I as (_ & S & _). pose proof (contains_ok v (root s) S) as C. rewrite M in C.
      apply eq_true_iff_eq. exact C.
  - intros l L. destruct I as (_ & _ & _ & C & _). rewrite C. f_equal. unfold size. apply occ_length.
    intros v. rewrite O, L. reflexivity.
Qed.

Lemma in_order_behaviour ops : (N.of_nat (length ops) < big)%N ->
  exists s outs l, arun o avl_new (ops ++ [ASize; AInOrder]) =
      Val (s, outs ++ [ANum (N.of_nat (length l)); AVals l (N.of_nat (length l))]) /\
    sorted o l /\ forall v, occ o v l = mult o false 0 v ops.
Proof.
  intros B. destruct (new_run false ops B) as (s & outs & E & I & D & O); [discriminate|].
  exists s, outs, (in_order (root s)). rewrite arun_app, E. cbn [bind fst snd arun astep].
  destruct I as (W & S & _ & C & _). rewrite C, visited_size. split; [reflexivity|]. auto.
Qed.

(** ** C38 *)
Lemma extremes ops : (N.of_nat (length ops) < big)%N ->
  forall v, mult o false 0 v ops <> 0 ->
  exists s outs lo hi, arun o avl_new ops = Val (s, outs) /\ left_most s = Val lo /\ right_most s = Val hi /\
    mult o false 0 lo ops <> 0 /\ mult o false 0 hi ops <> 0 /\
    forall w, mult o false 0 w ops <> 0 -> lt_ o w lo = false /\ lt_ o hi w = false.
Proof.
  intros B v NZ. destruct (new_run false ops B) as (s & outs & E & I & D & O); [discriminate|].
  assert (M : forall w, In w (in_order (root s)) <-> mult o false 0 w ops <> 0).
  { intros w. rewrite <- occ_in, O. lia. }
  destruct I as (W & S & _). unfold left_most, right_most. rewrite <- M in NZ.
  destruct (root s) as [|j p h x l r] eqn:R; [destruct NZ|].
  exists s, outs, (leftmost x l), (rightmost x r). rewrite R. split; [assumption|]. split; [reflexivity|]. split; [reflexivity|].
  destruct (leftmost_hd j p h x l r) as (tl & L). destruct (rightmost_last j p h x l r) as (tl' & L').
  rewrite <- !M. split; [rewrite L; left; reflexivity|]. split; [rewrite L'; apply in_or_app; right; left; reflexivity|].
  intros w. rewrite <- M. intros IN. split.
  - rewrite L in S, IN. inversion S as [|? ? S1 F]; subst. destruct IN as [<- |IN]; [apply (lt_irrefl o LAW)|].
    rewrite Forall_forall in F. apply F. assumption.
  - rewrite L' in S, IN. apply sorted_app in S. destruct S as (_ & _ & F & _). apply in_app_or in IN.
    destruct IN as [IN|[<- |[]]]; [|apply (lt_irrefl o LAW)]. rewrite Forall_forall in F. apply F. assumption.
Qed.

(** ** C39 *)
Lemma remove_all_behaviour ops v : (N.of_nat (length ops) < big)%N ->
  exists s outs s' l, arun o avl_new ops = Val (s, outs) /\
    remove_all o s v = Val (s', N.of_nat (mult o false 0 v ops)) /\
    contains o s' v = false /\
    arun o s' [ASize; AInOrder] = Val (s', [ANum (N.of_nat (length l)); AVals l (N.of_nat (length l))]) /\
    occ o v l = 0 /\ forall w, w <> v -> occ o w l = mult o false 0 w ops.
Proof.
  intros B. destruct (new_run false ops B) as (s & outs & E & I & D & O); [discriminate|].
  destruct (remove_all_state false s v 0 I) as (s' & E' & I' & D' & O1 & O2).
  exists s, outs, s', (in_order (root s')). split; [assumption|]. rewrite <- O. split; [assumption|].
  destruct I' as (W & S & _ & C & _). split; [|split; [|split; [assumption|]]].
  - unfold contains. destruct (contains_node o v (root s')) eqn:Z; [|reflexivity].
    apply (contains_ok v _ S), occ_in in Z. lia.
  - cbn [arun astep bind]. rewrite C, visited_size. reflexivity.
  - intros w Hw. rewrite O2 by assumption. apply O.
Qed.

(** ** C35 *)
Lemma ht_depth (t : tree) : wf true t -> ht t = depth t.
Proof.
  induction t as [|i p h v l IHl r IHr]; [reflexivity|]. intros (_ & H & Wl & Wr & _). cbn [ht depth].
  rewrite H by reflexivity. rewrite IHl, IHr by assumption. reflexivity.
Qed.
Lemma height_is_depth ops : (N.of_nat (length ops) < big)%N -> Forall no_copy ops ->
  exists s outs, arun o avl_new ops = Val (s, outs) /\ height s = depth (root s).
Proof.
  intros B NC. destruct (new_run true ops B) as (s & outs & E & I & _); [auto|].
  exists s, outs. split; [assumption|]. apply ht_depth. apply I.
Qed.

(** ** C40 *)
Lemma haspar_fields e (t : tree) : wf e t -> haspar t -> ~ In None (parent_fields t).
Proof.
  induction t as [|i p h v l IHl r IHr]; [intros _ _ []|]. intros (_ & _ & Wl & Wr & Hl & Hr) H.
  cbn. rewrite in_app_iff. cbn in H. intros [A|[A|A]]; [auto|apply IHl in A; auto|apply IHr in A; auto].
Qed.
Lemma root_only_no_parent ops : (N.of_nat (length ops) < big)%N ->
  exists s outs, arun o avl_new ops = Val (s, outs) /\
    match root s with
    | Leaf => True
    | Node _ p _ _ l r => p = None /\ ~ In None (parent_fields l ++ parent_fields r)
    end.
Proof.
  intros B. destruct (new_run false ops B) as (s & outs & E & (W & _ & P & _) & _); [discriminate|].
  exists s, outs. split; [assumption|]. destruct (root s) as [|i p h v l r]; [exact I|]. split; [exact P|].
  destruct W as (_ & _ & Wl & Wr & Hl & Hr). rewrite in_app_iff.
  intros [A|A]; [apply (haspar_fields false) in A|apply (haspar_fields false) in A]; auto.
Qed.

(** ** C34 *)
Fixpoint hbal (t : tree) : Prop :=
  match t with
  | Leaf => True
  | Node _ _ _ _ l r => ht l <= S (ht r) /\ ht r <= S (ht l) /\ hbal l /\ hbal r
  end.
Lemma hbal_balanced (t : tree) : wf true t -> hbal t <-> balanced t.
Proof.
  induction t as [|i p h v l IHl r IHr]; [reflexivity|]. intros (_ & _ & Wl & Wr & _). cbn [hbal balanced].
  rewrite IHl, IHr by assumption. rewrite !ht_depth by assumption. reflexivity.
Qed.

Definition grew (v : T) (t t' : tree) : Prop :=
  ht t' = S (ht t) /\
  (t = Leaf \/ exists i p h y l r, t' = Node i p h y l r /\
     (lt_ o v y = true /\ ht l = S (ht r) \/ lt_ o y v = true /\ ht r = S (ht l))).

Lemma ht1 (t : tree) : wf true t -> t <> Leaf -> 0 < ht t.
Proof. destruct t; [congruence|]. intros (_ & H & _) _. cbn. rewrite H by reflexivity. lia. Qed.

(** One step of re-balancing on the way up: the left subtree grew from [l] to [l']. *)
Lemma rin_left i p h x l l' r v t' : wf true l -> wf true l' -> wf true r -> hbal l' -> hbal r ->
  ht l <= S (ht r) -> ht r <= S (ht l) -> lt_ o v x = true ->
  (ht l' = ht l \/ grew v l l') -> (N.of_nat (size l' + size r) < big)%N ->
  rotate_if_needed o (Node i p h x l' r) v = Val t' ->
  hbal t' /\ (ht t' = S (Nat.max (ht l) (ht r)) \/
     ht t' = S (S (Nat.max (ht l) (ht r))) /\ exists i p h y l1 r1, t' = Node i p h y l1 r1 /\
       (lt_ o v y = true /\ ht l1 = S (ht r1) \/ lt_ o y v = true /\ ht r1 = S (ht l1))).
Proof.
  intros W0 W1 W2 B1 B2 L1 L2 LT G B E. cbn [rotate_if_needed] in E.
  pose proof (ht_size _ _ W1) as S1. pose proof (ht_size _ _ W2) as S2.
  assert (D1 := diff2 (ht l') (ht r)). assert (D2 := diff2 (ht r) (ht l')).
  destruct (diff (ht l') (ht r) 2).
  - assert (H2 : ht l' = ht r + 2) by (apply D1; auto; lia). clear D1 D2.
    destruct G as [G|(G1 & G2)]; [lia|]. assert (HL : ht l = S (ht r)) by lia.
    destruct G2 as [->|(j & q & g & y & ll & lr & -> & G2)]; [cbn in HL; lia|].
    destruct W1 as (_ & Hg & Wll & Wlr & _). specialize (Hg eq_refl). destruct B1 as (B11 & B12 & B13 & B14).
    cbn [ht] in *. destruct (lt_ o v y) eqn:LY; injection E as <-.
    + destruct G2 as [(_ & G2)|(G2 & _)]; [|apply lt_le in G2; unfold le in G2; congruence].
      cbn [rotate_right hbal ht]. split; [lia + (repeat split; auto; lia)|]. left. lia.
    + destruct G2 as [(G2 & _)|(_ & G2)]; [discriminate|].
      destruct lr as [|k u f z a b]; [cbn in G2; lia|]. destruct Wlr as (_ & Hf & Wa & Wb & _). specialize (Hf eq_refl).
      destruct B14 as (B41 & B42 & B43 & B44). cbn [ht] in *.
      cbn [double_rotate_right rotate_left rotate_right hbal ht]. split; [repeat split; auto; lia|]. left. lia.
  - destruct (diff (ht r) (ht l') 2).
    + assert (H2 : ht r = ht l' + 2) by (apply D2; auto; lia). destruct G as [G|(G1 & _)]; lia.
    + injection E as <-. assert (H3 : ht l' <> ht r + 2) by (intros Q; apply D1 in Q; [discriminate|lia|lia]). clear D1 D2.
      cbn [hbal ht]. destruct G as [G|(G1 & _)].
      * split; [repeat split; auto; lia|]. left. lia.
      * split; [repeat split; auto; lia|]. destruct (Nat.eq_dec (ht l') (S (ht r))) as [Q|Q].
        -- right. split; [lia|]. eexists _, _, _, _, _, _. split; [reflexivity|]. left. auto.
        -- left. lia.
Qed.

Lemma rin_right i p h x l r r' v t' : wf true r -> wf true r' -> wf true l -> hbal r' -> hbal l ->
  ht r <= S (ht l) -> ht l <= S (ht r) -> lt_ o x v = true ->
  (ht r' = ht r \/ grew v r r') -> (N.of_nat (size r' + size l) < big)%N ->
  rotate_if_needed o (Node i p h x l r') v = Val t' ->
  hbal t' /\ (ht t' = S (Nat.max (ht l) (ht r)) \/
     ht t' = S (S (Nat.max (ht l) (ht r))) /\ exists i p h y l1 r1, t' = Node i p h y l1 r1 /\
       (lt_ o v y = true /\ ht l1 = S (ht r1) \/ lt_ o y v = true /\ ht r1 = S (ht l1))).
Proof.
  intros W0 W1 W2 B1 B2 L1 L2 LT G B E. cbn [rotate_if_needed] in E.
  pose proof (ht_size _ _ W1) as S1. pose proof (ht_size _ _ W2) as S2.
  assert (D1 := diff2 (ht r') (ht l)). assert (D2 := diff2 (ht l) (ht r')).
  destruct (diff (ht l) (ht r') 2).
  - assert (H2 : ht l = ht r' + 2) by (apply D2; auto; lia). destruct G as [G|(G1 & _)]; lia.
  - destruct (diff (ht r') (ht l) 2).
    + assert (H2 : ht r' = ht l + 2) by (apply D1; auto; lia). clear D1 D2.
      destruct G as [G|(G1 & G2)]; [lia|]. assert (HL : ht r = S (ht l)) by lia.
      destruct G2 as [->|(j & q & g & y & rl & rr & -> & G2)]; [cbn in HL; lia|].
      destruct W1 as (_ & Hg & Wrl & Wrr & _). specialize (Hg eq_refl). destruct B1 as (B11 & B12 & B13 & B14).
      cbn [ht] in *. rewrite (gt_is_lt o LAW) in E. destruct (lt_ o y v) eqn:LY; injection E as <-.
      * destruct G2 as [(G2 & _)|(_ & G2)]; [apply lt_le in G2; unfold le in G2; congruence|].
        cbn [rotate_left hbal ht]. split; [repeat split; auto; lia|]. left. lia.
      * destruct G2 as [(_ & G2)|(G2 & _)]; [|discriminate].
        destruct rl as [|k u f z a b]; [cbn in G2; lia|]. destruct Wrl as (_ & Hf & Wa & Wb & _). specialize (Hf eq_refl).
        destruct B13 as (B41 & B42 & B43 & B44). cbn [ht] in *.
        cbn [double_rotate_left rotate_left rotate_right hbal ht]. split; [repeat split; auto; lia|]. left. lia.
    + injection E as <-. assert (H3 : ht r' <> ht l + 2) by (intros Q; apply D1 in Q; [discriminate|lia|lia]). clear D1 D2.
      cbn [hbal ht]. destruct G as [G|(G1 & _)].
      * split; [repeat split; auto; lia|]. left. lia.
      * split; [repeat split; auto; lia|]. destruct (Nat.eq_dec (ht r') (S (ht l))) as [Q|Q].
        -- right. split; [lia|]. eexists _, _, _, _, _, _. split; [reflexivity|]. right. auto.
        -- left. lia.
Qed.

Lemma insert_balanced i v t : wf true t -> sorted o (in_order t) -> (N.of_nat (S (size t)) < big)%N -> hbal t ->
  forall t' b, insert_node o false i v t = Val (t', b) -> hbal t' /\ (ht t' = ht t \/ grew v t t').
Proof.
  induction t as [|j p h x l IHl r IHr]; intros W S B HB t' b E.
  - cbn in E. injection E as <- <-. split; [cbn; lia|]. right. split; [reflexivity|]. left. reflexivity.
  - rewrite size_node in B. pose proof S as S0. cbn [in_order] in S. apply sorted_app in S. destruct S as (Sl & Sr & Fl & Fr).
    pose proof W as (_ & Hh & Wl & Wr & Hl & Hr). specialize (Hh eq_refl). destruct HB as (B1 & B2 & B3 & B4).
    cbn [insert_node] in E. destruct (lt_ o v x) eqn:LT.
    + assert (C : exists l' b', match l with
          | Leaf => Val (Node i (Some j) 1 v Leaf Leaf, true)
          | Node _ _ _ _ _ _ => insert_node o false i v l end = Val (l', b') /\
          wf true l' /\ (N.of_nat (size l' + size r) < big)%N /\ hbal l' /\ (ht l' = ht l \/ grew v l l')).
      { destruct l as [|k q g y ll lr].
        - exists (Node i (Some j) 1 v Leaf Leaf), true. split; [reflexivity|].
          split; [unfold size; cbn; repeat split; lia|]. split; [unfold size in *; cbn in *; lia|].
          split; [cbn; lia|]. right. split; [reflexivity|]. left. reflexivity.
        - destruct (insert_ok true false i v (Node k q g y ll lr)) as (l' & b' & E' & I1 & I2); auto; [lia|].
          exists l', b'. split; [assumption|]. destruct (IHl Wl Sl) with (t' := l') (b := b') as (A1 & A2); auto; [lia|].
          destruct b'.
          + destruct (I2 eq_refl) as (_ & P & _ & W' & _). apply perm_size in P. split; [assumption|]. split; [lia|auto].
          + destruct (I1 eq_refl) as (-> & _). split; [assumption|]. split; [lia|auto]. }
      destruct C as (l' & b' & E' & W' & B' & H' & G'). rewrite E' in E. cbn [bind] in E. destruct b'.
      * destruct (rotate_if_needed o (Node j p h x l' r) v) as [t1| | |] eqn:R; cbn [bind] in E; try discriminate.
        injection E as <- <-. destruct (rin_left j p h x l l' r v t1) as (A1 & A2); auto.
        split; [assumption|]. cbn [ht]. rewrite Hh. destruct A2 as [A2|(A2 & A3)]; [auto|]. right. split; [cbn [ht]; lia|auto].
      * injection E as <- <-. cbn [ht]. split; [|auto].
        destruct l as [|k q g y ll lr]; [discriminate|].
        destruct (insert_ok true false i v (Node k q g y ll lr)) as (l2 & b2 & E2 & I1 & _); auto; [lia|].
        rewrite E2 in E'. injection E' as -> ->. destruct (I1 eq_refl) as (-> & _). cbn [hbal]. auto.
    + destruct (gt_ o v x || false) eqn:GT.
      * rewrite orb_false_r, (gt_is_lt o LAW) in GT.
        assert (C : exists r' b', match r with
          | Leaf => Val (Node i (Some j) 1 v Leaf Leaf, true)
          | Node _ _ _ _ _ _ => insert_node o false i v r end = Val (r', b') /\
          wf true r' /\ (N.of_nat (size r' + size l) < big)%N /\ hbal r' /\ (ht r' = ht r \/ grew v r r')).
        { destruct r as [|k q g y rl rr].
          - exists (Node i (Some j) 1 v Leaf Leaf), true. split; [reflexivity|].
            split; [unfold size; cbn; repeat split; lia|]. split; [unfold size in *; cbn in *; lia|].
            split; [cbn; lia|]. right. split; [reflexivity|]. left. reflexivity.
          - destruct (insert_ok true false i v (Node k q g y rl rr)) as (r' & b' & E' & I1 & I2); auto; [lia|].
            exists r', b'. split; [assumption|]. destruct (IHr Wr Sr) with (t' := r') (b := b') as (A1 & A2); auto; [lia|].
            destruct b'.
            + destruct (I2 eq_refl) as (_ & P & _ & W' & _). apply perm_size in P. split; [assumption|]. split; [lia|auto].
            + destruct (I1 eq_refl) as (-> & _). split; [assumption|]. split; [lia|auto]. }
        destruct C as (r' & b' & E' & W' & B' & H' & G'). rewrite E' in E. cbn [bind] in E. destruct b'.
        -- destruct (rotate_if_needed o (Node j p h x l r') v) as [t1| | |] eqn:R; cbn [bind] in E; try discriminate.
           injection E as <- <-. destruct (rin_right j p h x l r r' v t1) as (A1 & A2); auto.
           split; [assumption|]. cbn [ht]. rewrite Hh. destruct A2 as [A2|(A2 & A3)]; [auto|]. right. split; [cbn [ht]; lia|auto].
        -- injection E as <- <-. cbn [ht]. split; [|auto].
           destruct r as [|k q g y rl rr]; [discriminate|].
           destruct (insert_ok true false i v (Node k q g y rl rr)) as (r2 & b2 & E2 & I1 & _); auto; [lia|].
           rewrite E2 in E'. injection E' as -> ->. destruct (I1 eq_refl) as (-> & _). cbn [hbal]. auto.
      * injection E as <- <-. cbn [ht hbal]. auto.
Qed.

Lemma grows_balanced ops : forall s m, inv true s (length ops + m) -> dup s = false -> hbal (root s) ->
  Forall grows ops -> Forall never_dup ops ->
  exists s' outs, arun o s ops = Val (s', outs) /\ inv true s' m /\ hbal (root s').
Proof.
  induction ops as [|op ops IH]; intros s m I D HB G ND.
  - exists s, []. auto.
  - inversion G as [|? ? G1 G2]; subst. inversion ND as [|? ? N1 N2]; subst.
    destruct (astep_ok true s op (length ops + m) I) as (s1 & r & E & I1 & D1 & _).
    { intros ->. destruct G1. }
    assert (D2 : dup s1 = false).
    { rewrite D1, D. apply dup_after_never. constructor; [assumption|constructor]. }
    assert (HB1 : hbal (root s1)).
    { destruct op as [v|v|v|v| | | |b| |]; cbn [astep] in E; try (destruct G1; fail);
        try (injection E as <- _; first [exact HB|exact Logic.I]).
      unfold insert in E. rewrite D in E.
      destruct (insert_node o false (fresh s) v (root s)) as [[t' b]| | |] eqn:EI; cbn [bind] in E; try discriminate.
      injection E as <- _. cbn [root]. destruct I as (W & S & _ & _ & B).
      apply (insert_balanced (fresh s) v (root s)) with (b := b); auto. cbn [length] in B. lia. }
    destruct (IH s1 m I1 D2 HB1 G2 N2) as (s' & outs & E2 & I2 & H2).
    exists s', (r :: outs). cbn [arun]. rewrite E. cbn [bind]. rewrite E2. auto.
Qed.

Lemma fib_SS n : fib (S (S n)) = fib (S n) + fib n.
Proof. reflexivity. Qed.
Lemma fib_mono n m : n <= m -> fib n <= fib m.
Proof.
  induction 1 as [|m H IH]; [lia|]. destruct m; [|rewrite fib_SS; lia]. assert (n = 0) by lia. subst. cbn. lia.
Qed.

Lemma balanced_fib (t : tree) : balanced t -> fib (S (S (depth t))) <= S (size t).
Proof.
  induction t as [|i p h v l IHl r IHr]; [cbn; lia|]. intros (B1 & B2 & B3 & B4). rewrite size_node. cbn [depth].
  specialize (IHl B3). specialize (IHr B4).
  destruct (Nat.le_ge_cases (depth l) (depth r)) as [L|L].
  - rewrite Nat.max_r by assumption. rewrite fib_SS.
    assert (F : fib (S (depth r)) <= fib (S (S (depth l)))) by (apply fib_mono; lia). 
    change (fib (S (S (S (depth r))))) with (fib (S (S (depth r))) + fib (S (depth r))). lia.
  - rewrite Nat.max_l by assumption. rewrite fib_SS.
    assert (F : fib (S (depth l)) <= fib (S (S (depth r)))) by (apply fib_mono; lia).
    change (fib (S (S (S (depth l))))) with (fib (S (S (depth l))) + fib (S (depth l))). lia.
Qed.

(** [1.6^n <= fib (n+2)] without fractions. *)
Lemma fib_exp n : 8 ^ n <= 5 ^ n * fib (S (S n)) /\ 8 ^ S n <= 5 ^ S n * fib (S (S (S n))).
Proof.
  induction n as [|n [IH1 IH2]]; [cbn; lia|]. split; [exact IH2|].
  rewrite (fib_SS (S (S n))), Nat.mul_add_distr_l. cbn [Nat.pow] in *. nia.
Qed.

Lemma growth_balanced ops : (N.of_nat (length ops) < big)%N -> Forall grows ops -> Forall never_dup ops ->
  exists s outs, arun o avl_new ops = Val (s, outs) /\ balanced (root s) /\
    (N.of_nat (8 ^ height s) <= N.of_nat (5 ^ height s) * (count s + 1))%N /\
    (N.of_nat (fib (2 + height s)) <= count s + 1)%N.
Proof.
  intros B G ND. destruct (grows_balanced ops avl_new 0) as (s & outs & E & I & H); auto; [apply new_inv; rewrite Nat.add_0_r; assumption|exact Logic.I|].
  exists s, outs. split; [assumption|]. destruct I as (W & _ & _ & C & _).
  apply hbal_balanced in H; [|assumption]. split; [assumption|]. unfold height. rewrite C, ht_depth by assumption.
  pose proof (balanced_fib _ H) as F. pose proof (proj1 (fib_exp (depth (root s)))) as X. cbn [Nat.add]. split; [|lia].
  replace (N.of_nat (size (root s)) + 1)%N with (N.of_nat (S (size (root s)))) by lia. rewrite <- Nat2N.inj_mul.
  assert (5 ^ depth (root s) * fib (S (S (depth (root s)))) <= 5 ^ depth (root s) * S (size (root s))) by (apply Nat.mul_le_mono_l; assumption).
  lia.
Qed.

(** ** C39 by reference *)
Lemma value_at_in k (t : tree) v : value_at k t = Some v -> In v (in_order t).
Proof.
  revert v. induction t as [|i p h x l IHl r IHr]; intros v E; [discriminate|]. cbn [value_at in_order] in *.
  apply in_or_app. destruct (i =? k); [injection E as <-; right; left; reflexivity|].
  destruct (value_at k l) eqn:EL; [injection E as <-; left; auto|]. right. right. auto.
Qed.

Lemma remove_all_ref_loop_ub e k m : forall fuel s c, inv e s m -> size (root s) < fuel ->
  remove_all_ref_loop o fuel s k c = UB.
Proof.
  induction fuel as [|fuel IH]; intros s c I F; [lia|]. cbn [remove_all_ref_loop].
  destruct (value_at k (root s)) as [v|] eqn:E; [|reflexivity]. apply value_at_in in E.
  destruct (remove_state e s v m I) as (s' & b & E' & I' & D & Hb & P & _). rewrite E'. cbn [bind].
  apply Hb in E. subst b. apply IH; [assumption|]. specialize (P eq_refl). apply Permutation_length in P.
  unfold size in *. cbn [length] in P. lia.
Qed.

Lemma remove_all_ref_ub ops k : (N.of_nat (length ops) < big)%N ->
  exists s outs, arun o avl_new ops = Val (s, outs) /\ remove_all_ref o s k = UB.
Proof.
  intros B. destruct (new_run false ops B) as (s & outs & E & I & _); [discriminate|].
  exists s, outs. split; [assumption|]. apply (remove_all_ref_loop_ub false k 0); [assumption|]. rewrite visited_size. lia.
Qed.

(** ** Copies *)
Lemma copy_links (t : tree) : forall i p, links p (fst (copy_node i p t)) /\ depth (fst (copy_node i p t)) = depth t /\
  (balanced t -> balanced (fst (copy_node i p t))).
Proof.
  induction t as [|j q h v l IHl r IHr]; intros i p; cbn [copy_node].
  - cbn. auto.
  - specialize (IHl (S i) (Some i)). destruct (copy_node (S i) (Some i) l) as [l' i1].
    specialize (IHr i1 (Some i)). destruct (copy_node i1 (Some i) r) as [r' i2].
    cbn [fst links depth balanced] in *. destruct IHl as (L1 & L2 & L3). destruct IHr as (R1 & R2 & R3).
    rewrite L2, R2. intuition.
Qed.

Lemma copy_links_history ops : (N.of_nat (length ops) < big)%N ->
  exists s outs, arun o avl_new (ops ++ [ACopy]) = Val (s, outs ++ [ANone]) /\ links None (root s).
Proof.
  intros B. destruct (new_run false ops B) as (s & outs & E & I & _); [discriminate|].
  exists (copy_construct s), outs. rewrite arun_app, E. cbn [bind fst snd arun astep]. split; [reflexivity|].
  unfold copy_construct, copy_assign. destruct (root s) as [|j q h v l r] eqn:R; [exact Logic.I|].
  pose proof (copy_links (Node j q h v l r) (fresh s) None) as (A & _). cbn [fresh].
  destruct (copy_node (fresh s) None (Node j q h v l r)). exact A.
Qed.

(** Copy construction from, and copy assignment of, any non-empty tree to any
    other object. *)
Lemma copy_assign_facts (target s : avl) : root s <> Leaf ->
  in_order (root (copy_assign target s)) = in_order (root s) /\
  depth (root (copy_assign target s)) = depth (root s) /\
  dup (copy_assign target s) = dup s /\ count (copy_assign target s) = count s /\
  (balanced (root s) -> balanced (root (copy_assign target s))) /\ links None (root (copy_assign target s)).
Proof.
  intros NL. unfold copy_assign. destruct (root s) as [|j q h v l r] eqn:R; [congruence|].
  pose proof (copy_links (Node j q h v l r) (fresh target) None) as (A & B & C).
  pose proof (copy_ok (Node j q h v l r) (fresh target) None) as (D & _).
  destruct (copy_node (fresh target) None (Node j q h v l r)) as [t' i]. cbn [fst root dup count] in *. auto 7.
Qed.

(** A copy answers every later history like a tree with the same contents. *)
Lemma copy_later target s m ops : root s <> Leaf -> inv false s (length ops + m) ->
  exists s' outs, arun o (copy_assign target s) ops = Val (s', outs) /\ inv false s' m /\
    forall v, occ o v (in_order (root s')) = mult o (dup s) (occ o v (in_order (root s))) v ops.
Proof.
  intros NL I. pose proof (copy_assign_facts target s NL) as (A & _ & D & C & _ & _).
  assert (I' : inv false (copy_assign target s) (length ops + m)).
  { destruct I as (_ & S & _ & C' & B). unfold inv, size in *. rewrite A, C.
    assert (W : wf false (root (copy_assign target s)) /\ ppar (root (copy_assign target s)) = None).
    { unfold copy_assign. destruct (root s) as [|j q h v l r] eqn:R; [congruence|].
      pose proof (copy_ok (Node j q h v l r) (fresh target) None) as (_ & W & P & _).
      destruct (copy_node (fresh target) None (Node j q h v l r)) as [t' i]. cbn [fst root] in *.
      split; [assumption|]. apply P. discriminate. }
    destruct W. auto 6. }
  destruct (arun_ok false ops _ m I') as (s' & outs & E & I2 & _ & O); [discriminate|].
  exists s', outs. split; [assumption|]. split; [assumption|]. intros v. rewrite O, A, D. reflexivity.
Qed.

Lemma mult_app v ops1 ops2 : forall d n,
  mult o d n v (ops1 ++ ops2) = mult o (dup_after d ops1) (mult o d n v ops1) v ops2.
Proof.
  induction ops1 as [|op ops IH]; intros d n; [reflexivity|]. cbn [app].
  rewrite (mult_cons d n v op (ops ++ ops2)), IH, <- dup_after_cons, <- mult_cons. reflexivity.
Qed.

Lemma copy_assign_histories ops1 ops2 ops3 : (N.of_nat (length ops2 + length ops3) < big)%N ->
  (N.of_nat (length ops1) < big)%N ->
  exists target outs1 s outs2, arun o avl_new ops1 = Val (target, outs1) /\ arun o avl_new ops2 = Val (s, outs2) /\
  (root s <> Leaf ->
     depth (root (copy_assign target s)) = depth (root s) /\
     dup (copy_assign target s) = dup s /\ count (copy_assign target s) = count s /\
     in_order (root (copy_assign target s)) = in_order (root s) /\
     exists s' outs l, arun o (copy_assign target s) (ops3 ++ [ASize; AInOrder]) =
         Val (s', outs ++ [ANum (N.of_nat (length l)); AVals l (N.of_nat (length l))]) /\
       sorted o l /\ forall v, occ o v l = mult o false 0 v (ops2 ++ ops3)).
Proof.
  intros B2 B1. destruct (new_run false ops1 B1) as (target & outs1 & E1 & _); [discriminate|].
  destruct (arun_ok false ops2 avl_new (length ops3)) as (s & outs2 & E2 & I2 & D2 & O2); [apply new_inv; assumption|discriminate|].
  exists target, outs1, s, outs2. split; [assumption|]. split; [assumption|]. intros NL.
  pose proof (copy_assign_facts target s NL) as (A & B & C & D & _).
  split; [assumption|]. split; [assumption|]. split; [assumption|]. split; [assumption|].
  destruct (copy_later target s 0 ops3 NL) as (s' & outs & E & I & O); [rewrite Nat.add_0_r; assumption|].
  exists s', outs, (in_order (root s')). rewrite arun_app, E. cbn [bind fst snd arun astep].
  destruct I as (W & S & _ & C' & _). rewrite C', visited_size. split; [reflexivity|]. split; [assumption|].
  intros v. rewrite O, D2, O2. cbn [root avl_new in_order dup]. change (occ o v []) with 0.
  symmetry. apply mult_app.
Qed.

(** ** Moves *)
Lemma move_histories ops : (N.of_nat (length ops) < big)%N ->
  exists s outs, arun o avl_new ops = Val (s, outs) /\
    let (target, source) := move_assign s in
    in_order (root target) = in_order (root s) /\ height target = height s /\ count target = count s /\ dup target = dup s /\
    root source = Leaf /\ dup source = dup s /\ (forall v, contains o source v = false) /\ count source = count s /\
    forall ops', (N.of_nat (length ops') < big)%N ->
    exists s' outs' l, arun o source (AClear :: ops' ++ [ASize; AInOrder]) =
        Val (s', ANone :: outs' ++ [ANum (N.of_nat (length l)); AVals l (N.of_nat (length l))]) /\
      sorted o l /\ forall v, occ o v l = mult o (dup s) 0 v ops'.
Proof.
  intros B. destruct (new_run false ops B) as (s & outs & E & I & _); [discriminate|]. exists s, outs. split; [assumption|].
  unfold move_assign. cbn [root height count dup]. split; [reflexivity|]. split; [reflexivity|]. split; [reflexivity|].
  split; [reflexivity|]. split; [reflexivity|]. split; [reflexivity|]. split; [reflexivity|]. split; [reflexivity|].
  intros ops' B'. set (c := mkAvl Leaf (dup s) 0 (fresh s) : avl).
  destruct (arun_ok false ops' c 0) as (s' & outs' & E' & I' & _ & O'); [|discriminate|].
  { unfold inv, c, size. cbn. rewrite Nat.add_0_r. repeat split; auto. constructor. }
  exists s', outs', (in_order (root s')). cbn [arun astep bind]. unfold clear. cbn [root dup fresh]. fold c.
  rewrite arun_app, E'. cbn [bind fst snd arun astep]. destruct I' as (W & S & _ & C' & _).
  rewrite C', visited_size. split; [reflexivity|]. auto.
Qed.

End P.
