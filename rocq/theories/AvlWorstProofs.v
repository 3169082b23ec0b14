(** Proofs about the shape of the AVL tree after removals: one removal from a balanced
    tree, and histories that turn it into a list. *)
Require Import List NArith ZArith Bool Arith Lia Permutation.
Require Import Verif.Base Verif.AvlModel Verif.AvlSpec Verif.AvlProofs.
Import ListNotations.
Local Open Scope nat_scope.

(** ** The tree without addresses, parents and stored heights *)
Section Shape.
Context {T : Type} (o : order T) (LAW : lawful o).
Inductive bt := L | B (v : T) (l r : bt).
Fixpoint bd (t : bt) : nat := match t with L => 0 | B _ l r => S (Nat.max (bd l) (bd r)) end.
Definition brr (t : bt) : bt := match t with B x (B y ll lr) r => B y ll (B x lr r) | _ => t end.
Definition brl (t : bt) : bt := match t with B x l (B y rl rr) => B y (B x l rl) rr | _ => t end.
Definition bdl (t : bt) : bt := match t with B x l r => brl (B x l (brr r)) | L => L end.
Definition bdr (t : bt) : bt := match t with B x l r => brr (B x (brl l) r) | L => L end.
Definition bif (v : T) (t : bt) : bt :=
  match t with
  | L => L
  | B x l r =>
      if bd l =? bd r + 2 then match l with L => t | B y _ _ => if lt_ o v y then brr t else bdr t end
      else if bd r =? bd l + 2 then match r with L => t | B y _ _ => if lt_ o y v then brl t else bdl t end
      else t
  end.
Definition breb (t : bt) : bt :=
  match t with
  | L => L
  | B x l r =>
      if bd l =? bd r + 2 then match l with L => t | B y ll lr => if bd ll =? bd lr + 1 then brr t else bdr t end
      else if bd r =? bd l + 2 then match r with L => t | B y rl rr => if bd rr =? bd rl + 1 then brl t else bdl t end
      else t
  end.
Fixpoint bmem (v : T) (t : bt) : bool :=
  match t with L => false | B x l r => if lt_ o v x then bmem v l else if lt_ o x v then bmem v r else true end.
Fixpoint bins (v : T) (t : bt) : bt :=
  match t with
  | L => B v L L
  | B x l r =>
      if lt_ o v x then (if bmem v l then t else bif v (B x (bins v l) r))
      else if lt_ o x v then (if bmem v r then t else bif v (B x l (bins v r)))
      else t
  end.
Fixpoint blm (d : T) (t : bt) : T := match t with L => d | B v l _ => blm v l end.
Fixpoint brm (v : T) (t : bt) : bt :=
  match t with
  | L => L
  | B x l r =>
      if lt_ o v x then breb (B x (brm v l) r)
      else if lt_ o x v then breb (B x l (brm v r))
      else match l, r with
           | B _ _ _, B y rl _ => let m := blm y rl in breb (B m l (brm m r))
           | L, _ => breb r
           | _, L => breb l
           end
  end.
Fixpoint erase (t : tree T) : bt := match t with Leaf => L | Node _ _ _ v l r => B v (erase l) (erase r) end.

Lemma erase_ht t : wf true t -> ht t = bd (erase t).
Proof.
  induction t as [|i p h v l IHl r IHr]; [reflexivity|]. intros (_ & H & Wl & Wr & _). cbn. rewrite H by reflexivity.
  rewrite IHl, IHr by assumption. reflexivity.
Qed.
Lemma erase_rr t : erase (rotate_right t) = brr (erase t).
Proof. destruct t as [|i p h v [|j q g w a b] r]; reflexivity. Qed.
Lemma erase_rl t : erase (rotate_left t) = brl (erase t).
Proof. destruct t as [|i p h v l [|j q g w a b]]; reflexivity. Qed.
Lemma erase_dl t : erase (double_rotate_left t) = bdl (erase t).
Proof. destruct t as [|i p h v l r]; [reflexivity|]. unfold double_rotate_left. rewrite erase_rl. cbn [erase]. rewrite erase_rr. reflexivity. Qed.
Lemma erase_dr t : erase (double_rotate_right t) = bdr (erase t).
Proof. destruct t as [|i p h v l r]; [reflexivity|]. unfold double_rotate_right. rewrite erase_rr. cbn [erase]. rewrite erase_rl. reflexivity. Qed.
Lemma val_inj {A} (a b : A) : Val a = Val b -> a = b.
Proof. congruence. Qed.
Lemma diff_b a b d : (N.of_nat a < big)%N -> (N.of_nat b < big)%N -> (d = 1 \/ d = 2)%nat -> diff a b (N.of_nat d) = (a =? b + d).
Proof.
  intros A C D. apply eq_true_iff_eq. rewrite Nat.eqb_eq. destruct D as [-> | ->]; [apply diff1|apply diff2]; assumption.
Qed.

Lemma rif_erase i p h x l r v t' : wf true l -> wf true r -> (N.of_nat (size l + size r) < big)%N ->
  rotate_if_needed o (Node i p h x l r) v = Val t' -> erase t' = bif v (B x (erase l) (erase r)).
Proof.
  intros Wl Wr Bd E. pose proof (ht_size _ _ Wl). pose proof (ht_size _ _ Wr). cbn [rotate_if_needed] in E.
  change 2%N with (N.of_nat 2) in E. rewrite !diff_b in E by (auto; lia).
  rewrite (erase_ht l Wl), (erase_ht r Wr) in E. unfold bif.
  destruct (bd (erase l) =? bd (erase r) + 2).
  - destruct l as [|j q g y ll lr]; [discriminate|]. cbn [erase].
    destruct (lt_ o v y); apply val_inj in E; rewrite <- E; [rewrite erase_rr|rewrite erase_dr]; reflexivity.
  - destruct (bd (erase r) =? bd (erase l) + 2).
    + destruct r as [|j q g y rl rr]; [discriminate|]. cbn [erase]. rewrite (gt_is_lt o LAW) in E.
      destruct (lt_ o y v); apply val_inj in E; rewrite <- E; [rewrite erase_rl|rewrite erase_dl]; reflexivity.
    + injection E as <-. reflexivity.
Qed.
Lemma reb_erase i p h x l r t' : wf true l -> wf true r -> (N.of_nat (size l + size r) < big)%N ->
  rebalance (Node i p h x l r) = Val t' -> erase t' = breb (B x (erase l) (erase r)).
Proof.
  intros Wl Wr Bd E. pose proof (ht_size _ _ Wl). pose proof (ht_size _ _ Wr). cbn [rebalance rotate_on_remove_if_needed] in E.
  change 2%N with (N.of_nat 2) in E. rewrite !diff_b in E by (auto; lia).
  rewrite (erase_ht l Wl), (erase_ht r Wr) in E. unfold breb.
  destruct (bd (erase l) =? bd (erase r) + 2).
  - destruct l as [|j q g y ll lr]; [discriminate|]. destruct Wl as (_ & _ & W1 & W2 & _). rewrite size_node in *.
    pose proof (ht_size _ _ W1). pose proof (ht_size _ _ W2). change 1%N with (N.of_nat 1) in E. rewrite diff_b in E by (auto; lia).
    rewrite (erase_ht ll W1), (erase_ht lr W2) in E. cbn [erase].
    destruct (bd (erase ll) =? bd (erase lr) + 1); apply val_inj in E; rewrite <- E; [rewrite erase_rr|rewrite erase_dr]; reflexivity.
  - destruct (bd (erase r) =? bd (erase l) + 2).
    + destruct r as [|j q g y rl rr]; [discriminate|]. destruct Wr as (_ & _ & W1 & W2 & _). rewrite size_node in *.
      pose proof (ht_size _ _ W1). pose proof (ht_size _ _ W2). change 1%N with (N.of_nat 1) in E. rewrite diff_b in E by (auto; lia).
      rewrite (erase_ht rl W1), (erase_ht rr W2) in E. cbn [erase].
      destruct (bd (erase rr) =? bd (erase rl) + 1); apply val_inj in E; rewrite <- E; [rewrite erase_rl|rewrite erase_dl]; reflexivity.
    + injection E as <-. reflexivity.
Qed.
Lemma bmem_in v t : sorted o (in_order t) -> bmem v (erase t) = true <-> In v (in_order t).
Proof.
  induction t as [|i p h x l IHl r IHr]; intros S; [cbn; split; [discriminate|tauto]|].
  cbn [in_order] in S. apply (sorted_app o LAW) in S. destruct S as (Sl & Sr & Fl & Fr). cbn [erase bmem in_order].
  destruct (lt_ o v x) eqn:LT; [rewrite (in_left o LAW) by assumption; auto|].
  destruct (lt_ o x v) eqn:GT; [rewrite (in_right o LAW) by assumption; auto|].
  split; [intros _|auto]. apply in_or_app. right. left. symmetry. apply (not_lt_gt o LAW); [assumption|]. rewrite (gt_is_lt o LAW). assumption.
Qed.
Lemma insert_erase i v t : wf true t -> sorted o (in_order t) -> (N.of_nat (S (size t)) < big)%N ->
  forall t' b, insert_node o false i v t = Val (t', b) -> erase t' = bins v (erase t).
Proof.
  induction t as [|j p h x l IHl r IHr]; intros W S Bd t' b E.
  - cbn in E. injection E as <- _. reflexivity.
  - rewrite size_node in Bd. pose proof S as S0. cbn [in_order] in S. apply (sorted_app o LAW) in S. destruct S as (Sl & Sr & Fl & Fr).
    destruct W as (_ & _ & Wl & Wr & Hl & Hr). cbn [insert_node] in E. rewrite (gt_is_lt o LAW), orb_false_r in E. cbn [erase bins].
    destruct (lt_ o v x) eqn:LT; [|destruct (lt_ o x v) eqn:GT].
    + destruct l as [|k q g y ll lr].
      * cbn [bind] in E.
        destruct (rotate_if_needed o (Node j p h x (Node i (Some j) 1 v Leaf Leaf) r) v) as [t1| | |] eqn:R; cbn [bind] in E; try discriminate.
        injection E as <- _. apply rif_erase in R; [exact R|cbn; unfold size; cbn; repeat split; lia|assumption|unfold size in *; cbn in *; lia].
      * set (l := Node k q g y ll lr) in *.
        destruct (insert_ok o LAW true false i v l) as (l' & b' & E' & I1 & I2); auto; [lia|].
        rewrite E' in E. cbn [bind] in E. assert (EL := IHl Wl Sl ltac:(lia) _ _ E').
        destruct b'.
        -- destruct (I2 eq_refl) as (NI & P & _ & W' & _). apply perm_size in P.
           destruct (rotate_if_needed o (Node j p h x l' r) v) as [t1| | |] eqn:R; cbn [bind] in E; try discriminate.
           injection E as <- _. apply rif_erase in R; [|assumption|assumption|lia]. rewrite R, EL.
           destruct (bmem v (erase l)) eqn:M; [apply bmem_in in M; [tauto|assumption]|reflexivity].
        -- destruct (I1 eq_refl) as (-> & _ & IN). injection E as <- _. apply bmem_in in IN; [|assumption]. rewrite IN. reflexivity.
    + destruct r as [|k q g y rl rr].
      * cbn [bind] in E.
        destruct (rotate_if_needed o (Node j p h x l (Node i (Some j) 1 v Leaf Leaf)) v) as [t1| | |] eqn:R; cbn [bind] in E; try discriminate.
        injection E as <- _. apply rif_erase in R; [exact R|assumption|cbn; unfold size; cbn; repeat split; lia|unfold size in *; cbn in *; lia].
      * set (r := Node k q g y rl rr) in *.
        destruct (insert_ok o LAW true false i v r) as (r' & b' & E' & I1 & I2); auto; [lia|].
        rewrite E' in E. cbn [bind] in E. assert (ER := IHr Wr Sr ltac:(lia) _ _ E').
        destruct b'.
        -- destruct (I2 eq_refl) as (NI & P & _ & W' & _). apply perm_size in P.
           destruct (rotate_if_needed o (Node j p h x l r') v) as [t1| | |] eqn:R; cbn [bind] in E; try discriminate.
           injection E as <- _. apply rif_erase in R; [|assumption|assumption|lia]. rewrite R, ER.
           destruct (bmem v (erase r)) eqn:M; [apply bmem_in in M; [tauto|assumption]|reflexivity].
        -- destruct (I1 eq_refl) as (-> & _ & IN). injection E as <- _. apply bmem_in in IN; [|assumption]. rewrite IN. reflexivity.
    + injection E as <- _. reflexivity.
Qed.
Lemma erase_set_parent t p : erase (set_parent t p) = erase t.
Proof. destruct t; reflexivity. Qed.
Lemma erase_leftmost t : forall d, leftmost d t = blm d (erase t).
Proof. induction t as [|i p h v l IHl r IHr]; intros d; [reflexivity|]. apply IHl. Qed.
Lemma removed_size e v t t' b : removed_ok o e v t t' b -> size t' <= size t.
Proof.
  intros (_ & _ & _ & A & P). unfold size. destruct b.
  - specialize (P eq_refl). apply Permutation_length in P. cbn in P. lia.
  - destruct (A eq_refl) as [-> _]. lia.
Qed.
Lemma remove_erase t : wf true t -> sorted o (in_order t) -> (N.of_nat (size t) < big)%N ->
  forall v t' b, remove_node o v t = Val (t', b) -> erase t' = brm v (erase t).
Proof.
  induction t as [|j p h x l IHl r IHr]; intros W S Bd v t' b E.
  - cbn in E. injection E as <- _. reflexivity.
  - rewrite size_node in Bd. pose proof S as S0. cbn [in_order] in S. apply (sorted_app o LAW) in S. destruct S as (Sl & Sr & Fl & Fr).
    destruct W as (_ & _ & Wl & Wr & Hl & Hr). cbn [remove_node] in E. rewrite (gt_is_lt o LAW) in E. cbn [erase brm].
    assert (ONE : forall c t1, wf true c -> size c <= size l + size r -> rebalance (set_parent c p) = Val t1 -> erase t1 = breb (erase c)).
    { intros c t1 Wc Sc R. destruct c as [|k q g y cl cr]; [injection R as <-; reflexivity|].
      destruct Wc as (_ & _ & W1 & W2 & _). rewrite size_node in Sc. cbn [set_parent] in R. apply reb_erase in R; [exact R|assumption|assumption|lia]. }
    destruct (lt_ o v x) eqn:LT; [|destruct (lt_ o x v) eqn:GT].
    + destruct (remove_ok o LAW true v l) as (l' & b' & E' & RO & _); auto; [lia|]. rewrite E' in E. cbn [bind] in E.
      destruct (rebalance (Node j p h x l' r)) as [t1| | |] eqn:R; cbn [bind] in E; try discriminate. injection E as <- _.
      pose proof (removed_size _ _ _ _ _ RO). destruct RO as (W' & _).
      apply reb_erase in R; [|assumption|assumption|lia]. rewrite R, (IHl Wl Sl ltac:(lia) _ _ _ E'). reflexivity.
    + destruct (remove_ok o LAW true v r) as (r' & b' & E' & RO & _); auto; [lia|]. rewrite E' in E. cbn [bind] in E.
      destruct (rebalance (Node j p h x l r')) as [t1| | |] eqn:R; cbn [bind] in E; try discriminate. injection E as <- _.
      pose proof (removed_size _ _ _ _ _ RO). destruct RO as (W' & _).
      apply reb_erase in R; [|assumption|assumption|lia]. rewrite R, (IHr Wr Sr ltac:(lia) _ _ _ E'). reflexivity.
    + destruct l as [|k q g y ll lr].
      * cbn [erase]. destruct (rebalance (set_parent r p)) as [t1| | |] eqn:R; cbn [bind] in E; try discriminate. injection E as <- _.
        apply ONE in R; [exact R|assumption|lia].
      * destruct r as [|k' q' g' y' rl rr].
        -- cbn [erase]. destruct (rebalance (set_parent (Node k q g y ll lr) p)) as [t1| | |] eqn:R; cbn [bind] in E; try discriminate.
           injection E as <- _. apply ONE in R; [exact R|assumption|lia].
        -- cbn [erase]. set (l := Node k q g y ll lr) in *. set (r := Node k' q' g' y' rl rr) in *.
           rewrite <- erase_leftmost. set (m := leftmost y' rl) in *. cbn zeta.
           destruct (remove_ok o LAW true m r) as (r' & b' & E' & RO & _); auto; [lia|]. rewrite E' in E. cbn [bind] in E.
           destruct (rebalance (Node j p h m l r')) as [t1| | |] eqn:R; cbn [bind] in E; try discriminate. injection E as <- _.
           pose proof (removed_size _ _ _ _ _ RO). destruct RO as (W' & _).
           apply reb_erase in R; [|assumption|assumption|lia]. rewrite R, (IHr Wr Sr ltac:(lia) _ _ _ E'). reflexivity.
Qed.

(** Histories of insertions and removals. *)
Definition bop (t : bt) (op : aop T) : bt :=
  match op with AInsert v => bins v t | ARemove v => brm v t | _ => t end.
Lemma arun_erase ops : forall s m, inv o true s (length ops + m) -> dup s = false -> Forall simple ops ->
  exists s' outs, arun o s ops = Val (s', outs) /\ inv o true s' m /\ dup s' = false /\ erase (root s') = fold_left bop ops (erase (root s)).
Proof.
  induction ops as [|op ops IH]; intros s m I D F.
  - exists s, []. auto.
  - inversion F as [|? ? F1 F2]; subst.
    destruct (astep_ok o LAW true s op (length ops + m) I) as (s1 & r & E & I1 & D1 & _).
    { intros ->. destruct F1. }
    assert (D2 : dup s1 = false) by (destruct op; try destruct F1; cbn in D1; congruence).
    assert (ER : erase (root s1) = bop (erase (root s)) op).
    { destruct I as (W & S & _ & _ & Bd). cbn [length] in Bd. destruct op as [v|v| | | | | | | |]; try destruct F1; cbn [astep] in E.
      - unfold insert in E. rewrite D in E.
        destruct (insert_node o false (fresh s) v (root s)) as [[t' b]| | |] eqn:EI; cbn [bind] in E; try discriminate.
        injection E as <- _. cbn [root bop]. eapply insert_erase; [| | |exact EI]; auto. lia.
      - unfold remove in E.
        destruct (remove_node o v (root s)) as [[t' b]| | |] eqn:EI; cbn [bind] in E; try discriminate.
        injection E as <- _. cbn [root bop]. eapply remove_erase; [| | |exact EI]; auto. lia. }
    destruct (IH s1 m I1 D2 F2) as (s' & outs & E2 & I2 & D3 & H2).
    exists s', (r :: outs). cbn [arun]. rewrite E. cbn [bind]. rewrite E2. cbn [bind fold_left]. rewrite <- ER. auto.
Qed.
End Shape.
Arguments bt : clear implicits.

(** ** Renaming the values *)
Section Rename.
Context {T U : Type} (o : order T) (o' : order U) (f : T -> U).
Context (mono : forall a b, lt_ o' (f a) (f b) = lt_ o a b).
Fixpoint bmap (t : bt T) : bt U := match t with L => L | B v l r => B (f v) (bmap l) (bmap r) end.
Lemma bd_map t : bd (bmap t) = bd t.
Proof. induction t; cbn; congruence. Qed.
Lemma brr_map t : brr (bmap t) = bmap (brr t).
Proof. destruct t as [|v [|w a b] r]; reflexivity. Qed.
Lemma brl_map t : brl (bmap t) = bmap (brl t).
Proof. destruct t as [|v l [|w a b]]; reflexivity. Qed.
Lemma bdl_map t : bdl (bmap t) = bmap (bdl t).
Proof. destruct t as [|v l r]; [reflexivity|]. unfold bdl. cbn [bmap]. rewrite brr_map. apply (brl_map (B v l (brr r))). Qed.
Lemma bdr_map t : bdr (bmap t) = bmap (bdr t).
Proof. destruct t as [|v l r]; [reflexivity|]. unfold bdr. cbn [bmap]. rewrite brl_map. apply (brr_map (B v (brl l) r)). Qed.
Lemma bif_map v t : bif o' (f v) (bmap t) = bmap (bif o v t).
Proof.
  destruct t as [|x l r]; [reflexivity|]. unfold bif. cbn [bmap]. rewrite !bd_map. change (B (f x) (bmap l) (bmap r)) with (bmap (B x l r)).
  rewrite brr_map, bdr_map, brl_map, bdl_map.
  destruct (bd l =? bd r + 2); [|destruct (bd r =? bd l + 2); [|reflexivity]].
  - destruct l as [|y a b]; [reflexivity|]. cbn [bmap]. rewrite mono. destruct (lt_ o v y); reflexivity.
  - destruct r as [|y a b]; [reflexivity|]. cbn [bmap]. rewrite mono. destruct (lt_ o y v); reflexivity.
Qed.
Lemma breb_map t : breb (bmap t) = bmap (breb t).
Proof.
  destruct t as [|x l r]; [reflexivity|]. unfold breb. cbn [bmap]. rewrite !bd_map. change (B (f x) (bmap l) (bmap r)) with (bmap (B x l r)).
  rewrite brr_map, bdr_map, brl_map, bdl_map.
  destruct (bd l =? bd r + 2); [|destruct (bd r =? bd l + 2); [|reflexivity]].
  - destruct l as [|y a b]; [reflexivity|]. cbn [bmap]. rewrite !bd_map. destruct (bd a =? bd b + 1); reflexivity.
  - destruct r as [|y a b]; [reflexivity|]. cbn [bmap]. rewrite !bd_map. destruct (bd b =? bd a + 1); reflexivity.
Qed.
Lemma bmem_map v t : bmem o' (f v) (bmap t) = bmem o v t.
Proof. induction t as [|x l IHl r IHr]; [reflexivity|]. cbn. rewrite !mono, IHl, IHr. reflexivity. Qed.
Lemma bins_map v t : bins o' (f v) (bmap t) = bmap (bins o v t).
Proof.
  induction t as [|x l IHl r IHr]; [reflexivity|]. cbn [bins bmap]. rewrite !mono, !bmem_map, IHl, IHr.
  destruct (lt_ o v x); [|destruct (lt_ o x v); [|reflexivity]].
  - destruct (bmem o v l); [reflexivity|]. apply (bif_map v (B x (bins o v l) r)).
  - destruct (bmem o v r); [reflexivity|]. apply (bif_map v (B x l (bins o v r))).
Qed.
Lemma blm_map t : forall d, blm (f d) (bmap t) = f (blm d t).
Proof. induction t as [|x l IHl r IHr]; intros d; [reflexivity|]. cbn. apply IHl. Qed.
Lemma brm_map t : forall v, brm o' (f v) (bmap t) = bmap (brm o v t).
Proof.
  induction t as [|x l IHl r IHr]; intros v; [reflexivity|]. cbn [brm bmap]. rewrite !mono.
  destruct (lt_ o v x); [rewrite IHl; apply (breb_map (B x (brm o v l) r))|].
  destruct (lt_ o x v); [rewrite IHr; apply (breb_map (B x l (brm o v r)))|].
  destruct l as [|y a b]; [apply breb_map|]. destruct r as [|z c d]; [apply (breb_map (B y a b))|].
  cbn [bmap]. rewrite blm_map. cbn zeta. specialize (IHr (blm z c)). cbn [bmap] in IHr. rewrite IHr.
  apply (breb_map (B (blm z c) (B y a b) (brm o (blm z c) (B z c d)))).
Qed.
Definition mapop (op : aop T) : aop U :=
  match op with AInsert v => AInsert (f v) | ARemove v => ARemove (f v) | _ => ASize end.
Lemma run_map ops : forall t, Forall simple ops -> fold_left (bop o') (map mapop ops) (bmap t) = bmap (fold_left (bop o) ops t).
Proof.
  induction ops as [|op ops IH]; intros t F; [reflexivity|]. inversion F as [|? ? F1 F2]; subst. cbn [map fold_left].
  rewrite <- IH by assumption. f_equal. destruct op; try destruct F1; cbn [mapop bop]; [apply bins_map|apply brm_map].
Qed.
End Rename.

(** ** A spine: nodes without left children above a deep tree are left alone *)
Section Spine.
Context {T : Type} (o : order T) (LAW : lawful o).
Fixpoint spine (vs : list T) (t : bt T) : bt T := match vs with [] => t | v :: vs => B v L (spine vs t) end.
Definition value_of (op : aop T) : option T := match op with AInsert v | ARemove v => Some v | _ => None end.
Fixpoint deep (ops : list (aop T)) (t : bt T) : bool :=
  match ops with [] => true | op :: ops => (3 <=? bd (bop o t op)) && deep ops (bop o t op) end.
Lemma spine_depth vs t : bd (spine vs t) = length vs + bd t.
Proof. induction vs as [|v vs IH]; [reflexivity|]. cbn. rewrite IH. lia. Qed.
Lemma spine_mem v vs t : (forall w, In w vs -> lt_ o w v = true) -> bmem o v (spine vs t) = bmem o v t.
Proof.
  induction vs as [|w vs IH]; intros F; [reflexivity|]. cbn [spine bmem]. pose proof (F w (or_introl eq_refl)) as H.
  rewrite H, (lt_le o LAW _ _ H : lt_ o v w = false). apply IH. intros; apply F; right; assumption.
Qed.
Lemma spine_op op v vs t : value_of op = Some v -> (forall w, In w vs -> lt_ o w v = true) -> 3 <= bd (bop o t op) ->
  bop o (spine vs t) op = spine vs (bop o t op).
Proof.
  intros V F D. induction vs as [|w vs IH]; [reflexivity|]. pose proof (F w (or_introl eq_refl)) as H.
  pose proof (lt_le o LAW _ _ H : lt_ o v w = false) as H'. specialize (IH (fun z Hz => F z (or_intror Hz))).
  assert (SD := spine_depth vs (bop o t op)).
  destruct op as [v0|v0| | | | | | | |]; try discriminate; cbn in V; injection V as ->; cbn [bop spine] in *.
  - cbn [bins]. rewrite H, H', IH. rewrite spine_mem by (intros; apply F; right; assumption).
    destruct (bmem o v t) eqn:M.
    + f_equal. f_equal. clear - M LAW. induction t as [|x l IHl r IHr]; [discriminate|]. cbn in *.
      destruct (lt_ o v x); [rewrite M; reflexivity|]. destruct (lt_ o x v); [rewrite M; reflexivity|reflexivity].
    + unfold bif. cbn [bd]. rewrite SD. replace (0 =? length vs + bd (bins o v t) + 2) with false by (symmetry; apply Nat.eqb_neq; lia).
      replace (length vs + bd (bins o v t) =? 0 + 2) with false by (symmetry; apply Nat.eqb_neq; lia). reflexivity.
  - cbn [brm]. rewrite H, H', IH. unfold breb. cbn [bd]. rewrite SD.
    replace (0 =? length vs + bd (brm o v t) + 2) with false by (symmetry; apply Nat.eqb_neq; lia).
    replace (length vs + bd (brm o v t) =? 0 + 2) with false by (symmetry; apply Nat.eqb_neq; lia). reflexivity.
Qed.
Lemma spine_run vs ops : forall t, Forall (fun op => exists v, value_of op = Some v /\ forall w, In w vs -> lt_ o w v = true) ops ->
  deep ops t = true -> fold_left (bop o) ops (spine vs t) = spine vs (fold_left (bop o) ops t).
Proof.
  induction ops as [|op ops IH]; intros t F D; [reflexivity|]. inversion F as [|? ? (v & V & F1) F2]; subst.
  cbn [deep] in D. apply andb_true_iff in D. destruct D as [D1 D2]. apply Nat.leb_le in D1. cbn [fold_left].
  rewrite (spine_op op v) by assumption. apply IH; assumption.
Qed.
End Spine.
Lemma deep_map {T U} (o : order T) (o' : order U) (f : T -> U) (mono : forall a b, lt_ o' (f a) (f b) = lt_ o a b) ops :
  Forall simple ops -> forall t, deep o' (map (mapop f) ops) (bmap f t) = deep o ops t.
Proof.
  induction 1 as [|op ops F1 F2 IH]; intros t; [reflexivity|]. cbn [map deep].
  assert (E : bop o' (bmap f t) (mapop f op) = bmap f (bop o t op)).
  { destruct op; try destruct F1; cbn [mapop bop]; [apply bins_map; assumption|apply brm_map; assumption]. }
  rewrite E, bd_map, IH. reflexivity.
Qed.

(** ** The histories *)
Local Open Scope Z_scope.
Definition zorder : order Z := mkOrder Z.ltb Z.gtb Z.eqb.
Lemma zorder_lawful : lawful zorder.
Proof.
  constructor; cbn.
  - intros a b. apply Z.gtb_ltb.
  - apply Z.eqb_eq.
  - apply Z.ltb_irrefl.
  - intros a b c. rewrite !Z.ltb_lt. lia.
  - intros a b. rewrite !Z.ltb_lt. lia.
Qed.
Definition seed : list (aop Z) := map AInsert [2; 1; 3; 0].
Definition round : list (aop Z) :=
  map AInsert [4; 5; 6; 7; 8; 9] ++ map ARemove [4; 0; 1] ++ map AInsert [10; 11; 12; 13; 14; 15; 16; 17; 18] ++
  [ARemove 6; AInsert 19; ARemove 7; AInsert 20; ARemove 8; AInsert 21; ARemove 14; AInsert 22] ++
  map ARemove [15; 16; 17; 18; 11; 12; 13] ++ map AInsert [23; 24; 25; 26; 27] ++
  map ARemove [2; 3; 5; 9; 10; 20; 21; 23; 25].
Definition core : bt Z := B 2 (B 1 (B 0 L L) L) (B 3 L L).
(** where the values 0-3 of the core are after a round *)
Definition g (z : Z) : Z :=
  if z <? 0 then z + 22 else if z =? 0 then 22 else if z =? 1 then 24 else if z =? 2 then 26 else z + 24.
Lemma g_mono a b : a < b -> g a < g b.
Proof.
  intros H. unfold g.
  destruct (Z.ltb_spec a 0), (Z.ltb_spec b 0), (Z.eqb_spec a 0), (Z.eqb_spec b 0), (Z.eqb_spec a 1), (Z.eqb_spec b 1), (Z.eqb_spec a 2), (Z.eqb_spec b 2); lia.
Qed.
Lemma seed_core : fold_left (bop zorder) seed L = core.
Proof. vm_compute. reflexivity. Qed.
Lemma round_core : fold_left (bop zorder) round core = B 19 L (bmap g core).
Proof. vm_compute. reflexivity. Qed.
Lemma round_deep : deep zorder round core = true.
Proof. vm_compute. reflexivity. Qed.
Lemma round_simple : Forall simple round.
Proof. repeat constructor. Qed.
Lemma round_values : Forall (fun op => exists v, value_of op = Some v /\ 0 <= v) round.
Proof. repeat constructor; eexists; (split; [reflexivity|lia]). Qed.

Fixpoint gs (k : nat) (z : Z) : Z := match k with O => z | S k => gs k (g z) end.
Lemma gs_mono k : forall a b, a < b -> gs k a < gs k b.
Proof. induction k as [|k IH]; intros a b H; [exact H|]. cbn. apply IH, g_mono, H. Qed.
Lemma gs_lt k a b : lt_ zorder (gs k a) (gs k b) = lt_ zorder a b.
Proof.
  cbn. destruct (Z.ltb_spec a b) as [H|H]; [apply Z.ltb_lt, gs_mono, H|]. apply Z.ltb_ge.
  destruct (Z.eq_dec a b) as [->|N]; [lia|]. pose proof (gs_mono k b a ltac:(lia)). lia.
Qed.
Fixpoint history (k : nat) : list (aop Z) :=
  match k with O => seed | S k => history k ++ map (mapop (gs k)) round end.
Fixpoint sp (k : nat) : list Z := match k with O => [] | S k => sp k ++ [gs k 19] end.
Lemma sp_below k v : In v (sp k) -> v < gs k 0.
Proof.
  revert v. induction k as [|k IH]; intros v; [intros []|]. cbn [sp gs]. change (g 0) with 22. intros H. apply in_app_or in H.
  destruct H as [H|[<-|[]]].
  - apply IH in H. pose proof (gs_mono k 0 22 eq_refl). lia.
  - apply gs_mono. reflexivity.
Qed.
Lemma bmap_comp {A C D} (h : A -> C) (f : C -> D) t : bmap f (bmap h t) = bmap (fun z => f (h z)) t.
Proof. induction t; cbn; congruence. Qed.
Lemma spine_app {A} (vs ws : list A) t : spine (vs ++ ws) t = spine vs (spine ws t).
Proof. induction vs; cbn; congruence. Qed.
Lemma history_tree k : fold_left (bop zorder) (history k) L = spine (sp k) (bmap (gs k) core).
Proof.
  induction k as [|k IH].
  - change (history 0) with seed. rewrite seed_core. reflexivity.
  - cbn [history sp]. rewrite fold_left_app, IH.
    rewrite spine_run; [| apply zorder_lawful| |].
    + rewrite (run_map zorder zorder (gs k) (gs_lt k)) by apply round_simple. rewrite round_core, spine_app. cbn [bmap spine].
      rewrite bmap_comp. reflexivity.
    + rewrite Forall_map. eapply Forall_impl; [|exact round_values]. intros op (v & V & P). exists (gs k v). split.
      * destruct op; try discriminate; injection V as ->; reflexivity.
      * intros w W. cbn. apply Z.ltb_lt. apply sp_below in W. destruct (Z.eq_dec v 0) as [->|N]; [exact W|].
        pose proof (gs_mono k 0 v ltac:(lia)). lia.
    + rewrite (deep_map zorder zorder (gs k) (gs_lt k)) by apply round_simple. exact round_deep.
Qed.
Lemma history_simple k : Forall simple (history k).
Proof.
  induction k as [|k IH]; [repeat constructor|]. cbn [history]. apply Forall_app. split; [assumption|].
  rewrite Forall_map. eapply Forall_impl; [|exact round_simple]. intros op H. destruct op; try destruct H; exact I.
Qed.
Lemma history_length k : length (history k) = (47 * k + 4)%nat.
Proof. induction k as [|k IH]; [reflexivity|]. cbn [history]. rewrite app_length, map_length, IH. change (length round) with 47%nat. lia. Qed.
Lemma sp_length k : length (sp k) = k.
Proof. induction k as [|k IH]; [reflexivity|]. cbn [sp]. rewrite app_length, IH. cbn. lia. Qed.
Fixpoint bsize {T} (t : bt T) : nat := match t with L => 0 | B _ l r => S (bsize l + bsize r) end.
Lemma erase_size {T} (t : tree T) : size t = bsize (erase t).
Proof. induction t as [|i p h v l IHl r IHr]; [reflexivity|]. rewrite size_node. cbn. rewrite IHl, IHr. reflexivity. Qed.
Lemma spine_size {T} vs (t : bt T) : bsize (spine vs t) = (length vs + bsize t)%nat.
Proof. induction vs as [|v vs IH]; [reflexivity|]. cbn. rewrite IH. reflexivity. Qed.
Lemma bmap_size {T U} (f : T -> U) t : bsize (bmap f t) = bsize t.
Proof. induction t; cbn; congruence. Qed.
Lemma degenerate k : (N.of_nat (47 * k + 4) < big)%N -> exists s outs,
  length (history k) = (47 * k + 4)%nat /\ arun zorder avl_new (history k) = Val (s, outs) /\
  count s = N.of_nat (k + 4) /\ height s = (k + 3)%nat /\ depth (root s) = (k + 3)%nat.
Proof.
  intros Bd. destruct (arun_erase zorder zorder_lawful (history k) avl_new 0) as (s & outs & E & I & _ & ER).
  - apply new_inv. rewrite history_length, Nat.add_0_r. exact Bd.
  - reflexivity.
  - apply history_simple.
  - exists s, outs. split; [apply history_length|]. split; [exact E|]. destruct I as (W & _ & _ & C & _).
    rewrite C, erase_size, ER. unfold height. rewrite <- ht_depth, erase_ht, ER by exact W. cbn [erase root avl_new].
    rewrite history_tree, spine_size, spine_depth, bmap_size, bd_map, sp_length. auto.
Qed.

(** ** One removal from a balanced tree *)
Local Open Scope nat_scope.
Section One.
Context {T : Type} (o : order T) (LAW : lawful o).
Fixpoint bun (t : bt T) : nat :=
  match t with L => 0 | B _ l r => (if (bd l <=? S (bd r)) && (bd r <=? S (bd l)) then 0 else 1) + bun l + bun r end.
Fixpoint bsk (t : bt T) : nat :=
  match t with L => 0 | B _ l r => Nat.max (Nat.max (bd l - bd r) (bd r - bd l)) (Nat.max (bsk l) (bsk r)) end.
Definition bb (t : bt T) : Prop := bun t = 0 /\ bsk t <= 1.
Definition fair (t t' : bt T) : Prop :=
  bb t' /\ (bd t' = bd t \/ S (bd t') = bd t) \/ bd t' = bd t /\ bun t' = 1 /\ bsk t' <= 2.
Lemma un_ok (l r : nat) : l <= S r -> r <= S l -> (if (l <=? S r) && (r <=? S l) then 0 else 1) = 0.
Proof. intros A C. rewrite (proj2 (Nat.leb_le _ _) A), (proj2 (Nat.leb_le _ _) C). reflexivity. Qed.
Lemma un_bad (l r : nat) : l > S r \/ r > S l -> (if (l <=? S r) && (r <=? S l) then 0 else 1) = 1.
Proof. intros A. destruct (Nat.leb_spec l (S r)), (Nat.leb_spec r (S l)); cbn; lia. Qed.
Lemma bb_node (v : T) l r : bb (B v l r) <-> bb l /\ bb r /\ bd l <= S (bd r) /\ bd r <= S (bd l).
Proof.
  unfold bb. cbn [bun bsk]. split.
  - intros [U S]. repeat split; lia.
  - intros ([U1 S1] & [U2 S2] & A & C). rewrite un_ok by assumption. lia.
Qed.
Lemma bsk_node (v : T) l r k : bd l <= k + bd r -> bd r <= k + bd l -> bsk l <= k -> bsk r <= k -> bsk (B v l r) <= k.
Proof. intros. cbn [bsk]. repeat apply Nat.max_lub; lia. Qed.
Lemma breb_even (x : T) l r : bd l <= S (bd r) -> bd r <= S (bd l) -> breb (B x l r) = B x l r.
Proof.
  intros A C. unfold breb. replace (bd l =? bd r + 2) with false by (symmetry; apply Nat.eqb_neq; lia).
  replace (bd r =? bd l + 2) with false by (symmetry; apply Nat.eqb_neq; lia). reflexivity.
Qed.
Lemma fair_left (x : T) l l' r : bb (B x l r) -> fair l l' -> forall y, fair (B x l r) (breb (B y l' r)).
Proof.
  intros H F y. apply bb_node in H. destruct H as (Hl & Hr & A & C). destruct F as [(Hl' & D)|(D & U & S)].
  - destruct (Nat.eq_dec (bd r) (bd l' + 2)) as [E|N].
    + unfold breb. replace (bd l' =? bd r + 2) with false by (symmetry; apply Nat.eqb_neq; lia). rewrite (proj2 (Nat.eqb_eq _ _) E).
      destruct r as [|z rl rr]; [cbn in E; lia|]. apply bb_node in Hr. destruct Hr as (Hrl & Hrr & A' & C'). cbn [bd] in *.
      destruct (bd rr =? bd rl + 1) eqn:Q; [apply Nat.eqb_eq in Q|apply Nat.eqb_neq in Q].
      * left. cbn [brl]. rewrite !bb_node. cbn [bd]. repeat split; try apply Hl'; try apply Hrl; try apply Hrr; lia.
      * destruct rl as [|w a b]; [cbn in *; lia|]. apply bb_node in Hrl. destruct Hrl as (Ha & Hb & A2 & C2). cbn [bd bdl brr brl] in *.
        destruct (Nat.eq_dec (bd rr) (S (Nat.max (bd a) (bd b)))) as [Q2|Q2].
        -- destruct (Nat.eq_dec (bd rr) (bd b + 2)) as [Q3|Q3].
           ++ right. destruct Hl' as [U1 S1], Ha as [U2 S2], Hb as [U3 S3], Hrr as [U4 S4].
              split; [cbn [bd]; lia|]. split; [cbn [bun bd]; rewrite (un_ok (bd l') (bd a)), (un_bad (bd b) (bd rr)), un_ok by lia; lia|].
              repeat apply bsk_node; cbn [bd]; lia.
           ++ left. rewrite !bb_node. cbn [bd]. repeat split; try apply Hl'; try apply Ha; try apply Hb; try apply Hrr; lia.
        -- left. rewrite !bb_node. cbn [bd]. repeat split; try apply Hl'; try apply Ha; try apply Hb; try apply Hrr; lia.
    + rewrite breb_even by lia. left. rewrite bb_node. cbn [bd]. repeat split; try apply Hl'; try apply Hr; lia.
  - rewrite breb_even by lia. right. destruct Hr as [U2 S2]. split; [cbn [bd]; lia|]. split; [cbn [bun]; rewrite un_ok by lia; lia|apply bsk_node; lia].
Qed.
Lemma fair_right (x : T) l r r' : bb (B x l r) -> fair r r' -> forall y, fair (B x l r) (breb (B y l r')).
Proof.
  intros H F y. apply bb_node in H. destruct H as (Hl & Hr & A & C). destruct F as [(Hr' & D)|(D & U & S)].
  - destruct (Nat.eq_dec (bd l) (bd r' + 2)) as [E|N].
    + unfold breb. rewrite (proj2 (Nat.eqb_eq _ _) E).
      destruct l as [|z ll lr]; [cbn in E; lia|]. apply bb_node in Hl. destruct Hl as (Hll & Hlr & A' & C'). cbn [bd] in *.
      destruct (bd ll =? bd lr + 1) eqn:Q; [apply Nat.eqb_eq in Q|apply Nat.eqb_neq in Q].
      * left. cbn [brr]. rewrite !bb_node. cbn [bd]. repeat split; try apply Hr'; try apply Hll; try apply Hlr; lia.
      * destruct lr as [|w a b]; [cbn in *; lia|]. apply bb_node in Hlr. destruct Hlr as (Ha & Hb & A2 & C2). cbn [bd bdr brr brl] in *.
        destruct (Nat.eq_dec (bd ll) (S (Nat.max (bd a) (bd b)))) as [Q2|Q2].
        -- destruct (Nat.eq_dec (bd ll) (bd a + 2)) as [Q3|Q3].
           ++ right. destruct Hr' as [U1 S1], Ha as [U2 S2], Hb as [U3 S3], Hll as [U4 S4].
              split; [cbn [bd]; lia|]. split; [cbn [bun bd]; rewrite (un_ok (bd b) (bd r')), (un_bad (bd ll) (bd a)), un_ok by lia; lia|].
              repeat apply bsk_node; cbn [bd]; lia.
           ++ left. rewrite !bb_node. cbn [bd]. repeat split; try apply Hr'; try apply Ha; try apply Hb; try apply Hll; lia.
        -- left. rewrite !bb_node. cbn [bd]. repeat split; try apply Hr'; try apply Ha; try apply Hb; try apply Hll; lia.
    + rewrite breb_even by lia. left. rewrite bb_node. cbn [bd]. repeat split; try apply Hr'; try apply Hl; lia.
  - rewrite breb_even by lia. right. destruct Hl as [U2 S2]. split; [cbn [bd]; lia|]. split; [cbn [bun]; rewrite un_ok by lia; lia|apply bsk_node; lia].
Qed.
Lemma breb_bb (t : bt T) : bb t -> breb t = t.
Proof. destruct t as [|v l r]; [reflexivity|]. intros H. apply bb_node in H. apply breb_even; tauto. Qed.
Lemma brm_fair t : bb t -> forall v, fair t (brm o v t).
Proof.
  induction t as [|x l IHl r IHr]; intros H v; [left; cbn; auto|]. pose proof H as H0. apply bb_node in H. destruct H as (Hl & Hr & A & C). cbn [brm].
  destruct (lt_ o v x); [apply fair_left; auto|]. destruct (lt_ o x v); [apply fair_right; auto|].
  destruct l as [|y ll lr]; [rewrite breb_bb by assumption; left; cbn [bd] in *; split; [assumption|lia]|].
  destruct r as [|z rl rr]; [rewrite breb_bb by assumption; left; cbn [bd] in *; split; [assumption|lia]|].
  cbn zeta. eapply fair_right; [exact H0|]. apply IHr. assumption.
Qed.
Lemma depth_erase (t : tree T) : depth t = bd (erase t).
Proof. induction t as [|i p h v l IHl r IHr]; [reflexivity|]. cbn. rewrite IHl, IHr. reflexivity. Qed.
Lemma uneven_erase (t : tree T) : uneven t = bun (erase t).
Proof. induction t as [|i p h v l IHl r IHr]; [reflexivity|]. cbn [uneven erase bun]. rewrite IHl, IHr, !depth_erase. reflexivity. Qed.
Lemma skew_erase (t : tree T) : skew t = bsk (erase t).
Proof. induction t as [|i p h v l IHl r IHr]; [reflexivity|]. cbn [skew erase bsk]. rewrite IHl, IHr, !depth_erase. reflexivity. Qed.
Lemma bb_balanced (t : tree T) : balanced t <-> bb (erase t).
Proof.
  induction t as [|i p h v l IHl r IHr]; [cbn; unfold bb; cbn; split; auto|]. cbn [balanced erase]. rewrite bb_node, IHl, IHr, !depth_erase. tauto.
Qed.
Lemma one_removal ops v : (N.of_nat (S (length ops)) < big)%N -> Forall grows ops -> Forall never_dup ops ->
  exists s outs s' outs', arun o avl_new ops = Val (s, outs) /\ arun o avl_new (ops ++ [ARemove v]) = Val (s', outs') /\
    (balanced (root s') \/ uneven (root s') = 1 /\ skew (root s') <= 2 /\ height s' = height s) /\
    height s' <= height s <= S (height s') /\ (N.of_nat (fib (2 + height s')) <= count s' + 2)%N.
Proof.
  intros Bd G ND. destruct (grows_balanced o LAW ops avl_new 1) as (s & outs & E & I & HB); auto.
  { apply new_inv. lia. } { exact Logic.I. }
  assert (DS : dup s = false).
  { destruct (arun_ok o LAW true ops avl_new 1) as (s1 & o1 & E1 & _ & D1 & _).
    - apply new_inv. lia.
    - intros _. eapply Forall_impl; [|exact G]. intros op Hop ->. exact Hop.
    - rewrite E in E1. injection E1 as <- <-. rewrite D1. apply dup_after_never. assumption. }
  destruct (arun_erase o LAW [ARemove v] s 0) as (s' & outs' & E' & I' & _ & ER); auto.
  { repeat constructor. }
  exists s, outs, s', (outs ++ outs'). split; [assumption|]. split; [rewrite arun_app, E; cbn [bind fst snd]; rewrite E'; reflexivity|].
  pose proof I as (W & _ & _ & C & Bs). pose proof I' as (W' & _ & _ & C' & _).
  assert (Bal : balanced (root s)) by (apply (hbal_balanced _ W); assumption).
  pose proof (brm_fair (erase (root s)) (proj1 (bb_balanced _) Bal) v) as F. cbn [fold_left bop] in ER. rewrite <- ER in F.
  unfold height. rewrite (ht_depth _ W), (ht_depth _ W'), bb_balanced, uneven_erase, skew_erase, !depth_erase.
  assert (Hs : bd (erase (root s')) <= bd (erase (root s)) <= S (bd (erase (root s')))) by (destruct F as [(_ & [?|?])|(? & _)]; lia).
  split; [destruct F as [(? & _)|(? & ? & ?)]; auto|]. split; [exact Hs|].
  destruct (remove_state o LAW true s v 1 I) as (s2 & b & E2 & I2 & _ & _ & P1 & P2).
  assert (s2 = s').
  { cbn [arun astep] in E'. rewrite E2 in E'. cbn [bind] in E'. injection E' as <- _. reflexivity. } subst s2.
  pose proof (balanced_fib (root s) Bal) as FB. rewrite depth_erase in FB.
  assert (SZ : size (root s) <= S (size (root s'))).
  { unfold size. destruct b; [specialize (P1 eq_refl); apply Permutation_length in P1; cbn in P1; lia|rewrite (P2 eq_refl); lia]. }
  rewrite C'. pose proof (fib_mono (S (S (bd (erase (root s'))))) (S (S (bd (erase (root s))))) ltac:(lia)). cbn [Nat.add]. lia.
Qed.
End One.
