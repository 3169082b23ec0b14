(** Proofs about references to nodes of the AVL tree and about traversals whose
    callbacks use it. *)
Require Import List NArith Bool Arith Lia Permutation.
Require Import Verif.Base Verif.AvlModel Verif.AvlSpec Verif.AvlProofs Verif.AvlRefModel Verif.AvlRefSpec.
Import ListNotations.
Local Open Scope outcome_scope.

Section P.
Context {T : Type} (o : order T).
Notation tree := (tree T).
Notation avl := (avl T).

(** ** Nodes move but keep their values *)
Lemma pairs_rotate_right (t : tree) : pairs (rotate_right t) = pairs t.
Proof. destruct t as [|j p h x [|k q g y ll lr] r]; cbn; try reflexivity. rewrite <- app_assoc. reflexivity. Qed.
Lemma pairs_rotate_left (t : tree) : pairs (rotate_left t) = pairs t.
Proof. destruct t as [|j p h x l [|k q g y rl rr]]; cbn; try reflexivity. rewrite <- app_assoc. reflexivity. Qed.
Lemma pairs_double_left (t : tree) : pairs (double_rotate_left t) = pairs t.
Proof. destruct t as [|j p h x l r]; [reflexivity|]. unfold double_rotate_left. rewrite pairs_rotate_left. cbn [pairs]. rewrite pairs_rotate_right. reflexivity. Qed.
Lemma pairs_double_right (t : tree) : pairs (double_rotate_right t) = pairs t.
Proof. destruct t as [|j p h x l r]; [reflexivity|]. unfold double_rotate_right. rewrite pairs_rotate_right. cbn [pairs]. rewrite pairs_rotate_left. reflexivity. Qed.

Lemma val_inj (a b : tree) : Val a = Val b -> b = a.
Proof. congruence. Qed.
Lemma pairs_rotate_if_needed (t t' : tree) v : rotate_if_needed o t v = Val t' -> pairs t' = pairs t.
Proof.
  destruct t as [|j p h x l r]; [discriminate|]. unfold rotate_if_needed.
  destruct (diff (ht l) (ht r) 2).
  - destruct l as [|? ? ? y ? ?]; [discriminate|]. destruct (lt_ o v y); intros E; apply val_inj in E; subst t';
      [rewrite pairs_rotate_right|rewrite pairs_double_right]; reflexivity.
  - destruct (diff (ht r) (ht l) 2).
    + destruct r as [|? ? ? y ? ?]; [discriminate|]. destruct (gt_ o v y); intros E; apply val_inj in E; subst t';
        [rewrite pairs_rotate_left|rewrite pairs_double_left]; reflexivity.
    + intros [= <-]. reflexivity.
Qed.
Lemma pairs_rebalance (t t' : tree) : rebalance t = Val t' -> pairs t' = pairs t.
Proof.
  destruct t as [|j p h x l r]; [intros [= <-]; reflexivity|]. unfold rebalance, rotate_on_remove_if_needed.
  destruct (diff (ht l) (ht r) 2).
  - destruct l as [|? ? ? y ? ?]; [discriminate|]. destruct (diff _ _ 1); intros E; apply val_inj in E; subst t';
      [rewrite pairs_rotate_right|rewrite pairs_double_right]; reflexivity.
  - destruct (diff (ht r) (ht l) 2).
    + destruct r as [|? ? ? y ? ?]; [discriminate|]. destruct (diff _ _ 1); intros E; apply val_inj in E; subst t';
        [rewrite pairs_rotate_left|rewrite pairs_double_left]; reflexivity.
    + intros [= <-]. reflexivity.
Qed.
Lemma pairs_set_parent (t : tree) p : pairs (set_parent t p) = pairs t.
Proof. destruct t; reflexivity. Qed.
Lemma pairs_values (t : tree) : map snd (pairs t) = in_order t.
Proof. induction t; cbn; [reflexivity|]. rewrite map_app. cbn. congruence. Qed.
Lemma pairs_ids (t : tree) : map fst (pairs t) = ids_in t.
Proof. induction t; cbn; [reflexivity|]. rewrite map_app. cbn. congruence. Qed.

(** ** Insertion *)
Definition put_in (i : nat) (v : T) (ps ps' : list (nat * T)) : Prop :=
  exists A B, ps = A ++ B /\ ps' = A ++ (i, v) :: B.
Lemma put_left i v ps ps' q B : put_in i v ps ps' -> put_in i v (ps ++ q :: B) (ps' ++ q :: B).
Proof. intros (A & C & -> & ->). exists A, (C ++ q :: B). rewrite <- !app_assoc. auto. Qed.
Lemma put_right i v ps ps' q A : put_in i v ps ps' -> put_in i v (A ++ q :: ps) (A ++ q :: ps').
Proof. intros (B & C & -> & ->). exists (A ++ q :: B), C. rewrite <- !app_assoc. auto. Qed.

Lemma insert_pairs dup i v (t : tree) : forall t' b, insert_node o dup i v t = Val (t', b) ->
  (b = false -> pairs t' = pairs t) /\ (b = true -> put_in i v (pairs t) (pairs t')).
Proof.
  induction t as [|j p h x l IHl r IHr]; intros t' b E.
  - cbn [insert_node] in E. destruct (rotate_if_needed o _ v) as [u| | |] eqn:R; try discriminate E.
    cbn [bind] in E. injection E as <- <-. apply pairs_rotate_if_needed in R. rewrite R.
    split; [discriminate|]. intros _. exists [], []. auto.
  - cbn [insert_node] in E. destruct (lt_ o v x).
    + assert (HL : exists l' c, match l with Leaf => Val (Node i (Some j) 1 v Leaf Leaf, true) | Node _ _ _ _ _ _ => insert_node o dup i v l end = Val (l', c)
         /\ (c = false -> pairs l' = pairs l) /\ (c = true -> put_in i v (pairs l) (pairs l'))).
      { destruct l as [|a1 a2 a3 a4 a5 a6].
        - eexists _, true. split; [reflexivity|]. split; [discriminate|]. intros _. exists [], []. auto.
        - destruct (insert_node o dup i v (Node a1 a2 a3 a4 a5 a6)) as [[l' c]| | |]; try discriminate E.
          exists l', c. split; [reflexivity|]. apply IHl. reflexivity. }
      destruct HL as (l' & c & EL & F & G). rewrite EL in E. cbn [bind] in E. destruct c.
      * destruct (rotate_if_needed o _ v) as [u| | |] eqn:R; try discriminate E. cbn [bind] in E. injection E as <- <-.
        apply pairs_rotate_if_needed in R. rewrite R. split; [discriminate|]. intros _. cbn [pairs]. apply put_left. auto.
      * injection E as <- <-. split; [|discriminate]. intros _. cbn [pairs]. rewrite F by reflexivity. reflexivity.
    + destruct (gt_ o v x || dup).
      * assert (HL : exists l' c, match r with Leaf => Val (Node i (Some j) 1 v Leaf Leaf, true) | Node _ _ _ _ _ _ => insert_node o dup i v r end = Val (l', c)
         /\ (c = false -> pairs l' = pairs r) /\ (c = true -> put_in i v (pairs r) (pairs l'))).
        { destruct r as [|a1 a2 a3 a4 a5 a6].
          - eexists _, true. split; [reflexivity|]. split; [discriminate|]. intros _. exists [], []. auto.
          - destruct (insert_node o dup i v (Node a1 a2 a3 a4 a5 a6)) as [[l' c]| | |]; try discriminate E.
            exists l', c. split; [reflexivity|]. apply IHr. reflexivity. }
        destruct HL as (l' & c & EL & F & G). rewrite EL in E. cbn [bind] in E. destruct c.
        -- destruct (rotate_if_needed o _ v) as [u| | |] eqn:R; try discriminate E. cbn [bind] in E. injection E as <- <-.
           apply pairs_rotate_if_needed in R. rewrite R. split; [discriminate|]. intros _. cbn [pairs]. apply put_right. auto.
        -- injection E as <- <-. split; [|discriminate]. intros _. cbn [pairs]. rewrite F by reflexivity. reflexivity.
      * injection E as <- <-. split; [reflexivity|discriminate].
Qed.

(** ** Removal *)
Definition matches (v x : T) : Prop := lt_ o v x = false /\ gt_ o v x = false.
Inductive unlinked : T -> list (nat * T) -> list (nat * T) -> Prop :=
| un_here v A k x B : matches v x -> unlinked v (A ++ (k, x) :: B) (A ++ B)
| un_moved v A k x s m B R : matches v x -> A <> [] -> unlinked m ((s, m) :: B) R ->
    unlinked v (A ++ (k, x) :: (s, m) :: B) (A ++ (k, m) :: R).

Lemma un_left v ps ps' q C : unlinked v ps ps' -> unlinked v (ps ++ q :: C) (ps' ++ q :: C).
Proof.
  intros U. induction U as [v A k x B M|v A k x s m B R M NE U IH].
  - rewrite <- !app_assoc. cbn. apply (un_here v A k x (B ++ q :: C) M).
  - rewrite <- !app_assoc. cbn. apply (un_moved v A k x s m (B ++ q :: C) (R ++ q :: C) M NE IH).
Qed.
Lemma un_right v ps ps' q C : unlinked v ps ps' -> unlinked v (C ++ q :: ps) (C ++ q :: ps').
Proof.
  intros U. inversion U as [v0 A k x B M|v0 A k x s m B R M NE U']; subst.
  - pose proof (un_here v (C ++ q :: A) k x B M) as H. rewrite <- !app_assoc in H. exact H.
  - assert (NE' : C ++ q :: A <> []) by (destruct C; discriminate).
    pose proof (un_moved v (C ++ q :: A) k x s m B R M NE' U') as H. rewrite <- !app_assoc in H. exact H.
Qed.

Lemma leftmost_pair (t : tree) : forall i p h v l r, t = Node i p h v l r ->
  exists s B, pairs t = (s, leftmost v l) :: B.
Proof.
  induction t as [|j q g x l IHl r IHr]; intros i p h v l0 r0 [=]; subst. destruct l0 as [|a1 a2 a3 a4 a5 a6].
  - cbn. eauto.
  - cbn [pairs leftmost]. destruct (IHl _ _ _ _ _ _ eq_refl) as (s & B & E). cbn [pairs leftmost] in E. rewrite E. cbn. eauto.
Qed.

Lemma remove_pairs (t : tree) : forall v t' b, remove_node o v t = Val (t', b) ->
  (b = false -> pairs t' = pairs t \/ exists x, In x (in_order t) /\ matches v x) /\ (b = true -> unlinked v (pairs t) (pairs t')).
Proof.
  induction t as [|j p h x l IHl r IHr]; intros v t' b E.
  - injection E as <- <-. split; [auto|discriminate].
  - cbn [remove_node] in E. destruct (lt_ o v x) eqn:LT; [|destruct (gt_ o v x) eqn:GT].
    + destruct (remove_node o v l) as [[l' c]| | |] eqn:EL; try discriminate E. cbn [bind] in E.
      destruct (rebalance _) as [u| | |] eqn:RB; try discriminate E. cbn [bind] in E. injection E as <- <-.
      apply pairs_rebalance in RB. rewrite RB. destruct (IHl _ _ _ EL) as [F G]. cbn [pairs in_order].
      split; intros C.
      * destruct (F C) as [F'|(y & Y1 & Y2)]; [left; rewrite F'; reflexivity|right; exists y; split; [apply in_or_app; auto|auto]].
      * apply un_left. auto.
    + destruct (remove_node o v r) as [[l' c]| | |] eqn:EL; try discriminate E. cbn [bind] in E.
      destruct (rebalance _) as [u| | |] eqn:RB; try discriminate E. cbn [bind] in E. injection E as <- <-.
      apply pairs_rebalance in RB. rewrite RB. destruct (IHr _ _ _ EL) as [F G]. cbn [pairs in_order].
      split; intros C.
      * destruct (F C) as [F'|(y & Y1 & Y2)]; [left; rewrite F'; reflexivity|right; exists y; split; [apply in_or_app; cbn; auto|auto]].
      * apply un_right. auto.
    + assert (M : matches v x) by (split; assumption). split.
      { intros _. right. exists x. split; [cbn; apply in_or_app; cbn; auto|exact M]. }
      intros ->. destruct l as [|a1 a2 a3 a4 a5 a6].
      * destruct (rebalance _) as [u| | |] eqn:RB; try discriminate E. cbn [bind] in E. injection E as <-.
        apply pairs_rebalance in RB. rewrite RB, pairs_set_parent. cbn [pairs]. apply (un_here v [] j x _ M).
      * destruct r as [|b1 b2 b3 y rl rr].
        -- destruct (rebalance _) as [u| | |] eqn:RB; try discriminate E. cbn [bind] in E. injection E as <-.
           apply pairs_rebalance in RB. rewrite RB, pairs_set_parent. cbn [pairs].
           pose proof (un_here v (pairs a5 ++ (a1, a4) :: pairs a6) j x [] M) as H. rewrite app_nil_r in H. exact H.
        -- destruct (remove_node o (leftmost y rl) _) as [[r' c]| | |] eqn:ER; try discriminate E. cbn [bind] in E.
           destruct (rebalance _) as [u| | |] eqn:RB; try discriminate E. cbn [bind] in E. injection E as <- ->.
           apply pairs_rebalance in RB. rewrite RB. destruct (IHr _ _ _ ER) as [_ G]. specialize (G eq_refl).
           destruct (leftmost_pair _ b1 b2 b3 y rl rr eq_refl) as (s & B & EP). rewrite EP in G.
           cbn [pairs] in *. rewrite EP. apply un_moved; [exact M| |exact G]. destruct (pairs a5); discriminate.
Qed.

Lemma unlinked_ids v ps ps' : unlinked v ps ps' -> exists A d B, map fst ps = A ++ d :: B /\ map fst ps' = A ++ B.
Proof.
  intros U. induction U as [v A k x B M|v A k x s m B R M NE U IH].
  - exists (map fst A), k, (map fst B). rewrite !map_app. auto.
  - destruct IH as (A1 & d & B1 & E1 & E2). exists (map fst A ++ k :: A1), d, B1.
    rewrite !map_app. cbn [map fst] in *. rewrite E1, E2, <- !app_assoc. auto.
Qed.

(** ** Addresses are unique *)
Definition fine (s : avl) : Prop := NoDup (map fst (nodes s)) /\ Forall (fun k => k < fresh s) (map fst (nodes s)).

Lemma value_at_pairs k v (t : tree) : value_at k t = Some v -> In (k, v) (pairs t).
Proof.
  induction t as [|j p h x l IHl r IHr]; cbn; [discriminate|]. intros E. apply in_or_app. cbn.
  destruct (Nat.eqb_spec j k) as [->|]; [injection E as <-; auto|].
  destruct (value_at k l); [injection E as <-; left; apply IHl; reflexivity|right; right; apply IHr; exact E].
Qed.
Lemma value_at_none k (t : tree) : value_at k t = None -> ~ In k (map fst (pairs t)).
Proof.
  induction t as [|j p h x l IHl r IHr]; cbn; [auto|]. intros E I. rewrite map_app in I. cbn in I. apply in_app_iff in I.
  destruct (Nat.eqb_spec j k) as [->|NE]; [discriminate|]. destruct (value_at k l) eqn:VL; [discriminate|].
  destruct I as [I|[I|I]]; [apply IHl; auto|auto|apply IHr; auto].
Qed.
Lemma nodup_fun (ps : list (nat * T)) k v w : NoDup (map fst ps) -> In (k, v) ps -> In (k, w) ps -> v = w.
Proof.
  induction ps as [|[j x] ps IH]; cbn; [tauto|]. intros ND. inversion ND as [|? ? N1 N2]; subst.
  intros [E|I1] [E2|I2].
  - congruence.
  - injection E as -> ->. exfalso. apply N1. apply (in_map fst) in I2. exact I2.
  - injection E2 as -> ->. exfalso. apply N1. apply (in_map fst) in I1. exact I1.
  - auto.
Qed.
Lemma get_iff k v (s : avl) : fine s -> get k s = Val v <-> In (k, v) (nodes s).
Proof.
  intros [ND _]. unfold get, nodes in *. destruct (value_at k (root s)) as [w|] eqn:V.
  - pose proof (value_at_pairs _ _ _ V) as I. split; [intros [= ->]; exact I|].
    intros I2. f_equal. eapply nodup_fun; eauto.
  - apply value_at_none in V. split; [discriminate|]. intros I. exfalso. apply V. apply (in_map fst) in I. exact I.
Qed.
Lemma get_ub k (s : avl) : get k s = UB <-> ~ In k (map fst (nodes s)).
Proof.
  unfold get, nodes. destruct (value_at k (root s)) as [w|] eqn:V.
  - apply value_at_pairs in V. apply (in_map fst) in V. split; [discriminate|]. cbn in V. tauto.
  - apply value_at_none in V. tauto.
Qed.

Lemma fine_new : fine avl_new.
Proof. split; constructor. Qed.

Lemma insert_fine s v s' b : fine s -> insert o s v = Val (s', b) ->
  fine s' /\ (b = false -> nodes s' = nodes s) /\ (b = true -> put_in (fresh s) v (nodes s) (nodes s')) /\ fresh s' = S (fresh s).
Proof.
  unfold insert. destruct (insert_node o (dup s) (fresh s) v (root s)) as [[t c]| | |] eqn:E; try discriminate.
  cbn [bind]. intros [ND FO] [= <- <-]. destruct (insert_pairs _ _ _ _ _ _ E) as [F G].
  unfold fine, nodes in *. cbn [root fresh]. split; [|auto]. destruct c.
  - destruct (G eq_refl) as (A & B & E1 & E2). rewrite E1 in ND, FO. rewrite E2. rewrite map_app in *. cbn [map fst] in *.
    assert (FR : Forall (fun k => k < S (fresh s)) (map fst A ++ map fst B)) by (eapply Forall_impl; [|exact FO]; cbn; lia).
    split.
    + eapply Permutation_NoDup; [apply Permutation_middle|]. constructor; [|exact ND].
      intros I. rewrite Forall_forall in FO. apply FO in I. lia.
    + eapply Forall_perm; [symmetry; apply Permutation_middle|]. constructor; [lia|exact FR].
  - rewrite (F eq_refl). split; [exact ND|]. eapply Forall_impl; [|exact FO]. cbn. lia.
Qed.
Lemma remove_fine (LAW : lawful o) e m s v s' b : inv o e s m -> fine s -> remove o s v = Val (s', b) ->
  fine s' /\ (b = false -> nodes s' = nodes s) /\ (b = true -> unlinked v (nodes s) (nodes s')) /\ fresh s' = fresh s.
Proof.
  intros I [ND FO] E. destruct (remove_state o LAW e s v m I) as (s2 & b2 & E2 & _ & _ & Hb & _ & _).
  rewrite E in E2. injection E2 as <- <-. unfold remove in E.
  destruct (remove_node o v (root s)) as [[t c]| | |] eqn:ER; try discriminate E.
  cbn [bind] in E. injection E as <- <-. destruct (remove_pairs _ _ _ _ ER) as [F G].
  unfold fine, nodes in *. cbn [root fresh] in *. assert (F' : c = false -> pairs t = pairs (root s)).
  { intros ->. destruct (F eq_refl) as [H|(x & X1 & X2 & X3)]; [exact H|]. exfalso.
    assert (v = x) by (apply (not_lt_gt o LAW); assumption). subst x. apply Hb in X1. discriminate. }
  split; [|auto]. destruct c.
  - destruct (unlinked_ids _ _ _ (G eq_refl)) as (A & d & B & E1 & E2). rewrite E1 in ND, FO. rewrite E2. split.
    + eapply NoDup_remove_1. exact ND.
    + apply Forall_app in FO. destruct FO as [F1 F2]. inversion F2; subst. apply Forall_app. auto.
  - rewrite (F' eq_refl). auto.
Qed.

Lemma copy_ids (t : tree) : forall i p, let (t', i2) := copy_node i p t in
  i <= i2 /\ NoDup (map fst (pairs t')) /\ Forall (fun k => i <= k < i2) (map fst (pairs t')).
Proof.
  induction t as [|j q h x l IHl r IHr]; intros i p; cbn [copy_node].
  - split; [lia|]. split; constructor.
  - specialize (IHl (S i) (Some i)). destruct (copy_node (S i) (Some i) l) as [l' i1].
    specialize (IHr i1 (Some i)). destruct (copy_node i1 (Some i) r) as [r' i2].
    destruct IHl as (A1 & A2 & A3). destruct IHr as (B1 & B2 & B3). split; [lia|]. cbn [pairs]. rewrite map_app. cbn [map fst].
    rewrite Forall_forall in *. split.
    + eapply Permutation_NoDup; [apply Permutation_middle|]. constructor.
      * intros I. apply in_app_iff in I. destruct I as [I|I]; [apply A3 in I|apply B3 in I]; lia.
      * clear IHl IHr || idtac. revert A2 A3. generalize (map fst (pairs l')). intros L. induction L as [|a L IHL]; cbn; [auto|].
        intros N F. inversion N; subst. constructor.
        -- intros I. apply in_app_iff in I. destruct I as [I|I]; [tauto|]. apply B3 in I. specialize (F a (or_introl eq_refl)). lia.
        -- apply IHL; [assumption|]. intros y Y. apply F. auto.
    + intros k I. apply in_app_iff in I. destruct I as [I|[<-|I]]; [apply A3 in I|idtac|apply B3 in I]; lia.
Qed.

Context (LAW : lawful o).

Lemma remove_all_fine e v m : forall fuel s n s' n', inv o e s m -> fine s ->
  remove_all_loop o fuel s v n = Val (s', n') -> fine s'.
Proof.
  induction fuel as [|fuel IH]; intros s n s' n' I F E; [discriminate|]. cbn [remove_all_loop] in E.
  destruct (remove o s v) as [[s1 b]| | |] eqn:ER; try discriminate E. cbn [bind] in E.
  destruct (remove_fine LAW e m s v s1 b I F ER) as (F1 & _).
  destruct (remove_state o LAW e s v m I) as (s2 & b2 & E2 & I2 & _). rewrite ER in E2. injection E2 as <- <-.
  destruct b; [eapply IH; eauto|]. injection E as <- _. exact F1.
Qed.

Lemma astep_fine e m s op s' r : inv o e s m -> fine s -> astep o s op = Val (s', r) -> fine s'.
Proof.
  intros I F E. destruct op as [v|v|v|v| | | |b| |]; cbn [astep] in E.
  - destruct (insert o s v) as [[s1 b]| | |] eqn:EI; try discriminate E. injection E as <- _. eapply insert_fine; eauto.
  - destruct (remove o s v) as [[s1 b]| | |] eqn:EI; try discriminate E. injection E as <- _. eapply remove_fine; eauto.
  - destruct (remove_all o s v) as [[s1 b]| | |] eqn:EI; try discriminate E. injection E as <- _. eapply remove_all_fine; eauto.
  - injection E as <- _. exact F.
  - injection E as <- _. exact F.
  - injection E as <- _. exact F.
  - injection E as <- _. split; constructor.
  - injection E as <- _. exact F.
  - injection E as <- _. unfold copy_construct, copy_assign. destruct (root s) as [|j q h v l r0] eqn:R; cbn [root fresh].
    + split; constructor.
    + pose proof (copy_ids (Node j q h v l r0) (fresh s) None) as C.
      destruct (copy_node (fresh s) None (Node j q h v l r0)) as [t' i]. destruct C as (C1 & C2 & C3).
      split; [exact C2|]. eapply Forall_impl; [|exact C3]. cbn. lia.
  - injection E as <- _. exact F.
Qed.

(** A tree that a history can lead to. *)
Definition live (m : nat) (s : avl) : Prop := inv o false s m /\ fine s.

Lemma live_step m s op : live (S m) s -> exists s' r, astep o s op = Val (s', r) /\ live m s' /\
  (forall v, occ o v (in_order (root s')) = mult o (dup s) (occ o v (in_order (root s))) v [op]) /\ dup s' = dup_after (dup s) [op].
Proof.
  intros [I F]. destruct (astep_ok o LAW false s op m I) as (s' & r & E & I' & D & O); [auto|].
  exists s', r. split; [exact E|]. split; [split; [exact I'|exact (astep_fine false (S m) s op s' r I F E)]|auto].
Qed.
Lemma live_run ops : forall s m, live (length ops + m) s -> exists s' outs, arun o s ops = Val (s', outs) /\ live m s'.
Proof.
  induction ops as [|op ops IH]; intros s m L; [exists s, []; auto|].
  destruct (live_step _ _ op L) as (s1 & r & E & L1 & _). destruct (IH s1 m L1) as (s2 & outs & E2 & L2).
  exists s2, (r :: outs). cbn [arun]. rewrite E. cbn [bind]. rewrite E2. auto.
Qed.
Lemma live_new ops m : (N.of_nat (length ops + m) < big)%N ->
  exists s outs, arun o avl_new ops = Val (s, outs) /\ live m s.
Proof. intros B. apply live_run. split; [apply new_inv; exact B|apply fine_new]. Qed.

(** ** Calls that delete nothing *)
Lemma keeps_step m s op s' r : live (S m) s -> keeps op -> astep o s op = Val (s', r) ->
  extends s s' /\ (forall k v, In (k, v) (nodes s') -> In (k, v) (nodes s) \/ (k = fresh s /\ op = AInsert v)).
Proof.
  intros L K E. destruct (live_step _ _ op L) as (s2 & r2 & E2 & [_ F2] & _).
  rewrite E in E2. injection E2 as <- <-. destruct L as [_ F].
  destruct op as [v|v|v|v| | | |b| |]; cbn [keeps astep] in *; try tauto; try (injection E as <- _; split; [intros k v0; auto|auto]).
  destruct (insert o s v) as [[s1 b]| | |] eqn:EI; try discriminate E. injection E as <- _.
  destruct (insert_fine s v s1 b F EI) as (_ & N & P & _). destruct b.
  - destruct (P eq_refl) as (A & B & E1 & E2'). split.
    + intros k x. rewrite !get_iff by assumption. rewrite E1, E2', !in_app_iff. cbn. tauto.
    + intros k x. rewrite E1, E2', !in_app_iff. cbn. intros [H|[H|H]]; [auto|injection H as <- <-; auto|auto].
  - rewrite N by reflexivity. split; [|auto]. intros k x. rewrite !get_iff by assumption. rewrite N by reflexivity. auto.
Qed.
Lemma extends_trans (a b c : avl) : extends a b -> extends b c -> extends a c.
Proof. intros A B k v H. apply B, A, H. Qed.
Lemma extends_refl (a : avl) : extends a a.
Proof. intros k v H. exact H. Qed.

Lemma keeps_run ops : forall s m s' outs, live (length ops + m) s -> Forall keeps ops -> arun o s ops = Val (s', outs) -> extends s s'.
Proof.
  induction ops as [|op ops IH]; intros s m s' outs L K E.
  - injection E as <- _. apply extends_refl.
  - destruct (live_step _ _ op L) as (s1 & r & E1 & L1 & _). cbn [arun] in E. rewrite E1 in E. cbn [bind] in E.
    destruct (arun o s1 ops) as [[s2 rs]| | |] eqn:E2; try discriminate E. injection E as <- _.
    inversion K as [|? ? K1 K2]; subst. eapply extends_trans; [|exact (IH s1 m s2 rs L1 K2 E2)].
    exact (proj1 (keeps_step _ s op s1 r L K1 E1)).
Qed.

Lemma survive ops1 ops2 s1 outs1 s2 outs2 : (N.of_nat (length ops1 + length ops2) < big)%N ->
  arun o avl_new ops1 = Val (s1, outs1) -> Forall keeps ops2 -> arun o s1 ops2 = Val (s2, outs2) ->
  forall k v, get k s1 = Val v -> get k s2 = Val v.
Proof.
  intros B E1 K E2. destruct (live_new ops1 (length ops2) B) as (s & outs & E & L). rewrite E1 in E. injection E as <- <-.
  apply (keeps_run ops2 s1 0 s2 outs2); [rewrite Nat.add_0_r; exact L|exact K|exact E2].
Qed.

(** ** Removals *)
Lemma unlinked_head m s B R : unlinked m ((s, m) :: B) R -> ~ In m (map snd B) -> R = B.
Proof.
  intros U. remember ((s, m) :: B) as L eqn:E. revert E.
  destruct U as [v A k x B' [M1 M2]|v A k x s' m' B' R' [M1 M2] NE U]; intros E NB;
    (apply (not_lt_gt o LAW) in M1; [subst x|exact M2]); destruct A as [|a A]; cbn [app] in E; injection E as E1 E2.
  - exact E2.
  - exfalso. apply NB. rewrite <- E2, map_app. apply in_or_app. right. left. reflexivity.
  - congruence.
  - exfalso. apply NB. rewrite <- E2, map_app. apply in_or_app. right. left. reflexivity.
Qed.
Lemma unlinked_distinct v ps ps' : NoDup (map snd ps) -> unlinked v ps ps' ->
  exists A k B, ps = A ++ (k, v) :: B /\
    (ps' = A ++ B \/ exists s m B', B = (s, m) :: B' /\ ps' = A ++ (k, m) :: B').
Proof.
  intros ND U. inversion U as [v0 A k x B M|v0 A k x s m B R M NE U']; subst.
  - destruct M as [M1 M2]. apply (not_lt_gt o LAW) in M1; [subst x|exact M2]. exists A, k, B. auto.
  - destruct M as [M1 M2]. apply (not_lt_gt o LAW) in M1; [subst x|exact M2].
    exists A, k, ((s, m) :: B). split; [reflexivity|]. right. exists s, m, B. split; [reflexivity|]. do 2 f_equal.
    rewrite map_app in ND. cbn [map snd] in ND. apply NoDup_remove_1 in ND.
    assert (NB : ~ In m (map snd B)).
    { apply NoDup_remove_2 in ND. intros I. apply ND. apply in_or_app. auto. }
    exact (unlinked_head m s B R U' NB).
Qed.

(** ** References obtained from the tree *)
Lemma sub_node k (t u : tree) : sub k t = Some u -> exists p h v l r, u = Node k p h v l r.
Proof.
  induction t as [|j p h x l IHl r IHr]; cbn; [discriminate|].
  destruct (Nat.eqb_spec j k) as [->|]; [intros [= <-]; eauto 6|].
  destruct (sub k l) eqn:SL; [intros [= <-]; auto|auto].
Qed.
Lemma sub_pairs k (t u : tree) : sub k t = Some u -> exists A B, pairs t = A ++ pairs u ++ B.
Proof.
  induction t as [|j p h x l IHl r IHr]; cbn [sub]; [discriminate|].
  destruct (Nat.eqb_spec j k) as [->|].
  - intros [= <-]. exists [], []. rewrite app_nil_r. reflexivity.
  - destruct (sub k l) as [w|] eqn:SL.
    + intros [= <-]. destruct (IHl eq_refl) as (A & B & E). exists A, (B ++ (j, x) :: pairs r). cbn [pairs]. rewrite E, <- !app_assoc. reflexivity.
    + intros E1. destruct (IHr E1) as (A & B & E). exists (pairs l ++ (j, x) :: A), B. cbn [pairs]. rewrite E, <- !app_assoc. reflexivity.
Qed.
Lemma sub_value k (t : tree) : value_at k t = match sub k t with Some (Node _ _ _ v _ _) => Some v | _ => None end.
Proof.
  induction t as [|j p h x l IHl r IHr]; cbn; [reflexivity|]. destruct (Nat.eqb_spec j k) as [->|]; [reflexivity|].
  rewrite IHl, IHr. destruct (sub k l) as [u|] eqn:SL; [|reflexivity].
  destruct (sub_node _ _ _ SL) as (q & g & v & l' & r' & ->). reflexivity.
Qed.
Lemma get_load k (s : avl) v : get k s = Val v <-> exists p h l r, load k s = Val (Node k p h v l r).
Proof.
  unfold get, load. rewrite sub_value. destruct (sub k (root s)) as [u|] eqn:SU.
  - destruct (sub_node _ _ _ SU) as (q & g & w & l' & r' & ->). split.
    + intros [= ->]. eauto.
    + intros (? & ? & ? & ? & [=]). subst. reflexivity.
  - split; [discriminate|]. intros (? & ? & ? & ? & [=]).
Qed.

Lemma outermost_left (t : tree) : forall i v, exists k, outermost false i t = k /\
  ((t = Leaf /\ k = i /\ leftmost v t = v) \/ In (k, leftmost v t) (pairs t)).
Proof.
  induction t as [|j p h x l IHl r IHr]; intros i v; cbn; [exists i; auto 6|].
  destruct (IHl j x) as (k & E & [(-> & -> & L)|I]).
  - exists j. split; [exact E|]. right. rewrite L. cbn. auto.
  - exists k. split; [exact E|]. right. apply in_or_app. auto.
Qed.
Lemma outermost_right (t : tree) : forall i v, exists k, outermost true i t = k /\
  ((t = Leaf /\ k = i /\ rightmost v t = v) \/ In (k, rightmost v t) (pairs t)).
Proof.
  induction t as [|j p h x l IHl r IHr]; intros i v; cbn; [exists i; auto 6|].
  destruct (IHr j x) as (k & E & [(-> & -> & L)|I]).
  - exists j. split; [exact E|]. right. rewrite L. apply in_or_app. cbn. auto.
  - exists k. split; [exact E|]. right. apply in_or_app. cbn. auto.
Qed.

Lemma not_between a b : lt_ o a b = true -> lt_ o b a = true -> False.
Proof. intros A B. pose proof (lt_trans o LAW _ _ _ A B) as C. rewrite (lt_irrefl o LAW) in C. discriminate. Qed.

Lemma removed_all_histories ops v s outs s' : (N.of_nat (length ops) < big)%N ->
  arun o avl_new ops = Val (s, outs) -> remove o s v = Val (s', true) ->
  (exists d w, get d s = Val w /\ lt_ o w v = false /\
     forall k x, get k s = Val x -> (get k s' = UB <-> k = d)) /\
  (forall k x, get k s = Val x -> lt_ o x v = true -> get k s' = Val x).
Proof.
  intros B E ER. destruct (live_new ops 0) as (s1 & o1 & E1 & I & F); [rewrite Nat.add_0_r; exact B|].
  rewrite E in E1. injection E1 as <- <-.
  destruct (remove_fine LAW false 0 s v s' true I F ER) as (F' & _ & U & _). specialize (U eq_refl).
  destruct I as (_ & SO & _). rewrite <- pairs_values in SO. fold (nodes s) in SO.
  assert (KEY : exists A d w B, nodes s = A ++ (d, w) :: B /\ lt_ o w v = false /\ map fst (nodes s') = map fst A ++ map fst B /\
            forall k x, In (k, x) (nodes s) -> lt_ o x v = true -> In (k, x) (nodes s')).
  { clear F F' ER E B. revert SO U. generalize (nodes s) (nodes s'). intros ps ps' SO U.
    induction U as [v A k x B [M1 M2]|v A k x s2 m B R [M1 M2] NE U IH];
      (apply (not_lt_gt o LAW) in M1; [subst x|exact M2]).
    - exists A, k, v, B. split; [reflexivity|]. split; [apply (lt_irrefl o LAW)|]. rewrite map_app. split; [reflexivity|].
      rewrite map_app in SO. cbn [map snd] in SO. apply (sorted_app o) in SO; [|exact LAW]. destruct SO as (_ & _ & _ & SB).
      intros j y I LT. apply in_app_iff in I. apply in_or_app. destruct I as [I|[[= <- <-]|I]]; auto.
      rewrite (lt_irrefl o LAW) in LT. discriminate.
    - rewrite map_app in SO. cbn [map snd] in SO. apply (sorted_app o) in SO; [|exact LAW]. destruct SO as (_ & SB & _ & VB).
      destruct (IH SB) as (A1 & d & w & B1 & E1 & LW & E2 & K).
      pose proof VB as VB'. inversion VB' as [|? ? VM _]; subst.
      assert (VW : lt_ o w v = false).
      { rewrite Forall_forall in VB. apply (VB w). change (m :: map snd B) with (map snd ((s2, m) :: B)). rewrite E1, map_app. apply in_or_app. right. left. reflexivity. }
      exists (A ++ (k, v) :: A1), d, w, B1. rewrite E1, <- app_assoc. split; [reflexivity|]. split; [exact VW|].
      rewrite !map_app. cbn [map fst]. rewrite E2, <- app_assoc. split; [reflexivity|].
      intros j y I LT. rewrite <- E1 in I. apply in_app_iff in I. apply in_or_app. destruct I as [I|[[= <- <-]|I]]; auto.
      + rewrite (lt_irrefl o LAW) in LT. discriminate.
      + exfalso. apply (in_map snd) in I. rewrite Forall_forall in VB. apply VB in I. unfold le in I. cbn [snd] in I. congruence. }
  destruct KEY as (A & d & w & B' & E1 & LW & E2 & K). split.
  - exists d, w. split; [apply get_iff; [exact F|]; rewrite E1; apply in_or_app; right; left; reflexivity|]. split; [exact LW|].
    intros k x G. rewrite get_ub, E2. apply get_iff in G; [|exact F]. destruct F as [ND _]. rewrite E1, map_app in ND. cbn [map fst] in ND.
    apply (in_map fst) in G. rewrite E1, map_app in G. cbn [map fst] in G. split.
    + intros NI. apply in_app_iff in G. rewrite in_app_iff in NI. destruct G as [G|[G|G]]; [tauto|auto|tauto].
    + intros ->. apply NoDup_remove_2 in ND. exact ND.
  - intros k x. rewrite !get_iff by assumption. apply K.
Qed.

Lemma occ_nodup l : (forall v, occ o v l <= 1) -> NoDup l.
Proof.
  induction l as [|a l IH]; intros H; [constructor|]. constructor.
  - intros I. apply (occ_in o LAW) in I. specialize (H a). rewrite (occ_self o LAW) in H. lia.
  - apply IH. intros v. specialize (H v). rewrite (occ_cons o) in H. lia.
Qed.

Lemma removed_distinct ops v s outs s' : (N.of_nat (length ops) < big)%N -> Forall never_dup ops ->
  arun o avl_new ops = Val (s, outs) -> remove o s v = Val (s', true) ->
  exists d w, get d s = Val w /\
    (w = v \/ lt_ o v w = true /\ forall k x, get k s = Val x -> lt_ o v x = true -> lt_ o x w = false) /\
    (forall k x, get k s = Val x -> get k s' = UB <-> k = d) /\
    (forall k x, get k s = Val x -> x <> v -> k <> d -> get k s' = Val x) /\
    (forall k, get k s = Val v -> k <> d -> get k s' = Val w).
Proof.
  intros B NV E ER. destruct (live_new ops 0) as (s1 & o1 & E1 & I & F); [rewrite Nat.add_0_r; exact B|].
  rewrite E in E1. injection E1 as <- <-.
  destruct (remove_fine LAW false 0 s v s' true I F ER) as (F' & _ & U & _). specialize (U eq_refl).
  assert (ND : NoDup (map snd (nodes s))).
  { unfold nodes. rewrite pairs_values. destruct (new_run o LAW false ops B) as (s2 & o2 & E2 & _ & _ & O); [discriminate|].
    rewrite E in E2. injection E2 as <- <-. apply occ_nodup. intros x. rewrite O, (member_mult o ops NV false x).
    destruct (member o false x ops); auto. }
  destruct I as (_ & SO & _). rewrite <- pairs_values in SO. fold (nodes s) in SO.
  destruct (unlinked_distinct _ _ _ ND U) as (A & k0 & B0 & EN & D). rewrite EN in SO, ND. rewrite map_app in SO, ND. cbn [map snd] in SO, ND.
  apply (sorted_app o) in SO; [|exact LAW]. destruct SO as (_ & SB & VA & VB).
  pose proof F as [NI _]. pose proof F' as [NI' _]. rewrite EN, map_app in NI. cbn [map fst] in NI.
  destruct D as [D|(j & w & B1 & -> & D)].
  - exists k0, v. split; [apply get_iff; [exact F|]; rewrite EN; apply in_or_app; right; left; reflexivity|]. split; [auto|]. split; [|split].
    + intros k x G. rewrite get_ub, D, map_app. apply get_iff in G; [|exact F]. apply (in_map fst) in G.
      rewrite EN, map_app in G. cbn [map fst] in G. split.
      * intros NI2. apply in_app_iff in G. rewrite in_app_iff in NI2. destruct G as [G|[G|G]]; [tauto|auto|tauto].
      * intros ->. apply NoDup_remove_2 in NI. exact NI.
    + intros k x. rewrite !get_iff by assumption. rewrite EN, D, !in_app_iff. cbn. intros [G|[[= <- <-]|G]]; tauto.
    + intros k G NE. exfalso. apply NE. apply get_iff in G; [|exact F]. rewrite EN in G. apply NoDup_remove_2 in ND.
      rewrite in_app_iff in ND. apply in_app_iff in G. destruct G as [G|[[= <- ]|G]]; [|reflexivity|]; apply (in_map snd) in G; cbn in G; tauto.
  - assert (LW : lt_ o v w = true).
    { inversion VB as [|? ? VW _]; subst. destruct (lt_total o LAW v w) as [H|[H|H]]; [exact H| |unfold le in VW; congruence].
      subst w. exfalso. apply NoDup_remove_2 in ND. apply ND. apply in_or_app. right. left. reflexivity. }
    assert (NJ : NoDup (map fst A ++ j :: map fst B1) /\ ~ In k0 (map fst A ++ j :: map fst B1)).
    { split; [exact (NoDup_remove_1 _ _ _ NI)|exact (NoDup_remove_2 _ _ _ NI)]. }
    destruct NJ as [NJ NK]. pose proof (NoDup_remove_2 _ _ _ NJ) as NJ'.
    exists j, w. split; [apply get_iff; [exact F|]; rewrite EN; apply in_or_app; right; right; left; reflexivity|].
    split; [right; split; [exact LW|]|split; [|split]].
    + intros k x G LX. apply get_iff in G; [|exact F]. apply (in_map snd) in G. rewrite EN, map_app in G. cbn [map snd] in G.
      apply in_app_iff in G. destruct G as [G|[G|G]].
      * rewrite Forall_forall in VA. apply VA in G. unfold le in G. congruence.
      * subst x. rewrite (lt_irrefl o LAW) in LX. discriminate.
      * destruct G as [<-|G]; [apply (lt_irrefl o LAW)|]. apply (sorted_app o LAW [] w) in SB.
        destruct SB as (_ & _ & _ & SB). rewrite Forall_forall in SB. apply SB in G. exact G.
    + intros k x G. rewrite get_ub, D, map_app. cbn [map fst]. apply get_iff in G; [|exact F]. apply (in_map fst) in G.
      rewrite EN, map_app in G. cbn [map fst] in G. split.
      * intros NI2. apply in_app_iff in G. rewrite in_app_iff in NI2. cbn in *. tauto || (destruct G as [G|[G|[G|G]]]; try tauto; auto).
      * intros -> H. apply in_app_iff in H. rewrite in_app_iff in NJ', NK. cbn in *. destruct H as [H|[H|H]]; [tauto| |tauto].
        apply NK. auto.
    + intros k x. rewrite !get_iff by assumption. rewrite EN, D, !in_app_iff. cbn. intros [G|[[= <- <-]|[[= <- <-]|G]]]; tauto.
    + intros k G NE. apply get_iff in G; [|exact F]. rewrite get_iff by exact F'. rewrite D. apply in_or_app. right. left. f_equal.
      rewrite EN in G. apply NoDup_remove_2 in ND. rewrite in_app_iff in ND. apply in_app_iff in G.
      destruct G as [G|[[= <- ]|G]]; [|reflexivity|]; apply (in_map snd) in G; cbn in G; cbn in ND; tauto.
Qed.

(** ** Where references come from *)
Lemma in_alive k v (t : tree) : In (k, v) (pairs t) -> exists w, value_at k t = Some w.
Proof.
  intros I. destruct (value_at k t) as [w|] eqn:V; [eauto|]. apply value_at_none in V. exfalso. apply V.
  apply (in_map fst) in I. exact I.
Qed.
Lemma child_alive k dir c (s : avl) u : load k s = Val u -> addr_of (side dir u) = Some c -> exists v, get c s = Val v.
Proof.
  unfold load, get. destruct (sub k (root s)) as [w|] eqn:S; [|discriminate]. intros [= ->] A.
  destruct (sub_pairs _ _ _ S) as (P & Q & E). destruct (sub_node _ _ _ S) as (p & h & v & l & r & ->).
  assert (I : exists y, In (c, y) (pairs (Node k p h v l r))).
  { cbn [pairs]. destruct dir; cbn [side] in A.
    - destruct r as [|c0 ? ? y ? ?]; [discriminate|]. injection A as ->. exists y. apply in_or_app. right. right. cbn. apply in_or_app. right. left. reflexivity.
    - destruct l as [|c0 ? ? y ? ?]; [discriminate|]. injection A as ->. exists y. apply in_or_app. left. cbn. apply in_or_app. right. left. reflexivity. }
  destruct I as (y & I). destruct (in_alive c y (root s)) as (w & ->); [|eauto].
  rewrite E. apply in_or_app. right. apply in_or_app. auto.
Qed.

Lemma refs_ok ops s outs : (N.of_nat (length ops) < big)%N -> arun o avl_new ops = Val (s, outs) ->
  (forall k, root_ref s = Val k -> exists v, get k s = Val v) /\
  (forall k, most_ref false s = Val k -> exists v, get k s = Val v /\ left_most s = Val v) /\
  (forall k, most_ref true s = Val k -> exists v, get k s = Val v /\ right_most s = Val v) /\
  (forall k x c, get k s = Val x -> child_ref k false s = Val c -> exists y, get c s = Val y /\ lt_ o x y = false) /\
  (forall k x c, get k s = Val x -> child_ref k true s = Val c -> exists y, get c s = Val y /\ lt_ o y x = false).
Proof.
  intros B E. destruct (live_new ops 0) as (s1 & o1 & E1 & I & F); [rewrite Nat.add_0_r; exact B|].
  rewrite E in E1. injection E1 as <- <-.
  assert (CH : forall k x dir c, get k s = Val x -> child_ref k dir s = Val c -> exists y A B C, get c s = Val y /\
    nodes s = A ++ (if dir then (k, x) :: B ++ (c, y) :: C else (c, y) :: B ++ (k, x) :: C)).
  { intros k x dir c G CR. apply get_load in G. destruct G as (p & h & l & r & L). unfold child_ref in CR. rewrite L in CR. cbn [bind] in CR.
    destruct (addr_of (side dir (Node k p h x l r))) as [c0|] eqn:A; [|discriminate]. injection CR as ->.
    assert (SP : exists P Q, nodes s = P ++ pairs (Node k p h x l r) ++ Q).
    { unfold load in L. destruct (sub k (root s)) eqn:S; [|discriminate]. injection L as ->. apply (sub_pairs _ _ _ S). }
    destruct SP as (P & Q & SP). destruct dir; cbn [side] in A.
    - destruct r as [|c0 ? ? y rl rr]; [discriminate|]. injection A as ->. exists y, (P ++ pairs l), (pairs rl), (pairs rr ++ Q).
      assert (EQ : nodes s = (P ++ pairs l) ++ (k, x) :: pairs rl ++ (c, y) :: pairs rr ++ Q).
      { rewrite SP. cbn [pairs]. repeat (rewrite <- ?app_assoc; cbn [app]). reflexivity. }
      split; [|exact EQ]. apply get_iff; [exact F|]. rewrite EQ. apply in_or_app. right. right. apply in_or_app. right. left. reflexivity.
    - destruct l as [|c0 ? ? y rl rr]; [discriminate|]. injection A as ->. exists y, (P ++ pairs rl), (pairs rr), (pairs r ++ Q).
      assert (EQ : nodes s = (P ++ pairs rl) ++ (c, y) :: pairs rr ++ (k, x) :: pairs r ++ Q).
      { rewrite SP. cbn [pairs]. repeat (rewrite <- ?app_assoc; cbn [app]). reflexivity. }
      split; [|exact EQ]. apply get_iff; [exact F|]. rewrite EQ. apply in_or_app. right. left. reflexivity. }
  assert (SO : sorted o (map snd (nodes s))) by (unfold nodes; rewrite pairs_values; apply I).
  assert (ORD : forall A (k : nat) x M (c : nat) y C, nodes s = A ++ (k, x) :: M ++ (c, y) :: C -> lt_ o y x = false).
  { intros A k x M c y C EQ. rewrite EQ, map_app in SO. cbn [map snd] in SO. apply (sorted_app o) in SO; [|exact LAW].
    destruct SO as (_ & _ & _ & H). rewrite Forall_forall in H. apply (H y). rewrite map_app. apply in_or_app. right. left. reflexivity. }
  split; [|split; [|split; [|split]]].
  - intros k. unfold root_ref, get. destruct (root s) as [|i p h v l r]; [discriminate|]. intros [= <-]. cbn. rewrite Nat.eqb_refl. eauto.
  - intros k. unfold most_ref, left_most. intros M.
    assert (IM : exists v, In (k, v) (nodes s) /\ match root s with Leaf => UB | Node _ _ _ v0 l _ => Val (leftmost v0 l) end = Val v).
    { unfold nodes. destruct (root s) as [|i p h v l r]; [discriminate|]. injection M as <-. destruct (outermost_left l i v) as (k & EK & [(-> & -> & L)|L]).
      - exists v. rewrite L. cbn. auto.
      - exists (leftmost v l). split; [|reflexivity]. cbn [pairs]. rewrite EK. apply in_or_app. auto. }
    destruct IM as (v & IM & LM). exists v. split; [apply get_iff; assumption|exact LM].
  - intros k. unfold most_ref, right_most. intros M.
    assert (IM : exists v, In (k, v) (nodes s) /\ match root s with Leaf => UB | Node _ _ _ v0 _ r => Val (rightmost v0 r) end = Val v).
    { unfold nodes. destruct (root s) as [|i p h v l r]; [discriminate|]. injection M as <-. destruct (outermost_right r i v) as (k & EK & [(-> & -> & L)|L]).
      - exists v. rewrite L. cbn [pairs]. split; [apply in_or_app; cbn; auto|reflexivity].
      - exists (rightmost v r). split; [|reflexivity]. cbn [pairs]. rewrite EK. apply in_or_app. cbn. auto. }
    destruct IM as (v & IM & LM). exists v. split; [apply get_iff; assumption|exact LM].
  - intros k x c G CR. destruct (CH k x false c G CR) as (y & A & M & C & GC & EQ). exists y. split; [exact GC|].
    exact (ORD _ _ _ _ _ _ _ EQ).
  - intros k x c G CR. destruct (CH k x true c G CR) as (y & A & M & C & GC & EQ). exists y. split; [exact GC|].
    exact (ORD _ _ _ _ _ _ _ EQ).
Qed.

(** ** Callbacks that delete nothing *)
Definition alive (s : avl) (k : nat) : Prop := exists v, get k s = Val v.
Lemma extends_alive s s' k : extends s s' -> alive s k -> alive s' k.
Proof. intros X (v & G). exists v. apply X, G. Qed.
Definition fair_end (s : avl) (past : list nat) (n0 : nat) (r : outcome (state T * list nat * nat)) : Prop :=
  match r with
  | Val ((s', m'), past', n) => live m' s' /\ extends s s' /\
      exists q, past' = past ++ q /\ n = n0 + length q /\ Forall (alive s') q
  | NoFuel => True
  | _ => False
  end.

Lemma run_body_keeps p : forall m s, live m s -> does keeps p ->
  match run_body o m s p with
  | Val ((s', m'), _) => live m' s' /\ extends s s'
  | NoFuel => True
  | _ => False
  end.
Proof.
  induction p as [b|op k IH]; intros m s L D; cbn [run_body].
  - split; [exact L|apply extends_refl].
  - destruct m as [|m]; [exact Logic.I|]. destruct D as [K D].
    destruct (live_step m s op L) as (s1 & r & E & L1 & _). rewrite E. cbn [bind].
    pose proof (proj1 (keeps_step m s op s1 r L K E)) as X.
    specialize (IH r m s1 L1 (D r)). destruct (run_body o m s1 (k r)) as [[[s2 m2] b]| | |]; auto.
    destruct IH as [L2 X2]. split; [exact L2|]. eapply extends_trans; eauto.
Qed.

Context (f : list nat -> T -> body T).
Notation walk_ok W := (forall s m past k, live m s -> alive s k -> fair_end s past 0 (W (s, m) past k)).

Lemma visit_keeps (DK : forall past v, does keeps (f past v)) s m past k : live m s -> alive s k ->
  match visit (uses o f) (s, m) past k with
  | Val ((s', m'), past', _) => live m' s' /\ extends s s' /\ past' = past ++ [k]
  | NoFuel => True
  | _ => False
  end.
Proof.
  intros L (v & G). unfold visit, uses. cbn [fst snd]. rewrite G. cbn [bind].
  pose proof (run_body_keeps _ m s L (DK past v)) as H. destruct (run_body o m s (f past v)) as [[[s' m'] b]| | |]; auto.
  cbn [bind]. destruct H. auto.
Qed.
Lemma descend_keeps W s m past k dir : walk_ok W -> live m s -> alive s k -> fair_end s past 0 (descend W (s, m) past k dir).
Proof.
  intros OK L (v & G). unfold descend. cbn [fst]. apply get_load in G. destruct G as (p & h & l & r & E). rewrite E. cbn [bind].
  destruct (addr_of (side dir (Node k p h v l r))) as [c|] eqn:A.
  - apply OK; [exact L|]. exact (child_alive k dir c s _ E A).
  - cbn. split; [exact L|]. split; [apply extends_refl|]. exists []. rewrite app_nil_r. auto.
Qed.

Lemma in_order_keeps (DK : forall past v, does keeps (f past v)) fuel : walk_ok (in_order_at (uses o f) fuel).
Proof.
  induction fuel as [|fuel IH]; intros s m past k L A; [exact Logic.I|]. cbn [in_order_at].
  pose proof (descend_keeps _ s m past k false IH L A) as H1.
  destruct (descend _ (s, m) past k false) as [[[[s1 m1] past1] n1]| | |]; try exact H1. cbn [bind].
  destruct H1 as (L1 & X1 & q1 & -> & N1 & F1). pose proof (extends_alive _ _ _ X1 A) as A1.
  pose proof (visit_keeps DK s1 m1 (past ++ q1) k L1 A1) as H2.
  destruct (visit _ (s1, m1) (past ++ q1) k) as [[[[s2 m2] past2] stop]| | |]; try exact H2. cbn [bind].
  destruct H2 as (L2 & X2 & ->). pose proof (extends_alive _ _ _ X2 A1) as A2. destruct stop.
  - cbn. split; [exact L2|]. split; [eapply extends_trans; eauto|]. exists (q1 ++ [k]). rewrite app_assoc, app_length. split; [reflexivity|]. split; [cbn; lia|].
    apply Forall_app. split; [|auto]. eapply Forall_impl; [|exact F1]. intros j. apply extends_alive, X2.
  - pose proof (descend_keeps _ s2 m2 ((past ++ q1) ++ [k]) k true IH L2 A2) as H3.
    destruct (descend _ (s2, m2) ((past ++ q1) ++ [k]) k true) as [[[[s3 m3] past3] n3]| | |]; try exact H3. cbn [bind].
    destruct H3 as (L3 & X3 & q3 & -> & N3 & F3). cbn.
    split; [exact L3|]. split; [eapply extends_trans; [|exact X3]; eapply extends_trans; eauto|].
    exists (q1 ++ [k] ++ q3). rewrite !app_length, <- !app_assoc. cbn. split; [reflexivity|]. split; [lia|].
    apply Forall_app. split; [eapply Forall_impl; [|exact F1]; intros j J; eapply extends_alive; [exact X3|]; eapply extends_alive; [exact X2|exact J]|].
    constructor; [eapply extends_alive; eauto|exact F3].
Qed.
Lemma pre_order_keeps (DK : forall past v, does keeps (f past v)) fuel : walk_ok (pre_order_at (uses o f) fuel).
Proof.
  induction fuel as [|fuel IH]; intros s m past k L A; [exact Logic.I|]. cbn [pre_order_at].
  pose proof (visit_keeps DK s m past k L A) as H2.
  destruct (visit _ (s, m) past k) as [[[[s2 m2] past2] stop]| | |]; try exact H2. cbn [bind].
  destruct H2 as (L2 & X2 & ->). pose proof (extends_alive _ _ _ X2 A) as A2. destruct stop.
  - cbn. split; [exact L2|]. split; [exact X2|]. exists [k]. auto.
  - pose proof (descend_keeps _ s2 m2 (past ++ [k]) k false IH L2 A2) as H1.
    destruct (descend _ (s2, m2) (past ++ [k]) k false) as [[[[s1 m1] past1] n1]| | |]; try exact H1. cbn [bind].
    destruct H1 as (L1 & X1 & q1 & -> & N1 & F1). pose proof (extends_alive _ _ _ X1 A2) as A1.
    pose proof (descend_keeps _ s1 m1 ((past ++ [k]) ++ q1) k true IH L1 A1) as H3.
    destruct (descend _ (s1, m1) ((past ++ [k]) ++ q1) k true) as [[[[s3 m3] past3] n3]| | |]; try exact H3. cbn [bind].
    destruct H3 as (L3 & X3 & q3 & -> & N3 & F3). cbn.
    split; [exact L3|]. split; [eapply extends_trans; [|exact X3]; eapply extends_trans; eauto|].
    exists ([k] ++ q1 ++ q3). rewrite !app_length, <- !app_assoc. cbn. split; [reflexivity|]. split; [lia|].
    constructor; [eapply extends_alive; eauto|]. apply Forall_app. split; [|exact F3].
    eapply Forall_impl; [|exact F1]; intros j J; eapply extends_alive; [exact X3|exact J].
Qed.
Lemma pos_order_keeps (DK : forall past v, does keeps (f past v)) fuel : walk_ok (pos_order_at (uses o f) fuel).
Proof.
  induction fuel as [|fuel IH]; intros s m past k L A; [exact Logic.I|]. cbn [pos_order_at].
  pose proof (descend_keeps _ s m past k false IH L A) as H1.
  destruct (descend _ (s, m) past k false) as [[[[s1 m1] past1] n1]| | |]; try exact H1. cbn [bind].
  destruct H1 as (L1 & X1 & q1 & -> & N1 & F1). pose proof (extends_alive _ _ _ X1 A) as A1.
  pose proof (descend_keeps _ s1 m1 (past ++ q1) k true IH L1 A1) as H3.
  destruct (descend _ (s1, m1) (past ++ q1) k true) as [[[[s3 m3] past3] n3]| | |]; try exact H3. cbn [bind].
  destruct H3 as (L3 & X3 & q3 & -> & N3 & F3). pose proof (extends_alive _ _ _ X3 A1) as A3.
  pose proof (visit_keeps DK s3 m3 ((past ++ q1) ++ q3) k L3 A3) as H2.
  destruct (visit _ (s3, m3) ((past ++ q1) ++ q3) k) as [[[[s2 m2] past2] stop]| | |]; try exact H2. cbn [bind].
  destruct H2 as (L2 & X2 & ->). cbn.
  split; [exact L2|]. split; [eapply extends_trans; [|exact X2]; eapply extends_trans; eauto|].
  exists (q1 ++ q3 ++ [k]). rewrite !app_length, <- !app_assoc. cbn. split; [reflexivity|]. split; [lia|].
  apply Forall_app. split; [eapply Forall_impl; [|exact F1]; intros j J; eapply extends_alive; [exact X2|]; eapply extends_alive; [exact X3|exact J]|].
  apply Forall_app. split; [eapply Forall_impl; [|exact F3]; intros j J; eapply extends_alive; [exact X2|exact J]|].
  constructor; [|constructor]. eapply extends_alive; eauto.
Qed.

Lemma children_alive s m k : alive s k -> exists cs, children_at (s, m) k = Val cs /\ Forall (alive s) cs.
Proof.
  intros (v & G). apply get_load in G. destruct G as (p & h & l & r & E). unfold children_at. cbn [fst]. rewrite E. cbn [bind].
  eexists. split; [reflexivity|]. apply Forall_app. split.
  - destruct (addr_of (side false _)) eqn:A; constructor; [|constructor]. exact (child_alive k false _ s _ E A).
  - destruct (addr_of (side true _)) eqn:A; constructor; [|constructor]. exact (child_alive k true _ s _ E A).
Qed.
Lemma search_keeps (DK : forall past v, does keeps (f past v)) bfs fuel : forall s m queue past n, live m s -> Forall (alive s) queue ->
  fair_end s past n (search (uses o f) bfs fuel (s, m) queue past n).
Proof.
  induction fuel as [|fuel IH]; intros s m queue past n L A; (destruct queue as [|k queue]; cbn [search];
    [cbn; split; [exact L|]; split; [apply extends_refl|]; exists []; rewrite app_nil_r; auto|]); [exact Logic.I|].
  inversion A as [|? ? Ak AQ]; subst. pose proof (visit_keeps DK s m past k L Ak) as H2.
  destruct (visit _ (s, m) past k) as [[[[s2 m2] past2] stop]| | |]; try exact H2. cbn [bind].
  destruct H2 as (L2 & X2 & ->). pose proof (extends_alive _ _ _ X2 Ak) as A2.
  destruct (children_alive s2 m2 k A2) as (cs & -> & AC). cbn [bind]. destruct stop.
  - cbn. split; [exact L2|]. split; [exact X2|]. exists [k]. split; [reflexivity|]. split; [cbn; lia|]. auto.
  - assert (AQ2 : Forall (alive s2) queue) by (eapply Forall_impl; [|exact AQ]; intros j; apply extends_alive, X2).
    assert (AN : Forall (alive s2) (if bfs then queue ++ cs else cs ++ queue)) by (destruct bfs; apply Forall_app; auto).
    specialize (IH s2 m2 (if bfs then queue ++ cs else cs ++ queue) (past ++ [k]) (S n) L2 AN).
    destruct (search _ bfs fuel (s2, m2) _ (past ++ [k]) (S n)) as [[[[s3 m3] past3] n3]| | |]; try exact IH.
    destruct IH as (L3 & X3 & q3 & -> & N3 & F3). cbn. split; [exact L3|]. split; [eapply extends_trans; eauto|].
    exists (k :: q3). rewrite <- app_assoc. cbn. split; [reflexivity|]. split; [lia|]. constructor; [eapply extends_alive; eauto|exact F3].
Qed.

Lemma root_alive (s : avl) k : addr_of (root s) = Some k -> alive s k.
Proof. unfold alive, get. destruct (root s) as [|i p h v l r]; [discriminate|]. cbn. intros [= ->]. rewrite Nat.eqb_refl. eauto. Qed.

Lemma traverse_keeps ops s outs w fuel m : (N.of_nat (length ops + m) < big)%N -> arun o avl_new ops = Val (s, outs) ->
  (forall past v, does keeps (f past v)) ->
  traverse (uses o f) w fuel (s, m) = NoFuel \/
  exists s' m' calls n, traverse (uses o f) w fuel (s, m) = Val ((s', m'), calls, n) /\ kept_all s s' calls n.
Proof.
  intros B E DK. destruct (live_new ops m B) as (s1 & o1 & E1 & L). rewrite E in E1. injection E1 as <- <-.
  assert (H : fair_end s [] 0 (traverse (uses o f) w fuel (s, m))).
  { unfold traverse. cbn [fst]. destruct (addr_of (root s)) as [k|] eqn:R.
    - pose proof (root_alive s k R) as A. destruct w;
        [apply in_order_keeps|apply pre_order_keeps|apply pos_order_keeps|apply search_keeps|apply search_keeps]; auto.
    - cbn. split; [exact L|]. split; [apply extends_refl|]. exists []. auto. }
  destruct (traverse (uses o f) w fuel (s, m)) as [[[[s' m'] calls] n]| | |]; [right|destruct H|destruct H|left; reflexivity].
  destruct H as (_ & X & q & -> & N & F). exists s', m', q, n. split; [reflexivity|]. split; [exact X|]. split; [exact N|].
  rewrite Forall_forall in F. exact F.
Qed.

(** ** Callbacks that change nothing *)
Fixpoint below (u t : tree) : Prop :=
  u = t \/ match t with Leaf => False | Node _ _ _ _ l r => below u l \/ below u r end.
Lemma below_self (t : tree) : below t t.
Proof. destruct t; left; reflexivity. Qed.
Lemma below_trans (c u t : tree) : below c u -> below u t -> below c t.
Proof.
  intros C. induction t as [|j p h x l IHl r IHr]; intros [->|H]; auto; [destruct H|]. right. destruct H; auto.
Qed.
Lemma below_ids (u t : tree) k : below u t -> In k (ids_in u) -> In k (ids_in t).
Proof.
  induction t as [|j p h x l IHl r IHr]; intros [->|H] I; auto; try contradiction. cbn. apply in_or_app. destruct H; cbn; auto.
Qed.
Lemma sub_below k p h v l r (t : tree) : NoDup (ids_in t) -> below (Node k p h v l r) t -> sub k t = Some (Node k p h v l r).
Proof.
  induction t as [|j q g x tl IHl tr IHr]; intros ND [E|H]; try discriminate; [destruct H| |].
  - injection E as -> -> -> -> -> ->. cbn. rewrite Nat.eqb_refl. reflexivity.
  - cbn in ND. pose proof (NoDup_remove_1 _ _ _ ND) as N1. pose proof (NoDup_remove_2 _ _ _ ND) as N2.
    assert (IK : In k (ids_in (Node k p h v l r))) by (cbn; apply in_or_app; cbn; auto).
    cbn [sub]. destruct (Nat.eqb_spec j k) as [->|NE].
    + exfalso. apply N2. apply in_or_app. destruct H as [H|H]; [left|right]; eapply below_ids; eauto.
    + destruct H as [H|H].
      * rewrite IHl; [reflexivity| |exact H]. clear - N1. induction (ids_in tl) as [|a L IH]; [constructor|].
        cbn in N1. inversion N1; subst. constructor; [intros I; apply H1; apply in_or_app; auto|auto].
      * destruct (sub k tl) as [u|] eqn:SL.
        -- exfalso. destruct (sub_pairs _ _ _ SL) as (A & B & EP). destruct (sub_node _ _ _ SL) as (q1 & g1 & v1 & l1 & r1 & ->).
           assert (I1 : In k (ids_in tl)).
           { rewrite <- pairs_ids, EP, !map_app. apply in_or_app. right. apply in_or_app. left. cbn. rewrite map_app. apply in_or_app. right. left. reflexivity. }
           pose proof (below_ids _ _ k H IK) as I2. clear - N1 I1 I2. induction (ids_in tl) as [|a L IH]; [destruct I1|].
           cbn in N1. inversion N1; subst. destruct I1 as [->|I1]; [apply H1; apply in_or_app; auto|auto].
        -- apply IHr; [|exact H]. clear - N1. induction (ids_in tl) as [|a L IH]; [exact N1|]. cbn in N1. inversion N1; auto.
Qed.

Lemma run_body_reads p s : does reads p -> goes_on p -> exists c, forall m, run_body o (c + m) s p = Val ((s, m), false).
Proof.
  induction p as [b|op k IH]; intros D G.
  - exists 0. intros m. cbn in *. rewrite G. reflexivity.
  - destruct D as [R D]. destruct op as [v|v|v|v| | | |b| |]; cbn [reads] in R; try tauto.
    + destruct (IH (ABool (contains o s v)) (D _) (G _)) as (c & H). exists (S c). intros m. cbn. apply H.
    + destruct (IH (ANum (count s)) (D _) (G _)) as (c & H). exists (S c). intros m. cbn. apply H.
    + destruct (IH (AVals (in_order (root s)) (N.of_nat (visited (root s)))) (D _) (G _)) as (c & H). exists (S c). intros m. cbn. apply H.
Qed.

Section Reads.
Context (DR : forall past v, does reads (f past v)) (GO : forall past v, goes_on (f past v)).
Context (s : avl) (F : fine s).

Lemma visit_reads past k p h v l r : below (Node k p h v l r) (root s) ->
  exists c, forall m, visit (uses o f) (s, c + m) past k = Val ((s, m), past ++ [k], false).
Proof.
  intros BL. destruct (run_body_reads (f past v) s (DR past v) (GO past v)) as (c & H). exists c. intros m.
  unfold visit, uses. cbn [fst snd]. assert (G : get k s = Val v).
  { apply get_load. do 4 eexists. unfold load. rewrite (sub_below k p h v l r); [reflexivity| |exact BL].
    rewrite <- pairs_ids. apply F. }
  rewrite G. cbn [bind]. rewrite H. reflexivity.
Qed.
Lemma load_below k p h v l r : below (Node k p h v l r) (root s) -> load k s = Val (Node k p h v l r).
Proof. intros BL. unfold load. rewrite (sub_below k p h v l r); [reflexivity| |exact BL]. rewrite <- pairs_ids. apply F. Qed.

Lemma ids_length (t : tree) : length (ids_pre t) = size t /\ length (ids_in t) = size t /\ length (ids_pos t) = size t.
Proof.
  induction t as [|j q g x l [L1 [L2 L3]] r [R1 [R2 R3]]]; [auto|]. rewrite size_node. cbn.
  rewrite !app_length. cbn. lia.
Qed.

Definition exact_walk (W : nat -> walk_t) (order : tree -> list nat) : Prop :=
  forall u, below u (root s) -> u <> Leaf -> forall past, exists c, forall fuel m k, size u < fuel -> addr_of u = Some k ->
    W fuel (s, c + m) past k = Val ((s, m), past ++ order u, size u).

Lemma descend_reads (W : nat -> walk_t) order past k p h v l r (dir : bool) : order Leaf = [] ->
  below (Node k p h v l r) (root s) ->
  (let u := if dir then r else l in u <> Leaf -> exists c, forall fuel m k, size u < fuel -> addr_of u = Some k ->
    W fuel (s, c + m) past k = Val ((s, m), past ++ order u, size u)) ->
  exists c, forall fuel m, size (if dir then r else l) < fuel ->
    descend (W fuel) (s, c + m) past k dir = Val ((s, m), past ++ order (if dir then r else l), size (if dir then r else l)).
Proof.
  intros O BL H. unfold descend. cbn [fst]. rewrite (load_below _ _ _ _ _ _ BL). cbn [bind side].
  destruct (if dir then r else l) as [|c0 q g x ul ur] eqn:U.
  - exists 0. intros fuel m _. cbn. rewrite O, app_nil_r. reflexivity.
  - destruct (H ltac:(discriminate)) as (c & HC). exists c. intros fuel m LT. cbn [addr_of]. apply HC; [exact LT|reflexivity].
Qed.

Lemma kids_below k p h v l r : below (Node k p h v l r) (root s) -> below l (root s) /\ below r (root s).
Proof.
  intros BL. split; (eapply below_trans; [|exact BL]); right; [left|right]; apply below_self.
Qed.

Lemma in_order_reads : exact_walk (in_order_at (uses o f)) ids_in.
Proof.
  intros u. induction u as [|k p h v l IHl r IHr]; intros BL NL past; [congruence|]. clear NL.
  destruct (kids_below _ _ _ _ _ _ BL) as [BL1 BL2].
  destruct (descend_reads (in_order_at (uses o f)) ids_in past k p h v l r false eq_refl BL) as (c1 & H1); [cbn; intros NL; exact (IHl BL1 NL past)|].
  cbn [negb] in H1. destruct (visit_reads (past ++ ids_in l) k p h v l r BL) as (c2 & H2).
  destruct (descend_reads (in_order_at (uses o f)) ids_in ((past ++ ids_in l) ++ [k]) k p h v l r true eq_refl BL) as (c3 & H3); [cbn; intros NL; exact (IHr BL2 NL _)|].
  exists (c1 + (c2 + c3)). intros fuel m k' LT [= <-]. rewrite size_node in LT. destruct fuel as [|fuel]; [lia|]. cbn [in_order_at].
  replace (c1 + (c2 + c3) + m) with (c1 + (c2 + (c3 + m))) by lia. rewrite H1 by lia. cbn [bind]. rewrite H2. cbn [bind].
  rewrite H3 by lia. cbn [bind]. rewrite size_node. cbn [ids_in]. do 2 f_equal. f_equal. rewrite <- !app_assoc. reflexivity.
Qed.
Lemma pre_order_reads : exact_walk (pre_order_at (uses o f)) ids_pre.
Proof.
  intros u. induction u as [|k p h v l IHl r IHr]; intros BL NL past; [congruence|]. clear NL.
  destruct (kids_below _ _ _ _ _ _ BL) as [BL1 BL2].
  destruct (visit_reads past k p h v l r BL) as (c2 & H2).
  destruct (descend_reads (pre_order_at (uses o f)) ids_pre (past ++ [k]) k p h v l r false eq_refl BL) as (c1 & H1); [cbn; intros NL; exact (IHl BL1 NL _)|].
  destruct (descend_reads (pre_order_at (uses o f)) ids_pre ((past ++ [k]) ++ ids_pre l) k p h v l r true eq_refl BL) as (c3 & H3); [cbn; intros NL; exact (IHr BL2 NL _)|].
  exists (c2 + (c1 + c3)). intros fuel m k' LT [= <-]. rewrite size_node in LT. destruct fuel as [|fuel]; [lia|]. cbn [pre_order_at].
  replace (c2 + (c1 + c3) + m) with (c2 + (c1 + (c3 + m))) by lia. rewrite H2. cbn [bind]. rewrite H1 by lia. cbn [bind].
  rewrite H3 by lia. cbn [bind]. rewrite size_node. cbn [ids_pre]. do 2 f_equal. f_equal. rewrite <- !app_assoc. reflexivity.
Qed.
Lemma pos_order_reads : exact_walk (pos_order_at (uses o f)) ids_pos.
Proof.
  intros u. induction u as [|k p h v l IHl r IHr]; intros BL NL past; [congruence|]. clear NL.
  destruct (kids_below _ _ _ _ _ _ BL) as [BL1 BL2].
  destruct (descend_reads (pos_order_at (uses o f)) ids_pos past k p h v l r false eq_refl BL) as (c1 & H1); [cbn; intros NL; exact (IHl BL1 NL _)|].
  destruct (descend_reads (pos_order_at (uses o f)) ids_pos (past ++ ids_pos l) k p h v l r true eq_refl BL) as (c3 & H3); [cbn; intros NL; exact (IHr BL2 NL _)|].
  destruct (visit_reads ((past ++ ids_pos l) ++ ids_pos r) k p h v l r BL) as (c2 & H2).
  exists (c1 + (c3 + c2)). intros fuel m k' LT [= <-]. rewrite size_node in LT. destruct fuel as [|fuel]; [lia|]. cbn [pos_order_at].
  replace (c1 + (c3 + c2) + m) with (c1 + (c3 + (c2 + m))) by lia. rewrite H1 by lia. cbn [bind]. rewrite H3 by lia. cbn [bind].
  rewrite H2. cbn [bind]. rewrite size_node. cbn [ids_pos]. do 2 f_equal. f_equal. rewrite <- !app_assoc. reflexivity.
Qed.

(** Searches: the trees in the queue. *)
Definition kids (u : tree) : list tree :=
  match u with
  | Leaf => []
  | Node _ _ _ _ l r => match l with Leaf => [] | _ => [l] end ++ match r with Leaf => [] | _ => [r] end
  end.
Definition adr (u : tree) : nat := match u with Leaf => 0 | Node i _ _ _ _ _ => i end.
Definition node (u : tree) : Prop := u <> Leaf /\ below u (root s).
Lemma kids_node (u : tree) : node u -> Forall node (kids u).
Proof.
  intros [NL BL]. destruct u as [|k p h v l r]; [congruence|]. destruct (kids_below _ _ _ _ _ _ BL) as [B1 B2].
  cbn. apply Forall_app. split; [destruct l|destruct r]; repeat constructor; try discriminate; assumption.
Qed.
Lemma children_reads (u : tree) m : node u -> children_at (s, m) (adr u) = Val (map adr (kids u)).
Proof.
  intros [NL BL]. destruct u as [|k p h v l r]; [congruence|]. unfold children_at. cbn [fst adr]. rewrite (load_below _ _ _ _ _ _ BL).
  cbn. destruct l, r; reflexivity.
Qed.
Definition sizes (us : list tree) : nat := list_sum (map size us).
Lemma sizes_kids (u : tree) : u <> Leaf -> size u = S (sizes (kids u)).
Proof.
  destruct u as [|k p h v l r]; [congruence|]. intros _. rewrite size_node. unfold sizes. destruct l, r; cbn; lia.
Qed.
Lemma sizes_app a b : sizes (a ++ b) = sizes a + sizes b.
Proof. unfold sizes. rewrite map_app. apply list_sum_app. Qed.
Inductive search_calls (bfs : bool) : list tree -> list nat -> Prop :=
| sc_nil : search_calls bfs [] []
| sc_cons u us cs : search_calls bfs (if bfs then us ++ kids u else kids u ++ us) cs -> search_calls bfs (u :: us) (adr u :: cs).

Lemma search_reads bfs N : forall us, sizes us <= N -> Forall node us -> forall past, exists c cs, search_calls bfs us cs /\ length cs = sizes us /\
  forall fuel m n, sizes us <= fuel -> search (uses o f) bfs fuel (s, c + m) (map adr us) past n = Val ((s, m), past ++ cs, n + length cs).
Proof.
  induction N as [|N IH]; intros us SZ NU past.
  - destruct us as [|u us].
    + exists 0, []. split; [constructor|]. split; [reflexivity|]. intros fuel m n _. destruct fuel; cbn; rewrite app_nil_r, Nat.add_0_r; reflexivity.
    + exfalso. inversion NU as [|? ? [NL _] _]; subst. destruct u as [|k p h v l r]; [congruence|]. unfold sizes in SZ. cbn [map list_sum fold_right] in SZ. rewrite size_node in SZ. lia.
  - destruct us as [|u us].
    + exists 0, []. split; [constructor|]. split; [reflexivity|]. intros fuel m n _. destruct fuel; cbn; rewrite app_nil_r, Nat.add_0_r; reflexivity.
    + inversion NU as [|? ? Nu NUs]; subst. pose proof (sizes_kids u (proj1 Nu)) as SK.
      assert (SZ' : sizes (u :: us) = size u + sizes us) by reflexivity.
      set (next := if bfs then us ++ kids u else kids u ++ us) in *.
      assert (SN : sizes next = sizes us + sizes (kids u)) by (unfold next; destruct bfs; rewrite sizes_app; lia).
      assert (NN : Forall node next) by (unfold next; destruct bfs; apply Forall_app; split; auto using kids_node).
      destruct u as [|k p h v l r]; [destruct Nu; congruence|].
      destruct (visit_reads past k p h v l r (proj2 Nu)) as (c1 & H1).
      destruct (IH next ltac:(lia) NN (past ++ [k])) as (c2 & cs & SC & LN & H2).
      exists (c1 + c2), (k :: cs). split; [exact (sc_cons bfs (Node k p h v l r) us cs SC)|]. split; [cbn [length]; lia|].
      intros fuel m n LT. destruct fuel as [|fuel]; [lia|]. cbn [map adr search].
      rewrite <- Nat.add_assoc, H1. cbn [bind]. rewrite (children_reads (Node k p h v l r)) by exact Nu. cbn [bind].
      assert (EM : (if bfs then map adr us ++ map adr (kids (Node k p h v l r)) else map adr (kids (Node k p h v l r)) ++ map adr us) = map adr next).
      { unfold next. destruct bfs; rewrite map_app; reflexivity. }
      rewrite EM, H2 by lia. cbn [length]. rewrite <- app_assoc. replace (n + S (length cs)) with (S n + length cs) by lia. reflexivity.
Qed.

Lemma dfs_calls us cs : search_calls false us cs -> Forall (fun u => u <> Leaf) us -> cs = flat_map ids_pre us.
Proof.
  induction 1 as [|u us cs SC IH]; intros NL; [reflexivity|]. inversion NL as [|? ? Nu NUs]; subst.
  destruct u as [|k p h v l r]; [congruence|]. cbn [adr flat_map ids_pre]. cbn [app]. f_equal. rewrite IH.
  - rewrite flat_map_app. f_equal. cbn. destruct l, r; cbn; rewrite ?app_nil_r; reflexivity.
  - apply Forall_app. split; [|exact NUs]. cbn. apply Forall_app. split; [destruct l|destruct r]; repeat constructor; discriminate.
Qed.

Lemma level_deep k : forall t : tree, depth t <= k -> level k t = [].
Proof. induction k as [|k IH]; intros [|j p h v l r] D; cbn in *; try reflexivity; [lia|]. rewrite !IH by lia. reflexivity. Qed.
Lemma level_kids k (u : tree) : level (S k) u = flat_map (level k) (kids u).
Proof.
  assert (LL : forall k, level k (@Leaf T) = []) by (intros []; reflexivity).
  destruct u as [|j p h v l r]; [reflexivity|]. cbn [level kids]. rewrite flat_map_app. destruct l, r; cbn [flat_map app]; rewrite ?LL, ?app_nil_r; reflexivity.
Qed.
Lemma bfs_level us : forall next cs, Forall (fun u => u <> Leaf) us -> search_calls true (us ++ next) cs ->
  exists cs', cs = flat_map (level 0) us ++ cs' /\ search_calls true (next ++ flat_map kids us) cs'.
Proof.
  induction us as [|u us IH]; intros next cs NL SC; cbn [flat_map app] in *.
  - exists cs. rewrite app_nil_r. auto.
  - inversion NL as [|? ? Nu NUs]; subst. inversion SC as [|? ? cs1 SC1]; subst. rewrite <- app_assoc in SC1.
    destruct (IH (next ++ kids u) cs1 NUs SC1) as (cs' & -> & SC'). exists cs'. rewrite <- app_assoc in SC'. split; [|exact SC'].
    destruct u; [congruence|]. reflexivity.
Qed.
Lemma kids_not_leaf us : Forall (fun u : tree => u <> Leaf) (flat_map kids us).
Proof.
  induction us as [|u us IH]; [constructor|]. cbn. apply Forall_app. split; [|exact IH]. destruct u as [|j p h v l r]; [constructor|].
  cbn. apply Forall_app. split; [destruct l|destruct r]; repeat constructor; discriminate.
Qed.
Lemma bfs_levels n : forall us cs, (forall u, In u us -> depth u <= n) -> Forall (fun u => u <> Leaf) us -> search_calls true us cs ->
  cs = flat_map (fun k => flat_map (level k) us) (seq 0 n).
Proof.
  induction n as [|n IH]; intros us cs D NL SC.
  - destruct us as [|u us]; [inversion SC; reflexivity|]. exfalso. inversion NL; subst. specialize (D u (or_introl eq_refl)). destruct u; [congruence|cbn in D; lia].
  - rewrite <- (app_nil_r us) in SC. destruct (bfs_level us [] cs NL SC) as (cs' & -> & SC'). cbn [seq flat_map]. f_equal.
    cbn [app] in SC'. rewrite (IH (flat_map kids us) cs'); [|clear - D|apply kids_not_leaf|exact SC'].
    + rewrite <- seq_shift, (flat_map_concat_map _ (seq 0 n)), (flat_map_concat_map _ (map S (seq 0 n))), map_map. f_equal. apply map_ext. intros k.
      clear. induction us as [|u us IH]; [reflexivity|]. change (flat_map kids (u :: us)) with (kids u ++ flat_map kids us). rewrite flat_map_app, IH, <- level_kids. reflexivity.
    + intros u I. apply in_flat_map in I. destruct I as (w & W1 & W2). specialize (D w W1). destruct w as [|j p h v l r]; [destruct W2|].
      cbn [depth] in D. cbn [kids] in W2. apply in_app_iff in W2.
      assert (X : forall t : tree, In u (match t with Leaf => [] | _ => [t] end) -> u = t) by (intros [|] Q; cbn in Q; [tauto|destruct Q as [Q|[]]; congruence]).
      destruct W2 as [W2|W2]; apply X in W2; subst u; lia.
Qed.

Lemma traverse_reads_state w : exists c, forall fuel m, size (root s) < fuel ->
  traverse (uses o f) w fuel (s, c + m) = Val ((s, m), visits w (root s), size (root s)).
Proof.
  unfold traverse. cbn [fst]. destruct (root s) as [|k p h v l r] eqn:R.
  { exists 0. intros fuel m _. destruct w; reflexivity. }
  assert (NL : root s <> Leaf) by (rewrite R; discriminate). pose proof (below_self (root s)) as BS.
  assert (AD : addr_of (root s) = Some k) by (rewrite R; reflexivity).
  change (addr_of (Node k p h v l r)) with (Some k). cbn iota. rewrite <- R.
  assert (SR : forall bfs, exists c cs, search_calls bfs [root s] cs /\ length cs = size (root s) /\
     forall fuel m, size (root s) < fuel -> search (uses o f) bfs fuel (s, c + m) [k] [] 0 = Val ((s, m), cs, length cs)).
  { intros bfs. destruct (search_reads bfs (sizes [root s]) [root s] (le_n _)) with (past := @nil nat) as (c & cs & SC & LN & H).
    - constructor; [split; assumption|constructor].
    - assert (SZ : sizes [root s] = size (root s)) by (unfold sizes; cbn; lia).
      exists c, cs. split; [exact SC|]. split; [lia|]. intros fuel m LT. specialize (H fuel m 0 ltac:(lia)).
      replace (map adr [root s]) with [k] in H by (rewrite R; reflexivity). exact H. }
  assert (NS : Forall (fun u : tree => u <> Leaf) [root s]) by (constructor; auto).
  destruct w; cbn [visits].
  - destruct (in_order_reads (root s) BS NL []) as (c & H). exists c. intros fuel m LT. rewrite H by assumption. reflexivity.
  - destruct (pre_order_reads (root s) BS NL []) as (c & H). exists c. intros fuel m LT. rewrite H by assumption. reflexivity.
  - destruct (pos_order_reads (root s) BS NL []) as (c & H). exists c. intros fuel m LT. rewrite H by assumption. reflexivity.
  - destruct (SR true) as (c & cs & SC & LN & H). exists c. intros fuel m LT. rewrite H by assumption. rewrite LN. do 2 f_equal. f_equal.
    rewrite (bfs_levels (depth (root s)) [root s] cs); [|intros u [<-|[]]; reflexivity|exact NS|exact SC].
    unfold ids_bfs. apply flat_map_ext. intros d. cbn. apply app_nil_r.
  - destruct (SR false) as (c & cs & SC & LN & H). exists c. intros fuel m LT. rewrite H by assumption. rewrite LN. do 2 f_equal. f_equal.
    rewrite (dfs_calls _ _ SC NS). cbn. apply app_nil_r.
Qed.
End Reads.

Lemma traverse_reads ops s outs w : (N.of_nat (length ops) < big)%N -> arun o avl_new ops = Val (s, outs) ->
  (forall past v, does reads (f past v)) -> (forall past v, goes_on (f past v)) ->
  exists c, forall fuel m, visited (root s) < fuel ->
    traverse (uses o f) w fuel (s, c + m) = Val ((s, m), visits w (root s), visited (root s)).
Proof.
  intros B E DR GO. destruct (live_new ops 0) as (s1 & o1 & E1 & _ & F); [rewrite Nat.add_0_r; exact B|].
  rewrite E in E1. injection E1 as <- <-. rewrite visited_size. apply traverse_reads_state; assumption.
Qed.

(** ** A traversal that never ends *)
(** The rightmost node is a leaf [i] with value [v], child of [k]; the nodes on the way
    to it have smaller values. *)
Fixpoint spine (k i : nat) (v : T) (t : tree) : Prop :=
  match t with
  | Leaf => False
  | Node j _ _ x _ r => lt_ o x v = true /\ ((j = k /\ exists p h, r = Node i p h v Leaf Leaf) \/ spine k i v r)
  end.

Lemma spine_rotate k i v j p h x l r t' : (N.of_nat (ht l) < big)%N -> Forall (fun y => lt_ o y v = true) (in_order l) ->
  lt_ o x v = true -> (j = k /\ exists p h, r = Node i p h v Leaf Leaf /\ h = 1) \/ spine k i v r ->
  rotate_if_needed o (Node j p h x l r) v = Val t' -> spine k i v t'.
Proof.
  intros BL FL LX H. assert (H' : (j = k /\ exists p h, r = Node i p h v Leaf Leaf) \/ spine k i v r) by (destruct H as [(A & q & g & B & _)|H]; eauto).
  unfold rotate_if_needed. destruct (diff (ht l) (ht r) 2).
  - destruct l as [|a1 a2 a3 y ll lr]; [discriminate|]. cbn in FL. apply Forall_app in FL. destruct FL as [F1 F2]. inversion F2 as [|? ? LY F3]; subst.
    destruct (lt_ o v y); intros E; apply val_inj in E; subst t'.
    + cbn. auto.
    + destruct lr as [|b1 b2 b3 z zl zr]; cbn; [auto|]. cbn in F3. apply Forall_app in F3. destruct F3 as [_ F4]. inversion F4; subst. auto.
  - destruct (diff (ht r) (ht l) 2) eqn:D2.
    + destruct r as [|a1 a2 a3 y rl rr]; [discriminate|]. assert (SP : spine k i v (Node a1 a2 a3 y rl rr)).
      { destruct H as [(-> & q & g & [= -> -> -> -> -> ->] & ->)|H]; [|exact H]. exfalso. apply diff2 in D2; [cbn in D2; lia|reflexivity|exact BL]. }
      pose proof SP as SP'. cbn [spine] in SP. destruct SP as [LY SP]. rewrite (gt_is_lt o LAW), LY. intros E. apply val_inj in E. subst t'. cbn [rotate_left]. exact SP'.
    + intros E. apply val_inj in E. subst t'. cbn. auto.
Qed.

Lemma insert_spine dup i v (t : tree) : forall t' b, wf false t -> (N.of_nat (size t) < big)%N -> t <> Leaf ->
  Forall (fun y => lt_ o y v = true) (in_order t) -> insert_node o dup i v t = Val (t', b) ->
  b = true /\ spine (outermost true 0 t) i v t'.
Proof.
  induction t as [|j p h x l _ r IHr]; intros t' b W B NL FO E; [congruence|]. clear NL.
  destruct W as (_ & _ & WL & WR & _ & _). rewrite size_node in B. pose proof (ht_size _ _ WL) as HL.
  cbn in FO. apply Forall_app in FO. destruct FO as [FL F2]. inversion F2 as [|? ? LX FR]; subst.
  cbn [insert_node] in E. destruct (lt_ o v x) eqn:VX; [exfalso; exact (not_between _ _ LX VX)|]. rewrite (gt_is_lt o LAW), LX in E. cbn [orb] in E.
  cbn [outermost]. destruct r as [|a1 a2 a3 y rl rr].
  - cbn [bind] in E. destruct (rotate_if_needed o _ v) as [u| | |] eqn:R; try discriminate E. cbn [bind] in E. injection E as <- <-.
    split; [reflexivity|]. cbn [outermost]. eapply spine_rotate; [| |exact LX| |exact R]; [lia|exact FL|]. left. split; [reflexivity|]. eauto.
  - destruct (insert_node o dup i v (Node a1 a2 a3 y rl rr)) as [[r' c]| | |] eqn:ER; try discriminate E. cbn [bind] in E.
    destruct (IHr r' c WR) as [-> SP]; [lia|discriminate|exact FR|reflexivity|].
    destruct (rotate_if_needed o _ v) as [u| | |] eqn:R; try discriminate E. cbn [bind] in E. injection E as <- <-.
    split; [reflexivity|]. eapply spine_rotate; [| |exact LX| |exact R]; [lia|exact FL|]. right. exact SP.
Qed.
Lemma spine_below k i v (t : tree) : spine k i v t -> exists p h x l q g, below (Node k p h x l (Node i q g v Leaf Leaf)) t.
Proof.
  induction t as [|j p h x l _ r IHr]; cbn [spine]; [tauto|]. intros [_ [(-> & q & g & ->)|SP]].
  - do 6 eexists. apply below_self.
  - destruct (IHr SP) as (p' & h' & x' & l' & q & g & BL). do 6 eexists. right. right. exact BL.
Qed.
Lemma spine_outer k i v (t : tree) : forall a, spine k i v t -> outermost true a t = i.
Proof.
  induction t as [|j p h x l _ r IHr]; intros a; cbn [spine outermost]; [tauto|]. intros [_ [(-> & q & g & ->)|SP]]; [reflexivity|apply IHr, SP].
Qed.
Lemma outermost_any a b (t : tree) : t <> Leaf -> outermost true a t = outermost true b t.
Proof. destruct t; [congruence|reflexivity]. Qed.

Section Endless.
Context (next : T -> T) (NEXT : forall x, lt_ o x (next x) = true).

Lemma endless_at fuel : forall s m past k p h x r, live m s -> root s <> Leaf -> outermost true 0 (root s) = k -> load k s = Val (Node k p h x Leaf r) ->
  in_order_at (uses o (insert_next next)) fuel (s, m) past k = NoFuel.
Proof.
  induction fuel as [|fuel IH]; intros s m past k p h x r L NL OUT LD; [reflexivity|]. cbn [in_order_at].
  unfold descend at 1. cbn [fst]. rewrite LD. cbn [bind side addr_of].
  assert (G : get k s = Val x) by (apply get_load; eauto).
  unfold visit at 1. unfold uses at 1. cbn [fst snd]. rewrite G. cbn [bind]. unfold insert_next at 1. cbn [run_body].
  destruct m as [|m]; [reflexivity|]. destruct L as [I F]. cbn [astep].
  assert (MX : rightmost x (root s) = x).
  { destruct (outermost_right (root s) 0 x) as (k' & EK & [(Z & _)|IN]); [congruence|]. rewrite EK in OUT. subst k'.
    apply get_iff in G; [|exact F]. destruct F as [ND _]. unfold nodes in G. exact (nodup_fun _ _ _ _ ND IN G). }
  assert (FO : Forall (fun y => lt_ o y (next x) = true) (in_order (root s))).
  { destruct I as (_ & SO & _). destruct (root s) as [|i0 p0 h0 v0 l0 r0]; [constructor|]. destruct (rightmost_last i0 p0 h0 v0 l0 r0) as (tl & EQ).
    cbn [rightmost] in MX. rewrite MX in EQ. rewrite EQ in *. apply (sorted_app o) in SO; [|exact LAW]. destruct SO as (_ & _ & VA & _).
    apply Forall_app. split; [|constructor; [apply NEXT|constructor]]. eapply Forall_impl; [|exact VA]. intros y LE.
    destruct (lt_total o LAW y x) as [H|[->|H]]; [exact (lt_trans o LAW _ _ _ H (NEXT x))|apply NEXT|]. unfold le in LE. congruence. }
  destruct (insert_state o LAW false s (next x) m I) as (s1 & b & EI & I1 & _).
  destruct (insert_fine s (next x) s1 b F EI) as (F1 & _). rewrite EI. cbn [bind].
  assert (SP : spine k (fresh s) (next x) (root s1)).
  { unfold insert in EI. destruct (insert_node o (dup s) (fresh s) (next x) (root s)) as [[t c]| | |] eqn:EN; try discriminate EI.
    cbn [bind] in EI. injection EI as <- <-. cbn [root]. rewrite <- OUT. destruct I as (W & _ & _ & _ & BD).
    eapply insert_spine; [exact W|lia|exact NL|exact FO|exact EN]. }
  destruct (spine_below _ _ _ _ SP) as (p1 & h1 & x1 & l1 & q & g & BL).
  assert (ND1 : NoDup (ids_in (root s1))) by (rewrite <- pairs_ids; apply F1).
  unfold descend. cbn [fst]. unfold load at 1. rewrite (sub_below _ _ _ _ _ _ _ ND1 BL). cbn [bind side addr_of].
  assert (NL1 : root s1 <> Leaf) by (intros Z; rewrite Z in SP; exact SP).
  assert (BL2 : below (Node (fresh s) q g (next x) Leaf Leaf) (root s1)).
  { eapply below_trans; [|exact BL]. right. right. apply below_self. }
  rewrite (IH s1 m (past ++ [k]) (fresh s) q g (next x) Leaf); [reflexivity|split; assumption|exact NL1|exact (spine_outer _ _ _ _ 0 SP)|].
  unfold load. rewrite (sub_below _ _ _ _ _ _ _ ND1 BL2). reflexivity.
Qed.

Lemma endless v s r m fuel : astep o avl_new (AInsert v) = Val (s, r) -> (N.of_nat (S m) < big)%N ->
  traverse (uses o (insert_next next)) InOrder fuel (s, m) = NoFuel.
Proof.
  intros E B. assert (L0 : live (S m) avl_new) by (split; [apply new_inv; exact B|apply fine_new]).
  destruct (live_step m avl_new (AInsert v) L0) as (s1 & r1 & E1 & L & _). rewrite E in E1. injection E1 as <- <-.
  cbn in E. injection E as <- _. unfold traverse. cbn [fst root addr_of].
  eapply endless_at; [exact L|discriminate|reflexivity|]. unfold load. cbn. reflexivity.
Qed.
End Endless.

End P.
