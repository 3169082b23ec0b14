(** Proofs about iterators and loops over the LRU cache. *)
Require Import List NArith Bool Arith Lia.
Require Import Verif.Base Verif.LruModel Verif.LruSpec Verif.LruProofs
  Verif.LruIterModel Verif.LruIterSpec.
Import ListNotations.

Section Proofs.
Context {K : Type} (keq : forall a b : K, {a = b} + {a <> b}).
Implicit Types c : cache K.
Notation inv := (inv keq).
Notation reached := (reached keq).

Lemma deref_val c i k : inv c -> deref c (At i) = Val k <-> In (i, k) (klist c).
Proof.
  intros (N1 & _). cbn. split.
  - destruct (list_deref (klist c) i) eqn:E; [|discriminate]. intros H; injection H as <-.
    apply deref_some; assumption.
  - intros H. rewrite (deref_in _ _ _ N1 H). reflexivity.
Qed.

Lemma deref_ub c i : inv c -> (forall k, ~ In (i, k) (klist c)) -> deref c (At i) = UB.
Proof.
  intros G H. cbn. destruct (list_deref (klist c) i) as [k|] eqn:E; [|reflexivity].
  apply deref_some in E. destruct (H k E).
Qed.

(** ** What one call does to the nodes *)

(** Nodes that stay keep their key; nothing older than the call is new. *)
Definition older (c c' : cache K) : Prop :=
  fresh c <= fresh c' /\
  forall i k, In (i, k) (klist c') -> i < fresh c -> In (i, k) (klist c).

Lemma older_refl c : older c c.
Proof. split; auto. Qed.
Lemma older_trans c1 c2 c3 : older c1 c2 -> older c2 c3 -> older c1 c3.
Proof. intros [A B] [C D]. split; [lia|]. intros i k H L. apply B; [apply D; [assumption|lia]|assumption]. Qed.

Lemma clip_loop_nodes fuel : forall c log c' log', inv c ->
  clip_loop keq fuel c log = Val (c', log') ->
  exists tail, klist c = klist c' ++ tail /\ log' = log ++ rev (map snd tail) /\ fresh c' = fresh c.
Proof.
  induction fuel as [|fuel IH]; intros c log c' log' G H; cbn in H;
    destruct (max_elements c <? csize c)%N; try discriminate.
  - injection H as <- <-. exists []. cbn. rewrite !app_nil_r. auto.
  - destruct (rev (klist c)) as [|[i back] l] eqn:R; [discriminate|].
    assert (E : klist c = rev l ++ [(i, back)]).
    { rewrite <- (rev_involutive (klist c)), R. reflexivity. }
    apply IH in H.
    + cbn [klist fresh] in H. destruct H as (tail & A & B & C).
      rewrite E, removelast_last in A. exists (tail ++ [(i, back)]).
      split; [rewrite E, A, app_assoc; reflexivity|]. split; [|exact C].
      rewrite B, map_app, rev_app_distr. cbn. rewrite <- app_assoc. reflexivity.
    + unfold LruProofs.inv. cbn [kmap klist fresh].
      pose proof G as G0. unfold LruProofs.inv in G0. rewrite E in G0.
      pose proof (good_erase keq _ _ _ back i G0 ltac:(apply in_or_app; cbn; auto)) as G1.
      rewrite E, removelast_last. rewrite erase_last in G1; [exact G1|]. apply (proj1 G0).
  - injection H as <- <-. exists []. cbn. rewrite !app_nil_r. auto.
Qed.

Lemma clip_nodes c c' log : inv c -> clip keq c = Val (c', log) ->
  exists tail, klist c = klist c' ++ tail /\ log = rev (map snd tail) /\ fresh c' = fresh c.
Proof.
  intros G H. unfold clip in H. apply clip_loop_nodes in H; [|exact G]. exact H.
Qed.

Lemma good_key_id c i j k : inv c -> In (i, k) (klist c) -> In (j, k) (klist c) -> i = j.
Proof. intros G. apply (good_inj keq _ _ _ _ _ _ G). Qed.

Lemma in_ends c k : inv c -> ~ In k (values c) -> forall i, ~ In (i, k) (klist c).
Proof. intros _ H i HI. apply H. eapply in_snd; eauto. Qed.

Lemma add_nodes c k c' log : inv c -> add keq c k = Val (c', log) ->
  (In k (values c) /\ klist c' = klist c /\ fresh c' = fresh c /\ log = []) \/
  (~ In k (values c) /\ fresh c' = S (fresh c) /\
   exists tail, (fresh c, k) :: klist c = klist c' ++ tail /\ log = rev (map snd tail)).
Proof.
  intros G H. unfold add in H. rewrite (contains_mem keq _ _ G) in H.
  destruct (mem keq k (values c)) eqn:M; cbn [negb] in H.
  - injection H as <- <-. left. apply mem_true in M. auto.
  - apply mem_false in M.
    match type of H with context [clip keq ?d] => destruct (clip keq d) as [[c1 l1]| | |] eqn:E end;
      cbn [bind] in H; try discriminate.
    injection H as <- <-. right. split; [assumption|].
    apply clip_nodes in E; [|apply (good_push keq); assumption].
    destruct E as (tail & A & B & C). cbn [klist fresh] in A, C. cbn [set_last klist fresh]. split; [assumption|]. eauto.
Qed.

Lemma find_nodes c k c' r : inv c -> find keq c k = Val (c', r) ->
  (klist c' = klist c /\ fresh c' = fresh c /\ (In k (values c) -> hd_error (values c) = Some k)) \/
  (exists i, In (i, k) (klist c) /\ hd_error (values c) <> Some k /\
     klist c' = (fresh c, k) :: list_erase (klist c) i /\ fresh c' = S (fresh c)).
Proof.
  intros G H. pose proof G as (N1 & N2 & B & M). unfold find in H.
  destruct (map_find keq (kmap c) k) as [i|] eqn:E.
  - apply M in E. unfold move_to_front in H. unfold values.
    destruct (klist c) as [|[j kj] l] eqn:L; [destruct E|].
    destruct (Nat.eqb_spec i j) as [->|NE].
    + cbn in H. injection H as <- <-. left. rewrite L. split; [reflexivity|]. split; [reflexivity|].
      intros _. cbn. f_equal. destruct E as [E|E]; [congruence|].
      exfalso. inversion N1; subst. apply H1. eapply in_fst; eauto.
    + rewrite (deref_in _ _ _ N1 E) in H. cbn [bind] in H. injection H as <- <-. right. exists i.
      split; [assumption|]. split; [|auto]. cbn. intros F; injection F as ->.
      destruct E as [E|E]; [congruence|]. inversion N2; subst. apply H1. eapply in_snd; eauto.
  - injection H as <- <-. left. split; [reflexivity|]. split; [reflexivity|]. intros HI.
    apply in_snd_ex in HI. destruct HI as [i HI]. apply M in HI. congruence.
Qed.

Lemma set_last_inv c b : inv c -> inv (set_last c b).
Proof. auto. Qed.

Lemma index_zero c k : inv c -> max_elements c = 0%N -> ~ In k (values c) -> index keq c k = UB.
Proof.
  intros G Z NI. pose proof (step_refines keq c (CIndex k) G) as S. cbn in S.
  apply mem_false with (keq := keq) in NI. rewrite NI, Z in S. cbn in S.
  destruct (index keq c k) as [[[c' r] l]| | |]; cbn in S; congruence.
Qed.

(** The nodes after a call. *)
Lemma step_nodes c o c' r log : inv c -> cstep keq c o = Val (c', r, log) ->
  inv c' /\ older c c' /\
  forall i k, In (i, k) (klist c) ->
    (In (i, k) (klist c') <-> ~ ends (values c) k o log).
Proof.
  intros G H.
  assert (G' : inv c').
  { pose proof (step_refines keq c o G) as S.
    destruct (rstep keq (abs c) o) as [[[s' r'] l']|]; [|congruence].
    destruct S as (c'' & A & _ & D). rewrite A in H. injection H as -> _ _. exact D. }
  split; [exact G'|].
  assert (SAME : klist c' = klist c -> fresh c' = fresh c -> log = [] ->
                 o <> CClear -> (forall k, In k (values c) -> o <> CRemove k) ->
                 (forall k, In k (values c) -> o = CFind k \/ o = CIndex k -> hd_error (values c) = Some k) ->
    older c c' /\ forall i k, In (i, k) (klist c) -> (In (i, k) (klist c') <-> ~ ends (values c) k o log)).
  { intros A B C D E F. split; [split; [lia|rewrite A; auto]|]. intros i k HI. rewrite A, C. split; [|tauto].
    intros _ [[]|[X|[X|[X Y]]]]; [eapply E; eauto; eapply in_snd; eauto|tauto|].
    apply Y, F; [eapply in_snd; eauto|assumption]. }
  pose proof G as (N1 & N2 & B & M).
  destruct o; cbn in H;
    try (injection H as <- <- <-; apply SAME; auto; try discriminate; intros ? ? [?|?]; discriminate).
  - (* find *)
    destruct (find keq c k) as [[c1 [b x]]| | |] eqn:E; cbn in H; try discriminate.
    injection H as <- <- <-. destruct (find_nodes _ _ _ _ G E) as [(A & A' & A'')|(i & HI & HD & A & A')].
    + apply SAME; auto; try discriminate. intros k' HI [X|X]; inversion X; subst; auto.
    + split.
      * split; [lia|]. rewrite A. intros j kj [X|X] L; [injection X as <- <-; lia|].
        apply erase_in in X; tauto.
      * intros j kj HJ. rewrite A. cbn. rewrite erase_in by assumption. split.
        -- intros [X|[_ NE]]; [injection X as <- <-; apply B in HJ; lia|].
           intros [[]|[X|[X|[[X|X] Y]]]]; try discriminate. injection X as <-.
           apply NE. apply (good_key_id c _ _ _ G HJ); assumption.
        -- intros NE. right. split; [assumption|]. intros ->. apply NE. right; right; right.
           assert (kj = k) as -> by (apply (deref_in _ _ _ N1) in HJ; apply (deref_in _ _ _ N1) in HI; congruence).
           auto.
  - (* index *)
    destruct (in_dec keq k (values c)) as [IN|NIN].
    + unfold index in H. rewrite (contains_mem keq _ _ G) in H.
      apply (mem_true keq) in IN. rewrite IN in H. cbn [negb bind] in H. apply (mem_true keq) in IN.
      destruct (find keq (set_last c false) k) as [[c1 [b x]]| | |] eqn:E; cbn in H; try discriminate.
      destruct x as [x|]; cbn in H; [|discriminate]. injection H as <- <- <-.
      destruct (find_nodes _ _ _ _ (set_last_inv c false G) E) as [(A & A' & A'')|(i & HI & HD & A & A')].
      * apply SAME; auto; try discriminate. intros k' HI [X|X]; inversion X; subst; auto.
      * cbn [set_last klist fresh] in A, A', HI. change (values (set_last c false)) with (values c) in HD. split.
        -- split; [lia|]. rewrite A. intros j kj [X|X] L; [injection X as <- <-; lia|].
           apply erase_in in X; tauto.
        -- intros j kj HJ. rewrite A. cbn. rewrite erase_in by assumption. split.
           ++ intros [X|[_ NE]]; [injection X as <- <-; apply B in HJ; lia|].
              intros [[]|[X|[X|[[X|X] Y]]]]; try discriminate. injection X as <-.
              apply NE. apply (good_key_id c _ _ _ G HJ); assumption.
           ++ intros NE. right. split; [assumption|]. intros ->. apply NE. right; right; right.
              assert (kj = k) as -> by (apply (deref_in _ _ _ N1) in HJ; apply (deref_in _ _ _ N1) in HI; congruence).
              auto.
    + destruct (N.eq_dec (max_elements c) 0) as [Z|NZ].
      { rewrite index_zero in H by assumption. discriminate. }
      unfold index in H. rewrite (contains_mem keq _ _ G) in H.
      apply (mem_false keq) in NIN. rewrite NIN in H. cbn [negb] in H. 
      destruct (proj2 (add_spec keq c k G) NIN) as (c1 & E1 & G1 & AB). apply (mem_false keq) in NIN.
      rewrite E1 in H. cbn [bind] in H.
      destruct (find keq c1 k) as [[c2 [b x]]| | |] eqn:E; cbn in H; try discriminate.
      destruct x as [x|]; cbn in H; [|discriminate]. injection H as <- <- <-.
      assert (HD : hd_error (values c1) = Some k).
      { apply abs_fields in AB. cbn [keys] in AB. rewrite (proj1 AB), keep_pos by assumption. reflexivity. }
      assert (A2 : klist c2 = klist c1 /\ fresh c2 = fresh c1).
      { destruct (find_nodes _ _ _ _ G1 E) as [(A & A' & _)|(i & _ & NH & _)]; [auto|congruence]. }
      destruct A2 as [A2 A3].
      destruct (add_nodes _ _ _ _ G E1) as [(X & _)|(_ & FR & tail & KL & LG)]; [contradiction|].
      rewrite LG. split.
      * split; [lia|]. rewrite A2. intros j kj HJ L.
        assert (In (j, kj) ((fresh c, k) :: klist c)) as [X|X] by (rewrite KL; apply in_or_app; auto); [|assumption].
        injection X as <- <-. lia.
      * intros j kj HJ. rewrite A2.
        assert (ND : NoDup (map snd ((fresh c, k) :: klist c))) by (cbn; constructor; assumption).
        assert (HK : In kj (values c)) by (eapply in_snd; eauto).
        split.
        -- intros H1 [X|[X|[X|[[X|X] Y]]]]; try discriminate.
           ++ apply in_rev, in_snd_ex in X. destruct X as [j' X].
              rewrite KL, map_app in ND. apply in_snd in H1. apply in_snd in X.
              clear - ND H1 X. induction (map snd (klist c1)) as [|y l IH]; cbn in *; [contradiction|].
              inversion ND; subst. destruct H1 as [->|H1]; [apply H2, in_or_app; auto|auto].
           ++ injection X as <-. contradiction.
        -- intros NE. assert (HK2 : In (j, kj) ((fresh c, k) :: klist c)) by (right; assumption).
           rewrite KL in HK2. apply in_app_or in HK2. destruct HK2 as [X|X]; [assumption|].
           exfalso. apply NE. left. rewrite <- in_rev. eapply in_snd; eauto.
  - (* add *)
    destruct (add keq c k) as [[c1 l1]| | |] eqn:E; cbn in H; try discriminate.
    injection H as <- <- <-.
    destruct (add_nodes _ _ _ _ G E) as [(X & KL & FR & LG)|(NI & FR & tail & KL & LG)].
    + apply SAME; auto; try discriminate. intros ? ? [?|?]; discriminate.
    + rewrite LG. split.
      * split; [lia|]. intros j kj HJ L.
        assert (In (j, kj) ((fresh c, k) :: klist c)) as [X|X] by (rewrite KL; apply in_or_app; auto); [|assumption].
        injection X as <- <-. lia.
      * intros j kj HJ.
        assert (ND : NoDup (map snd ((fresh c, k) :: klist c))) by (cbn; constructor; assumption).
        split.
        -- intros H1 [X|[X|[X|[[X|X] Y]]]]; try discriminate.
           apply in_rev, in_snd_ex in X. destruct X as [j' X].
           rewrite KL, map_app in ND. apply in_snd in H1. apply in_snd in X.
           clear - ND H1 X. induction (map snd (klist c1)) as [|y l IH]; cbn in *; [contradiction|].
           inversion ND; subst. destruct H1 as [->|H1]; [apply H2, in_or_app; auto|auto].
        -- intros NE. assert (HK2 : In (j, kj) ((fresh c, k) :: klist c)) by (right; assumption).
           rewrite KL in HK2. apply in_app_or in HK2. destruct HK2 as [X|X]; [assumption|].
           exfalso. apply NE. left. rewrite <- in_rev. eapply in_snd; eauto.
  - (* clip *)
    destruct (clip keq c) as [[c1 l1]| | |] eqn:E; cbn in H; try discriminate.
    injection H as <- <- <-. destruct (clip_nodes _ _ _ G E) as (tail & KL & LG & FR). rewrite LG. split.
    + split; [lia|]. intros j kj HJ _. rewrite KL. apply in_or_app; auto.
    + intros j kj HJ. split.
      * intros H1 [X|[X|[X|[[X|X] Y]]]]; try discriminate.
        apply in_rev, in_snd_ex in X. destruct X as [j' X]. unfold LruProofs.inv in G.
        pose proof N2 as ND. rewrite KL, map_app in ND. apply in_snd in H1. apply in_snd in X.
        clear - ND H1 X. induction (map snd (klist c1)) as [|y l IH]; cbn in *; [contradiction|].
        inversion ND; subst. destruct H1 as [->|H1]; [apply H2, in_or_app; auto|auto].
      * intros NE. pose proof HJ as HK2. rewrite KL in HK2. apply in_app_or in HK2. destruct HK2 as [X|X]; [assumption|].
        exfalso. apply NE. left. rewrite <- in_rev. eapply in_snd; eauto.
  - (* set_capacity *)
    match type of H with context [clip_loop keq ?f ?d ?l] => destruct (clip_loop keq f d l) as [[c1 l1]| | |] eqn:E end;
      cbn [bind] in H; try discriminate.
    injection H as <- <- <-. apply clip_loop_nodes in E; [|exact G]. cbn [klist fresh app] in E.
    destruct E as (tail & KL & LG & FR). rewrite LG. split.
    + split; [lia|]. intros j kj HJ _. rewrite KL. apply in_or_app; auto.
    + intros j kj HJ. split.
      * intros H1 [X|[X|[X|[[X|X] Y]]]]; try discriminate.
        apply in_rev, in_snd_ex in X. destruct X as [j' X].
        pose proof N2 as ND. rewrite KL, map_app in ND. apply in_snd in H1. apply in_snd in X.
        clear - ND H1 X. induction (map snd (klist c1)) as [|y l IH]; cbn in *; [contradiction|].
        inversion ND; subst. destruct H1 as [->|H1]; [apply H2, in_or_app; auto|auto].
      * intros NE. pose proof HJ as HK2. rewrite KL in HK2. apply in_app_or in HK2. destruct HK2 as [X|X]; [assumption|].
        exfalso. apply NE. left. rewrite <- in_rev. eapply in_snd; eauto.
  - (* remove *)
    unfold remove in H. destruct (map_find keq (kmap c) k) as [i|] eqn:E.
    + apply M in E. rewrite (deref_in _ _ _ N1 E) in H. cbn in H. injection H as <- <- <-.
      cbn [klist fresh]. split.
      * split; [cbn; lia|]. cbn. intros j kj HJ _. apply erase_in in HJ; tauto.
      * intros j kj HJ. cbn. rewrite erase_in by assumption. split.
        -- intros [_ NE] [[]|[X|[X|[[X|X] _]]]]; try discriminate. injection X as <-.
           apply NE. apply (good_key_id c _ _ _ G HJ); assumption.
        -- intros NE. split; [assumption|]. intros ->. apply NE. right; left. f_equal.
           apply (deref_in _ _ _ N1) in HJ; apply (deref_in _ _ _ N1) in E; congruence.
    + cbn in H. injection H as <- <- <-. apply SAME; auto; try discriminate.
      * intros k' HI X. injection X as <-. apply in_snd_ex in HI. destruct HI as [i HI]. apply M in HI. congruence.
      * intros ? ? [?|?]; discriminate.
  - (* clear *)
    injection H as <- <- <-. split; [split; [cbn; lia|intros ? ? []]|]. intros j kj HJ. cbn. split; [tauto|].
    intros NE. apply NE. right; right; left; reflexivity.
  - destruct (most_recent c) eqn:E; cbn in H; try discriminate. injection H as <- <- <-.
    apply SAME; auto; try discriminate; intros ? ? [?|?]; discriminate.
  - destruct (least_recent c) eqn:E; cbn in H; try discriminate. injection H as <- <- <-.
    apply SAME; auto; try discriminate; intros ? ? [?|?]; discriminate.
Qed.

Theorem what_invalidates c o c' r log i k : reached c -> deref c (At i) = Val k ->
  cstep keq c o = Val (c', r, log) ->
  (ends (values c) k o log -> deref c' (At i) = UB) /\
  (~ ends (values c) k o log -> deref c' (At i) = Val k).
Proof.
  intros R D H. pose proof (proj1 (reached_inv keq c R)) as G.
  destruct (step_nodes _ _ _ _ _ G H) as (G' & O & S). apply (deref_val _ _ _ G) in D. split.
  - intros E. apply deref_ub; [assumption|]. intros k' HI.
    assert (k' = k) as ->.
    { apply (proj2 O) in HI; [|apply (proj1 (proj2 (proj2 G)) _ _ D)].
      destruct G as (N1 & _). apply (deref_in _ _ _ N1) in HI. apply (deref_in _ _ _ N1) in D. congruence. }
    apply (S _ _ D) in HI. contradiction.
  - intros E. apply deref_val; [assumption|]. apply S; assumption.
Qed.

Lemma run_nodes ops : forall c c' rs, inv c -> crun keq c ops = Val (c', rs) -> inv c' /\ older c c'.
Proof.
  induction ops as [|o ops IH]; intros c c' rs G H; cbn in H.
  - injection H as <- <-. split; [assumption|apply older_refl].
  - destruct (cstep keq c o) as [[[c1 r] l]| | |] eqn:E; cbn in H; try discriminate.
    destruct (crun keq c1 ops) as [[c2 rs2]| | |] eqn:E2; cbn in H; try discriminate.
    injection H as <- <-. destruct (step_nodes _ _ _ _ _ G E) as (G1 & O1 & _).
    destruct (IH _ _ _ G1 E2) as [G2 O2]. split; [assumption|]. eapply older_trans; eauto.
Qed.

Theorem never_valid_again c i k ops c1 rs ops' c2 rs' : reached c -> deref c (At i) = Val k ->
  crun keq c ops = Val (c1, rs) -> crun keq c1 ops' = Val (c2, rs') ->
  (deref c1 (At i) = Val k \/ deref c1 (At i) = UB) /\
  (deref c1 (At i) = UB -> deref c2 (At i) = UB).
Proof.
  intros R D H1 H2. pose proof (proj1 (reached_inv keq c R)) as G.
  destruct (run_nodes _ _ _ _ G H1) as [G1 O1]. destruct (run_nodes _ _ _ _ G1 H2) as [G2 O2].
  apply (deref_val _ _ _ G) in D. pose proof (proj1 (proj2 (proj2 G)) _ _ D) as L. split.
  - destruct (deref c1 (At i)) as [k'| | |] eqn:E; auto; try (cbn in E; destruct (list_deref _ i); discriminate).
    left. f_equal. apply (deref_val _ _ _ G1) in E. apply (proj2 O1) in E; [|assumption].
    destruct G as (N1 & _). apply (deref_in _ _ _ N1) in E. apply (deref_in _ _ _ N1) in D. congruence.
  - intros E. apply deref_ub; [assumption|]. intros k' HI.
    apply (proj2 O2) in HI; [|destruct O1; lia]. apply (deref_val _ _ _ G1) in HI. congruence.
Qed.

Theorem found_iterator c k c' b r : reached c -> find keq c k = Val (c', (b, r)) -> b = true ->
  deref c' (begin_ c') = Val k.
Proof.
  intros R H ->. pose proof (proj1 (reached_inv keq c R)) as G.
  destruct (find_spec keq c k G) as [A B]. destruct (mem keq k (values c)).
  - destruct (A eq_refl) as (c1 & E & G1 & AB). rewrite E in H. injection H as <- <-.
    apply abs_fields in AB. cbn in AB. destruct AB as (V & _). unfold values in V. unfold begin_.
    destruct (klist c1) as [|[i k1] l] eqn:L; [discriminate|]. cbn in V. injection V as -> _.
    apply deref_val; [assumption|]. rewrite L. left; reflexivity.
  - rewrite B in H by reflexivity. discriminate.
Qed.

(** ** Loops *)
Lemma const_step c o : inv c -> klist c <> [] -> const_call o ->
  exists r, cstep keq c o = Val (c, r, []).
Proof.
  intros G NE H. destruct o; cbn in H; try contradiction; cbn; eauto.
  - unfold most_recent. destruct (klist c) as [|[i k] l]; [congruence|]. cbn. eauto.
  - unfold least_recent. destruct (rev (klist c)) as [|[i k] l] eqn:E; [|cbn; eauto].
    exfalso. apply NE. rewrite <- (rev_involutive (klist c)), E. reflexivity.
Qed.

Lemma const_run ops : forall c, inv c -> klist c <> [] -> Forall const_call ops ->
  exists rs, crun keq c ops = Val (c, rs).
Proof.
  induction ops as [|o ops IH]; intros c G NE F; cbn; [eauto|]. inversion F; subst.
  destruct (const_step c o G NE H1) as [r ->]. cbn. destruct (IH c G NE H2) as [rs ->]. cbn. eauto.
Qed.

Definition first (l : list (node_id * K)) : iter :=
  match l with [] => End | (i, _) :: _ => At i end.

Lemma next_app p i k s : NoDup (map fst (p ++ (i, k) :: s)) ->
  list_next (p ++ (i, k) :: s) i = Val (first s).
Proof.
  induction p as [|[j kj] p IH]; cbn; intros ND.
  - rewrite Nat.eqb_refl. reflexivity.
  - inversion ND; subst. destruct (Nat.eqb_spec i j) as [->|]; [|auto].
    exfalso. apply H1. rewrite map_app. apply in_or_app. right. left. reflexivity.
Qed.

Lemma prev_app p i k s : NoDup (map fst (p ++ (i, k) :: s)) -> forall b,
  list_prev b (p ++ (i, k) :: s) (first s) = Val (At i).
Proof.
  intros ND.
  assert (STEP : forall (l : list (node_id * K)) b j kj, ~ In j (map fst (firstn 1 s)) ->
            list_prev b ((j, kj) :: l) (first s) = list_prev (Val (At j)) l (first s)).
  { intros l b j kj H. cbn. destruct s as [|[j' k'] s]; cbn in *; [reflexivity|].
    destruct (Nat.eqb_spec j' j) as [->|]; tauto. }
  assert (IN1 : forall j, In j (map fst (firstn 1 s)) -> In j (map fst s)).
  { intros j H. destruct s; cbn in *; tauto. }
  induction p as [|[j kj] p IH]; intros b; cbn [app] in *.
  - inversion ND; subst. rewrite STEP by auto. destruct s as [|[j' k'] s]; cbn; [reflexivity|].
    rewrite Nat.eqb_refl. reflexivity.
  - inversion ND; subst. rewrite STEP; [auto|]. intros H. apply H1. rewrite map_app. apply in_or_app.
    right. right. auto.
Qed.

Lemma const_loop body fuel : forall c p s, inv c -> klist c = p ++ s -> length s <= fuel ->
  (forall k, Forall const_call (body k)) ->
  for_each keq fuel c (first s) body = Val (c, map snd s).
Proof.
  induction fuel as [|fuel IH]; intros c p s G L LE F; destruct s as [|[i k] s]; cbn in LE; try lia; try reflexivity.
  pose proof G as (N1 & _). cbn [first for_each deref].
  rewrite (deref_in _ i k N1) by (rewrite L; apply in_or_app; right; left; reflexivity). cbn [bind].
  destruct (const_run (body k) c G ltac:(rewrite L; destruct p; discriminate) (F k)) as [rs ->]. cbn [bind next].
  rewrite L in N1 |- *. rewrite (next_app _ _ _ _ N1). cbn [bind].
  rewrite (IH c (p ++ [(i, k)]) s G); [reflexivity| |lia|assumption].
  rewrite L, <- app_assoc. reflexivity.
Qed.

Theorem const_loop_visits c body fuel : reached c -> (forall k, Forall const_call (body k)) ->
  length (values c) <= fuel -> for_each keq fuel c (begin_ c) body = Val (c, values c).
Proof.
  intros R F L. apply (const_loop body fuel c [] (klist c)); auto.
  - apply (reached_inv keq c R).
  - unfold values in L. rewrite map_length in L. assumption.
Qed.

Lemma first_begin c p q s : inv c -> klist c = (p :: q) ++ s ->
  iter_eqb (first s) (begin_ c) = false.
Proof.
  intros (N1 & _) L. unfold begin_. rewrite L in *. destruct p as [i k]. cbn in *.
  destruct s as [|[j kj] s]; cbn; [reflexivity|]. apply Nat.eqb_neq. intros ->.
  inversion N1; subst. apply H1. rewrite map_app. apply in_or_app. right. left. reflexivity.
Qed.

Lemma first_begin_nil c : iter_eqb (first (klist c)) (begin_ c) = true.
Proof. unfold begin_. destruct (klist c) as [|[i k] l]; cbn; [reflexivity|apply Nat.eqb_refl]. Qed.

Lemma const_rloop body fuel : forall c p s, inv c -> klist c = p ++ s -> length p <= fuel ->
  (forall k, Forall const_call (body k)) ->
  for_each_reversed keq fuel c (first s) body = Val (c, rev (map snd p)).
Proof.
  induction fuel as [|fuel IH]; intros c p s G L LE F; destruct p as [|x p'] using rev_ind;
    try (rewrite app_length in LE; cbn in LE; lia).
  - cbn [app] in L. rewrite <- L. cbn [for_each_reversed]. rewrite first_begin_nil. reflexivity.
  - cbn [app] in L. rewrite <- L. cbn [for_each_reversed]. rewrite first_begin_nil. reflexivity.
  - clear IHp'. destruct x as [i k]. pose proof G as (N1 & _).
    cbn [for_each_reversed].
    assert (B : iter_eqb (first s) (begin_ c) = false).
    { destruct p' as [|y p']; eapply first_begin; eauto. }
    rewrite B. rewrite <- app_assoc in L. cbn [app] in L.
    unfold prev. rewrite L in N1.
    rewrite L, (prev_app _ _ _ _ N1). cbn [bind deref].
    rewrite <- L in N1.
    rewrite (deref_in _ i k N1) by (rewrite L; apply in_or_app; right; left; reflexivity). cbn [bind].
    destruct (const_run (body k) c G ltac:(rewrite L; destruct p'; discriminate) (F k)) as [rs ->]. cbn [bind].
    rewrite L in N1 |- *. rewrite (prev_app _ _ _ _ N1). cbn [bind].
    change (At i) with (first ((i, k) :: s)). rewrite app_length in LE. cbn in LE.
    rewrite (IH c p' ((i, k) :: s) G L); [|lia|assumption]. cbn [bind].
    rewrite map_app, rev_app_distr. reflexivity.
Qed.

Theorem const_reversed_loop_visits c body fuel : reached c -> (forall k, Forall const_call (body k)) ->
  length (values c) <= fuel ->
  for_each_reversed keq fuel c (end_ c) body = Val (c, rev (values c)).
Proof.
  intros R F L. apply (const_rloop body fuel c (klist c) []); auto.
  - apply (reached_inv keq c R).
  - rewrite app_nil_r. reflexivity.
  - unfold values in L. rewrite map_length in L. assumption.
Qed.

Lemma erased_next c i fuel body ks : inv c -> (forall k, ~ In (i, k) (klist c)) ->
  (let* it := next c (At i) in let* (c2, vs) := for_each keq fuel c it body in Val (c2, ks ++ vs)) = UB.
Proof.
  intros G H. cbn [next].
  assert (E : list_next (klist c) i = UB); [|rewrite E; reflexivity].
  clear G. induction (klist c) as [|[j k] l IH]; cbn; [reflexivity|].
  destruct (Nat.eqb_spec i j) as [->|]; [destruct (H k); left; reflexivity|].
  apply IH. intros k' H'. apply (H k'). right; assumption.
Qed.

Theorem loop_that_removes c fuel : reached c -> values c <> [] -> 1 <= fuel ->
  for_each keq fuel c (begin_ c) (fun k => [CRemove k]) = UB.
Proof.
  intros R NE LE. destruct fuel as [|fuel]; [lia|].
  pose proof (proj1 (reached_inv keq c R)) as G. unfold values in NE. unfold begin_.
  destruct (klist c) as [|[i k] l] eqn:L; [cbn in NE; congruence|]. cbn [for_each].
  assert (HI : In (i, k) (klist c)) by (rewrite L; left; reflexivity).
  rewrite (proj2 (deref_val c i k G) HI). cbn [bind].
  pose proof (step_refines keq c (CRemove k) G) as S. cbn [rstep abs] in S.
  destruct S as (c1 & E & _ & G1). cbn [crun]. rewrite E. cbn [bind].
  destruct (step_nodes _ _ _ _ _ G E) as (_ & O & ST).
  apply (erased_next c1 i fuel (fun k => [CRemove k]) [k] G1). intros k' HI'.
  assert (k' = k) as ->.
  { apply (proj2 O) in HI'; [|apply (proj1 (proj2 (proj2 G)) _ _ HI)].
    destruct G as (N1 & _). apply (deref_in _ _ _ N1) in HI'. apply (deref_in _ _ _ N1) in HI. congruence. }
  apply (ST _ _ HI) in HI'. apply HI'. right; left; reflexivity.
Qed.

Lemma front_find c i k l : inv c -> klist c = (i, k) :: l -> find keq c k = Val (c, (true, Some k)).
Proof.
  intros G L. pose proof G as (N1 & _ & _ & M). unfold find.
  rewrite (proj2 (M k i)) by (rewrite L; left; reflexivity).
  unfold move_to_front. rewrite L, Nat.eqb_refl. cbn. rewrite L. reflexivity.
Qed.

Theorem loop_that_looks_up c fuel : reached c -> 2 <= fuel ->
  for_each keq fuel c (begin_ c) (fun k => [CFind k]) =
  if (2 <=? csize c)%N then UB else Val (c, values c).
Proof.
  intros R LE. destruct fuel as [|[|fuel]]; try lia.
  pose proof (proj1 (reached_inv keq c R)) as G. unfold begin_, values, csize, sizeN.
  destruct (klist c) as [|[i k] l] eqn:L; [reflexivity|].
  pose proof G as (N1 & N2 & B & _).
  cbn [for_each]. rewrite (proj2 (deref_val c i k G)) by (rewrite L; left; reflexivity). cbn [bind crun].
  assert (E0 : cstep keq c (CFind k) = Val (c, AFound true (Some k), [])).
  { cbn [cstep]. rewrite (front_find c i k l G L). reflexivity. }
  rewrite E0. cbn [bind next]. rewrite L in N1 |- *.
  pose proof (next_app [] i k l N1) as NX. cbn [app] in NX. rewrite NX. cbn [bind].
  destruct l as [|[j kj] l]; [reflexivity|].
  replace (2 <=? N.of_nat (length ((i, k) :: (j, kj) :: l)))%N with true
    by (symmetry; apply N.leb_le; cbn [length]; lia).
  cbn [first]. assert (HJ : In (j, kj) (klist c)) by (rewrite L; right; left; reflexivity).
  rewrite (proj2 (deref_val c j kj G) HJ). cbn [bind].
  pose proof (step_refines keq c (CFind kj) G) as S. cbn [rstep abs] in S.
  assert (IN : mem keq kj (values c) = true) by (apply mem_true; eapply in_snd; eauto).
  rewrite IN in S. destruct S as (c1 & E & _ & G1). cbn [crun]. rewrite E. cbn [bind].
  destruct (step_nodes _ _ _ _ _ G E) as (_ & O & ST).
  pose proof (erased_next c1 j fuel (fun k => [CFind k]) [kj] G1) as EN.
  cbn [app] in EN. rewrite EN; [reflexivity|]. intros k' HI'.
  assert (k' = kj) as ->.
  { apply (proj2 O) in HI'; [|apply (proj1 (proj2 (proj2 G)) _ _ HJ)].
    destruct G as (N1' & _). apply (deref_in _ _ _ N1') in HI'. apply (deref_in _ _ _ N1') in HJ. congruence. }
  apply (ST _ _ HJ) in HI'. apply HI'. right; right; right. split; [auto|].
  unfold values. rewrite L. cbn. intros X; injection X as ->. rewrite L in N2. cbn in N2. inversion N2; subst.
  apply H1. left; reflexivity.
Qed.

(** adding while looping *)
Lemma adds_run ks : forall c, inv c -> (csize c + sizeN ks <= max_elements c)%N ->
  exists c' rs new, crun keq c (map CAdd ks) = Val (c', rs) /\ inv c' /\
    klist c' = new ++ klist c /\ length new <= length ks /\ max_elements c' = max_elements c /\
    (forall k, In k (values c') <-> In k (values c) \/ In k ks).
Proof.
  induction ks as [|k ks IH]; intros c G SZ; cbn [map crun].
  - exists c, [], []. cbn [app map length]. do 5 (split; [auto|]). cbn. tauto.
  - unfold sizeN in SZ. cbn [length] in SZ. unfold csize, sizeN in SZ.
    cbn [cstep]. destruct (add_spec keq c k G) as [A B]. destruct (mem keq k (values c)) eqn:MM.
    + rewrite A by reflexivity. cbn [bind].
      destruct (IH (set_last c false) G) as (c' & rs & new & E & G' & L & LE & MX & V).
      { unfold csize, sizeN. cbn [set_last klist max_elements]. lia. }
      rewrite E. cbn [bind]. exists c'. eexists. exists new.
      split; [reflexivity|]. cbn [set_last klist max_elements] in *. split; [assumption|]. split; [assumption|].
      split; [cbn; lia|]. split; [assumption|]. intros x. split.
      * intros X. apply V in X. change (values (set_last c false)) with (values c) in X. cbn. tauto.
      * intros X. apply V. change (values (set_last c false)) with (values c). cbn in X.
        destruct X as [X|[<-|X]]; auto. left. apply (mem_true keq). assumption.
    + destruct (B eq_refl) as (c1 & E1 & G1 & AB). rewrite E1. cbn [bind].
      apply (mem_false keq) in MM.
      destruct (add_nodes _ _ _ _ G E1) as [(X & _)|(_ & FR & tail & KL & LG)]; [contradiction|].
      apply abs_fields in AB. cbn [keys cap] in AB. destruct AB as (V1 & MX1 & _).
      rewrite keep_all in V1 by (unfold sizeN, values; cbn [length]; rewrite map_length; lia).
      assert (tail = []) as ->.
      { apply (f_equal (@length _)) in KL. rewrite app_length in KL. unfold values in V1.
        apply (f_equal (@length _)) in V1. cbn in V1, KL. rewrite !map_length in V1.
        destruct tail; [reflexivity|cbn in KL; lia]. }
      rewrite app_nil_r in KL.
      destruct (IH c1 G1) as (c' & rs & new & E & G' & L & LE & MX & V).
      { unfold csize, sizeN. rewrite <- KL, MX1. cbn [length]. lia. }
      rewrite E. cbn [bind]. exists c'. eexists. exists (new ++ [(fresh c, k)]).
      split; [reflexivity|]. split; [assumption|]. split; [rewrite L, <- KL, <- app_assoc; reflexivity|].
      split; [rewrite app_length; cbn; lia|]. split; [congruence|].
      intros x. rewrite V, V1. cbn. tauto.
Qed.

Lemma add_loop new_ fuel : forall c p s, inv c -> klist c = p ++ s -> length s <= fuel ->
  (csize c + sizeN (flat_map new_ (map snd s)) <= max_elements c)%N ->
  exists c' extra, for_each keq fuel c (first s) (fun k => map CAdd (new_ k)) = Val (c', map snd s) /\
    values c' = extra ++ values c /\
    (forall k, In k (values c') <-> In k (values c) \/ In k (flat_map new_ (map snd s))).
Proof.
  induction fuel as [|fuel IH]; intros c p s G L LE SZ; destruct s as [|[i k] s]; cbn in LE; try lia;
    try (exists c, []; cbn; split; [reflexivity|]; split; [reflexivity|]; tauto).
  pose proof G as (N1 & _). cbn [first for_each deref].
  rewrite (deref_in _ i k N1) by (rewrite L; apply in_or_app; right; left; reflexivity). cbn [bind].
  cbn [map snd flat_map] in SZ. unfold sizeN in SZ. rewrite app_length in SZ.
  destruct (adds_run (new_ k) c G) as (c1 & rs & nw & E & G1 & L1 & LE1 & MX1 & V1).
  { unfold sizeN. lia. }
  rewrite E. cbn [bind next]. pose proof G1 as (N1' & _). rewrite L in L1. rewrite app_assoc in L1.
  rewrite L1 in N1' |- *. rewrite (next_app _ _ _ _ N1'). cbn [bind].
  destruct (IH c1 ((nw ++ p) ++ [(i, k)]) s G1) as (c' & extra & E' & VX & V').
  - rewrite L1, <- !app_assoc. reflexivity.
  - lia.
  - unfold csize, sizeN in *. rewrite L1. rewrite L in SZ. rewrite !app_length in *. lia.
  - rewrite E'. cbn [bind]. exists c'. exists (extra ++ map snd nw). split; [reflexivity|]. split.
    + rewrite VX. unfold values at 1 2. rewrite L1, L. rewrite <- !app_assoc, !map_app. cbn [map]. reflexivity.
    + intros x. rewrite V', V1. cbn [map snd flat_map]. rewrite in_app_iff. tauto.
Qed.

Theorem loop_that_adds c new_ fuel : reached c -> length (values c) <= fuel ->
  (csize c + sizeN (flat_map new_ (values c)) <= capacity c)%N ->
  exists c' extra, for_each keq fuel c (begin_ c) (fun k => map CAdd (new_ k)) = Val (c', values c) /\
    values c' = extra ++ values c /\
    (forall k, In k (values c') <-> In k (values c) \/ In k (flat_map new_ (values c))).
Proof.
  intros R LE SZ. apply (add_loop new_ fuel c [] (klist c)); auto.
  - apply (reached_inv keq c R).
  - unfold values in LE. rewrite map_length in LE. assumption.
Qed.

(** looking up while looping backwards *)
Lemma erase_mid (p : list (node_id * K)) i k s : NoDup (map fst (p ++ (i, k) :: s)) ->
  list_erase (p ++ (i, k) :: s) i = p ++ s.
Proof.
  induction p as [|[j kj] p IH]; cbn; intros ND; [rewrite Nat.eqb_refl; reflexivity|].
  inversion ND; subst. destruct (Nat.eqb_spec i j) as [->|]; [|rewrite IH; auto].
  exfalso. apply H1. rewrite map_app. apply in_or_app. right. left. reflexivity.
Qed.

Lemma back_loop fuel : forall c p s, inv c -> klist c = p ++ s -> length p <= fuel ->
  exists c', for_each_reversed keq fuel c (first s) (fun k => [CFind k]) =
             Val (c', met_backwards keq (length p) (values c)) /\ csize c' = csize c.
Proof.
  induction fuel as [|fuel IH]; intros c p s G L LE; destruct p as [|x p'] using rev_ind;
    try (rewrite app_length in LE; cbn in LE; lia).
  - cbn [app] in L. rewrite <- L. cbn [for_each_reversed]. rewrite first_begin_nil. cbn. eauto.
  - cbn [app] in L. rewrite <- L. cbn [for_each_reversed]. rewrite first_begin_nil. cbn. eauto.
  - clear IHp'. destruct x as [i k]. pose proof G as (N1 & N2 & _).
    cbn [for_each_reversed].
    assert (B : iter_eqb (first s) (begin_ c) = false).
    { destruct p' as [|y p']; eapply first_begin; eauto. }
    rewrite B. rewrite <- app_assoc in L. cbn [app] in L.
    unfold prev. rewrite L in N1.
    rewrite L, (prev_app _ _ _ _ N1). cbn [bind deref].
    rewrite <- L in N1.
    assert (HI : In (i, k) (klist c)) by (rewrite L; apply in_or_app; right; left; reflexivity).
    rewrite (deref_in _ i k N1 HI). cbn [bind].
    assert (NTH : nth_error (values c) (length p') = Some k).
    { unfold values. rewrite L, map_app. rewrite nth_error_app2 by (rewrite map_length; lia).
      rewrite map_length, Nat.sub_diag. reflexivity. }
    rewrite app_length in LE |- *. cbn [length] in LE |- *. rewrite Nat.add_1_r. cbn [met_backwards]. rewrite NTH.
    pose proof (step_refines keq c (CFind k) G) as S. cbn [rstep abs] in S.
    assert (IN : mem keq k (values c) = true) by (apply mem_true; eapply in_snd; eauto).
    rewrite IN in S. destruct S as (c1 & E & AB & G1). cbn [crun]. rewrite E. cbn [bind].
    apply abs_fields in AB. cbn [keys] in AB. destruct AB as (V1 & _). rewrite <- V1.
    assert (SZ1 : length (klist c1) = length (klist c)).
    { apply (f_equal (@length _)) in V1. cbn [length] in V1.
      pose proof (without_length keq k (values c) N2 (in_snd _ _ _ HI)) as W. rewrite W in V1.
      unfold values in V1. rewrite !map_length in V1. exact V1. }
    cbn [cstep] in E. destruct (find keq c k) as [[c1' [b x]]| | |] eqn:FD; cbn in E; try discriminate.
    injection E as -> _ _.
    assert (exists q, klist c1 = q ++ s /\ q <> []) as (q & L1 & QN).
    { destruct (find_nodes _ _ _ _ G FD) as [(A & _)|(i' & HI' & _ & A & _)].
      - exists (p' ++ [(i, k)]). rewrite A, L, <- app_assoc. split; [reflexivity|]. destruct p'; discriminate.
      - assert (i' = i) as -> by (apply (good_key_id c _ _ k G); assumption).
        rewrite L in N1. rewrite A, L, (erase_mid _ _ _ _ N1). exists ((fresh c, k) :: p'). split; [reflexivity|discriminate]. }
    assert (LQ : length q = S (length p')).
    { rewrite L1, L in SZ1. rewrite !app_length in SZ1. cbn in SZ1. lia. }
    destruct q as [|[j kj] q _] using rev_ind; [congruence|].
    rewrite app_length in LQ. cbn in LQ. rewrite <- app_assoc in L1. cbn [app] in L1.
    pose proof G1 as (N1' & _). rewrite L1 in N1' |- *. rewrite (prev_app _ _ _ _ N1'). cbn [bind].
    change (At j) with (first ((j, kj) :: s)).
    destruct (IH c1 q ((j, kj) :: s) G1 L1 ltac:(lia)) as (c' & E' & SZ'). rewrite E'. cbn [bind].
    exists c'. replace (length p') with (length q) by lia. split; [reflexivity|].
    rewrite SZ'. unfold csize, sizeN. lia.
Qed.

Lemma without_app y : forall l m, ~ In y m -> NoDup l -> without keq y (l ++ m) = without keq y l ++ m.
Proof.
  unfold without. intros l m NI _. rewrite remove_app. f_equal. apply notin_remove. assumption.
Qed.

Lemma met_length d : forall l, NoDup l -> d <= length l -> length (met_backwards keq d l) = d.
Proof.
  induction d as [|d IH]; intros l ND LE; cbn; [reflexivity|].
  destruct (nth_error l d) as [k|] eqn:E; [|apply nth_error_None in E; lia].
  cbn. f_equal. apply nth_error_In in E. apply IH.
  - constructor; [rewrite without_in; tauto|apply without_NoDup; assumption].
  - pose proof (without_length keq k l ND E). cbn. lia.
Qed.

Lemma met_S d l : met_backwards keq (S d) l =
  match nth_error l d with None => [] | Some k => k :: met_backwards keq d (k :: without keq k l) end.
Proof. reflexivity. Qed.

Lemma met_not_last y d : forall l, NoDup (l ++ [y]) -> d <= length l ->
  ~ In y (met_backwards keq d (l ++ [y])).
Proof.
  induction d as [|d IH]; intros l ND LE; cbn; [tauto|].
  rewrite nth_error_app1 by lia.
  destruct (nth_error l d) as [k|] eqn:E; [|tauto]. apply nth_error_In in E.
  assert (NE : k <> y).
  { intros ->. apply NoDup_remove_2 in ND. apply ND. rewrite app_nil_r. assumption. }
  assert (NDl : NoDup l) by (apply NoDup_remove_1 in ND; rewrite app_nil_r in ND; assumption).
  intros [X|X]; [congruence|].
  rewrite without_app in X by (try assumption; cbn; intros [->|[]]; congruence).
  change (k :: without keq k l ++ [y]) with ((k :: without keq k l) ++ [y]) in X.
  revert X. apply IH.
  - assert (NY : ~ In y l) by (apply NoDup_remove_2 in ND; rewrite app_nil_r in ND; assumption).
    cbn. constructor.
    + rewrite in_app_iff, without_in. cbn. intros [[_ []]|[->|[]]]; congruence.
    + clear IH LE E NE. assert (H : NoDup (without keq k l)) by (apply without_NoDup; assumption).
      assert (NW : ~ In y (without keq k l)) by (rewrite without_in; tauto).
      induction (without keq k l) as [|z w IHw]; cbn; [constructor; [tauto|constructor]|].
      inversion H; subst. cbn in NW. constructor; [rewrite in_app_iff; cbn; intros [?|[->|[]]]; tauto|]. apply IHw; tauto.
  - pose proof (without_length keq k l NDl E). cbn. lia.
Qed.

Theorem reversed_loop_that_looks_up c fuel : reached c -> length (values c) <= fuel ->
  exists c', for_each_reversed keq fuel c (end_ c) (fun k => [CFind k]) =
             Val (c', met_backwards keq (length (values c)) (values c)) /\
    length (met_backwards keq (length (values c)) (values c)) = length (values c) /\
    forall l y z, values c = l ++ [y; z] -> ~ In y (met_backwards keq (length (values c)) (values c)).
Proof.
  intros R LE. destruct (reached_inv keq c R) as [G [ND _]]. cbn [keys abs] in ND.
  destruct (back_loop fuel c (klist c) [] G) as (c' & E & _).
  - rewrite app_nil_r. reflexivity.
  - unfold values in LE. rewrite map_length in LE. assumption.
  - assert (LN : length (klist c) = length (values c)) by (unfold values; rewrite map_length; reflexivity).
    rewrite LN in E. exists c'. split; [exact E|]. split; [apply met_length; auto|].
    intros l y z V. rewrite V in *. rewrite app_length in *. cbn [length] in *.
    replace (length l + 2) with (S (length (z :: l))) by (cbn; lia). rewrite met_S.
    assert (NTH : nth_error (l ++ [y; z]) (S (length l)) = Some z).
    { rewrite nth_error_app2 by lia. replace (S (length l) - length l) with 1 by lia. reflexivity. }
    change (S (length l)) with (length (z :: l)) in NTH. rewrite NTH.
    assert (NZ : z <> y /\ ~ In z l /\ ~ In y l /\ NoDup l).
    { clear -ND. induction l as [|x l IH]; cbn in *.
      - inversion ND; subst. repeat split; try tauto; [intros ->; apply H1; left; reflexivity|constructor].
      - inversion ND; subst. destruct (IH H2) as (A & B & C & D). rewrite in_app_iff in H1. cbn in H1.
        repeat split; [assumption| | |constructor; tauto]; intros [->|?]; tauto. }
    destruct NZ as (A & B & C & D). intros [X|X]; [congruence|].
    assert (W : without keq z (l ++ [y; z]) = l ++ [y]).
    { unfold without. rewrite remove_app, notin_remove by assumption. cbn.
      destruct (keq z y); [congruence|]. destruct (keq z z); [reflexivity|congruence]. }
    rewrite W in X. change (z :: l ++ [y]) with ((z :: l) ++ [y]) in X.
    revert X. apply met_not_last; [|reflexivity].
    cbn. constructor; [rewrite in_app_iff; cbn; intros [?|[->|[]]]; tauto|].
    clear -C D. induction l as [|x l IH]; cbn; [constructor; [tauto|constructor]|].
    inversion D; subst. cbn in C. constructor; [rewrite in_app_iff; cbn; intros [?|[->|[]]]; tauto|]. apply IH; tauto.
Qed.

End Proofs.
