(** Refinement of the cache model (LruModel.v) to the recency list (LruSpec.v). *)
Require Import List NArith Bool Arith Lia Permutation.
Require Import Verif.Base Verif.LruModel Verif.LruSpec.
Import ListNotations.

Section Proofs.
Context {K : Type} (keq : forall a b : K, {a = b} + {a <> b}).
Notation cache := (cache K).
Notation mem := (mem keq).
Notation without := (without keq).

Definition abs (c : cache) : recency K :=
  mkR (values c) (max_elements c) (clipped_values c) (last_result c).

Definition good (m : list (K * node_id)) (l : list (node_id * K)) (f : node_id) : Prop :=
  NoDup (map fst l) /\ NoDup (map snd l) /\
  (forall i k, In (i, k) l -> i < f) /\
  (forall k i, map_find keq m k = Some i <-> In (i, k) l).

Definition inv (c : cache) : Prop := good (kmap c) (klist c) (fresh c).

Lemma map_find_erase m k k' :
  map_find keq (map_erase keq m k) k' = if keq k' k then None else map_find keq m k'.
Proof.
  unfold map_erase. induction m as [|[k0 i] m IH]; cbn.
  - destruct (keq k' k); reflexivity.
  - destruct (keq k k0) as [->|N]; cbn.
    + rewrite IH. destruct (keq k' k0); reflexivity.
    + rewrite IH. destruct (keq k' k0) as [->|]; [|reflexivity].
      destruct (keq k0 k); congruence.
Qed.

Lemma map_find_set m k i k' :
  map_find keq (map_set keq m k i) k' = if keq k' k then Some i else map_find keq m k'.
Proof.
  unfold map_set; cbn. destruct (keq k' k); [reflexivity|].
  rewrite map_find_erase. destruct (keq k' k); congruence.
Qed.

Lemma in_fst (l : list (node_id * K)) i k : In (i, k) l -> In i (map fst l).
Proof. intros H. apply (in_map fst _ _ H). Qed.
Lemma in_snd (l : list (node_id * K)) i k : In (i, k) l -> In k (map snd l).
Proof. intros H. apply (in_map snd _ _ H). Qed.
Lemma in_snd_ex (l : list (node_id * K)) k : In k (map snd l) -> exists i, In (i, k) l.
Proof. intros H. apply in_map_iff in H. destruct H as ([i k'] & E & H). cbn in E; subst. eauto. Qed.

Lemma deref_in l i k : NoDup (map fst l) -> In (i, k) l -> @list_deref K l i = Some k.
Proof.
  induction l as [|[j k'] l IH]; cbn; intros ND HI; [contradiction|].
  inversion ND; subst. destruct HI as [E|HI].
  - injection E as -> ->. rewrite Nat.eqb_refl. reflexivity.
  - destruct (Nat.eqb_spec i j) as [->|]; [|auto].
    exfalso; apply H1; eapply in_fst; eauto.
Qed.

Lemma deref_some l i k : @list_deref K l i = Some k -> In (i, k) l.
Proof.
  induction l as [|[j k'] l IH]; cbn; [discriminate|].
  destruct (Nat.eqb_spec i j) as [->|]; [|auto].
  intros E; injection E as ->; auto.
Qed.

Lemma erase_in l i j k : NoDup (map fst l) ->
  In (j, k) (@list_erase K l i) <-> In (j, k) l /\ j <> i.
Proof.
  induction l as [|[j0 k0] l IH]; cbn; intros ND; [tauto|].
  inversion ND; subst. destruct (Nat.eqb_spec i j0) as [->|N].
  - split.
    + intros H. split; [auto|]. intros ->. apply H1. eapply in_fst; eauto.
    + intros [[E|H] NE]; [injection E; congruence|auto].
  - cbn. rewrite IH by assumption. split.
    + intros [E|[H NE]]; [injection E as <- <-; auto|auto].
    + intros [[E|H] NE]; auto.
Qed.

Lemma erase_fst l i : NoDup (map fst l) -> NoDup (map fst (@list_erase K l i)).
Proof.
  induction l as [|[j0 k0] l IH]; cbn; intros ND; [constructor|].
  inversion ND; subst. destruct (Nat.eqb_spec i j0) as [->|N]; [assumption|].
  cbn. constructor; [|auto]. intros H. apply in_map_iff in H.
  destruct H as ([j k] & E & H). cbn in E; subst j. apply erase_in in H; [|assumption].
  destruct H as [H _]. apply H1. eapply in_fst; eauto.
Qed.

Lemma without_notin k l : ~ In k l -> without k l = l.
Proof. unfold LruSpec.without. intros H. apply notin_remove; assumption. Qed.

Lemma erase_snd l i k : NoDup (map fst l) -> NoDup (map snd l) -> In (i, k) l ->
  map snd (@list_erase K l i) = without k (map snd l).
Proof.
  induction l as [|[j0 k0] l IH]; cbn; intros N1 N2 HI; [contradiction|].
  inversion N1; inversion N2; subst. destruct HI as [E|HI].
  - injection E as -> ->. rewrite Nat.eqb_refl. destruct (keq k k); [|congruence].
    symmetry; apply without_notin; assumption.
  - destruct (Nat.eqb_spec i j0) as [->|N]; [exfalso; apply H1; eapply in_fst; eauto|].
    destruct (keq k k0) as [->|]; [exfalso; apply H5; eapply in_snd; eauto|].
    cbn. f_equal. apply IH; assumption.
Qed.

Lemma without_NoDup k l : NoDup l -> NoDup (without k l).
Proof.
  unfold LruSpec.without. induction 1; cbn; [constructor|].
  destruct (keq k x); [assumption|]. constructor; [|assumption].
  intros H'. apply in_remove in H'. tauto.
Qed.

Lemma without_in k l x : In x (without k l) <-> In x l /\ x <> k.
Proof.
  unfold LruSpec.without. split; [apply in_remove|]. intros [H N]. apply in_in_remove; auto.
Qed.

Lemma contains_mem c k : inv c -> contains keq c k = mem k (values c).
Proof.
  intros (_ & _ & _ & M). unfold contains, LruSpec.mem, values.
  destruct (map_find keq (kmap c) k) as [i|] eqn:E; destruct (in_dec keq k _) as [I|I];
    try reflexivity; exfalso.
  - apply I. apply M in E. eapply in_snd; eauto.
  - apply in_snd_ex in I. destruct I as [i I]. apply M in I. congruence.
Qed.

Lemma good_inj m l f k i j : good m l f -> In (i, k) l -> In (j, k) l -> i = j.
Proof. intros (_ & _ & _ & M) A B. apply M in A. apply M in B. congruence. Qed.

(** pushing a new key in front *)
Lemma good_push m l f k : good m l f -> ~ In k (map snd l) ->
  good (map_set keq m k f) ((f, k) :: l) (S f).
Proof.
  intros (N1 & N2 & B & M) NI. split; [|split; [|split]].
  - cbn. constructor; [|assumption]. intros H. apply in_map_iff in H.
    destruct H as ([j k'] & E & H). cbn in E. subst. apply B in H. lia.
  - cbn. constructor; assumption.
  - intros i k' [E|H]; [injection E as <- <-; lia|]. apply B in H; lia.
  - intros k' i. rewrite map_find_set. cbn. destruct (keq k' k) as [->|N].
    + split; [intros E; injection E as <-; auto|].
      intros [E|H]; [congruence|]. exfalso; apply NI; eapply in_snd; eauto.
    + rewrite M. split; [auto|]. intros [E|H]; [congruence|assumption].
Qed.

(** erasing a node together with its map entry *)
Lemma good_erase m l f k i : good m l f -> In (i, k) l ->
  good (map_erase keq m k) (list_erase l i) f.
Proof.
  intros G HI. pose proof G as (N1 & N2 & B & M). split; [|split; [|split]].
  - apply erase_fst; assumption.
  - erewrite erase_snd by eauto. apply without_NoDup; assumption.
  - intros j k' H. apply erase_in in H; [|assumption]. apply (B _ _ (proj1 H)).
  - intros k' j. rewrite map_find_erase, erase_in by assumption.
    destruct (keq k' k) as [->|N].
    + split; [discriminate|]. intros [H NE]. elim NE. eapply good_inj; eauto.
    + rewrite M. split; [|tauto]. intros H. split; [assumption|]. intros ->.
      apply N. pose proof (deref_in _ _ _ N1 H). pose proof (deref_in _ _ _ N1 HI). congruence.
Qed.

Lemma good_touch m l f k i : good m l f -> In (i, k) l ->
  good (map_set keq m k f) ((f, k) :: list_erase l i) (S f).
Proof.
  intros G HI. pose proof (good_erase _ _ _ _ _ G HI) as G'.
  pose proof G as (N1 & N2 & B & M).
  assert (NI : ~ In k (map snd (list_erase l i))).
  { erewrite erase_snd by eauto. rewrite without_in. tauto. }
  pose proof (good_push _ _ _ _ G' NI) as (A1 & A2 & A3 & A4).
  split; [|split; [|split]]; try assumption.
  intros k' j. rewrite <- A4, !map_find_set. destruct (keq k' k) eqn:E; [reflexivity|].
  rewrite map_find_erase, E. reflexivity.
Qed.

Lemma move_to_front_spec c i k : inv c -> In (i, k) (klist c) ->
  exists c', move_to_front keq c i = Val c' /\ inv c' /\
    values c' = k :: without k (values c) /\ hd_error (klist c') <> None /\
    max_elements c' = max_elements c /\ clipped_values c' = clipped_values c /\
    last_result c' = last_result c.
Proof.
  intros G HI. pose proof G as (N1 & N2 & B & M).
  unfold move_to_front. destruct (klist c) as [|[j k0] l] eqn:EL; [contradiction|].
  destruct (Nat.eqb_spec i j) as [->|N].
  - exists c. rewrite EL. split; [reflexivity|]. split; [assumption|].
    assert (k = k0).
    { pose proof (deref_in _ _ _ N1 HI) as D. cbn in D. rewrite Nat.eqb_refl in D. congruence. }
    subst k0. unfold values. rewrite EL. cbn. cbn in N2. inversion N2; subst.
    destruct (keq k k); [|congruence].
    split; [f_equal; symmetry; apply without_notin; assumption|].
    repeat split. discriminate.
  - rewrite (deref_in _ _ _ N1 HI). eexists. split; [reflexivity|].
    unfold inv in G. rewrite EL in G.
    split; [|split; [|repeat split; discriminate]].
    + unfold inv; cbn [kmap klist fresh]. apply good_touch; assumption.
    + unfold values. cbn [klist map snd]. f_equal. rewrite EL. apply erase_snd; assumption.
Qed.

Lemma find_spec c k : inv c ->
  (mem k (values c) = true -> exists c', find keq c k = Val (c', (true, Some k)) /\ inv c' /\
    abs c' = mkR (k :: without k (values c)) (max_elements c) (clipped_values c) (last_result c)) /\
  (mem k (values c) = false -> find keq c k = Val (c, (false, None))).
Proof.
  intros G. rewrite <- contains_mem by assumption. unfold contains, find.
  destruct (map_find keq (kmap c) k) as [i|] eqn:E; split; intros H; try discriminate; [|reflexivity].
  pose proof G as (_ & _ & _ & M). apply M in E.
  destruct (move_to_front_spec c i k G E) as (c' & R & G' & V & HD & Hm & Hc & Hl).
  rewrite R. cbn [bind]. exists c'. split; [|split; [assumption|unfold abs; congruence]].
  unfold values in V. destruct (klist c') as [|[j k'] l']; [discriminate|].
  cbn in V. injection V as -> _. reflexivity.
Qed.

Lemma keep_all n (l : list K) : (sizeN l <= n)%N -> keep n l = l.
Proof. unfold keep, sizeN. intros H. apply firstn_all2. lia. Qed.
Lemma dropped_none n (l : list K) : (sizeN l <= n)%N -> dropped n l = [].
Proof. unfold dropped, sizeN. intros H. rewrite skipn_all2 by lia. reflexivity. Qed.
Lemma keep_snoc n (l : list K) x : (n < sizeN (l ++ [x]))%N -> keep n (l ++ [x]) = keep n l.
Proof.
  unfold keep, sizeN. rewrite app_length; cbn. intros H. rewrite firstn_app.
  replace (N.to_nat n - length l) with 0 by lia. cbn. apply app_nil_r.
Qed.
Lemma dropped_snoc n (l : list K) x :
  (n < sizeN (l ++ [x]))%N -> dropped n (l ++ [x]) = x :: dropped n l.
Proof.
  unfold dropped, sizeN. rewrite app_length; cbn. intros H. rewrite skipn_app.
  replace (N.to_nat n - length l) with 0 by lia. cbn [skipn]. rewrite rev_app_distr. reflexivity.
Qed.

Lemma erase_last (l : list (node_id * K)) i k : NoDup (map fst (l ++ [(i, k)])) ->
  list_erase (l ++ [(i, k)]) i = l.
Proof.
  induction l as [|[j k'] l IH]; cbn; intros ND.
  - rewrite Nat.eqb_refl. reflexivity.
  - inversion ND; subst. destruct (Nat.eqb_spec i j) as [->|].
    + exfalso. apply H1. rewrite map_app. apply in_or_app. right. cbn. auto.
    + f_equal. auto.
Qed.

Lemma clip_loop_spec fuel : forall c log, inv c ->
  (length (klist c) <= fuel + N.to_nat (max_elements c)) ->
  exists c', clip_loop keq fuel c log = Val (c', log ++ dropped (max_elements c) (values c)) /\
    inv c' /\
    abs c' = mkR (keep (max_elements c) (values c)) (max_elements c)
                 (clipped_values c + sizeN (dropped (max_elements c) (values c))) (last_result c).
Proof.
  assert (SV : forall c : cache, csize c = sizeN (values c)).
  { intros c. unfold csize, sizeN, values. rewrite map_length. reflexivity. }
  induction fuel as [|fuel IH]; intros c log G L; cbn [clip_loop];
    destruct (N.ltb_spec (max_elements c) (csize c)) as [H|H].
  - exfalso. unfold csize, sizeN in H. lia.
  - exists c. rewrite SV in H. rewrite dropped_none, keep_all, app_nil_r by assumption.
    split; [reflexivity|]. split; [assumption|]. unfold abs, sizeN; cbn. f_equal. lia.
  - destruct (rev (klist c)) as [|[i back] r] eqn:ER.
    + exfalso. apply (f_equal (@rev _)) in ER. rewrite rev_involutive in ER.
      unfold csize in H. rewrite ER in H. cbn in H. lia.
    + apply (f_equal (@rev _)) in ER. rewrite rev_involutive in ER. cbn in ER.
      pose proof G as (N1 & _). rewrite ER in N1.
      rewrite SV in H. unfold values in H |- *. rewrite ER in H |- *. rewrite map_app in H |- *.
      cbn [map snd] in H |- *.
      rewrite removelast_last, dropped_snoc, keep_snoc by assumption.
      edestruct IH as (c' & R & G' & A).
      3: { rewrite R. exists c'. split; [|split].
           - unfold values. cbn [max_elements klist]. rewrite <- app_assoc. reflexivity.
           - exact G'.
           - rewrite A. unfold values. cbn [max_elements klist clipped_values last_result].
             f_equal. unfold sizeN. cbn [length]. lia. }
      * unfold inv in *. cbn [kmap klist fresh]. rewrite ER in G.
        rewrite <- (erase_last (rev r) i back N1) at 1.
        apply good_erase; [assumption|]. apply in_or_app; right; cbn; auto.
      * cbn [klist max_elements]. apply (f_equal (@length _)) in ER.
        rewrite app_length in ER. cbn in ER. lia.
  - exists c. rewrite SV in H. rewrite dropped_none, keep_all, app_nil_r by assumption.
    split; [reflexivity|]. split; [assumption|]. unfold abs, sizeN; cbn. f_equal. lia.
Qed.

Lemma clip_spec c : inv c ->
  exists c', clip keq c = Val (c', dropped (max_elements c) (values c)) /\ inv c' /\
    abs c' = mkR (keep (max_elements c) (values c)) (max_elements c)
                 (sizeN (dropped (max_elements c) (values c))) (last_result c).
Proof.
  intros G. unfold clip.
  match goal with |- context [clip_loop _ ?f ?d _] =>
    destruct (clip_loop_spec f d [] G) as (c' & R & G' & A) end.
  - cbn. lia.
  - exists c'. rewrite R. split; [reflexivity|]. split; [assumption|].
    rewrite A. cbn [max_elements clipped_values last_result]. unfold values. cbn [klist]. reflexivity.
Qed.

Lemma mem_true k l : mem k l = true <-> In k l.
Proof. unfold LruSpec.mem. destruct (in_dec keq k l); split; congruence. Qed.
Lemma mem_false k l : mem k l = false <-> ~ In k l.
Proof. unfold LruSpec.mem. destruct (in_dec keq k l); split; congruence. Qed.

Lemma inv_set_last c b : inv c -> inv (set_last c b).
Proof. intros H; exact H. Qed.

Lemma add_spec c k : inv c ->
  (mem k (values c) = true -> add keq c k = Val (set_last c false, [])) /\
  (mem k (values c) = false ->
   exists c', add keq c k = Val (c', dropped (max_elements c) (k :: values c)) /\ inv c' /\
     abs c' = mkR (keep (max_elements c) (k :: values c)) (max_elements c)
                  (sizeN (dropped (max_elements c) (k :: values c))) true).
Proof.
  intros G. unfold add. rewrite contains_mem by assumption. split; intros H; rewrite H; cbn [negb].
  - reflexivity.
  - apply mem_false in H.
    match goal with |- context [clip keq ?d] =>
      destruct (clip_spec d) as (c' & R & G' & A) end.
    + apply good_push; assumption.
    + rewrite R. cbn [bind]. exists (set_last c' true). split; [reflexivity|].
      split; [exact G'|]. unfold abs in *. injection A as A1 A2 A3 A4.
      unfold set_last, values in *. cbn in *. rewrite A1, A2, A3. reflexivity.
Qed.

Lemma keep_pos n k (l : list K) : n <> 0%N -> keep n (k :: l) = k :: keep (n - 1) l.
Proof.
  intros H. unfold keep. replace (N.to_nat n) with (S (N.to_nat (n - 1))) by lia. reflexivity.
Qed.

Lemma abs_fields c s : abs c = s -> values c = keys s /\ max_elements c = cap s /\
  clipped_values c = rep_clipped s /\ last_result c = rep_last s.
Proof. intros <-. repeat split. Qed.

Lemma firstn_in {A} n : forall (l : list A) x, In x (firstn n l) -> In x l.
Proof.
  induction n; intros [|y l] x H; cbn in *; try contradiction. destruct H; auto.
Qed.

Theorem step_refines c o : inv c ->
  match rstep keq (abs c) o with
  | None => cstep keq c o = UB
  | Some (s', r, log) => exists c', cstep keq c o = Val (c', r, log) /\ abs c' = s' /\ inv c'
  end.
Proof.
  intros G. pose proof G as (N1 & N2 & B & M).
  unfold abs at 1. destruct o as [k|k|k|k| |n|k| | | | | | | | |]; cbn [rstep cstep].
  - exists c. rewrite contains_mem by assumption. auto.
  - destruct (find_spec c k G) as [F1 F2]. destruct (mem k (values c)) eqn:E.
    + destruct F1 as (c' & R & G' & A); [reflexivity|]. rewrite R. cbn [bind].
      exists c'. auto.
    + rewrite F2 by reflexivity. exists c. auto.
  - unfold index. rewrite contains_mem by assumption. destruct (mem k (values c)) eqn:E; cbn [negb bind].
    + destruct (find_spec (set_last c false) k G) as [F1 _].
      destruct F1 as (c' & R & G' & A); [exact E|]. rewrite R. cbn [bind].
      exists c'. split; [reflexivity|]. split; [exact A|assumption].
    + destruct (add_spec c k G) as [_ A2]. destruct A2 as (c' & R & G' & A); [assumption|].
      rewrite R. cbn [bind].
      pose proof (abs_fields _ _ A) as (AV & AM & AC & AL).
      cbn [keys cap rep_clipped rep_last] in *.
      destruct (find_spec c' k G') as [F1 F2].
      destruct (N.eqb_spec (max_elements c) 0) as [Z|NZ].
      * rewrite F2; [reflexivity|]. rewrite AV, Z. cbn. reflexivity.
      * rewrite keep_pos in AV by assumption.
        destruct F1 as (c2 & R2 & G2 & A2).
        { apply mem_true. rewrite AV. cbn; auto. }
        rewrite R2. cbn [bind]. exists c2. split; [reflexivity|]. split; [|assumption].
        rewrite A2, AV, AM, AC, AL. rewrite (keep_pos _ k (values c)) by assumption.
        f_equal. f_equal. cbn. destruct (keq k k); [|congruence]. apply without_notin.
        apply mem_false in E. intros H. apply E. unfold keep in H. eapply firstn_in; eauto.
  - destruct (add_spec c k G) as [A1 A2]. destruct (mem k (values c)) eqn:E.
    + rewrite A1 by reflexivity. cbn [bind]. exists (set_last c false). auto.
    + destruct A2 as (c' & R & G' & A); [reflexivity|]. rewrite R. cbn [bind]. exists c'. auto.
  - destruct (clip_spec c G) as (c' & R & G' & A). rewrite R. cbn [bind]. exists c'. auto.
  - unfold set_capacity.
    match goal with |- context [clip keq ?d] =>
      destruct (clip_spec d G) as (c' & R & G' & A) end.
    rewrite R. cbn [bind]. exists c'. split; [reflexivity|]. split; [exact A|assumption].
  - unfold remove. pose proof (contains_mem c k G) as C. unfold contains in C.
    destruct (map_find keq (kmap c) k) as [i|] eqn:E.
    + apply M in E. rewrite (deref_in _ _ _ N1 E). cbn [bind]. eexists. split; [reflexivity|].
      rewrite <- C. split.
      * unfold abs, values. cbn [klist max_elements clipped_values last_result].
        f_equal. apply erase_snd; assumption.
      * apply good_erase; assumption.
    + cbn [bind]. eexists. split; [reflexivity|]. rewrite <- C. split; [|exact G].
      unfold abs. cbn. f_equal. rewrite without_notin; [reflexivity|].
      apply mem_false. congruence.
  - exists (clear c). split; [reflexivity|]. split; [reflexivity|].
    unfold inv, clear, good; cbn. repeat split; try constructor; intros; try contradiction; discriminate.
  - exists c. unfold csize, sizeN, values. rewrite map_length. auto.
  - exists c; auto.
  - exists c; auto.
  - exists c; auto.
  - exists c; auto.
  - exists c. split; [|auto]. f_equal. f_equal. f_equal. f_equal. unfold is_empty, csize, sizeN, values.
    destruct (klist c); reflexivity.
  - unfold most_recent, values. destruct (klist c) as [|[i k] l] eqn:E; cbn; [reflexivity|].
    exists c. unfold abs, values. rewrite E. auto.
  - unfold least_recent, values. rewrite <- map_rev. destruct (rev (klist c)) as [|[i k] l] eqn:E; cbn; [reflexivity|].
    exists c. auto.
Qed.

Theorem run_refines ops : forall c, inv c ->
  match rrun keq (abs c) ops with
  | None => crun keq c ops = UB
  | Some (s', rs) => exists c', crun keq c ops = Val (c', rs) /\ abs c' = s' /\ inv c'
  end.
Proof.
  induction ops as [|o ops IH]; intros c G; cbn [rrun crun]; [exists c; auto|].
  pose proof (step_refines c o G) as S.
  destruct (rstep keq (abs c) o) as [[[s' r] log]|].
  - destruct S as (c' & R & A & G'). rewrite R. cbn [bind]. specialize (IH c' G'). rewrite A in IH.
    destruct (rrun keq s' ops) as [[s'' rs]|].
    + destruct IH as (c'' & R' & A' & G''). rewrite R'. cbn [bind]. exists c''. auto.
    + rewrite IH. reflexivity.
  - rewrite S. reflexivity.
Qed.

(** The initial states. *)
Lemma inv_nil n cl la f : inv (mkC n cl la [] [] f).
Proof. unfold inv, good; cbn. repeat split; try constructor; intros; try contradiction; discriminate. Qed.

Definition started (c : cache) : Prop :=
  c = cache_default \/ exists n, cache_of keq n = Val c.

Lemma cache_of_spec n : exists c, cache_of keq n = Val c /\ inv c /\ abs c = mkR [] n 0 false.
Proof.
  unfold cache_of, set_capacity.
  match goal with |- context [clip keq ?d] =>
      destruct (clip_spec d (inv_nil _ _ _ _)) as (c' & R & G' & A) end.
  rewrite R. cbn [bind]. exists c'. split; [reflexivity|]. split; [assumption|].
  rewrite A. unfold values; cbn. unfold keep, dropped. rewrite firstn_nil, skipn_nil. reflexivity.
Qed.

Lemma started_inv c : started c -> inv c /\ exists n, abs c = mkR [] n 0 false.
Proof.
  intros [->|[n E]].
  - split; [apply inv_nil|]. exists 1024%N. reflexivity.
  - destruct (cache_of_spec n) as (c' & E' & G & A). rewrite E in E'. injection E' as ->. eauto.
Qed.

(** [reached c]: the result of some history of public calls. *)
Definition reached (c : cache) : Prop :=
  exists c0 ops rs, started c0 /\ crun keq c0 ops = Val (c, rs).

(** Spec-level invariants: no duplicates, at most [cap] keys. *)
Definition rgood (s : recency K) : Prop := NoDup (keys s) /\ (sizeN (keys s) <= cap s)%N.

Lemma NoDup_firstn {A} n : forall l : list A, NoDup l -> NoDup (firstn n l).
Proof.
  induction n; intros l ND; [constructor|]. destruct ND; cbn; [constructor|].
  constructor; [|auto]. intros H'. apply H. eapply firstn_in; eauto.
Qed.

Lemma keep_size n (l : list K) : (sizeN (keep n l) <= n)%N.
Proof. unfold sizeN, keep. pose proof (firstn_le_length (N.to_nat n) l). rewrite firstn_length. lia. Qed.

Lemma without_length k (l : list K) : NoDup l -> In k l -> S (length (without k l)) = length l.
Proof.
  unfold LruSpec.without.
  induction 1; cbn; intros HI; [contradiction|]. destruct (keq k x) as [->|].
  - rewrite notin_remove by assumption. reflexivity.
  - cbn. f_equal. apply IHNoDup. destruct HI; congruence.
Qed.

Lemma without_length_le k (l : list K) : length (without k l) <= length l.
Proof. unfold LruSpec.without. apply remove_length_le. Qed.

Lemma rstep_good s o s' r log : rgood s -> rstep keq s o = Some (s', r, log) -> rgood s'.
Proof.
  destruct s as [l n cl la]. intros [ND SZ] H. cbn [keys cap] in *.
  assert (TOUCH : forall k, mem k l = true -> NoDup (k :: without k l) /\ (sizeN (k :: without k l) <= n)%N).
  { intros k E. apply mem_true in E. split.
    - constructor; [rewrite without_in; tauto|apply without_NoDup; assumption].
    - pose proof (without_length k l ND E). unfold sizeN in *. cbn [length]. lia. }
  destruct o as [k|k|k|k| |m|k| | | | | | | | |]; cbn [rstep] in H;
    repeat match type of H with
    | context [if mem ?k ?l then _ else _] => destruct (mem k l) eqn:?
    | context [if N.eqb ?a ?b then _ else _] => destruct (N.eqb_spec a b)
    | context [match ?x with [] => _ | _ :: _ => _ end] => destruct x
    | Some _ = Some _ => injection H as <- <- <-
    end; try discriminate; unfold rgood; cbn [keys cap]; auto;
    try (apply TOUCH; assumption);
    try (split; [apply NoDup_firstn; assumption|apply keep_size]);
    try (split; [apply NoDup_firstn; constructor; [apply mem_false|]; assumption
                |apply keep_size]).
  - split; [apply without_NoDup; assumption|].
    pose proof (without_length_le k l). unfold sizeN in *. lia.
  - split; [constructor|]. unfold sizeN; cbn; lia.
Qed.

Lemma rrun_good ops : forall s s' rs, rgood s -> rrun keq s ops = Some (s', rs) -> rgood s'.
Proof.
  induction ops as [|o ops IH]; intros s s' rs G H; cbn in H; [injection H as <- <-; assumption|].
  destruct (rstep keq s o) as [[[s1 r] log]|] eqn:E; [|discriminate].
  destruct (rrun keq s1 ops) as [[s2 rs2]|] eqn:E2; [|discriminate]. injection H as <- <-.
  eapply IH; [|eauto]. eapply rstep_good; eauto.
Qed.

Lemma reached_inv c : reached c -> inv c /\ rgood (abs c).
Proof.
  intros (c0 & ops & rs & S & R). destruct (started_inv _ S) as [G [n A]].
  pose proof (run_refines ops c0 G) as RR. rewrite A in RR.
  destruct (rrun keq (mkR [] n 0%N false) ops) as [[s' rs']|] eqn:E.
  - destruct RR as (c' & R' & A' & G'). rewrite R in R'. injection R' as -> ->.
    split; [assumption|]. rewrite A'. eapply rrun_good; [|eauto].
    split; cbn; [constructor|unfold sizeN; cbn; lia].
  - congruence.
Qed.

Lemma crun_app a : forall c b c1 r1 c2 r2, crun keq c a = Val (c1, r1) -> crun keq c1 b = Val (c2, r2) ->
  crun keq c (a ++ b) = Val (c2, r1 ++ r2).
Proof.
  induction a as [|o a IH]; intros c b c1 r1 c2 r2 H1 H2; cbn in *.
  - injection H1 as -> <-. assumption.
  - destruct (cstep keq c o) as [[[c' r] log]| | |]; cbn in *; try discriminate.
    destruct (crun keq c' a) as [[c'' rs]| | |] eqn:E; cbn in *; try discriminate.
    injection H1 as -> <-. rewrite (IH _ _ _ _ _ _ E H2). reflexivity.
Qed.

Lemma reached_step c o c' r log : reached c -> cstep keq c o = Val (c', r, log) -> reached c'.
Proof.
  intros (c0 & ops & rs & S & R) H. exists c0, (ops ++ [o]), (rs ++ [(r, log)]). split; [assumption|].
  eapply crun_app; eauto. cbn. rewrite H. reflexivity.
Qed.

(** ** Most recently used distinct keys *)
Lemma firstn_without_in k : forall n (l : list K), NoDup l -> In k (firstn (S n) l) ->
  firstn n (without k l) = without k (firstn (S n) l).
Proof.
  unfold LruSpec.without.
  induction n as [|n IH]; intros l ND H; destruct l as [|x l]; cbn in H; try contradiction.
  - destruct H as [->|[]]. cbn. destruct (keq k k); congruence.
  - inversion ND; subst. destruct (keq k x) as [->|N].
    + cbn [firstn List.remove]. destruct (keq x x); [|congruence].
      rewrite notin_remove by assumption. cbn.
      change (firstn (S n) l = List.remove keq x (firstn (S n) l)).
      rewrite notin_remove; [reflexivity|]. intros H'. apply H2. eapply firstn_in; eauto.
    + cbn [List.remove]. destruct (keq k x); [congruence|].
      cbn [firstn]. change (match l with [] => [] | a :: l0 => a :: firstn n l0 end) with (firstn (S n) l).
      cbn [List.remove]. destruct (keq k x); [congruence|].
      f_equal. apply IH; [assumption|]. destruct H; [congruence|assumption].
Qed.

Lemma firstn_without_notin k : forall n (l : list K), ~ In k (firstn n l) ->
  NoDup l -> firstn n (without k l) = firstn n l.
Proof.
  unfold LruSpec.without.
  induction n as [|n IH]; intros l NI ND; [reflexivity|]. destruct l as [|x l]; [reflexivity|].
  inversion ND; subst. cbn in NI. cbn. destruct (keq k x) as [->|]; [tauto|].
  cbn. f_equal. apply IH; tauto.
Qed.

Lemma mrd_NoDup (l : list K) : NoDup (most_recent_distinct keq l).
Proof.
  induction l; cbn; [constructor|]. constructor; [rewrite without_in; tauto|].
  apply without_NoDup; assumption.
Qed.

Lemma index_run n (NZ : n <> 0%N) : forall accesses older cl la,
  exists s rs, rrun keq (mkR (keep n (most_recent_distinct keq older)) n cl la)
                 (map CIndex accesses) = Some (s, rs) /\
    keys s = keep n (most_recent_distinct keq (rev accesses ++ older)) /\ cap s = n.
Proof.
  induction accesses as [|k accesses IH]; intros older cl la; cbn [map rrun].
  - eexists; eexists; split; [reflexivity|]. cbn. auto.
  - cbn [rstep]. pose proof (mrd_NoDup older) as ND.
    set (M := most_recent_distinct keq older) in *.
    assert (EQ : exists s rs,
      (if mem k (keep n M) then Some (mkR (k :: without k (keep n M)) n cl false, AKey k, [])
       else if N.eqb n 0 then None
       else Some (mkR (keep n (k :: keep n M)) n (sizeN (dropped n (k :: keep n M))) true,
                 AKey k, dropped n (k :: keep n M))) = Some (s, AKey k, rs) /\
      keys s = keep n (most_recent_distinct keq (k :: older)) /\ cap s = n).
    { destruct (mem k (keep n M)) eqn:E.
      - eexists; eexists; split; [reflexivity|]. split; [|reflexivity].
        cbn [keys most_recent_distinct]. fold M. rewrite (keep_pos n k (without k M)) by assumption.
        f_equal. unfold keep in *. apply mem_true in E.
        replace (N.to_nat n) with (S (N.to_nat (n - 1))) in * by lia.
        symmetry. apply firstn_without_in; assumption.
      - destruct (N.eqb_spec n 0); [contradiction|].
        eexists; eexists; split; [reflexivity|]. split; [|reflexivity].
        cbn [keys most_recent_distinct]. fold M. rewrite !keep_pos by assumption. f_equal.
        unfold keep in *. apply mem_false in E.
        rewrite firstn_firstn. replace (Nat.min (N.to_nat (n - 1)) (N.to_nat n)) with (N.to_nat (n-1)) by lia.
        symmetry. apply firstn_without_notin; [|assumption].
        intros H. apply E. replace (N.to_nat n) with (N.to_nat (n - 1) + 1) by lia.
        clear - H. revert H. generalize M. induction (N.to_nat (n - 1)) as [|m IHm];
          intros [|x L] H; cbn in *; try contradiction.
        destruct H; auto. }
    destruct EQ as (s & rs & R & KS & CS). rewrite R.
    destruct s as [ks c2 cl2 la2]. cbn [keys cap] in *. subst ks c2.
    destruct (IH (k :: older) cl2 la2) as (s & rs' & R' & KS & CS). rewrite R'.
    eexists; eexists; split; [reflexivity|]. cbn [rev]. rewrite <- app_assoc. auto.
Qed.

Theorem index_only_contents n accesses : (1 <= n)%N ->
  exists c c' rs, cache_of keq n = Val c /\ crun keq c (map CIndex accesses) = Val (c', rs) /\
    values c' = firstn (N.to_nat n) (most_recent_distinct keq (rev accesses)).
Proof.
  intros NZ. destruct (cache_of_spec n) as (c & E & G & A). exists c.
  pose proof (run_refines (map CIndex accesses) c G) as R. rewrite A in R.
  destruct (index_run n ltac:(lia) accesses [] 0 false) as (s & rs & R' & KS & CS).
  cbn [most_recent_distinct] in R'. unfold keep in R'. rewrite firstn_nil in R'. rewrite R' in R.
  destruct R as (c' & R & A' & _). exists c', rs. split; [assumption|]. split; [assumption|].
  rewrite app_nil_r in KS. unfold keep in KS. rewrite <- KS, <- A'. reflexivity.
Qed.

(** ** Accounting of discards *)
Inductive chistory : cache -> list (entry K) -> cache -> Prop :=
| ch_nil c : chistory c [] c
| ch_cons c o c1 r l h c2 :
    cstep keq c o = Val (c1, r, l) -> chistory c1 h c2 ->
    chistory c (mkE (values c) o l :: h) c2.

Lemma keep_dropped n (l : list K) : l = keep n l ++ rev (dropped n l).
Proof. unfold keep, dropped. rewrite rev_involutive. symmetry. apply firstn_skipn. Qed.

Lemma perm_without k (l : list K) : NoDup l -> In k l -> Permutation l (k :: without k l).
Proof.
  intros ND HI. apply NoDup_Permutation; [assumption| |].
  - constructor; [rewrite without_in; tauto|apply without_NoDup; assumption].
  - intros x. cbn. rewrite without_in. destruct (keq k x); [subst; tauto|].
    intuition congruence.
Qed.

Lemma step_account c o c' r l : inv c -> rgood (abs c) -> cstep keq c o = Val (c', r, l) ->
  let e := mkE (values c) o l in
  Permutation (new_keys keq e ++ values c) (values c' ++ l ++ taken_keys keq e).
Proof.
  intros G [ND SZ] H e. pose proof (step_refines c o G) as S.
  cbn [abs keys cap] in ND, SZ.
  assert (KD : forall n (L : list K), Permutation L (keep n L ++ dropped n L ++ [])).
  { intros n L. rewrite app_nil_r. rewrite (keep_dropped n L) at 1.
    apply Permutation_app_head. symmetry. apply Permutation_rev. }
  unfold abs at 1 in S.
  destruct o as [k|k|k|k| |n|k| | | | | | | | |]; cbn [rstep] in S;
    repeat match type of S with
    | context [if mem ?k ?l then _ else _] => destruct (mem k l) eqn:?
    | context [if N.eqb ?a ?b then _ else _] => destruct (N.eqb_spec a b)
    | context [match ?x with [] => _ | _ :: _ => _ end] => destruct x eqn:?
    end;
    try (rewrite S in H; discriminate);
    destruct S as (c2 & R & A & _); rewrite R in H; injection H as <- <- <-;
    apply abs_fields in A; destruct A as (A & _); cbn [keys] in A;
    unfold e, new_keys, taken_keys; cbn [call before];
    repeat match goal with E : mem _ _ = _ |- _ => rewrite E end;
    cbn [app]; rewrite A;
    try match goal with E : rev (values c) = _ |- _ => clear E end;
    try match goal with E : values c = _ |- _ => rewrite E end;
    rewrite ?app_nil_r; try apply Permutation_refl;
    try (apply perm_without; [assumption|apply mem_true; assumption]);
    try (eapply Permutation_trans; [apply KD|]; rewrite app_nil_r; apply Permutation_refl).
  destruct (mem k (values c)) eqn:E.
  - eapply Permutation_trans; [apply perm_without; [eassumption|apply mem_true; eassumption]|].
    apply Permutation_cons_append.
  - rewrite app_nil_r, without_notin by (apply mem_false; assumption). apply Permutation_refl.
Qed.

Theorem history_account c h c' : reached c -> chistory c h c' ->
  Permutation (flat_map (new_keys keq) h ++ values c)
              (values c' ++ flat_map log h ++ flat_map (taken_keys keq) h).
Proof.
  intros RC H. revert RC. induction H as [|c o c1 r l h c2 S H IH]; intros RC; cbn [flat_map].
  - rewrite app_nil_r. apply Permutation_refl.
  - destruct (reached_inv c RC) as [G RG].
    pose proof (step_account _ _ _ _ _ G RG S) as P. cbn zeta in P.
    specialize (IH (reached_step _ _ _ _ _ RC S)).
    set (e := mkE (values c) o l) in *. cbn [log].
    rewrite <- app_assoc.
    eapply Permutation_trans; [apply Permutation_app_comm|]. rewrite <- app_assoc.
    eapply Permutation_trans.
    { apply Permutation_app_head. eapply Permutation_trans; [apply Permutation_app_comm|exact P]. }
    rewrite app_assoc.
    eapply Permutation_trans; [apply Permutation_app_tail; exact IH|].
    rewrite <- !app_assoc. apply Permutation_app_head.
    eapply Permutation_trans; [|apply Permutation_app_head; apply Permutation_refl].
    assert (X : forall a b c d : list K, Permutation (a ++ b ++ c ++ d) (c ++ a ++ d ++ b)).
    { clear. intros a b c d.
      eapply Permutation_trans; [apply Permutation_app_comm|]. rewrite <- !app_assoc.
      eapply Permutation_trans; [apply Permutation_app_comm|]. rewrite <- !app_assoc.
      apply Permutation_app_head.
      eapply Permutation_trans; [apply Permutation_app_comm|]. rewrite <- !app_assoc.
      apply Permutation_app_head. apply Permutation_app_comm. }
    apply X.
Qed.

Theorem discards_lru_first c o c' r l : reached c -> cstep keq c o = Val (c', r, l) ->
  l <> [] ->
  new_keys keq (mkE (values c) o l) ++ values c = values c' ++ rev l /\
  match o with CAdd _ | CIndex _ | CClip | CSetCap _ => True | _ => False end.
Proof.
  intros RC H NE. destruct (reached_inv c RC) as [G _]. pose proof (step_refines c o G) as S.
  unfold abs at 1 in S.
  destruct o as [k|k|k|k| |n|k| | | | | | | | |]; cbn [rstep] in S;
    repeat match type of S with
    | context [if mem ?k ?l then _ else _] => destruct (mem k l) eqn:?
    | context [if N.eqb ?a ?b then _ else _] => destruct (N.eqb_spec a b)
    | context [match ?x with [] => _ | _ :: _ => _ end] => destruct x eqn:?
    end;
    try (rewrite S in H; discriminate);
    destruct S as (c2 & R & A & _); rewrite R in H; injection H as <- <- <-;
    apply abs_fields in A; destruct A as (A & _); cbn [keys] in A; try congruence;
    unfold new_keys; cbn [call before];
    repeat match goal with E : mem _ _ = _ |- _ => rewrite E end;
    cbn [app]; rewrite A; split; try exact I; apply keep_dropped.
Qed.

Lemma reached_refines c o : reached c ->
  match rstep keq (abs c) o with
  | None => cstep keq c o = UB
  | Some (s', r, log) => exists c', cstep keq c o = Val (c', r, log) /\ abs c' = s' /\ inv c'
  end.
Proof. intros RC. apply step_refines. apply (reached_inv c RC). Qed.

Theorem reports c o c' r l : reached c -> cstep keq c o = Val (c', r, l) ->
  last_operation c' = match o with
    | CAdd k | CIndex k => negb (contains keq c k)
    | CRemove k => contains keq c k
    | _ => last_operation c end /\
  clipped c' = match o with
    | CAdd k | CIndex k => if contains keq c k then clipped c else sizeN l
    | CClip | CSetCap _ => sizeN l
    | _ => clipped c end.
Proof.
  intros RC H. destruct (reached_inv c RC) as [G _].
  assert (CM : forall k, contains keq c k = mem k (values c)) by (intros; apply contains_mem; assumption).
  pose proof (step_refines c o G) as S. unfold abs at 1 in S.
  destruct o as [k|k|k|k| |n|k| | | | | | | | |]; try rewrite !CM; cbn [rstep] in S;
    repeat match type of S with
    | context [if mem ?k ?l then _ else _] => destruct (mem k l) eqn:?
    | context [if N.eqb ?a ?b then _ else _] => destruct (N.eqb_spec a b)
    | context [match ?x with [] => _ | _ :: _ => _ end] => destruct x eqn:?
    end;
    try (rewrite S in H; discriminate);
    destruct S as (c2 & R & A & _); rewrite R in H; injection H as <- <- <-;
    apply abs_fields in A; destruct A as (_ & _ & A1 & A2); cbn [rep_clipped rep_last] in A1, A2;
    unfold last_operation, clipped; rewrite A1, A2; split; reflexivity.
Qed.

Theorem index_returns_key c k : reached c -> (capacity c <> 0)%N ->
  exists c' log, index keq c k = Val (c', k, log) /\ most_recent c' = Val k.
Proof.
  intros RC NZ. pose proof (reached_refines c (CIndex k) RC) as S. unfold abs at 1 in S. cbn [rstep cstep] in S.
  unfold capacity in NZ.
  assert (X : forall (o : outcome (cache * K * list K)) c' r l,
    bind o (fun '(c'0, r, log) => Val (c'0, AKey r, log)) = Val (c', AKey r, l) -> o = Val (c', r, l)).
  { intros [[[c0 k0] l0]| | |] c' r l E; cbn in E; congruence. }
  destruct (mem k (values c)); [|destruct (N.eqb_spec (max_elements c) 0); [contradiction|]];
    destruct S as (c' & R & A & _); apply X in R; eexists; eexists; (split; [exact R|]);
    apply abs_fields in A; destruct A as (A & _); cbn [keys] in A;
    rewrite ?keep_pos in A by assumption;
    unfold values in A; unfold most_recent; destruct (klist c') as [|[? ?] ?]; cbn in A; try discriminate;
    injection A as -> _; reflexivity.
Qed.

Theorem index_capacity_zero c k : reached c -> capacity c = 0%N -> index keq c k = UB.
Proof.
  intros RC Z. destruct (reached_inv c RC) as [G RG].
  pose proof (step_refines c (CIndex k) G) as S.
  destruct RG as [_ SZ]. unfold abs in SZ. cbn [keys cap] in SZ. unfold capacity in Z. rewrite Z in SZ.
  assert (E : values c = []) by (destruct (values c); [reflexivity|unfold sizeN in SZ; cbn in SZ; lia]).
  unfold abs at 1 in S. cbn [rstep cstep] in S. rewrite E, Z in S. cbn in S.
  destruct (index keq c k) as [[[c0 k0] l0]| | |]; cbn in S; congruence.
Qed.

(** ** Copies *)
Lemma renumber_snd : forall l i, map snd (@renumber K i l) = map snd l.
Proof. induction l as [|[j k] l IH]; intros i; cbn; [reflexivity|]. rewrite IH. reflexivity. Qed.

Lemma renumber_fst : forall l i j k, In (j, k) (@renumber K i l) -> i <= j.
Proof.
  induction l as [|[j0 k0] l IH]; intros i j k H; cbn in H; [contradiction|].
  destruct H as [E|H]; [injection E as <- _; lia|]. apply IH in H. lia.
Qed.

Lemma copy_deref c i k : inv c -> In (i, k) (klist c) -> list_deref (klist (copy c)) i = None.
Proof.
  intros (_ & _ & B & _) H. apply B in H. destruct (list_deref _ i) as [k'|] eqn:E; [|reflexivity].
  apply deref_some in E. cbn in E. apply renumber_fst in E. lia.
Qed.

Theorem copy_find_ub c k : reached c -> contains keq c k = true ->
  contains keq (copy c) k = true /\ values (copy c) = values c /\
  find keq (copy c) k = UB /\ remove keq (copy c) k = UB /\ index keq (copy c) k = UB.
Proof.
  intros RC C. destruct (reached_inv c RC) as [G _]. pose proof G as (_ & _ & _ & M).
  assert (F : find keq (copy c) k = UB /\ remove keq (copy c) k = UB /\
              find keq (set_last (copy c) false) k = UB).
  { unfold contains in C. unfold find, remove, set_last. cbn [kmap copy].
    destruct (map_find keq (kmap c) k) as [i|] eqn:E; [|discriminate].
    apply M in E. rewrite (copy_deref c i k G E).
    assert (MF : forall b, move_to_front keq (mkC (max_elements (copy c)) (clipped_values (copy c)) b
        (kmap c) (klist (copy c)) (fresh (copy c))) i = UB).
    { intros b. unfold move_to_front. cbn [klist].
      pose proof (copy_deref c i k G E) as D. destruct (klist (copy c)) as [|[j k'] l] eqn:EL; [reflexivity|].
      cbn in D. destruct (Nat.eqb i j) eqn:EQ; [discriminate|].
      cbn [list_deref]. rewrite EQ, D. reflexivity. }
    pose proof (MF (last_result (copy c))) as M1. pose proof (MF false) as M2.
    unfold copy in M1, M2 |- *. cbn [klist max_elements clipped_values last_result fresh] in *.
    rewrite M1, M2. auto. }
  destruct F as (F1 & F2 & F3).
  split; [exact C|]. split; [apply renumber_snd|]. split; [assumption|]. split; [assumption|].
  unfold index. change (contains keq (copy c) k) with (contains keq c k). rewrite C. cbn [negb bind].
  rewrite F3. reflexivity.
Qed.

Theorem copy_observers c k : 
  values (copy c) = values c /\ csize (copy c) = csize c /\ capacity (copy c) = capacity c /\
  contains keq (copy c) k = contains keq c k /\
  last_operation (copy c) = last_operation c /\ clipped (copy c) = clipped c.
Proof.
  assert (V : values (copy c) = values c) by apply renumber_snd.
  split; [assumption|]. split; [|repeat split].
  unfold csize, sizeN. unfold values in V. apply (f_equal (@length _)) in V.
  rewrite !map_length in V. congruence.
Qed.

Theorem own_reference_ub c it k : reached c -> In (it, k) (klist c) -> remove_ref keq c it = UB.
Proof.
  intros RC H. destruct (reached_inv c RC) as [G _]. pose proof G as (N1 & _ & _ & M).
  unfold remove_ref. rewrite (deref_in _ _ _ N1 H).
  pose proof H as H'. apply M in H'. rewrite H', (deref_in _ _ _ N1 H).
  destruct (list_deref (list_erase (klist c) it) it) as [k'|] eqn:E; [|reflexivity].
  apply deref_some in E. apply erase_in in E; [|assumption]. tauto.
Qed.

(** ** Moves *)
Theorem move_target c : reached c ->
  forall ops, crun keq (fst (move c)) ops = crun keq c ops.
Proof. reflexivity. Qed.

Theorem move_source c ops : reached c ->
  match rrun keq (mkR [] (capacity c) (clipped c) (last_operation c)) ops with
  | None => crun keq (snd (move c)) ops = UB
  | Some (s', rs) => exists c', crun keq (snd (move c)) ops = Val (c', rs)
  end.
Proof.
  intros _. pose proof (run_refines ops (snd (move c)) (inv_nil _ _ _ _)) as R.
  change (abs (snd (move c))) with (mkR (@nil K) (capacity c) (clipped c) (last_operation c)) in R.
  destruct (rrun keq _ ops) as [[s' rs]|]; [|exact R]. destruct R as (c' & R & _). eauto.
Qed.

Theorem history_refines c0 ops n : started c0 -> capacity c0 = n ->
  match rrun keq (mkR [] n 0%N false) ops with
  | None => crun keq c0 ops = UB
  | Some (s', rs) => exists c', crun keq c0 ops = Val (c', rs) /\ values c' = keys s' /\
      capacity c' = cap s'
  end.
Proof.
  intros S E. destruct (started_inv _ S) as [G [m A]].
  pose proof (run_refines ops c0 G) as R. rewrite A in R.
  assert (m = n) by (unfold capacity in E; rewrite <- E; apply abs_fields in A; symmetry; apply A).
  subst m. destruct (rrun keq _ ops) as [[s' rs]|]; [|exact R].
  destruct R as (c' & R & A' & _). exists c'. split; [assumption|]. rewrite <- A'. split; reflexivity.
Qed.

Theorem reached_size c : reached c ->
  (csize c <= capacity c)%N /\ NoDup (values c) /\ csize c = sizeN (values c) /\
  forall k, contains keq c k = true <-> In k (values c).
Proof.
  intros RC. destruct (reached_inv c RC) as [G [ND SZ]]. cbn [abs keys cap] in *.
  assert (E : csize c = sizeN (values c)) by (unfold csize, sizeN, values; rewrite map_length; reflexivity).
  split; [rewrite E; assumption|]. split; [assumption|]. split; [assumption|].
  intros k. rewrite contains_mem by assumption. apply mem_true.
Qed.

Theorem constructors (n : N) :
  capacity (@cache_default K) = 1024%N /\ values (@cache_default K) = [] /\
  exists c, cache_of keq n = Val c /\ capacity c = n /\ values c = [].
Proof.
  split; [reflexivity|]. split; [reflexivity|].
  destruct (cache_of_spec n) as (c & E & _ & A). exists c. split; [assumption|].
  apply abs_fields in A. cbn in A. tauto.
Qed.

End Proofs.
