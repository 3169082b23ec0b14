(** Hooks that call the cache back. *)
Require Import List NArith Bool Arith Lia.
Require Import Verif.Base Verif.LruModel Verif.LruSpec Verif.LruProofs
  Verif.LruThrowSpec Verif.LruThrowProofs Verif.LruHookModel Verif.LruHookSpec.
Import ListNotations.

Section Proofs.
Context {K : Type} (keq : forall a b : K, {a = b} + {a <> b}).
Notation cache := (cache K).
Notation inv := (inv keq).
Notation reached := (reached keq).
Notation usable := (usable keq).

(** ** Modest hooks *)

(** The state while the hook runs: a sound cache and the last node. *)
Definition pushb (d : cache) (i : node_id) (b : K) : cache :=
  mkC (max_elements d) (clipped_values d) (last_result d) (kmap d) (klist d ++ [(i, b)]) (fresh d).

Definition held (d : cache) (i : node_id) (b : K) : Prop :=
  inv d /\ ~ In b (values d) /\ i < fresh d /\ ~ In i (map fst (klist d)).

Lemma deref_app (l : list (node_id * K)) x i k : list_deref l i = Some k -> list_deref (l ++ x) i = Some k.
Proof.
  induction l as [|[j q] l IH]; cbn; [discriminate|]. destruct (Nat.eqb i j); auto.
Qed.

Lemma erase_app (l : list (node_id * K)) x i k : list_deref l i = Some k ->
  list_erase (l ++ x) i = list_erase l i ++ x.
Proof.
  induction l as [|[j q] l IH]; cbn; [discriminate|]. destruct (Nat.eqb i j); [reflexivity|].
  intros H. rewrite IH by exact H. reflexivity.
Qed.

Lemma modest_step d i b o : held d i b -> modest o ->
  exists d' r, cstep keq (pushb d i b) o = Val (pushb d' i b, r, []) /\ held d' i b /\
    max_elements d' = max_elements d /\ clipped_values d' = clipped_values d /\
    incl (values d') (values d) /\ length (klist d') <= length (klist d).
Proof.
  intros (G & NB & LI & NI) Mo. pose proof G as (N1 & N2 & B & M).
  assert (SAME : exists d', pushb d i b = pushb d' i b /\ held d' i b /\
    max_elements d' = max_elements d /\ clipped_values d' = clipped_values d /\
    incl (values d') (values d) /\ length (klist d') <= length (klist d)).
  { exists d. split; [reflexivity|]. split; [split; auto|]. auto using incl_refl. }
  assert (READ : forall r : cout K, exists d' r', Val (pushb d i b, r, []) = Val (pushb d' i b, r', ([] : list K)) /\ held d' i b /\
    max_elements d' = max_elements d /\ clipped_values d' = clipped_values d /\
    incl (values d') (values d) /\ length (klist d') <= length (klist d)).
  { intros r. destruct SAME as (d' & E & H). exists d', r. rewrite E. auto. }
  destruct o as [k|k|k|k| |n|k| | | | | | | | |]; try contradiction; cbn [cstep]; try apply READ.
  - unfold find. cbn [pushb kmap]. destruct (map_find keq (kmap d) k) as [j|] eqn:E.
    + apply M in E. destruct (move_to_front_spec keq d j k G E) as (d' & R & G' & V & HD & Hm & Hc & Hl).
      assert (MV : move_to_front keq (pushb d i b) j = Val (pushb d' i b)).
      { unfold move_to_front in *. cbn [pushb klist].
        destruct (klist d) as [|[j0 k0] l] eqn:EL; [destruct E|]. cbn [app].
        destruct (Nat.eqb j j0).
        - injection R as <-. unfold pushb. rewrite EL. reflexivity.
        - change ((j0, k0) :: l ++ [(i, b)]) with (((j0, k0) :: l) ++ [(i, b)]).
          rewrite <- EL in *. pose proof (deref_in _ _ _ N1 E) as D.
          rewrite D in R. rewrite (deref_app _ _ _ _ D), (erase_app _ _ _ _ D).
          injection R as <-. reflexivity. }
      change (mkC (max_elements d) (clipped_values d) (last_result d) (kmap d) (klist d ++ [(i, b)]) (fresh d))
        with (pushb d i b).
      rewrite MV. cbn [bind]. eexists d', _. split; [reflexivity|].
      assert (IV : In k (values d)) by (apply in_snd in E; exact E).
      split; [|split; [exact Hm|split; [exact Hc|split]]].
      * split; [exact G'|]. split; [|split].
        -- rewrite V. intros [->|X]; [auto|]. apply without_in in X as [X _]. auto.
        -- unfold move_to_front in R. destruct (klist d) as [|[j0 k0] l] eqn:EL; [discriminate|].
           destruct (Nat.eqb j j0); [injection R as <-; exact LI|].
           destruct (list_deref _ j); [|discriminate]. injection R as <-. cbn. lia.
        -- unfold move_to_front in R. destruct (klist d) as [|[j0 k0] l] eqn:EL; [discriminate|].
           destruct (Nat.eqb j j0); [injection R as <-; rewrite EL; exact NI|].
           rewrite <- EL in *. destruct (list_deref _ j) as [q|]; [|discriminate]. injection R as <-.
           cbn [klist map fst]. intros [X|X]; [lia|]. apply NI.
           apply in_map_iff in X as ([i' q'] & EX & X). cbn in EX. subst i'.
           apply erase_in in X as [X _]; [|exact N1]. apply in_fst in X. exact X.
      * rewrite V. intros q [->|X]; [exact IV|]. apply without_in in X as [X _]. exact X.
      * pose proof (f_equal (@length _) V) as LV. unfold values in LV. cbn [length] in LV. rewrite !map_length in LV.
        pose proof (without_length keq k (values d) N2 IV) as WL. unfold values in WL. rewrite map_length in WL. lia.
    + cbn [bind]. apply READ.
  - unfold remove. cbn [pushb kmap klist]. destruct (map_find keq (kmap d) k) as [j|] eqn:E.
    + apply M in E. pose proof (deref_in _ _ _ N1 E) as D.
      rewrite (deref_app _ _ _ _ D), (erase_app _ _ _ _ D). cbn [bind].
      exists (mkC (max_elements d) (clipped_values d) true (map_erase keq (kmap d) k)
                  (list_erase (klist d) j) (fresh d)), AUnit.
      split; [reflexivity|].
      assert (IC : forall p, In p (list_erase (klist d) j) -> In p (klist d)).
      { intros [i' q'] X. apply erase_in in X as [X _]; assumption. }
      split; [|split; [reflexivity|split; [reflexivity|split]]].
      * split; [apply good_erase; assumption|]. split; [|split; [exact LI|]].
        -- unfold values. cbn [klist]. intros X. apply NB. apply in_map_iff in X as (p & <- & X).
           apply in_map. auto.
        -- cbn [klist]. intros X. apply NI. apply in_map_iff in X as (p & <- & X). apply in_map. auto.
      * intros q X. unfold values in *. cbn [klist] in X. apply in_map_iff in X as (p & <- & X).
        apply in_map. auto.
      * cbn [klist]. apply NoDup_incl_length; [|exact IC].
        apply (NoDup_map_inv fst). apply erase_fst. exact N1.
    + cbn [bind]. exists (set_last d false), AUnit. split; [reflexivity|].
      split; [split; auto|]. auto using incl_refl.
  - unfold most_recent. cbn [pushb klist]. destruct (klist d) as [|[i0 k0] l] eqn:EL; cbn [app bind]; apply READ.
  - unfold least_recent. cbn [pushb klist]. rewrite rev_app_distr. cbn [rev app bind]. apply READ.
Qed.

Lemma modest_hstep cl c o : modest o -> hstep keq cl c o = cstep keq c o.
Proof. destruct o; try contradiction; reflexivity. Qed.

Lemma modest_calls cl ops : Forall modest ops -> forall d i b, held d i b ->
  exists d', hcalls keq cl (pushb d i b) ops = Val (pushb d' i b, []) /\ held d' i b /\
    max_elements d' = max_elements d /\ clipped_values d' = clipped_values d /\
    incl (values d') (values d) /\ length (klist d') <= length (klist d).
Proof.
  induction 1 as [|o ops Mo F IH]; intros d i b H; cbn [hcalls].
  - exists d. auto 10 using incl_refl.
  - destruct (modest_step d i b o H Mo) as (d1 & r & E & H1 & M1 & C1 & I1 & L1).
    rewrite modest_hstep, E by exact Mo. cbn [bind].
    destruct (IH d1 i b H1) as (d2 & E2 & H2 & M2 & C2 & I2 & L2).
    rewrite E2. cbn [bind]. exists d2. split; [reflexivity|]. split; [exact H2|].
    repeat split; try congruence; [|lia]. eapply incl_tran; eassumption.
Qed.

(** The last node of a sound cache, taken off. *)
Lemma split_back c i b r : inv c -> rev (klist c) = (i, b) :: r ->
  held (mkC (max_elements c) (clipped_values c) (last_result c) (map_erase keq (kmap c) b)
            (rev r) (fresh c)) i b /\
  klist c = rev r ++ [(i, b)].
Proof.
  intros G ER. apply (f_equal (@rev _)) in ER. rewrite rev_involutive in ER. cbn in ER.
  split; [|exact ER]. pose proof G as (N1 & N2 & B & M). rewrite ER in N1, N2.
  split; [|split; [|split]].
  - unfold inv in *. cbn [kmap klist fresh]. rewrite ER in G.
    rewrite <- (erase_last (rev r) i b N1).
    apply good_erase; [assumption|]. apply in_or_app; right; cbn; auto.
  - unfold values. cbn [klist]. rewrite map_app in N2. apply NoDup_remove_2 in N2.
    rewrite app_nil_r in N2. exact N2.
  - cbn [fresh]. apply (B i b). rewrite ER. apply in_or_app; right; cbn; auto.
  - cbn [klist]. rewrite map_app in N1. apply NoDup_remove_2 in N1. rewrite app_nil_r in N1. exact N1.
Qed.

Lemma modest_loop hook : modest_hook hook -> forall fuel c, inv c ->
  length (klist c) <= fuel + N.to_nat (max_elements c) ->
  exists c' log, hloop keq hook fuel c = Val (c', log) /\ inv c' /\
    max_elements c' = max_elements c /\ (csize c' <= max_elements c)%N /\
    NoDup log /\ incl log (values c) /\ incl (values c') (values c) /\
    (forall k, In k log -> ~ In k (values c')) /\
    clipped_values c' = (clipped_values c + sizeN log)%N.
Proof.
  intros MH. induction fuel as [|fuel IH]; intros c G L; cbn [hloop];
    destruct (N.ltb_spec (max_elements c) (csize c)) as [H|H].
  - exfalso. unfold csize, sizeN in H. lia.
  - exists c, []. split; [reflexivity|]. split; [exact G|]. split; [reflexivity|]. split; [exact H|].
    split; [constructor|]. split; [intros k []|]. split; [apply incl_refl|]. split; [intros k []|].
    unfold sizeN. cbn. lia.
  - destruct (rev (klist c)) as [|[i b] r] eqn:ER.
    + exfalso. apply (f_equal (@rev _)) in ER. rewrite rev_involutive in ER.
      unfold csize in H. rewrite ER in H. cbn in H. lia.
    + destruct (split_back c i b r G ER) as [HD EL].
      set (d := mkC (max_elements c) (clipped_values c) (last_result c) (map_erase keq (kmap c) b)
            (rev r) (fresh c)) in *.
      set (cl := fun d0 : cache => hloop keq hook fuel _).
      set (c1 := mkC (max_elements c) (clipped_values c) (last_result c) (map_erase keq (kmap c) b)
            (klist c) (fresh c)).
      assert (E1 : c1 = pushb d i b) by (unfold c1, d, pushb; cbn; rewrite EL; reflexivity).
      rewrite E1. destruct (modest_calls cl (hook (pushb d i b) b) (MH _ _) d i b HD)
        as (d' & E & HD' & M' & C' & I' & L').
      rewrite E. cbn [bind]. cbn [pushb klist].
      destruct (klist d' ++ [(i, b)]) eqn:EN; [destruct (klist d'); discriminate|]. rewrite <- EN. clear EN.
      rewrite removelast_last.
      cbn [pushb max_elements clipped_values last_result kmap fresh].
      destruct HD' as (G' & NB' & _ & _).
      destruct (IH (mkC (max_elements d') (clipped_values d' + 1)%N (last_result d') (kmap d') (klist d') (fresh d')))
        as (c' & log & R & Gc & Mc & Sc & NDl & Il & Iv & Dl & Cl).
      { exact G'. }
      { cbn [klist max_elements]. rewrite M'. unfold d in *. cbn [klist max_elements] in *.
        apply (f_equal (@length _)) in EL. rewrite app_length in EL. cbn in EL. lia. }
      rewrite R. cbn [bind]. exists c', (b :: [] ++ log). cbn [app].
      change (values (mkC (max_elements d') (clipped_values d' + 1)%N (last_result d') (kmap d') (klist d') (fresh d')))
        with (values d') in *.
      cbn [max_elements clipped_values] in *.
      assert (ID : incl (values d) (values c)).
      { intros q X. unfold values in *. rewrite EL, map_app. apply in_or_app. left. exact X. }
      assert (IB : In b (values c)).
      { unfold values. rewrite EL, map_app. apply in_or_app. right. cbn. auto. }
      unfold d in M', C'. cbn [max_elements clipped_values] in M', C'.
      split; [reflexivity|]. split; [exact Gc|]. split; [congruence|]. split; [rewrite M' in Sc; exact Sc|].
      split; [constructor; [intros X; apply NB'; apply Il; exact X|exact NDl]|].
      split; [intros q [<-|X]; [exact IB|apply ID, I', Il, X]|].
      split; [intros q X; apply ID, I', Iv, X|].
      split; [intros q [<-|X] Y; [apply NB', Iv, Y|apply (Dl q X Y)]|].
      rewrite Cl, C'. unfold sizeN. cbn [length]. lia.
  - exists c, []. split; [reflexivity|]. split; [exact G|]. split; [reflexivity|]. split; [exact H|].
    split; [constructor|]. split; [intros k []|]. split; [apply incl_refl|]. split; [intros k []|].
    unfold sizeN. cbn. lia.
Qed.

Theorem modest_hooks hook (c : cache) o fuel : modest_hook hook -> reached c ->
  match o with CAdd _ | CClip | CSetCap _ => True | _ => False end ->
  length (values c) < fuel ->
  exists c' log, hcall keq hook fuel c o = Val (c', AUnit, log) /\ usable c' /\
    capacity c' = match o with CSetCap n => n | _ => capacity c end /\ (csize c' <= capacity c')%N /\
    NoDup log /\
    incl (values c' ++ log) (match o with CAdd k => k :: values c | _ => values c end) /\
    (forall k, In k log -> ~ In k (values c')) /\
    (match o with CAdd k => contains keq c k = false | _ => True end -> clipped c' = sizeN log).
Proof.
  intros MH R O LF. destruct (reached_inv keq c R) as [G [_ SZ]]. unfold abs in SZ. cbn [keys cap] in SZ.
  assert (LV : length (values c) = length (klist c)) by (unfold values; apply map_length).
  assert (CS : csize c = sizeN (values c)) by (unfold csize, sizeN; rewrite LV; reflexivity).
  destruct o as [k|k|k|k| |n|k| | | | | | | | |]; try contradiction; unfold hcall; cbn [hstep].
  - destruct (contains keq c k) eqn:C; cbn [negb].
    + cbn [bind]. exists (set_last c false), []. split; [reflexivity|].
      split; [apply inv_usable; exact G|]. split; [reflexivity|]. split; [rewrite <- CS in SZ; exact SZ|].
      split; [constructor|]. rewrite app_nil_r. split; [intros q X; right; exact X|].
      split; [intros q []|discriminate].
    + assert (NI : ~ In k (values c)) by (rewrite contains_mem in C by exact G; apply mem_false in C; exact C).
      unfold hclip. cbn [max_elements last_result kmap klist fresh].
      match goal with |- context [hloop keq hook fuel ?d] =>
        destruct (modest_loop hook MH fuel d) as (c' & log & E & Gc & Mc & Sc & NDl & Il & Iv & Dl & Cl) end.
      * apply good_push; assumption.
      * cbn [klist length max_elements]. lia.
      * rewrite E. cbn [bind]. exists (set_last c' true), log. split; [reflexivity|].
        cbn [max_elements clipped_values] in *.
        split; [apply inv_usable; exact Gc|]. split; [exact Mc|].
        split; [change (csize c' <= max_elements c')%N; rewrite Mc; exact Sc|]. split; [exact NDl|].
        split; [apply incl_app; [exact Iv|exact Il]|]. split; [exact Dl|]. intros _. exact Cl.
  - unfold hclip.
    match goal with |- context [hloop keq hook fuel ?d] =>
      destruct (modest_loop hook MH fuel d) as (c' & log & E & Gc & Mc & Sc & NDl & Il & Iv & Dl & Cl) end.
    + exact G.
    + cbn [klist max_elements]. lia.
    + rewrite E. cbn [bind]. exists c', log. split; [reflexivity|]. cbn [max_elements clipped_values] in *.
      split; [apply inv_usable; exact Gc|]. split; [exact Mc|]. split; [unfold capacity; rewrite Mc; exact Sc|].
      split; [exact NDl|]. split; [apply incl_app; [exact Iv|exact Il]|]. split; [exact Dl|]. intros _. exact Cl.
  - unfold hclip. cbn [max_elements last_result kmap klist fresh].
    match goal with |- context [hloop keq hook fuel ?d] =>
      destruct (modest_loop hook MH fuel d) as (c' & log & E & Gc & Mc & Sc & NDl & Il & Iv & Dl & Cl) end.
    + exact G.
    + cbn [klist max_elements]. lia.
    + rewrite E. cbn [bind]. exists c', log. split; [reflexivity|]. cbn [max_elements clipped_values] in *.
      split; [apply inv_usable; exact Gc|]. split; [exact Mc|]. split; [unfold capacity; rewrite Mc; exact Sc|].
      split; [exact NDl|]. split; [apply incl_app; [exact Iv|exact Il]|]. split; [exact Dl|]. intros _. exact Cl.
Qed.

(** ** Hooks that only look *)
Lemma reading_calls cl (c : cache) ops : klist c <> [] -> Forall reading ops ->
  hcalls keq cl c ops = Val (c, []).
Proof.
  intros NE. induction 1 as [|o ops Ro F IH]; [reflexivity|]. cbn [hcalls].
  assert (E : exists r, hstep keq cl c o = Val (c, r, [])).
  { destruct o; try contradiction; cbn [hstep cstep]; eauto.
    - unfold most_recent. destruct (klist c) as [|[? ?] ?]; [congruence|]. cbn. eauto.
    - unfold least_recent. destruct (rev (klist c)) as [|[? ?] ?] eqn:ER.
      + apply (f_equal (@rev _)) in ER. rewrite rev_involutive in ER. cbn in ER. congruence.
      + cbn. eauto. }
  destruct E as [r E]. rewrite E. cbn [bind]. rewrite IH. reflexivity.
Qed.

Lemma reading_loop hook : reading_hook hook -> forall fuel c log,
  clip_loop keq fuel c log = (let* (c', l) := hloop keq hook fuel c in Val (c', log ++ l)).
Proof.
  intros RH. induction fuel as [|fuel IH]; intros c log; cbn [clip_loop hloop];
    destruct (max_elements c <? csize c)%N; try reflexivity;
    try (cbn [bind]; rewrite app_nil_r; reflexivity).
  destruct (rev (klist c)) as [|[i b] r] eqn:ER; [reflexivity|].
  assert (NE : klist c <> []) by (intros E; rewrite E in ER; discriminate).
  rewrite reading_calls by (exact NE || apply RH). cbn [bind klist].
  destruct (klist c) eqn:EL; [congruence|]. rewrite <- EL. rewrite IH.
  cbn [max_elements clipped_values last_result kmap fresh].
  destruct (hloop keq hook fuel _) as [[c' l']| | |]; cbn [bind]; try reflexivity.
  cbn [app]. rewrite <- app_assoc. reflexivity.
Qed.

Lemma clip_loop_more f : forall f' (c : cache) log r, clip_loop keq f c log = Val r -> f <= f' ->
  clip_loop keq f' c log = Val r.
Proof.
  induction f as [|f IH]; intros [|f'] c log r H L; cbn [clip_loop] in *; try lia;
    destruct (max_elements c <? csize c)%N; try discriminate; try exact H.
  destruct (rev (klist c)) as [|[i b] q]; [discriminate|]. apply IH; [exact H|lia].
Qed.

Lemma reading_clip hook fuel (c : cache) r : reading_hook hook -> length (klist c) <= fuel ->
  clip keq c = Val r -> hclip keq hook fuel c = Val r.
Proof.
  intros RH L H. unfold clip in H. apply (clip_loop_more _ fuel) in H; [|exact L].
  rewrite (reading_loop hook RH) in H. unfold hclip.
  destruct (hloop keq hook fuel _) as [[c' l']| | |]; cbn [bind app] in H; congruence.
Qed.

Theorem reading_hooks hook (c : cache) o fuel : reading_hook hook -> reached c ->
  length (values c) < fuel -> hcall keq hook fuel c o = cstep keq c o.
Proof.
  intros RH R LF. destruct (reached_inv keq c R) as [G _].
  assert (LV : length (values c) = length (klist c)) by (unfold values; apply map_length).
  assert (ADD : forall k, contains keq c k = false -> exists c' log,
    clip keq (mkC (max_elements c) (clipped_values c) (last_result c)
                    (map_set keq (kmap c) k (fresh c)) ((fresh c, k) :: klist c) (S (fresh c))) = Val (c', log) /\
    hclip keq hook fuel (mkC (max_elements c) (clipped_values c) (last_result c)
                    (map_set keq (kmap c) k (fresh c)) ((fresh c, k) :: klist c) (S (fresh c))) = Val (c', log)).
  { intros k C. rewrite contains_mem in C by exact G. apply mem_false in C.
    match goal with |- context [clip keq ?d] => destruct (clip_spec keq d) as (c' & E & _) end.
    - apply good_push; assumption.
    - eexists; eexists. split; [exact E|]. apply reading_clip; [exact RH|cbn; lia|exact E]. }
  destruct o as [k|k|k|k| |n|k| | | | | | | | |]; try reflexivity; unfold hcall; cbn [hstep cstep].
  - unfold index, add. destruct (contains keq c k) eqn:C; cbn [negb].
    + cbn [bind]. destruct (find keq (set_last c false) k) as [[c2 [b [q|]]]| | |]; reflexivity.
    + destruct (ADD k C) as (c' & log & -> & ->). cbn [bind].
      destruct (find keq (set_last c' true) k) as [[c2 [b [q|]]]| | |]; reflexivity.
  - unfold add. destruct (contains keq c k) eqn:C; cbn [negb]; [reflexivity|].
    destruct (ADD k C) as (c' & log & -> & ->). reflexivity.
  - destruct (clip_spec keq c G) as (c' & E & _). rewrite E.
    rewrite (reading_clip hook fuel c _ RH) by (exact E || lia). reflexivity.
  - unfold set_capacity.
    match goal with |- context [clip keq ?d] => destruct (clip_spec keq d G) as (c' & E & _) end.
    rewrite E. rewrite (reading_clip hook fuel _ _ RH) by (exact E || (cbn; lia)). reflexivity.
Qed.

(** ** Hooks that break the cache *)
Lemma NoDup_front {A} (l l' : list A) : NoDup (l ++ l') -> NoDup l.
Proof.
  induction l as [|x l IH]; cbn; intros H; [constructor|]. inversion H; subst.
  constructor; [|auto]. intros X. apply H2. apply in_or_app. auto.
Qed.

Definition pushed (c : cache) (k : K) : cache :=
  mkC (max_elements c) (clipped_values c) (last_result c)
      (map_set keq (kmap c) k (fresh c)) ((fresh c, k) :: klist c) (S (fresh c)).

Lemma add_pushed cl (c : cache) k : contains keq c k = false ->
  hstep keq cl c (CAdd k) =
  (let* (c', log) := cl (pushed c k) in Val (set_last c' true, AUnit, log)).
Proof.
  intros C. cbn [hstep]. rewrite C. cbn [negb]. unfold pushed.
  destruct (cl _) as [[c' log]| | |]; reflexivity.
Qed.

Lemma add_present cl (c : cache) k : contains keq c k = true ->
  hcalls keq cl c [CAdd k] = Val (set_last c false, []).
Proof. intros C. cbn [hcalls hstep]. rewrite C. reflexivity. Qed.

Lemma erased_absent (c : cache) b l : contains keq
  (mkC (max_elements c) (clipped_values c) (last_result c) (map_erase keq (kmap c) b) l (fresh c)) b = false.
Proof.
  unfold contains. cbn [kmap]. rewrite map_find_erase. destruct (keq b b); [reflexivity|congruence].
Qed.

Lemma endless_loop fuel : forall (c : cache) f, 
  (forall b, f b = [CAdd b] \/ f b = [CClip]) ->
  (max_elements c < csize c)%N -> hloop keq (always f) fuel c = NoFuel.
Proof.
  induction fuel as [|fuel IH]; intros c f F L; cbn [hloop];
    (destruct (N.ltb_spec (max_elements c) (csize c)); [|lia]); [reflexivity|].
  destruct (rev (klist c)) as [|[i b] r] eqn:ER.
  - apply (f_equal (@rev _)) in ER. rewrite rev_involutive in ER. unfold csize in L. rewrite ER in L.
    cbn in L. lia.
  - unfold always at 2. destruct (F b) as [E|E]; rewrite E; cbn [hcalls].
    + rewrite add_pushed by apply erased_absent. rewrite IH; [reflexivity|exact F|].
      unfold csize, sizeN in *. cbn [pushed klist max_elements length]. lia.
    + cbn [hstep]. rewrite IH; [reflexivity|exact F|exact L].
Qed.

Theorem endless (c : cache) k f : (forall b, f b = [CAdd b] \/ f b = [CClip]) ->
  contains keq c k = false -> csize c = capacity c ->
  forall fuel, hcall keq (always f) fuel c (CAdd k) = NoFuel.
Proof.
  intros F C S fuel. unfold hcall. rewrite add_pushed by exact C. unfold hclip.
  rewrite endless_loop; [reflexivity|exact F|].
  unfold csize, capacity, sizeN in *. cbn [pushed klist max_elements length]. lia.
Qed.

Theorem clearing (c : cache) k f : (forall b, f b = [CClear]) ->
  contains keq c k = false -> csize c = capacity c ->
  forall fuel, fuel <> 0 -> hcall keq (always f) fuel c (CAdd k) = UB.
Proof.
  intros F C S [|fuel] NZ; [congruence|]. unfold hcall. rewrite add_pushed by exact C. unfold hclip.
  cbn [hloop pushed max_elements last_result kmap klist fresh].
  assert (L : (max_elements c <? csize (mkC (max_elements c) 0 (last_result c) (map_set keq (kmap c) k (fresh c))
     ((fresh c, k) :: klist c) (Datatypes.S (fresh c))))%N = true).
  { apply N.ltb_lt. unfold csize, capacity, sizeN in *. cbn [klist length]. lia. }
  rewrite L. destruct (rev ((fresh c, k) :: klist c)) as [|[i b] r] eqn:ER; [reflexivity|].
  unfold always at 2. rewrite F. reflexivity.
Qed.

(** One round of the loop. *)
Lemma round hook fuel (c : cache) i b r :
  (max_elements c < csize c)%N -> klist c = r ++ [(i, b)] ->
  let c1 := mkC (max_elements c) (clipped_values c) (last_result c)
                (map_erase keq (kmap c) b) (klist c) (fresh c) in
  hloop keq hook (S fuel) c =
  (let* (c2, log) := hcalls keq (hclip keq hook fuel) c1 (hook c1 b) in
   match klist c2 with
   | [] => UB
   | _ :: _ =>
       let* (c3, log') := hloop keq hook fuel
         (mkC (max_elements c2) (clipped_values c2 + 1)%N (last_result c2)
              (kmap c2) (removelast (klist c2)) (fresh c2)) in
       Val (c3, b :: log ++ log')
   end).
Proof.
  intros L EL c1. cbn [hloop]. destruct (N.ltb_spec (max_elements c) (csize c)); [|lia].
  unfold c1. rewrite EL at 1. rewrite rev_app_distr. cbn [rev app]. reflexivity.
Qed.

(** One round of the loop whose hook finds its key present. *)
Lemma round_present fuel (c : cache) i b r z :
  (max_elements c < csize c)%N -> klist c = r ++ [(i, b)] -> z <> b -> contains keq c z = true ->
  hloop keq (always (fun _ => [CAdd z])) (S fuel) c =
  (let* (c3, log') := hloop keq (always (fun _ => [CAdd z])) fuel
     (mkC (max_elements c) (clipped_values c + 1)%N false (map_erase keq (kmap c) b) r (fresh c)) in
   Val (c3, b :: log')).
Proof.
  intros L EL NZ C. cbn [hloop]. destruct (N.ltb_spec (max_elements c) (csize c)); [|lia].
  rewrite EL, rev_app_distr. cbn [rev app]. unfold always at 2. rewrite add_present.
  - cbn [bind klist set_last]. destruct (r ++ [(i, b)]) eqn:E; [destruct r; discriminate|]. rewrite <- E.
    rewrite removelast_last. reflexivity.
  - unfold contains in *. cbn [kmap]. rewrite map_find_erase. destruct (keq z b); [congruence|exact C].
Qed.

Theorem adding_another (c : cache) k z p b2 b1 fuel : reached c -> csize c = capacity c ->
  values c = p ++ [b2; b1] -> contains keq c k = false -> contains keq c z = false -> k <> z ->
  exists c' b, hcall keq (always (fun _ => [CAdd z])) (3 + fuel) c (CAdd k) = Val (c', AUnit, [b1; b1; b2]) /\
    values c' ++ [b] = z :: k :: p /\
    contains keq c' b = true /\ ~ In b (values c') /\
    find keq c' b = UB /\ remove keq c' b = UB.
Proof.
  intros R SZ V CK CZ NKZ. destruct (reached_inv keq c R) as [G _].
  pose proof G as (N1 & N2 & B & M).
  assert (NK : ~ In k (values c)) by (apply inv_absent with (keq := keq); assumption).
  assert (NZ : ~ In z (values c)) by (apply inv_absent with (keq := keq); assumption).
  (* the nodes *)
  unfold values in V. 
  assert (EL : exists q i2 i1, klist c = q ++ [(i2, b2); (i1, b1)] /\ map snd q = p).
  { destruct (rev (klist c)) as [|[i1 x1] [|[i2 x2] r]] eqn:ER;
      apply (f_equal (@rev _)) in ER; rewrite rev_involutive in ER; cbn in ER; rewrite ER in V.
    - destruct p; discriminate.
    - destruct p as [|? [|? ?]]; discriminate.
    - exists (rev r), i2, i1. rewrite <- app_assoc in ER. cbn in ER. rewrite ER.
      rewrite !map_app in V. cbn in V. rewrite <- app_assoc in V. cbn in V.
      change ([x2; x1]) with ([x2] ++ [x1]) in V. change ([b2; b1]) with ([b2] ++ [b1]) in V.
      rewrite !app_assoc in V. apply app_inj_tail in V as [V ->]. apply app_inj_tail in V as [V ->].
      auto. }
  destruct EL as (q & i2 & i1 & EL & EQ).
  assert (SN : sizeN (klist c) = max_elements c) by exact SZ.
  set (f := fresh c) in *.
  (* the node that is popped without being discarded *)
  assert (LB : exists s jb b, (f, k) :: q = s ++ [(jb, b)]).
  { destruct (exists_last (l := (f, k) :: q)) as (s & [jb b] & E); [discriminate|]. eauto. }
  destruct LB as (s & jb & b & ES).
  assert (VB : In b (k :: p)).
  { rewrite <- EQ. change (k :: map snd q) with (map snd ((f, k) :: q)).
    rewrite ES, map_app. apply in_or_app. right. cbn. auto. }
  assert (ND : NoDup (k :: p ++ [b2; b1])).
  { constructor; unfold values in *; rewrite <- V; assumption. }
  assert (Nb1 : b <> b1 /\ b <> b2 /\ b1 <> b2 /\ z <> b1 /\ z <> b2 /\ z <> b).
  { change (k :: p ++ [b2; b1]) with ((k :: p) ++ [b2; b1]) in ND.
    assert (D : forall x, In x (k :: p) -> ~ In x [b2; b1]).
    { intros x X Y. apply in_split in Y as (y1 & y2 & EY). rewrite EY, app_assoc in ND.
      apply NoDup_remove_2 in ND. apply ND. rewrite <- app_assoc. apply in_or_app. left. exact X. }
    specialize (D b VB). cbn in D.
    assert (b2 <> b1).
    { intros ->. change ([b1; b1]) with ([b1] ++ b1 :: []) in ND. rewrite app_assoc in ND.
      apply NoDup_remove_2 in ND. apply ND. rewrite app_nil_r. apply in_or_app. right. cbn. auto. }
    assert (ZV : forall x, In x (k :: p ++ [b2; b1]) -> z <> x).
    { intros x [<-|X] E; [congruence|]. subst x. apply NZ. unfold values. rewrite V. exact X. }
    repeat split; try (intros E; subst; tauto).
    - apply ZV. right. apply in_or_app. right. cbn. auto.
    - apply ZV. right. apply in_or_app. right. cbn. auto.
    - apply ZV. change (k :: p ++ [b2; b1]) with ((k :: p) ++ [b2; b1]). apply in_or_app. auto. }
  destruct Nb1 as (Nb1 & Nb2 & Nb12 & Nz1 & Nz2 & Nzb).
  (* the map at the end *)
  set (m1 := map_set keq (kmap c) k f).
  set (m2 := map_set keq (map_erase keq m1 b1) z (S f)).
  set (m4 := map_erase keq (map_erase keq m2 b1) b2).
  assert (FB : map_find keq m4 b = Some jb).
  { unfold m4, m2. rewrite !map_find_erase, map_find_set, map_find_erase.
    destruct (keq b b2); [congruence|]. destruct (keq b b1); [congruence|]. destruct (keq b z); [congruence|].
    unfold m1. rewrite map_find_set. destruct (keq b k) as [->|NE].
    - assert (In (jb, k) ((f, k) :: q)) by (rewrite ES; apply in_or_app; right; cbn; auto).
      destruct H as [E|E]; [injection E as ->; reflexivity|]. exfalso. apply NK. unfold values. rewrite EL, map_app.
      apply in_or_app. left. apply in_snd in E. exact E.
    - apply M. assert (In (jb, b) ((f, k) :: q)) by (rewrite ES; apply in_or_app; right; cbn; auto).
      destruct H as [E|E]; [congruence|]. rewrite EL. apply in_or_app. auto. }
  assert (NDF : NoDup (map fst (((S f, z) :: s) ++ [(jb, b)]))).
  { change (((S f, z) :: s) ++ [(jb, b)]) with ((S f, z) :: (s ++ [(jb, b)])). rewrite <- ES. cbn [map fst].
    assert (FR : forall x, In x (map fst q) -> x < f).
    { intros x X. apply in_map_iff in X as ([x' y] & <- & X). apply (B x' y). rewrite EL. apply in_or_app. auto. }
    constructor; [intros [X|X]; [lia|]; apply FR in X; lia|].
    constructor; [intros X; apply FR in X; lia|].
    rewrite EL, map_app in N1. apply NoDup_front in N1. exact N1. }
  assert (DN : list_deref ((S f, z) :: s) jb = None).
  { destruct (list_deref _ jb) as [y|] eqn:D; [|reflexivity]. apply deref_some in D. exfalso.
    rewrite map_app in NDF. apply NoDup_remove_2 in NDF. apply NDF. rewrite app_nil_r.
    apply in_fst in D. exact D. }
  assert (NBV : ~ In b (z :: map snd s)).
  { intros [E|X]; [congruence|].
    assert (NoDup (map snd ((f, k) :: q))).
    { cbn [map snd]. rewrite EQ. change (k :: p ++ [b2; b1]) with ((k :: p) ++ [b2; b1]) in ND.
      apply NoDup_front in ND. exact ND. }
    rewrite ES, map_app in H. apply NoDup_remove_2 in H. apply H. rewrite app_nil_r. exact X. }
  exists (mkC (max_elements c) 3 true m4 ((S f, z) :: s) (S (S f))), b.
  assert (SQ : (sizeN q + 2 = max_elements c)%N).
  { rewrite <- SN, EL. unfold sizeN. rewrite app_length. cbn. lia. }
  assert (SS : sizeN s = sizeN q).
  { apply (f_equal (@length _)) in ES. rewrite app_length in ES. cbn in ES. unfold sizeN. lia. }
  split; [|split; [|split; [|split; [|split]]]].
  - unfold hcall. rewrite add_pushed by exact CK. unfold hclip.
    cbn [pushed max_elements clipped_values last_result kmap klist fresh]. fold f m1.
    change (3 + fuel) with (S (S (S fuel))).
    (* the outer round *)
    rewrite (round _ _ _ i1 b1 ((f, k) :: q ++ [(i2, b2)])).
    2: { unfold csize. cbn [max_elements klist]. rewrite <- SN. unfold sizeN. cbn [length]. lia. }
    2: { cbn [klist]. rewrite EL. cbn [app]. rewrite <- app_assoc. reflexivity. }
    cbn [max_elements clipped_values last_result kmap klist fresh].
    unfold always at 2. cbn [hcalls]. unfold hclip at 1.
    rewrite add_pushed.
    2: { unfold contains. cbn [kmap]. rewrite map_find_erase. destruct (keq z b1); [reflexivity|].
         unfold m1. rewrite map_find_set. destruct (keq z k); [congruence|].
         unfold contains in CZ. destruct (map_find keq (kmap c) z); [discriminate|reflexivity]. }
    cbn [pushed max_elements clipped_values last_result kmap klist fresh]. fold m2.
    (* two nested rounds *)
    rewrite EL.
    change ((S f, z) :: (f, k) :: q ++ [(i2, b2); (i1, b1)])
      with (((S f, z) :: (f, k) :: q) ++ [(i2, b2)] ++ [(i1, b1)]).
    rewrite (app_assoc ((S f, z) :: (f, k) :: q)).
    rewrite (round_present (S fuel) _ i1 b1 (((S f, z) :: (f, k) :: q) ++ [(i2, b2)]) z).
    2: { unfold csize, sizeN in *. cbn [klist max_elements]. rewrite !app_length. cbn [length]. unfold node_id in *. lia. }
    2: reflexivity.
    2: exact Nz1.
    2: { unfold contains. cbn [kmap]. unfold m2. rewrite map_find_set. destruct (keq z z); [reflexivity|congruence]. }
    cbn [max_elements clipped_values last_result kmap klist fresh].
    rewrite (round_present fuel _ i2 b2 ((S f, z) :: (f, k) :: q) z).
    2: { unfold csize, sizeN in *. cbn [klist max_elements]. rewrite !app_length. cbn [length]. unfold node_id in *. lia. }
    2: reflexivity.
    2: exact Nz2.
    2: { unfold contains. cbn [kmap]. rewrite map_find_erase. destruct (keq z b1); [congruence|].
         unfold m2. rewrite map_find_set. destruct (keq z z); [reflexivity|congruence]. }
    cbn [max_elements clipped_values last_result kmap klist fresh]. fold m4.
    assert (STOP : forall fu (d : cache), (csize d <= max_elements d)%N ->
      hloop keq (always (fun _ => [CAdd z])) fu d = Val (d, [])).
    { intros fu d Hd. destruct fu; cbn [hloop]; destruct (N.ltb_spec (max_elements d) (csize d)); (lia || reflexivity). }
    rewrite STOP.
    2: { unfold csize, sizeN in *. cbn [klist max_elements length]. unfold node_id in *. lia. }
    cbn [bind set_last max_elements clipped_values last_result kmap klist fresh app].
    rewrite ES. change ((S f, z) :: s ++ [(jb, b)]) with (((S f, z) :: s) ++ [(jb, b)]).
    rewrite removelast_last.
    rewrite STOP; [cbn [bind]; reflexivity|].
    unfold csize, sizeN in *. cbn [klist max_elements length]. unfold node_id in *. lia.
  - unfold values. cbn [klist map snd]. rewrite <- EQ.
    change (z :: k :: map snd q) with (z :: map snd ((f, k) :: q)). rewrite ES, map_app. reflexivity.
  - unfold contains. cbn [kmap]. rewrite FB. reflexivity.
  - exact NBV.
  - unfold find. cbn [kmap]. rewrite FB. unfold move_to_front. cbn [klist].
    cbn [list_deref] in DN. destruct (Nat.eqb jb (S f)) eqn:EJ; [discriminate|].
    cbn [list_deref]. rewrite EJ, DN. reflexivity.
  - unfold remove. cbn [kmap klist]. rewrite FB, DN. reflexivity.
Qed.
End Proofs.
