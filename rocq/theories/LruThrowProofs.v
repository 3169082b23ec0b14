(** Exceptions out of the LRU cache. *)
Require Import List NArith Bool Arith Lia.
Require Import Verif.Base Verif.LruModel Verif.LruSpec Verif.LruProofs
  Verif.LruThrowModel Verif.LruThrowSpec.
Import ListNotations.

Section Proofs.
Context {K : Type} (keq : forall a b : K, {a = b} + {a <> b}) (needed : N -> option N).
Notation cache := (cache K).
Notation inv := (inv keq).
Notation reached := (reached keq).
Notation usable := (usable keq).
Notation rcache := (rcache K).
Notation tstep := (tstep keq needed).

Lemma inv_usable (c : cache) : inv c -> usable c.
Proof.
  intros G ops. pose proof (run_refines keq ops c G) as R. unfold abs in R.
  unfold capacity, clipped, last_operation.
  destruct (rrun keq _ ops) as [[s rs]|]; [|exact R].
  destruct R as (c' & E & _). exists c'. exact E.
Qed.

(** ** Calls that do not throw *)
Lemma tmove_agrees c it fs :
  match tmove_to_front keq c it fs with
  | Done c' _ log _ => move_to_front keq c it = Val c' /\ log = []
  | Threw _ log => log = []
  | Undef => move_to_front keq c it = UB
  | Long => False
  end.
Proof.
  unfold tmove_to_front, move_to_front. destruct (klist c) as [|[j kj] l]; [reflexivity|].
  destruct (Nat.eqb it j); [auto|].
  destruct (list_deref _ it) as [k|]; [|reflexivity].
  destruct fs as [|[|] [|[|] fs]]; cbn; auto.
Qed.

Lemma tfind_agrees c k fs :
  match tfind keq c k fs with
  | Done c' r log _ => find keq c k = Val (c', r) /\ log = []
  | Threw _ log => log = []
  | Undef => find keq c k = UB
  | Long => False
  end.
Proof.
  unfold tfind, find. destruct (map_find keq (kmap c) k) as [it|]; [|auto].
  pose proof (tmove_agrees c it fs) as M.
  destruct (tmove_to_front keq c it fs) as [c' u log rest|c' log| |]; try exact M.
  - destruct M as [-> ->]. auto.
  - rewrite M. reflexivity.
Qed.

Lemma tclip_loop_agrees fuel : forall c log fs,
  match tclip_loop keq fuel c log fs with
  | Done c' _ log' _ => clip_loop keq fuel c log = Val (c', log')
  | Threw _ _ => True
  | Undef => clip_loop keq fuel c log = UB
  | Long => clip_loop keq fuel c log = NoFuel
  end.
Proof.
  induction fuel as [|fuel IH]; intros c log fs; cbn [tclip_loop clip_loop];
    destruct (max_elements c <? csize c)%N; try reflexivity.
  destruct (rev (klist c)) as [|[i back] r]; [reflexivity|].
  destruct fs as [|[|] fs]; cbn [point kmap]; [apply IH|exact I|apply IH].
Qed.

Lemma tclip_agrees c fs :
  match tclip keq c fs with
  | Done c' _ log' _ => clip keq c = Val (c', log')
  | Threw _ _ => True
  | Undef => clip keq c = UB
  | Long => clip keq c = NoFuel
  end.
Proof. apply tclip_loop_agrees. Qed.

Lemma tadd_agrees c k fs :
  match tadd keq c k fs with
  | Done c' _ log' _ => add keq c k = Val (c', log')
  | Threw _ _ => True
  | Undef => add keq c k = UB
  | Long => add keq c k = NoFuel
  end.
Proof.
  unfold tadd, add. destruct (negb (contains keq c k)); [|reflexivity].
  cbn [klist fresh].
  match goal with |- context [clip keq ?d] => pose proof (tclip_agrees d) as A end.
  destruct fs as [|[|] [|[|] fs]]; cbn [point]; try exact I;
    match goal with |- context [tclip keq _ ?f] => specialize (A f);
      destruct (tclip keq _ f) as [c' u log rest|c' log| |]; try exact I; rewrite A; reflexivity end.
Qed.

Lemma tindex_agrees c k fs :
  match tindex keq c k fs with
  | Done c' r log' _ => index keq c k = Val (c', r, log')
  | Threw _ _ => True
  | Undef => index keq c k = UB
  | Long => index keq c k = NoFuel
  end.
Proof.
  unfold tindex, index. destruct (contains keq c k); cbn [negb bind].
  - pose proof (tfind_agrees (set_last c false) k fs) as F.
    destruct (tfind keq (set_last c false) k fs) as [c' [b [r|]] log rest|c' log| |]; try exact I.
    + destruct F as [-> ->]. reflexivity.
    + destruct F as [-> ->]. reflexivity.
    + rewrite F. reflexivity.
    + destruct F.
  - pose proof (tadd_agrees c k fs) as A.
    destruct (tadd keq c k fs) as [c1 u log1 rest1|c' log| |]; try exact I; rewrite A; try reflexivity.
    cbn [bind]. pose proof (tfind_agrees c1 k rest1) as F.
    destruct (tfind keq c1 k rest1) as [c' [b [r|]] log rest|c' log| |]; try exact I.
    + destruct F as [-> ->]. cbn [bind]. rewrite app_nil_r. reflexivity.
    + destruct F as [-> ->]. reflexivity.
    + rewrite F. reflexivity.
    + destruct F.
Qed.

Theorem step_agrees (x : rcache) o fs :
  match tstep x o fs with
  | Done x' r log _ => cstep keq (base x) o = Val (base x', r, log)
  | Threw _ _ => True
  | Undef => cstep keq (base x) o = UB \/
      exists n, o = CSetCap n /\ (max_capacity x < n)%N /\ needed n = None
  | Long => cstep keq (base x) o = NoFuel
  end.
Proof.
  destruct o as [k|k|k|k| |n|k| | | | | | | | |]; cbn [LruThrowModel.tstep];
    try (cbn [cstep base]; reflexivity).
  - pose proof (tfind_agrees (base x) k fs) as F. cbn [cstep].
    destruct (tfind keq (base x) k fs) as [c' [b r] log rest|c' log| |]; try exact I.
    + destruct F as [-> ->]. reflexivity.
    + rewrite F. auto.
    + destruct F.
  - pose proof (tindex_agrees (base x) k fs) as F. cbn [cstep].
    destruct (tindex keq (base x) k fs) as [c' r log rest|c' log| |]; try exact I; rewrite F; auto.
  - pose proof (tadd_agrees (base x) k fs) as F. cbn [cstep].
    destruct (tadd keq (base x) k fs) as [c' r log rest|c' log| |]; try exact I; rewrite F; auto.
  - pose proof (tclip_agrees (base x) fs) as F. cbn [cstep].
    destruct (tclip keq (base x) fs) as [c' r log rest|c' log| |]; try exact I; rewrite F; auto.
  - unfold tset_capacity. cbn [cstep]. unfold set_capacity.
    match goal with |- context [clip keq ?d] => pose proof (tclip_agrees d) as A end.
    destruct (N.ltb_spec (max_capacity x) n) as [L|L].
    + destruct (needed n) as [m|] eqn:E; [|right; exists n; auto].
      destruct fs as [|[|] fs]; cbn [point]; try exact I;
        match goal with |- context [tclip keq _ ?f] => specialize (A f);
          destruct (tclip keq _ f) as [c' u log rest|c' log| |]; try exact I; rewrite A; auto end.
    + specialize (A fs).
      destruct (tclip keq _ fs) as [c' u log rest|c' log| |]; try exact I; rewrite A; auto.
  - destruct (cstep keq (base x) (CRemove k)) as [[[c r] l]| | |] eqn:E; auto.
    cbn [cstep] in E. unfold remove in E.
    destruct (map_find _ _ _) as [it|]; [destruct (list_deref _ _)|]; discriminate.
  - cbn [cstep]. destruct (most_recent (base x)) eqn:E; cbn; auto.
    unfold most_recent in E. destruct (klist (base x)) as [|[? ?] ?]; discriminate.
  - cbn [cstep]. destruct (least_recent (base x)) eqn:E; cbn; auto.
    unfold least_recent in E. destruct (rev (klist (base x))) as [|[? ?] ?]; discriminate.
Qed.

Theorem program_agrees ops : forall (x : rcache) x' rs,
  trun keq needed x ops = Val (x', rs) -> Forall (fun r => fst r <> None) rs ->
  exists rs', crun keq (base x) (map fst ops) = Val (base x', rs') /\
    rs = map (fun r => (Some (fst r), snd r)) rs'.
Proof.
  induction ops as [|[o fs] ops IH]; intros x x' rs H F; cbn [trun] in H.
  - injection H as <- <-. exists []. auto.
  - pose proof (step_agrees x o fs) as A. cbn [map fst crun].
    destruct (tstep x o fs) as [x1 r log rest|x1 log| |]; try discriminate.
    + destruct (trun keq needed x1 ops) as [[x2 rs2]| | |] eqn:E; cbn [bind] in H; try discriminate.
      injection H as <- <-. inversion F; subst. destruct (IH _ _ _ E H2) as (rs' & E' & ->).
      rewrite A. cbn [bind]. rewrite E'. cbn [bind]. exists ((r, log) :: rs'). auto.
    + destruct (trun keq needed x1 ops) as [[x2 rs2]| | |] eqn:E; cbn [bind] in H; try discriminate.
      injection H as <- <-. inversion F; subst. cbn in H1. congruence.
Qed.

(** ** Calls that nothing makes throw *)
Lemma never_tail b fs : never (b :: fs) -> b = false /\ never fs.
Proof. intros H. inversion H; auto. Qed.

Lemma never_point {S A} fs (t : ending K S A) g : never fs ->
  exists fs', never fs' /\ point fs t g = g fs'.
Proof.
  intros H. destruct fs as [|b fs]; [exists []; auto|].
  apply never_tail in H as [-> H]. exists fs. auto.
Qed.

Definition quiet {S A} (e : ending K S A) : Prop :=
  match e with Threw _ _ => False | Done _ _ _ rest => never rest | _ => True end.

Lemma tclip_loop_quiet fuel : forall c log fs, never fs -> quiet (tclip_loop keq fuel c log fs).
Proof.
  induction fuel as [|fuel IH]; intros c log fs F; cbn [tclip_loop];
    destruct (max_elements c <? csize c)%N; try exact I; try exact F.
  destruct (rev (klist c)) as [|[i back] r]; [exact I|].
  match goal with |- quiet (point fs ?t ?g) => destruct (never_point fs t g F) as (fs' & F' & ->) end.
  apply IH. exact F'.
Qed.

Lemma tmove_quiet c it fs : never fs -> quiet (tmove_to_front keq c it fs).
Proof.
  intros F. unfold tmove_to_front. destruct (klist c) as [|[j kj] l]; [exact I|].
  destruct (Nat.eqb it j); [exact F|]. destruct (list_deref _ it); [|exact I].
  match goal with |- quiet (point fs ?t ?g) => destruct (never_point fs t g F) as (fs' & F' & ->) end.
  match goal with |- quiet (point fs' ?t ?g) => destruct (never_point fs' t g F') as (fs2 & F2 & ->) end.
  exact F2.
Qed.

Lemma tfind_quiet c k fs : never fs -> quiet (tfind keq c k fs).
Proof.
  intros F. unfold tfind. destruct (map_find _ _ _) as [it|]; [|exact F].
  pose proof (tmove_quiet c it fs F) as Q.
  destruct (tmove_to_front keq c it fs); cbn in *; auto.
Qed.

Lemma tadd_quiet c k fs : never fs -> quiet (tadd keq c k fs).
Proof.
  intros F. unfold tadd. destruct (negb _); [|exact F].
  match goal with |- quiet (point fs ?t ?g) => destruct (never_point fs t g F) as (fs' & F' & ->) end.
  match goal with |- quiet (point fs' ?t ?g) => destruct (never_point fs' t g F') as (fs2 & F2 & ->) end.
  match goal with |- context [tclip keq ?d ?f] =>
    pose proof (tclip_loop_quiet (length (klist d)) (mkC (max_elements d) 0 (last_result d) (kmap d) (klist d) (fresh d)) [] f F2) as Q;
    change (tclip_loop _ _ _ _ _) with (tclip keq d f) in Q; destruct (tclip keq d f) end;
  cbn in *; auto.
Qed.

Theorem never_throws (x : rcache) o fs : never fs ->
  match tstep x o fs with Threw _ _ => False | _ => True end.
Proof.
  intros F.
  assert (W : forall S A (e : ending K S A), quiet e -> match e with Threw _ _ => False | _ => True end)
    by (intros S A [] ; cbn; auto).
  destruct o as [k|k|k|k| |n|k| | | | | | | | |]; cbn [LruThrowModel.tstep]; try exact I.
  - pose proof (tfind_quiet (base x) k fs F) as Q. destruct (tfind keq (base x) k fs); cbn in *; auto.
  - unfold tindex. destruct (contains keq (base x) k).
    + pose proof (tfind_quiet (set_last (base x) false) k fs F) as Q.
      destruct (tfind keq _ k fs) as [? [? []] ? ?|? ?| |]; cbn in *; auto.
    + pose proof (tadd_quiet (base x) k fs F) as Q.
      destruct (tadd keq (base x) k fs) as [c1 u l1 r1|? ?| |]; cbn in Q |- *; auto.
      pose proof (tfind_quiet c1 k r1 Q) as Q2.
      destruct (tfind keq _ k r1) as [? [? []] ? ?|? ?| |]; cbn in *; auto.
  - pose proof (tadd_quiet (base x) k fs F) as Q. destruct (tadd keq (base x) k fs); cbn in *; auto.
  - pose proof (tclip_loop_quiet (length (klist (base x))) (mkC (max_elements (base x)) 0 (last_result (base x)) (kmap (base x)) (klist (base x)) (fresh (base x))) [] fs F) as Q.
    change (tclip_loop _ _ _ _ _) with (tclip keq (base x) fs) in Q.
    destruct (tclip keq (base x) fs); cbn in *; auto.
  - unfold tset_capacity.
    assert (QQ : forall d f, never f -> quiet (tclip keq d f))
      by (intros d f Hf; apply tclip_loop_quiet; exact Hf).
    destruct (max_capacity x <? n)%N.
    + destruct (needed n) as [m|]; [|exact I].
      destruct fs as [|b fs]; [|apply never_tail in F as [-> F]]; cbn [point];
        match goal with |- context [tclip keq ?d ?f] =>
          pose proof (QQ d f) as Q; destruct (tclip keq d f) end; cbn in *; auto.
    + pose proof (QQ (mkC n (clipped_values (base x)) (last_result (base x)) (kmap (base x)) (klist (base x)) (fresh (base x))) fs F) as Q.
      destruct (tclip keq _ fs); cbn in *; auto.
  - destruct (cstep keq (base x) (CRemove k)) as [[[c r] l]| | |]; exact I.
  - destruct (cstep keq (base x) CMostRecent) as [[[c r] l]| | |]; exact I.
  - destruct (cstep keq (base x) CLeastRecent) as [[[c r] l]| | |]; exact I.
Qed.

(** ** What an exception leaves behind *)

(** The map entry of the last key is gone, its list node is not. *)
Definition broken (c : cache) (b : K) : cache :=
  mkC (max_elements c) (clipped_values c) (last_result c)
      (map_erase keq (kmap c) b) (klist c) (fresh c).

Lemma tclip_loop_threw fuel : forall c log fs c' log', inv c ->
  tclip_loop keq fuel c log fs = Threw c' log' ->
  exists c0 pre b l, inv c0 /\ c' = broken c0 b /\ log' = log ++ pre ++ [b] /\
    values c0 = l ++ [b] /\ values c = values c0 ++ rev pre /\
    max_elements c0 = max_elements c /\ last_result c0 = last_result c /\
    (max_elements c < csize c0)%N.
Proof.
  induction fuel as [|fuel IH]; intros c log fs c' log' G H; cbn [tclip_loop] in H;
    destruct (N.ltb_spec (max_elements c) (csize c)) as [L|L]; try discriminate.
  destruct (rev (klist c)) as [|[i back] r] eqn:ER; [discriminate|].
  apply (f_equal (@rev _)) in ER. rewrite rev_involutive in ER. cbn in ER.
  pose proof G as (N1 & _). rewrite ER in N1.
  assert (V : values c = map snd (rev r) ++ [back]) by (unfold values; rewrite ER, map_app; reflexivity).
  assert (T : (exists fs', tclip_loop keq fuel
              (mkC (max_elements c) (clipped_values c + 1)%N (last_result c)
                   (map_erase keq (kmap c) back) (removelast (klist c)) (fresh c))
              (log ++ [back]) fs' = Threw c' log') \/
              (c' = broken c back /\ log' = log ++ [back])).
  { destruct fs as [|[|] fs]; cbn [point kmap] in H; [left; exists []; exact H| |left; exists fs; exact H].
    right. injection H as <- <-. auto. }
  destruct T as [[fs' T]|[-> ->]].
  - apply IH in T.
    + destruct T as (c0 & pre & b & l & G0 & -> & -> & E1 & E2 & M & La & L').
      exists c0, (back :: pre), b, l. split; [exact G0|]. split; [reflexivity|].
      rewrite <- app_assoc. split; [reflexivity|]. split; [exact E1|].
      cbn [max_elements last_result] in *. repeat split; auto.
      unfold values in E2 at 1. cbn [klist] in E2. rewrite ER, removelast_last in E2.
      rewrite V, E2. cbn [rev]. rewrite app_assoc. reflexivity.
    + unfold inv in *. cbn [kmap klist fresh]. rewrite ER in G |- *. rewrite removelast_last.
      rewrite <- (erase_last (rev r) i back N1) at 1.
      apply good_erase; [assumption|]. apply in_or_app; right; cbn; auto.
  - exists c, [], back, (map snd (rev r)). cbn [rev app]. rewrite app_nil_r. auto 10.
Qed.

Lemma tclip_threw c fs c' log' : inv c -> tclip keq c fs = Threw c' log' ->
  exists c0 pre b l, inv c0 /\ c' = broken c0 b /\ log' = pre ++ [b] /\
    values c0 = l ++ [b] /\ values c = values c0 ++ rev pre /\
    max_elements c0 = max_elements c /\ last_result c0 = last_result c /\
    (max_elements c < csize c0)%N.
Proof. intros G H. unfold tclip in H. apply tclip_loop_threw in H; [|exact G]. exact H. Qed.

Lemma broken_find c b k : map_find keq (kmap (broken c b)) k =
  if keq k b then None else map_find keq (kmap c) k.
Proof. apply map_find_erase. Qed.

Lemma erase_twice m b : map_erase keq (map_erase keq m b) b = map_erase keq m b.
Proof.
  unfold map_erase. induction m as [|e m IH]; [reflexivity|]. cbn.
  destruct (keq b (fst e)) eqn:E; [exact IH|]. cbn. rewrite E, IH. reflexivity.
Qed.

(** A further clip() goes on as if the hook had not thrown. *)
Lemma clip_broken c b l : values c = l ++ [b] -> (max_elements c < csize c)%N ->
  clip keq (broken c b) = clip keq c.
Proof.
  intros V L. unfold clip, broken. cbn [klist max_elements last_result kmap fresh].
  unfold values in V. destruct (length (klist c)) as [|n] eqn:EL.
  - exfalso. unfold csize, sizeN in L. rewrite EL in L. cbn in L. lia.
  - cbn [clip_loop max_elements klist]. unfold csize in *. cbn [klist].
    destruct (N.ltb_spec (max_elements c) (sizeN (klist c))); [|lia].
    destruct (rev (klist c)) as [|[i back] r] eqn:ER; [reflexivity|].
    apply (f_equal (@rev _)) in ER. rewrite rev_involutive in ER. cbn in ER.
    rewrite ER, map_app in V. cbn in V. apply app_inj_tail in V as [_ ->].
    cbn [clipped_values last_result kmap fresh]. rewrite erase_twice. reflexivity.
Qed.

(** The list node is gone, the map entry is not. *)
Definition dangled (c : cache) (i : node_id) : cache :=
  mkC (max_elements c) (clipped_values c) (last_result c)
      (kmap c) (list_erase (klist c) i) (fresh c).

(** The list node is there, the map entry is not. *)
Definition lost (c : cache) (k : K) : cache :=
  mkC (max_elements c) (clipped_values c) (last_result c)
      (kmap c) ((fresh c, k) :: klist c) (S (fresh c)).

Definition added (c : cache) (k : K) : cache :=
  mkC (max_elements c) (clipped_values c) (last_result c)
      (map_set keq (kmap c) k (fresh c)) ((fresh c, k) :: klist c) (S (fresh c)).

Lemma tfind_threw c k fs c' log : inv c -> tfind keq c k fs = Threw c' log ->
  log = [] /\ hd_error (values c) <> Some k /\
  exists i, In (i, k) (klist c) /\ map_find keq (kmap c) k = Some i /\
    ((c' = c /\ exists r, fs = true :: r) \/ (c' = dangled c i /\ exists r, fs = false :: true :: r)).
Proof.
  intros G H. pose proof G as (_ & _ & _ & M). unfold tfind in H.
  destruct (map_find keq (kmap c) k) as [i|] eqn:E; [|discriminate].
  pose proof E as E'. apply M in E'. unfold tmove_to_front in H.
  destruct (klist c) as [|[j kj] l] eqn:EL; [destruct E'|].
  destruct (Nat.eqb_spec i j) as [|NE]; [discriminate|].
  assert (HD : hd_error (values c) <> Some k).
  { unfold values. rewrite EL. cbn. intros X. injection X as ->. apply NE.
    apply (good_inj keq (kmap c) (klist c) (fresh c) k); [exact G|rewrite EL; exact E'|].
    rewrite EL. left. reflexivity. }
  rewrite <- EL in *.
  destruct (list_deref (klist c) i) as [key|]; [|discriminate].
  destruct fs as [|[|] [|[|] fs]]; cbn [point] in H; try discriminate; injection H as <- <-;
    (split; [reflexivity|]; split; [exact HD|]; exists i; split; [assumption|]; split; [reflexivity|]);
    [left|left|left|right]; eauto.
Qed.

Lemma inv_added c k : inv c -> ~ In k (values c) -> inv (added c k).
Proof. intros G H. unfold inv, added. cbn [kmap klist fresh]. apply good_push; assumption. Qed.

(** Map and list agree about every key of a sound state. *)
Lemma inv_agree c k : inv c -> (contains keq c k = true <-> In k (values c)).
Proof. intros G. rewrite contains_mem by exact G. apply mem_true. Qed.

Lemma inv_absent c k : inv c -> (contains keq c k = false <-> ~ In k (values c)).
Proof. intros G. rewrite contains_mem by exact G. apply mem_false. Qed.

Lemma tadd_threw c k fs c' log : inv c -> tadd keq c k fs = Threw c' log ->
  ~ In k (values c) /\
  ((c' = c /\ log = []) \/ (c' = lost c k /\ log = [] /\ exists r, fs = false :: true :: r) \/
   (exists r, tclip keq (added c k) r = Threw c' log /\ exists r', fs = false :: r')).
Proof.
  intros G H. unfold tadd in H. destruct (contains keq c k) eqn:C; cbn [negb] in H; [discriminate|].
  split; [apply inv_absent; assumption|].
  change (mkC _ _ _ (map_set _ _ _ _) _ _) with (added c k) in H.
  change (mkC _ _ _ (kmap c) _ _) with (lost c k) in H.
  destruct fs as [|[|] fs]; cbn [point] in H.
  - exfalso. pose proof (tclip_loop_quiet (length (klist (added c k)))
      (mkC (max_elements (added c k)) 0 (last_result (added c k)) (kmap (added c k))
           (klist (added c k)) (fresh (added c k))) [] [] (Forall_nil _)) as Q.
    change (tclip_loop _ _ _ _ _) with (tclip keq (added c k) []) in Q.
    destruct (tclip keq (added c k) []); cbn in Q; try discriminate. exact Q.
  - injection H as <- <-. auto.
  - destruct fs as [|[|] fs]; cbn [point] in H.
    + right; right. exists []. destruct (tclip keq (added c k) []); try discriminate. split; [congruence|]; eauto.
    + right; left. injection H as <- <-. eauto.
    + right; right. exists fs. destruct (tclip keq (added c k) fs); try discriminate. split; [congruence|]; eauto.
Qed.

(** After add the key is at the front, so that operator[] moves nothing. *)
Lemma find_after_add c k fs c1 u log rest fs' : inv c -> ~ In k (values c) ->
  tadd keq c k fs = Done c1 u log rest ->
  match tfind keq c1 k fs' with Threw _ _ => False | _ => True end.
Proof.
  intros G NI H. pose proof (tadd_agrees c k fs) as A. rewrite H in A.
  destruct (add_spec keq c k G) as [_ A2].
  destruct A2 as (c2 & R & G1 & AB); [apply mem_false; exact NI|].
  rewrite R in A. injection A as -> _.
  apply abs_fields in AB as (V & _). cbn [keys] in V.
  destruct (tfind keq c1 k fs') as [| c' l| |] eqn:F; auto.
  apply tfind_threw in F as (_ & HD & i & Hi & _); [|exact G1].
  destruct (N.eq_dec (max_elements c) 0) as [Z|NZ].
  - apply in_snd in Hi. change (In k (values c1)) in Hi. rewrite V, Z in Hi. exact Hi.
  - rewrite V, keep_pos in HD by exact NZ. apply HD. reflexivity.
Qed.

(** Everything an exception can leave behind. *)
Lemma step_threw (x : rcache) o fs x' log : inv (base x) -> tstep x o fs = Threw x' log ->
  (log = [] /\ inv (base x') /\ same_contents keq (base x) (base x') /\ clipped (base x') = clipped (base x) /\
   (last_operation (base x') = last_operation (base x) \/ exists k, o = CIndex k)) \/
  (log = [] /\ exists c i k, (o = CFind k \/ o = CIndex k) /\ inv c /\ same_contents keq (base x) c /\
     In (i, k) (klist c) /\ map_find keq (kmap c) k = Some i /\ base x' = dangled c i /\
     exists r, fs = false :: true :: r) \/
  (log = [] /\ exists k, (o = CAdd k \/ o = CIndex k) /\ ~ In k (values (base x)) /\
     base x' = lost (base x) k /\ exists r, fs = false :: true :: r) \/
  (exists c r, inv c /\ tclip keq c r = Threw (base x') log /\
     match o with
     | CAdd k | CIndex k => ~ In k (values (base x)) /\ c = added (base x) k
     | CClip => c = base x
     | CSetCap n => c = mkC n (clipped_values (base x)) (last_result (base x))
                            (kmap (base x)) (klist (base x)) (fresh (base x))
     | _ => False
     end).
Proof.
  intros G H.
  assert (SC : forall c : cache, same_contents keq c c) by (intros c; unfold same_contents; auto).
  assert (FND : forall c k, inv c -> same_contents keq (base x) c -> clipped c = clipped (base x) ->
    (last_operation c = last_operation (base x) \/ exists k, o = CIndex k) ->
    (o = CFind k \/ o = CIndex k) -> forall c' log', tfind keq c k fs = Threw c' log' ->
    x' = mkX c' (max_capacity x) -> log = log' -> 
    (log = [] /\ inv (base x') /\ same_contents keq (base x) (base x') /\ clipped (base x') = clipped (base x) /\
     (last_operation (base x') = last_operation (base x) \/ exists k, o = CIndex k)) \/
    (log = [] /\ exists c i k, (o = CFind k \/ o = CIndex k) /\ inv c /\ same_contents keq (base x) c /\
     In (i, k) (klist c) /\ map_find keq (kmap c) k = Some i /\ base x' = dangled c i /\
     exists r, fs = false :: true :: r)).
  { intros c k Gc S Cl La O c' log' F -> ->. apply tfind_threw in F; [|exact Gc].
    destruct F as (-> & _ & i & Hi & M & [[-> _]|[-> R]]); [left|right]; cbn [base]; auto.
    split; [reflexivity|]. exists c, i, k. auto 10. }
  destruct o as [k|k|k|k| |n|k| | | | | | | | |]; cbn [LruThrowModel.tstep] in H;
    try (cbn [cstep] in H; discriminate).
  - destruct (tfind keq (base x) k fs) as [| c' l| |] eqn:F; try discriminate. injection H as <- <-.
    destruct (FND (base x) k G (SC _) eq_refl (or_introl eq_refl) (or_introl eq_refl) _ _ F eq_refl eq_refl); auto.
  - unfold tindex in H. destruct (contains keq (base x) k) eqn:C.
    + destruct (tfind keq (set_last (base x) false) k fs) as [? [? []] ? ?| c' l| |] eqn:F; try discriminate.
      injection H as <- <-.
      destruct (FND (set_last (base x) false) k G (SC _) eq_refl
        (or_intror (ex_intro _ k eq_refl)) (or_intror eq_refl) _ _ F eq_refl eq_refl); auto.
    + destruct (tadd keq (base x) k fs) as [c1 u l1 r1| c' l| |] eqn:A; try discriminate.
      * exfalso. apply inv_absent in C; [|exact G].
        pose proof (find_after_add _ _ _ _ _ _ _ r1 G C A) as FA.
        destruct (tfind keq c1 k r1) as [? [? []] ? ?| c2 l2| |]; try discriminate. exact FA.
      * injection H as <- <-. apply tadd_threw in A as (NI & [[-> ->]|[(-> & -> & R)|(r & T & _)]]); [| | |exact G].
        -- left. cbn [base]. auto 10.
        -- right; right; left. split; [reflexivity|]. exists k. auto.
        -- right; right; right. exists (added (base x) k), r. cbn [base].
           split; [apply inv_added; assumption|]. auto.
  - destruct (tadd keq (base x) k fs) as [c1 u l1 r1| c' l| |] eqn:A; try discriminate.
    injection H as <- <-. apply tadd_threw in A as (NI & [[-> ->]|[(-> & -> & R)|(r & T & _)]]); [| | |exact G].
    + left. cbn [base]. auto 10.
    + right; right; left. split; [reflexivity|]. exists k. auto.
    + right; right; right. exists (added (base x) k), r. cbn [base].
      split; [apply inv_added; assumption|]. auto.
  - destruct (tclip keq (base x) fs) as [| c' l| |] eqn:T; try discriminate. injection H as <- <-.
    right; right; right. exists (base x), fs. auto.
  - unfold tset_capacity in H.
    match type of H with context [tclip keq ?d] => set (d0 := d) in H end.
    assert (X : forall m r, (match tclip keq d0 r with
        | Done c' a log fs => Done (mkX c' m) a log fs
        | Threw c' log => Threw (mkX c' m) log
        | Undef => Undef | Long => Long end : ending K rcache unit) = Threw x' log ->
        tclip keq d0 r = Threw (base x') log).
    { intros m r. destruct (tclip keq d0 r); try discriminate. intros E; injection E as <- <-. reflexivity. }
    assert (Y : (exists m, needed n = Some m /\ x' = mkX (base x) m /\ log = []) \/
                (exists r, tclip keq d0 r = Threw (base x') log)).
    { destruct (max_capacity x <? n)%N; [destruct (needed n) as [m|]; [|discriminate];
        destruct fs as [|[|] fs]; cbn [point] in H|].
      - destruct (tclip keq d0 []) eqn:T; try discriminate. injection H as <- <-. eauto.
      - injection H as <- <-. eauto.
      - destruct (tclip keq d0 fs) eqn:T; try discriminate. injection H as <- <-. eauto.
      - destruct (tclip keq d0 fs) eqn:T; try discriminate. injection H as <- <-. eauto. }
    destruct Y as [(m & _ & -> & ->)|[r T]]; [left; cbn [base]; auto 10|].
    right; right; right. exists d0, r. split; [exact G|]. auto.
  - destruct (cstep keq (base x) (CRemove k)) as [[[c r] l]| | |]; discriminate.
  - destruct (cstep keq (base x) CMostRecent) as [[[c r] l]| | |]; discriminate.
  - destruct (cstep keq (base x) CLeastRecent) as [[[c r] l]| | |]; discriminate.
Qed.

(** ** Theorems *)
Theorem first_point (x : rcache) o fs x' : reached (base x) ->
  tstep x o (true :: fs) = Threw x' [] ->
  usable (base x') /\ same_contents keq (base x) (base x') /\ clipped (base x') = clipped (base x) /\
  (last_operation (base x') = last_operation (base x) \/ exists k, o = CIndex k).
Proof.
  intros R H. destruct (reached_inv keq _ R) as [G _].
  apply step_threw in H; [|exact G].
  destruct H as [(_ & G' & H)|[(_ & c & i & k & _ & _ & _ & _ & _ & _ & r & E)|[(_ & k & _ & _ & _ & r & E)|(c & r & Gc & T & _)]]];
    try discriminate.
  - split; [apply inv_usable; exact G'|exact H].
  - apply tclip_threw in T as (c0 & pre & b & l & _ & _ & E & _); [|exact Gc].
    destruct pre; discriminate.
Qed.

Lemma dangled_values c i k : inv c -> In (i, k) (klist c) ->
  values (dangled c i) = without keq k (values c).
Proof. intros G Hi. pose proof G as (N1 & N2 & _). apply erase_snd; assumption. Qed.

Theorem one_key_affected (x : rcache) o fs x' log : reached (base x) ->
  tstep x o fs = Threw x' log ->
  NoDup (values (base x')) /\
  forall k1 k2, disagree keq (base x') k1 -> disagree keq (base x') k2 -> k1 = k2.
Proof.
  intros R H. destruct (reached_inv keq _ R) as [G _].
  assert (ONE : forall c k, (forall k', k' <> k -> contains keq c k' = mem keq k' (values c)) ->
    forall k1 k2, disagree keq c k1 -> disagree keq c k2 -> k1 = k2).
  { intros c k A k1 k2 D1 D2. unfold disagree in *.
    destruct (keq k1 k) as [->|N1]; [|exfalso; auto]. destruct (keq k2 k) as [->|N2]; [reflexivity|exfalso; auto]. }
  apply step_threw in H; [|exact G].
  destruct H as [(_ & G' & _)|[(_ & c & i & k & _ & Gc & _ & Hi & M & -> & _)|[(_ & k & _ & NI & -> & _)|(c & r & Gc & T & _)]]].
  - split; [apply G'|]. intros k1 k2 D1. exfalso. apply D1. apply contains_mem. exact G'.
  - rewrite (dangled_values c i k Gc Hi). split; [apply without_NoDup; apply Gc|].
    apply (ONE _ k). intros k' N. rewrite (dangled_values c i k Gc Hi).
    transitivity (contains keq c k'); [reflexivity|]. rewrite contains_mem by exact Gc.
    apply eq_true_iff_eq. rewrite !mem_true, without_in. tauto.
  - unfold values at 1. cbn [lost klist map snd]. split.
    + constructor; [exact NI|apply G].
    + apply (ONE _ k). intros k' N. transitivity (contains keq (base x) k'); [reflexivity|].
      rewrite contains_mem by exact G. apply eq_true_iff_eq. rewrite !mem_true.
      unfold values at 2. cbn [lost klist map snd In]. split; [auto|intros [E|E]; [congruence|exact E]].
  - apply tclip_threw in T as (c0 & pre & b & l & G0 & -> & _); [|exact Gc].
    change (values (broken c0 b)) with (values c0). split; [apply G0|].
    apply (ONE _ b). intros k' N. change (values (broken c0 b)) with (values c0).
    rewrite <- contains_mem by exact G0. unfold contains. rewrite broken_find.
    destruct (keq k' b); [contradiction|reflexivity].
Qed.

Lemma keep_app_more n (a b : list K) : (n <= sizeN a)%N -> keep n (a ++ b) = keep n a.
Proof.
  unfold keep, sizeN. intros H. rewrite firstn_app.
  replace (N.to_nat n - length a) with 0 by lia. cbn. apply app_nil_r.
Qed.
Lemma dropped_app_more n (a b : list K) : (n <= sizeN a)%N -> dropped n (a ++ rev b) = b ++ dropped n a.
Proof.
  unfold dropped, sizeN. intros H. rewrite skipn_app.
  replace (N.to_nat n - length a) with 0 by lia. cbn [skipn].
  rewrite rev_app_distr, rev_involutive. reflexivity.
Qed.

(** The step without exceptions in terms of clip. *)
Lemma step_clip c o c' r full k : inv c -> cstep keq c o = Val (c', r, full) ->
  match o with CAdd k' | CIndex k' => k' = k /\ ~ In k (values c) | _ => True end ->
  match o with
  | CAdd _ | CIndex _ =>
      values c' = keep (capacity c) (k :: values c) /\ full = dropped (capacity c) (k :: values c) /\
      capacity c' = capacity c
  | CClip =>
      values c' = keep (capacity c) (values c) /\ full = dropped (capacity c) (values c) /\
      capacity c' = capacity c
  | CSetCap n =>
      values c' = keep n (values c) /\ full = dropped n (values c) /\ capacity c' = n
  | _ => True
  end.
Proof.
  intros G H X. pose proof (step_refines keq c o G) as S. unfold abs at 1 in S.
  destruct o as [q|q|q|q| |n|q| | | | | | | | |]; cbn [rstep] in S; try exact I.
  1, 2: destruct X as [-> NI]; apply (mem_false keq) in NI; rewrite NI in S;
     try destruct (N.eqb (max_elements c) 0); try congruence.
  all: destruct S as (c2 & E & A & _); rewrite H in E; injection E as -> -> ->;
    apply abs_fields in A as (V & M & _); auto.
Qed.

Theorem hook_retry (x : rcache) o fs x' log c r full : reached (base x) ->
  tstep x o fs = Threw x' log -> log <> [] -> cstep keq (base x) o = Val (c, r, full) ->
  exists pre b rest x'',
    log = pre ++ [b] /\ full = pre ++ b :: rest /\
    tstep x' CClip [] = Done x'' AUnit (b :: rest) [] /\
    usable (base x'') /\ values (base x'') = values c /\ capacity (base x'') = capacity c.
Proof.
  intros R H NE HS. destruct (reached_inv keq _ R) as [G _].
  apply step_threw in H; [|exact G].
  destruct H as [(E & _)|[(E & _)|[(E & _)|(d & fs' & Gd & T & X)]]]; try congruence.
  assert (HV : values c = keep (capacity d) (values d) /\ full = dropped (capacity d) (values d) /\
    capacity c = capacity d).
  { destruct o as [q|q|q|q| |n|q| | | | | | | | |]; try contradiction.
    - destruct X as [NI ->]. apply (step_clip _ (CIndex q) _ _ _ q G HS). auto.
    - destruct X as [NI ->]. apply (step_clip _ (CAdd q) _ _ _ q G HS). auto.
    - subst d. pose proof (step_refines keq (base x) CClip G) as S. unfold abs at 1 in S. cbn [rstep] in S.
      destruct S as (c2 & E & A & _). rewrite HS in E. injection E as -> -> ->.
      apply abs_fields in A as (V & M & _). auto.
    - subst d. pose proof (step_refines keq (base x) (CSetCap n) G) as S. unfold abs at 1 in S. cbn [rstep] in S.
      destruct S as (c2 & E & A & _). rewrite HS in E. injection E as -> -> ->.
      apply abs_fields in A as (V & M & _). auto. }
  destruct HV as (V & F & CP).
  apply tclip_threw in T as (c0 & pre & b & l & G0 & EB & -> & E0 & E1 & M0 & _ & L); [|exact Gd].
  destruct (clip_spec keq c0 G0) as (c2 & CL & G2 & A2).
  apply abs_fields in A2 as (V2 & M2 & _). cbn [keys cap] in V2, M2.
  assert (SZ : (max_elements d < sizeN (values c0))%N).
  { unfold csize, sizeN in L. unfold sizeN, values. rewrite map_length. exact L. }
  assert (DR : dropped (capacity d) (values c0) = b :: dropped (capacity d) l).
  { rewrite E0. apply dropped_snoc. rewrite <- E0. exact SZ. }
  exists pre, b, (dropped (capacity d) l), (mkX c2 (max_capacity x')).
  split; [reflexivity|]. split.
  { rewrite F, E1. rewrite dropped_app_more by (unfold capacity; lia). rewrite DR. reflexivity. }
  cbn [base]. split; [|split; [apply inv_usable; exact G2|]].
  - cbn [LruThrowModel.tstep].
    pose proof (tclip_agrees (base x') []) as A. rewrite EB in A |- *.
    pose proof (tclip_loop_quiet (length (klist (broken c0 b))) (mkC (max_elements (broken c0 b)) 0 (last_result (broken c0 b)) (kmap (broken c0 b)) (klist (broken c0 b)) (fresh (broken c0 b))) [] [] (Forall_nil _)) as Q.
    change (tclip_loop _ _ _ _ _) with (tclip keq (broken c0 b) []) in Q.
    rewrite (clip_broken c0 b l E0) in A by (rewrite M0; exact L). rewrite CL in A.
    rewrite M0 in A. change (max_elements d) with (capacity d) in A. rewrite DR in A.
    assert (RS : forall fuel c log, match tclip_loop keq fuel c log [] with
       | Done _ _ _ rest => rest = [] | _ => True end).
    { induction fuel as [|fuel IH]; intros c1 log; cbn [tclip_loop];
        destruct (max_elements c1 <? csize c1)%N; auto.
      destruct (rev (klist c1)) as [|[i back] rr]; [exact I|]. cbn [point]. apply IH. }
    specialize (RS (length (klist (broken c0 b))) (mkC (max_elements (broken c0 b)) 0 (last_result (broken c0 b)) (kmap (broken c0 b)) (klist (broken c0 b)) (fresh (broken c0 b))) []).
    change (tclip_loop _ _ _ _ _) with (tclip keq (broken c0 b) []) in RS.
    destruct (tclip keq (broken c0 b) []) as [c3 u l3 r3| | |]; try discriminate; [|destruct Q].
    injection A as <- <-. rewrite RS. reflexivity.
  - rewrite V2, V, E1, M0. change (max_elements d) with (capacity d).
    rewrite keep_app_more by (unfold capacity; lia). split; [reflexivity|].
    unfold capacity in *. congruence.
Qed.

Theorem clear_repairs (c : cache) : usable (clear c) /\ values (clear c) = [] /\
  capacity (clear c) = capacity c /\ forall k, contains keq (clear c) k = false.
Proof. split; [apply inv_usable, inv_nil|]. auto. Qed.

Theorem find_dangles (x : rcache) k fs : reached (base x) ->
  contains keq (base x) k = true -> hd_error (values (base x)) <> Some k ->
  exists x', tstep x (CFind k) (false :: true :: fs) = Threw x' [] /\
    contains keq (base x') k = true /\ values (base x') = without keq k (values (base x)) /\
    find keq (base x') k = UB /\ remove keq (base x') k = UB /\ index keq (base x') k = UB.
Proof.
  intros R C HD. destruct (reached_inv keq _ R) as [G _].
  pose proof G as (N1 & N2 & B & M).
  unfold contains in C. destruct (map_find keq (kmap (base x)) k) as [i|] eqn:E; [|discriminate].
  pose proof (proj1 (M _ _) E) as Hi.
  assert (ND : list_deref (list_erase (klist (base x)) i) i = None).
  { destruct (list_deref _ i) as [q|] eqn:D; [|reflexivity]. apply deref_some in D.
    apply erase_in in D; [|exact N1]. destruct D as [_ D]. congruence. }
  assert (NH : forall l, list_deref l i = None -> @move_to_front K keq
    (mkC (max_elements (base x)) (clipped_values (base x)) (last_result (base x)) (kmap (base x)) l (fresh (base x))) i = UB /\
    @move_to_front K keq (mkC (max_elements (base x)) (clipped_values (base x)) false (kmap (base x)) l (fresh (base x))) i = UB).
  { intros [|[j q] l] D; [split; reflexivity|]. unfold move_to_front. cbn [klist] in *. cbn [list_deref] in D.
    destruct (Nat.eqb i j) eqn:EJ; [discriminate|]. cbn [list_deref]. rewrite EJ, D. auto. }
  destruct (NH _ ND) as [U1 U2].
  exists (mkX (dangled (base x) i) (max_capacity x)). cbn [base].
  split; [|split; [|split; [|split; [|split]]]].
  - cbn [LruThrowModel.tstep]. unfold tfind. rewrite E. unfold tmove_to_front.
    destruct (klist (base x)) as [|[j kj] l] eqn:EL; [destruct Hi|].
    destruct (Nat.eqb_spec i j) as [->|NE].
    + exfalso. apply HD. unfold values. rewrite EL. cbn. f_equal.
      destruct Hi as [X|X]; [congruence|]. cbn in N1. inversion N1; subst.
      exfalso. apply H1. apply in_fst in X. exact X.
    + rewrite <- EL in *. rewrite (deref_in _ _ _ N1 Hi). reflexivity.
  - unfold contains. cbn [dangled kmap]. rewrite E. reflexivity.
  - apply dangled_values; assumption.
  - unfold find. cbn [dangled kmap]. rewrite E. unfold dangled. rewrite U1. reflexivity.
  - unfold remove. cbn [dangled kmap klist]. rewrite E, ND. reflexivity.
  - unfold index, contains. cbn [dangled kmap]. rewrite E. cbn [negb bind]. unfold find.
    cbn [dangled set_last kmap]. rewrite E. unfold set_last, dangled.
    cbn [max_elements clipped_values kmap klist fresh]. rewrite U2. reflexivity.
Qed.

(** clip does the same to the list of any state. *)
Lemma clip_loop_values fuel : forall (c : cache) log,
  (length (klist c) <= fuel + N.to_nat (max_elements c)) ->
  exists c', clip_loop keq fuel c log = Val (c', log ++ dropped (max_elements c) (values c)) /\
    values c' = keep (max_elements c) (values c).
Proof.
  assert (SV : forall c : cache, csize c = sizeN (values c)).
  { intros c. unfold csize, sizeN, values. rewrite map_length. reflexivity. }
  induction fuel as [|fuel IH]; intros c log L; cbn [clip_loop];
    destruct (N.ltb_spec (max_elements c) (csize c)) as [H|H].
  - exfalso. unfold csize, sizeN in H. lia.
  - exists c. rewrite SV in H. rewrite dropped_none, keep_all, app_nil_r by assumption. auto.
  - destruct (rev (klist c)) as [|[i back] r] eqn:ER.
    + exfalso. apply (f_equal (@rev _)) in ER. rewrite rev_involutive in ER.
      unfold csize in H. rewrite ER in H. cbn in H. lia.
    + apply (f_equal (@rev _)) in ER. rewrite rev_involutive in ER. cbn in ER.
      rewrite SV in H. unfold values in H |- *. rewrite ER in H |- *. rewrite map_app in H |- *.
      cbn [map snd] in H |- *.
      rewrite removelast_last, dropped_snoc, keep_snoc by assumption.
      edestruct IH as (c' & R & A).
      2: { rewrite R. exists c'. unfold values in *. cbn [max_elements klist] in *.
           rewrite <- app_assoc. split; [reflexivity|exact A]. }
      cbn [klist max_elements]. apply (f_equal (@length _)) in ER.
      rewrite app_length in ER. cbn in ER. lia.
  - exists c. rewrite SV in H. rewrite dropped_none, keep_all, app_nil_r by assumption. auto.
Qed.

Theorem add_lost (x : rcache) k fs : reached (base x) -> contains keq (base x) k = false ->
  exists x' c1 c2 log, tstep x (CAdd k) (false :: true :: fs) = Threw x' [] /\
    contains keq (base x') k = false /\ values (base x') = k :: values (base x) /\
    remove keq (base x') k = Val c1 /\ values c1 = k :: values (base x) /\ last_operation c1 = false /\
    add keq (base x') k = Val (c2, log) /\
    values c2 = keep (capacity (base x)) (k :: k :: values (base x)).
Proof.
  intros R C.
  assert (E : map_find keq (kmap (base x)) k = None).
  { unfold contains in C. destruct (map_find _ _ _); [discriminate|reflexivity]. }
  pose proof (clip_loop_values (S (S (length (klist (base x)))))
    (mkC (max_elements (base x)) 0 (last_result (base x))
      (map_set keq (kmap (base x)) k (S (fresh (base x))))
      ((S (fresh (base x)), k) :: (fresh (base x), k) :: klist (base x)) (S (S (fresh (base x))))) []) as CV.
  destruct CV as (c2 & CE & CVal); [cbn; lia|].
  exists (mkX (lost (base x) k) (max_capacity x)), (set_last (lost (base x) k) false),
    (set_last c2 true). eexists. cbn [base].
  split; [|split; [|split; [|split; [|split; [|split; [|split]]]]]].
  - cbn [LruThrowModel.tstep]. unfold tadd. rewrite C. reflexivity.
  - exact C.
  - reflexivity.
  - unfold remove. cbn [lost kmap]. rewrite E. reflexivity.
  - reflexivity.
  - reflexivity.
  - unfold add. change (contains keq (lost (base x) k) k) with (contains keq (base x) k). rewrite C.
    cbn [negb lost max_elements clipped_values last_result kmap klist fresh].
    unfold clip. cbn [length max_elements clipped_values last_result kmap klist fresh].
    match goal with |- bind ?e _ = _ => replace e with (Val (c2, [] ++ dropped (max_elements (base x)) (k :: k :: values (base x)))) end.
    cbn [bind]. reflexivity.
  - exact CVal.
Qed.

Theorem discard_lost (x : rcache) k l lru fs : reached (base x) ->
  contains keq (base x) k = false -> csize (base x) = capacity (base x) ->
  values (base x) = l ++ [lru] ->
  exists x', tstep x (CAdd k) (false :: false :: true :: fs) = Threw x' [lru] /\
    values (base x') = k :: l ++ [lru] /\ csize (base x') = (capacity (base x') + 1)%N /\
    least_recent (base x') = Val lru /\ contains keq (base x') lru = false.
Proof.
  intros R C SZ V. destruct (reached_inv keq _ R) as [G _].
  assert (NI : ~ In k (values (base x))) by (apply inv_absent; assumption).
  unfold values in V. destruct (rev (klist (base x))) as [|[i b] r] eqn:ER.
  { apply (f_equal (@rev _)) in ER. rewrite rev_involutive in ER. rewrite ER in V. destruct l; discriminate. }
  apply (f_equal (@rev _)) in ER. rewrite rev_involutive in ER. cbn in ER.
  pose proof V as V0. rewrite ER, map_app in V0. cbn in V0. apply app_inj_tail in V0 as [_ ->].
  exists (mkX (broken (mkC (max_elements (base x)) 0 (last_result (base x))
     (map_set keq (kmap (base x)) k (fresh (base x))) ((fresh (base x), k) :: klist (base x))
     (S (fresh (base x)))) lru) (max_capacity x)). cbn [base].
  split; [|split; [|split; [|split]]].
  - cbn [LruThrowModel.tstep]. unfold tadd. rewrite C. cbn [negb point klist fresh].
    unfold tclip. cbn [klist length tclip_loop max_elements clipped_values last_result kmap fresh].
    unfold csize. cbn [klist].
    assert (LT : (max_elements (base x) <? sizeN ((fresh (base x), k) :: klist (base x)))%N = true).
    { apply N.ltb_lt. unfold csize, capacity, sizeN in *. cbn [length]. lia. }
    rewrite LT. cbn [rev]. rewrite ER, rev_app_distr. cbn [rev app]. reflexivity.
  - unfold values. cbn [broken klist map snd]. rewrite V. reflexivity.
  - unfold csize, capacity, sizeN in *. cbn [broken klist max_elements length]. lia.
  - unfold least_recent. cbn [broken klist rev]. rewrite ER, rev_app_distr. reflexivity.
  - unfold contains. rewrite broken_find. destruct (keq lru lru); [reflexivity|congruence].
Qed.

(** ** The capacity *)
Theorem any_capacity (x : rcache) n : computed needed -> (n < 2 ^ 58)%N -> reached (base x) ->
  exists x', tstep x (CSetCap n) [] = Done x' AUnit (dropped n (values (base x))) [] /\
    values (base x') = keep n (values (base x)) /\ capacity (base x') = n /\ reached (base x').
Proof.
  intros [NS _] L R.
  pose proof (step_agrees x (CSetCap n) []) as A.
  pose proof (never_throws x (CSetCap n) [] (Forall_nil _)) as NV.
  destruct (reached_inv keq _ R) as [G _].
  pose proof (step_refines keq (base x) (CSetCap n) G) as S. unfold abs at 1 in S. cbn [rstep] in S.
  destruct S as (c' & E & AB & _).
  assert (RE : match tstep x (CSetCap n) [] with Done _ a _ rest => a = AUnit /\ rest = [] | _ => True end).
  { cbn [LruThrowModel.tstep]. unfold tset_capacity.
    assert (RS : forall fuel c log, match tclip_loop keq fuel c log [] with
       | Done _ _ _ rest => rest = [] | _ => True end).
    { induction fuel as [|fuel IH]; intros c1 log; cbn [tclip_loop];
        destruct (max_elements c1 <? csize c1)%N; auto.
      destruct (rev (klist c1)) as [|[i back] rr]; [exact I|]. cbn [point]. apply IH. }
    assert (RC : forall c, match tclip keq c [] with Done _ _ _ rest => rest = [] | _ => True end)
      by (intros; apply RS).
    destruct (max_capacity x <? n)%N; [destruct (needed n)|]; cbn [point]; auto;
      match goal with |- context [tclip keq ?d []] => specialize (RC d); destruct (tclip keq d []) end; auto. }
  destruct (tstep x (CSetCap n) []) as [x' r log rest| | |].
  - destruct RE as [-> ->]. rewrite E in A. injection A as -> <-.
    exists x'. split; [reflexivity|]. apply abs_fields in AB as (V & M & _).
    split; [exact V|]. split; [exact M|]. eapply reached_step; eassumption.
  - destruct NV.
  - destruct A as [A|(m & EM & LT & NN)]; [congruence|]. injection EM as <-.
    destruct (NS n) as (m & Em & _); [lia|]. congruence.
  - congruence.
Qed.

Theorem reserve_fails (x : rcache) n fs x' : reached (base x) ->
  tstep x (CSetCap n) (true :: fs) = Threw x' [] ->
  base x' = base x /\
  (computed needed -> (n < 2 ^ 58)%N -> (csize (base x) <= n)%N ->
   forall fs', exists x'', tstep x' (CSetCap n) fs' = Done x'' AUnit [] fs' /\
     values (base x'') = values (base x) /\ capacity (base x'') = n /\ max_capacity x'' = max_capacity x').
Proof.
  intros R H. cbn [LruThrowModel.tstep] in H. unfold tset_capacity in H.
  assert (TL : forall c f c' log, inv c -> tclip keq c f = Threw c' log -> log <> []).
  { intros c f c' log Gc T. apply tclip_threw in T as (_ & pre & b & _ & _ & _ & -> & _); [|exact Gc].
    destruct pre; discriminate. }
  destruct (reached_inv keq _ R) as [G _].
  destruct (N.ltb_spec (max_capacity x) n) as [L|L].
  - destruct (needed n) as [m|] eqn:E; [|discriminate]. cbn [point] in H. injection H as <-.
    split; [reflexivity|]. intros [NS _] LN SZ fs'. cbn [LruThrowModel.tstep].
    unfold tset_capacity. cbn [max_capacity base].
    destruct (NS n) as (m' & E' & LM); [lia|]. rewrite E in E'. injection E' as <-.
    destruct (N.ltb_spec m n); [lia|].
    unfold tclip. cbn [klist max_elements].
    assert (NC : forall fuel (c : cache) log f, (csize c <= max_elements c)%N -> tclip_loop keq fuel c log f = Done c tt log f).
    { intros fuel c log f Hc. destruct fuel; cbn [tclip_loop];
        destruct (N.ltb_spec (max_elements c) (csize c)); [lia|reflexivity|lia|reflexivity]. }
    rewrite NC by exact SZ. eexists. split; [reflexivity|]. cbn. auto.
  - match type of H with context [tclip keq ?d ?f] => destruct (tclip keq d f) as [|c' l| |] eqn:T; try discriminate;
      exfalso; injection H as _ ->; apply (TL d f _ _ G T); reflexivity end.
Qed.

Theorem unlimited n : computed needed -> (2 ^ 59 <= n)%N -> forall x fs,
  (max_capacity x < n)%N -> tstep x (CSetCap n) fs = Undef.
Proof.
  intros [_ NB] L x fs M. cbn [LruThrowModel.tstep]. unfold tset_capacity.
  apply N.ltb_lt in M. rewrite M, (NB n L). reflexivity.
Qed.

Theorem unlimited_new n : computed needed -> (2 ^ 59 <= n)%N -> forall fs,
  rcache_of keq needed n fs = Undef /\ tstep rcache_default (CSetCap n) fs = Undef.
Proof.
  intros C L fs. split.
  - unfold rcache_of, tset_capacity. cbn [max_capacity].
    destruct (N.ltb_spec 0 n); [|lia]. destruct C as [_ NB]. rewrite (NB n L). reflexivity.
  - apply unlimited; auto. cbn. lia.
Qed.
End Proofs.

Lemma needed_floor_computed : computed needed_floor.
Proof.
  split.
  - intros n [L1 L2]. unfold needed_floor.
    assert (LG : (N.log2 n < 58)%N) by (apply N.log2_lt_pow2; lia).
    destruct (N.ltb_spec (n * (1 + N.log2 n)) two64) as [H|H].
    + eexists. split; [reflexivity|]. nia.
    + exfalso. assert (n * (1 + N.log2 n) <= 2 ^ 58 * 58)%N by (apply N.mul_le_mono; lia).
      unfold two64 in H. change (2 ^ 58 * 58)%N with (16717361816799281152)%N in H0. lia.
  - intros n L. unfold needed_floor.
    assert (LG : (59 <= N.log2 n)%N) by (apply N.log2_le_pow2; lia).
    destruct (N.ltb_spec (n * (1 + N.log2 n)) two64) as [H|H]; [|reflexivity].
    exfalso. assert (2 ^ 59 * 60 <= n * (1 + N.log2 n))%N by (apply N.mul_le_mono; lia).
    change (2 ^ 59 * 60)%N with 34587645138205409280%N in H0. unfold two64 in H. lia.
Qed.
