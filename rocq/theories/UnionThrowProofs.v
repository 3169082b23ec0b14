(** Proofs for calls of disjoint sets that throw. *)
Require Import List NArith Bool Arith Lia.
Require Import Verif.Base Verif.UnionModel Verif.UnionSpec Verif.UnionProofs Verif.UnionThrowModel Verif.UnionThrowSpec.
Import ListNotations.
Local Open Scope outcome_scope.

(** ** Arrays with junk at their ends; [k]: the counters agree *)
Record padded (k : bool) (p : list nat) (r : list N) (u u' : uset) : Prop := {
  pad_par : parents u' = parents u ++ p;
  pad_rk : ranks u' = ranks u ++ r;
  pad_disj : k = true -> disjoint u' = disjoint u;
  pad_acorn : k = true -> acorn u' = acorn u;
  pad_compress : compress u' = compress u
}.

Lemma get_parent_lt u i x : get_parent u i = Val x -> i < length (parents u).
Proof. unfold get_parent. intros H. apply nth_error_Some. destruct (nth_error (parents u) i); congruence. Qed.
Lemma get_rank_lt u i x : get_rank u i = Val x -> i < length (ranks u).
Proof. unfold get_rank. intros H. apply nth_error_Some. destruct (nth_error (ranks u) i); congruence. Qed.

Lemma set_nth_app1 {A} (l m : list A) i x : i < length l -> set_nth (l ++ m) i x = set_nth l i x ++ m.
Proof.
  revert i. induction l as [|h t IH]; intros i H; cbn in H; [lia|].
  destruct i; cbn; [reflexivity|]. f_equal. apply IH. lia.
Qed.

Section Pad.
Context (k : bool) (p : list nat) (r : list N).

Lemma pad_get_parent u u' i x : padded k p r u u' -> get_parent u i = Val x -> get_parent u' i = Val x.
Proof.
  intros P H. pose proof (get_parent_lt _ _ _ H) as L. unfold get_parent in *.
  rewrite (pad_par _ _ _ _ _ P), nth_error_app1 by assumption. assumption.
Qed.
Lemma pad_get_rank u u' i x : padded k p r u u' -> get_rank u i = Val x -> get_rank u' i = Val x.
Proof.
  intros P H. pose proof (get_rank_lt _ _ _ H) as L. unfold get_rank in *.
  rewrite (pad_rk _ _ _ _ _ P), nth_error_app1 by assumption. assumption.
Qed.
Lemma pad_set_parent u u' i x : padded k p r u u' -> i < length (parents u) ->
  padded k p r (set_parent u i x) (set_parent u' i x).
Proof. intros [P1 P2 P3 P4 P5] L. split; cbn; try assumption. rewrite P1. apply set_nth_app1. assumption. Qed.
Lemma pad_set_rank u u' i x : padded k p r u u' -> i < length (ranks u) ->
  padded k p r (set_rank u i x) (set_rank u' i x).
Proof. intros [P1 P2 P3 P4 P5] L. split; cbn; try assumption. rewrite P2. apply set_nth_app1. assumption. Qed.

Lemma set_parent_ranks u i x : length (ranks (set_parent u i x)) = length (ranks u).
Proof. reflexivity. Qed.

Lemma join_set_pad u u' s m v : padded k p r u u' -> join_set u s m = Val v ->
  exists v', join_set u' s m = Val v' /\ padded k p r v v'.
Proof.
  intros P. unfold join_set.
  destruct (get_rank u s) as [rs| | |] eqn:E1; try discriminate. rewrite (pad_get_rank _ _ _ _ P E1).
  destruct (get_rank u m) as [rm| | |] eqn:E2; try discriminate. rewrite (pad_get_rank _ _ _ _ P E2).
  destruct (get_parent u s) as [ps| | |] eqn:E3; try discriminate. rewrite (pad_get_parent _ _ _ _ P E3).
  cbn [bind]. pose proof (pad_set_parent _ _ s m P (get_parent_lt _ _ _ E3)) as P1.
  destruct (get_rank (set_parent u s m) m) as [ms| | |] eqn:E4; try discriminate. rewrite (pad_get_rank _ _ _ _ P1 E4).
  cbn [bind].
  destruct (get_rank (set_parent u s m) s) as [sl| | |] eqn:E5; try discriminate. rewrite (pad_get_rank _ _ _ _ P1 E5).
  cbn [bind]. intros H. injection H as <-. eexists. split; [reflexivity|].
  apply pad_set_rank; [assumption|]. apply (get_rank_lt _ _ _ E4).
Qed.

Lemma find_pad fuel : forall fuel' u u' x v a, fuel <= fuel' -> padded k p r u u' -> find_ fuel u x = Val (v, a) ->
  exists v', find_ fuel' u' x = Val (v', a) /\ padded k p r v v'.
Proof.
  induction fuel as [|fuel IH]; intros fuel' u u' x v a LE P H; [discriminate|].
  destruct fuel' as [|fuel']; [lia|]. cbn [find_] in *.
  destruct (get_parent u x) as [q| | |] eqn:E1; try discriminate. rewrite (pad_get_parent _ _ _ _ P E1).
  destruct (get_rank u x) as [rx| | |] eqn:E2; try discriminate. rewrite (pad_get_rank _ _ _ _ P E2).
  cbn [bind] in *.
  destruct (get_rank u q) as [rq| | |] eqn:E3; try discriminate. rewrite (pad_get_rank _ _ _ _ P E3).
  cbn [bind] in *.
  destruct (x =? q). { injection H as <- <-. exists u'. auto. }
  rewrite (pad_compress _ _ _ _ _ P). destruct (compress u).
  2: apply (IH fuel' u u' q v a); [lia|assumption|assumption].
  destruct (find_ fuel u q) as [[u1 root]| | |] eqn:F; try discriminate.
  destruct (IH fuel' u u' q u1 root ltac:(lia) P F) as (u1' & F' & P1). rewrite F'. cbn [bind] in *.
  destruct (get_parent u1 x) as [q1| | |] eqn:E4; try discriminate. rewrite (pad_get_parent _ _ _ _ P1 E4). cbn [bind] in *.
  assert (K : forall u2, (if root =? q1 then Val u1 else
             let* prank := get_rank u1 q in
             let* rank := get_rank u1 x in
             join_set (if (1 <? prank)%N then set_rank u1 q (wsub prank rank) else set_rank u1 x 0%N) x root) = Val u2 ->
    exists u2', (if root =? q1 then Val u1' else
             let* prank := get_rank u1' q in
             let* rank := get_rank u1' x in
             join_set (if (1 <? prank)%N then set_rank u1' q (wsub prank rank) else set_rank u1' x 0%N) x root) = Val u2' /\ padded k p r u2 u2').
  { intros u2. destruct (root =? q1). { intros K. injection K as <-. eauto. }
    destruct (get_rank u1 q) as [pr| | |] eqn:E5; try discriminate. rewrite (pad_get_rank _ _ _ _ P1 E5). cbn [bind].
    destruct (get_rank u1 x) as [rr| | |] eqn:E6; try discriminate. rewrite (pad_get_rank _ _ _ _ P1 E6). cbn [bind].
    intros K. eapply join_set_pad; [|exact K].
    pose proof (get_rank_lt _ _ _ E5). pose proof (get_rank_lt _ _ _ E6).
    destruct (1 <? pr)%N; apply pad_set_rank; assumption. }
  match type of H with bind ?e _ = _ => destruct e as [u2| | |] eqn:E5; try discriminate end.
  destruct (K u2 eq_refl) as (u2' & -> & P2). cbn [bind] in *.
  destruct (get_rank u2 x) as [r2| | |] eqn:E6; try discriminate. rewrite (pad_get_rank _ _ _ _ P2 E6). cbn [bind] in *.
  injection H as <- <-. eexists. split; [reflexivity|]. apply pad_set_rank; [assumption|]. apply (get_rank_lt _ _ _ E6).
Qed.

Lemma find_root_pad u u' x v a : padded k p r u u' -> find_root u x = Val (v, a) ->
  exists v', find_root u' x = Val (v', a) /\ padded k p r v v'.
Proof.
  intros P H. unfold find_root in *. eapply find_pad; [|exact P|exact H].
  rewrite (pad_par _ _ _ _ _ P), app_length. lia.
Qed.

Lemma find_two_pad o u u' a b v ra rb : padded k p r u u' -> find_two o u a b = Val (v, ra, rb) ->
  exists v', find_two o u' a b = Val (v', ra, rb) /\ padded k p r v v'.
Proof.
  intros P. unfold find_two. destruct o.
  - destruct (find_root u a) as [[u1 x]| | |] eqn:E1; try discriminate.
    destruct (find_root_pad _ _ _ _ _ P E1) as (u1' & -> & P1). cbn [bind].
    destruct (find_root u1 b) as [[u2 y]| | |] eqn:E2; try discriminate.
    destruct (find_root_pad _ _ _ _ _ P1 E2) as (u2' & -> & P2). cbn [bind].
    intros H. injection H as <- <- <-. eauto.
  - destruct (find_root u b) as [[u1 x]| | |] eqn:E1; try discriminate.
    destruct (find_root_pad _ _ _ _ _ P E1) as (u1' & -> & P1). cbn [bind].
    destruct (find_root u1 a) as [[u2 y]| | |] eqn:E2; try discriminate.
    destruct (find_root_pad _ _ _ _ _ P1 E2) as (u2' & -> & P2). cbn [bind].
    intros H. injection H as <- <- <-. eauto.
Qed.

Lemma same_set_pad o u u' a b v x : padded k p r u u' -> same_set o u a b = Val (v, x) ->
  exists v', same_set o u' a b = Val (v', x) /\ padded k p r v v'.
Proof.
  intros P. unfold same_set. destruct (a =? b). { intros H. injection H as <- <-. eauto. }
  destruct (find_two o u a b) as [[[u1 ra] rb]| | |] eqn:E; try discriminate.
  destruct (find_two_pad _ _ _ _ _ _ _ _ P E) as (u1' & -> & P1). cbn [bind].
  intros H. injection H as <- <-. eauto.
Qed.

Lemma join_roots_pad byref o u u' a b v x : padded k p r u u' -> join_roots byref o u a b = Val (v, x) ->
  exists v', join_roots byref o u' a b = Val (v', x) /\ padded k p r v v'.
Proof.
  intros P. unfold join_roots.
  destruct (get_rank u a) as [ra| | |] eqn:E1; try discriminate. rewrite (pad_get_rank _ _ _ _ P E1). cbn [bind].
  destruct (get_rank u b) as [rb| | |] eqn:E2; try discriminate. rewrite (pad_get_rank _ _ _ _ P E2). cbn [bind].
  destruct (same_set o u a b) as [[u1 s]| | |] eqn:E3; try discriminate.
  destruct (same_set_pad _ _ _ _ _ _ _ P E3) as (u1' & -> & P1). cbn [bind].
  destruct s. { intros H. injection H as <- <-. eauto. }
  assert (G : forall w w' c d, padded k p r w w' -> (if byref then get_rank w c else Val d) = UB \/
     (if byref then get_rank w' c else Val d) = (if byref then get_rank w c else Val d)).
  { intros w w' c d Pw. destruct byref; [|auto]. destruct (get_rank w c) eqn:X; [right; apply (pad_get_rank _ _ _ _ Pw X)| | |];
      unfold get_rank in X; destruct (nth_error (ranks w) c); try discriminate. auto. }
  destruct (G u1 u1' a ra P1) as [G1|G1]; rewrite G1; [discriminate|].
  destruct (if byref then get_rank u1 a else Val ra) as [ra1| | |]; try discriminate. cbn [bind].
  destruct (G u1 u1' b rb P1) as [G2|G2]; rewrite G2; [discriminate|].
  destruct (if byref then get_rank u1 b else Val rb) as [rb1| | |]; try discriminate. cbn [bind].
  assert (J : forall w, (if (ra1 <=? rb1)%N then join_set u1 a b else join_set u1 b a) = Val w ->
     exists w', (if (ra1 <=? rb1)%N then join_set u1' a b else join_set u1' b a) = Val w' /\ padded k p r w w').
  { intros w. destruct (ra1 <=? rb1)%N; apply join_set_pad; assumption. }
  destruct (if (ra1 <=? rb1)%N then join_set u1 a b else join_set u1 b a) as [u2| | |]; try discriminate.
  destruct (J u2 eq_refl) as (u2' & -> & P2). cbn [bind].
  destruct (G u2 u2' a ra P2) as [G3|G3]; rewrite G3; [discriminate|].
  destruct (if byref then get_rank u2 a else Val ra) as [ra2| | |]; try discriminate. cbn [bind].
  destruct (G u2 u2' b rb P2) as [G4|G4]; rewrite G4; [discriminate|].
  destruct (if byref then get_rank u2 b else Val rb) as [rb2| | |]; try discriminate. cbn [bind].
  intros H. injection H as <- <-. eexists. split; [reflexivity|].
  destruct P2 as [Q1 Q2 Q3 Q4 Q5]. split; cbn; try congruence; intros K; rewrite ?Q3, ?Q4 by exact K; reflexivity.
Qed.
End Pad.

(** ** Renamed elements and ranks that are too long *)
Section Elements.
Context {T : Type} (teq : forall a b : T, {a = b} + {a <> b}).

(** [f'] answers a call about [y] as [f] answers it about [g y], for [y] in [P]. *)
Record sim (P : T -> Prop) (g : T -> T) (f' f : ufind T) : Prop := {
  sim_core : exists m, padded true [] (repeat 1%N m) (core f) (core f');
  sim_len : length (elems f') = length (elems f);
  sim_ids : forall y, P y -> id_of teq (ids f') y = id_of teq (ids f) (g y);
  sim_inj : forall y z, P y -> P z -> g y = g z -> y = z \/ id_of teq (ids f) (g y) <> None
}.

Lemma sim_has P g f' f y : sim P g f' f -> P y -> has teq f' y = has teq f (g y).
Proof. intros S H. unfold has. rewrite (sim_ids _ _ _ _ S y H). reflexivity. Qed.

Lemma repeat_snoc m : repeat 1%N m ++ [1%N] = 1%N :: repeat 1%N m.
Proof. induction m; cbn; [reflexivity|]. rewrite IHm. reflexivity. Qed.

Lemma sim_with P g f' f u' u m : sim P g f' f -> padded true [] (repeat 1%N m) u u' ->
  sim P g (with_core f' u') (with_core f u).
Proof. intros [S1 S2 S3 S4] Q. split; cbn; [eauto|assumption|assumption|assumption]. Qed.

Lemma sim_step P g f' f o f1 a : sim P g f' f -> (forall e, In e (mentions o) -> P e) ->
  estep teq f (renamed g o) = Val (f1, a) -> exists f1', estep teq f' o = Val (f1', a) /\ sim P g f1' f1.
Proof.
  intros S M. pose proof S as [[m S1] S2 S3 S4].
  destruct o as [e|o1 o2 x y|o x y|e|e|e|i| |]; cbn [estep renamed mentions In] in *.
  - unfold uf_insert. assert (Pe : P e) by (apply M; auto). rewrite (sim_has _ _ _ _ _ S Pe).
    destruct (has teq f (g e)) eqn:HE; intros H; injection H as <- <-; [eauto|].
    eexists. split; [reflexivity|]. destruct S1 as [Q1 Q2 Q3 Q4 Q5]. specialize (Q3 eq_refl). specialize (Q4 eq_refl). rewrite app_nil_r in Q1.
    split; cbn [core elems ids].
    + exists m. split; cbn; rewrite ?app_nil_r; try (intros; congruence).
      rewrite Q2, <- !app_assoc. f_equal. apply repeat_snoc.
    + rewrite !app_length. cbn; congruence.
    + intros y Py. cbn [id_of]. destruct (teq y e) as [->|N].
      * destruct (teq (g e) (g e)); congruence.
      * destruct (teq (g y) (g e)) as [E|N']; [|apply S3; assumption].
        destruct (S4 y e Py Pe E) as [->|X]; [congruence|].
        exfalso. unfold has in HE. rewrite <- E in HE. destruct (id_of teq (ids f) (g y)); congruence.
    + intros y z Py Pz E. destruct (S4 y z Py Pz E) as [->|X]; [auto|]. right. cbn [id_of].
      destruct (teq (g y) (g e)); congruence.
  - unfold uf_join. rewrite (S3 x), (S3 y) by (apply M; auto).
    destruct (id_of teq (ids f) (g x)) as [i|]; [|cbn [bind]; intros H; injection H as <- <-; eexists; split; [reflexivity|assumption]].
    destruct (id_of teq (ids f) (g y)) as [j|]; [|cbn [bind]; intros H; injection H as <- <-; eexists; split; [reflexivity|assumption]].
    destruct (find_two o1 (core f) i j) as [[[u ri] rj]| | |] eqn:F; try discriminate.
    destruct (find_two_pad _ _ _ _ _ _ _ _ _ _ _ S1 F) as (u' & -> & S1'). cbn [bind].
    destruct (join_roots true o2 u ri rj) as [[v b]| | |] eqn:J; try discriminate.
    destruct (join_roots_pad _ _ _ _ _ _ _ _ _ _ _ S1' J) as (v' & -> & S1''). cbn [bind].
    intros H. injection H as <- <-. eexists. split; [reflexivity|]. eapply sim_with; eassumption.
  - unfold uf_same. rewrite (S3 x), (S3 y) by (apply M; auto).
    destruct (id_of teq (ids f) (g x)) as [i|]; [|cbn [bind]; intros H; injection H as <- <-; eexists; split; [reflexivity|assumption]].
    destruct (id_of teq (ids f) (g y)) as [j|]; [|cbn [bind]; intros H; injection H as <- <-; eexists; split; [reflexivity|assumption]].
    destruct (same_set o (core f) i j) as [[u b]| | |] eqn:F; try discriminate.
    destruct (same_set_pad _ _ _ _ _ _ _ _ _ _ S1 F) as (u' & -> & S1'). cbn [bind].
    intros H. injection H as <- <-. eexists. split; [reflexivity|]. eapply sim_with; eassumption.
  - unfold uf_find. rewrite (S3 e) by (apply M; auto).
    destruct (id_of teq (ids f) (g e)) as [i|]; [|cbn [bind]; intros H; injection H as <- <-; eexists; split; [reflexivity|assumption]].
    destruct (find_root (core f) i) as [[u b]| | |] eqn:F; try discriminate.
    destruct (find_root_pad _ _ _ _ _ _ _ _ S1 F) as (u' & -> & S1'). cbn [bind].
    intros H. injection H as <- <-. eexists. split; [reflexivity|]. eapply sim_with; eassumption.
  - unfold uf_size_of, uf_find. rewrite (S3 e) by (apply M; auto).
    destruct (id_of teq (ids f) (g e)) as [i|]; [|cbn [bind]; intros H; injection H as <- <-; eexists; split; [reflexivity|assumption]].
    destruct (find_root (core f) i) as [[u b]| | |] eqn:F; try discriminate.
    destruct (find_root_pad _ _ _ _ _ _ _ _ S1 F) as (u' & -> & S1'). cbn [bind with_core core].
    destruct (get_rank u b) as [k| | |] eqn:K; try discriminate. rewrite (pad_get_rank _ _ _ _ _ _ _ S1' K). cbn [bind].
    intros H. injection H as <- <-. eexists. split; [reflexivity|]. eapply sim_with; eassumption.
  - rewrite (sim_has _ _ _ _ _ S (M e (or_introl eq_refl))). intros H. injection H as <- <-. eexists. split; [reflexivity|assumption].
  - rewrite S2. intros H. injection H as <- <-. eexists. split; [reflexivity|assumption].
  - rewrite (pad_disj _ _ _ _ _ S1 eq_refl). intros H. injection H as <- <-. eexists. split; [reflexivity|assumption].
  - rewrite (pad_acorn _ _ _ _ _ S1 eq_refl). intros H. injection H as <- <-. eexists. split; [reflexivity|assumption].
Qed.

Lemma sim_run P g ops : forall f' f f1 rs, sim P g f' f -> (forall o e, In o ops -> In e (mentions o) -> P e) ->
  erun teq f (map (renamed g) ops) = Val (f1, rs) -> exists f1', erun teq f' ops = Val (f1', rs) /\ sim P g f1' f1.
Proof.
  induction ops as [|o ops IH]; intros f' f f1 rs S M; cbn [map erun].
  - intros H. injection H as <- <-. eauto.
  - destruct (estep teq f (renamed g o)) as [[f2 a]| | |] eqn:E; try discriminate. cbn [bind].
    destruct (sim_step _ _ _ _ _ _ _ S (fun e => M o e (or_introl eq_refl)) E) as (f2' & -> & S2). cbn [bind].
    destruct (erun teq f2 (map (renamed g) ops)) as [[f3 rs']| | |] eqn:E2; try discriminate. cbn [bind].
    destruct (IH _ _ _ _ S2 (fun o e H => M o e (or_intror H)) E2) as (f3' & -> & S3). cbn [bind].
    intros H. injection H as <- <-. eauto.
Qed.

Lemma renamed_id (o : eop T) : renamed (fun e => e) o = o.
Proof. destruct o; reflexivity. Qed.

Definition same_as (bad : list T) := sim (fun y => ~ In y bad) (fun y => y).

(** A failed insertion adds nothing that other calls can see. *)
Lemma insert_throws_sim p bad f' f e : same_as bad f' f -> same_as (e :: bad) (insert_throws teq p f' e) f.
Proof.
  intros S. pose proof S as [[m S1] S2 S3 S4].
  assert (W : same_as (e :: bad) f' f).
  { split; [eauto|assumption| |]; cbn; intros; [apply S3; tauto|auto]. }
  unfold insert_throws. destruct (has teq f' e); [assumption|].
  destruct W as [W1 W2 W3 W4].
  assert (I : forall y, ~ In y (e :: bad) -> id_of teq ((e, length (elems f')) :: ids f') y = id_of teq (ids f) y).
  { intros y H. cbn. destruct (teq y e) as [->|]; [exfalso; apply H; left; reflexivity|]. apply S3. intros K. apply H. right. assumption. }
  destruct p; split; cbn [core elems ids]; try assumption; eauto.
  exists (1 + m). destruct S1 as [Q1 Q2 Q3 Q4 Q5]. specialize (Q3 eq_refl). specialize (Q4 eq_refl). split; cbn; try (intros; congruence).
  rewrite Q2, <- app_assoc, repeat_snoc. reflexivity.
Qed.

Lemma emplace_throws_sim p bad f' f e : p <> InRanks -> same_as bad f' f -> same_as (e :: bad) (emplace_throws teq p f' e) f.
Proof.
  intros NP S. pose proof S as [[m S1] S2 S3 S4].
  assert (W : same_as (e :: bad) f' f).
  { split; [eauto|assumption| |]; cbn; intros; [apply S3; tauto|auto]. }
  unfold emplace_throws. destruct (has teq f' e); [assumption|].
  destruct W as [W1 W2 W3 W4].
  assert (I : forall y, ~ In y (e :: bad) -> id_of teq ((e, length (elems f')) :: ids f') y = id_of teq (ids f) y).
  { intros y H. cbn. destruct (teq y e) as [->|]; [exfalso; apply H; left; reflexivity|]. apply S3. intros K. apply H. right. assumption. }
  destruct p; [|congruence|]; split; cbn [core elems ids]; try assumption; eauto.
Qed.

Lemma trun_ok ops : forall good bad f' f s h, spared teq good bad ops -> (forall o, In o ops -> ~ half_done o) ->
  same_as bad f' f -> erel teq f s h -> (forall e, In e good -> In e (fst s)) ->
  (forall e, In e good -> ~ In e bad) ->
  (N.of_nat (length (fst s) + length ops) < two64)%N ->
  exists f1', trun teq f' ops = Val (f1', snd (elrun teq s (calls ops))).
Proof.
  induction ops as [|o ops IH]; intros good bad f' f s h SP HD S R G GB B; cbn [trun calls elrun]; [eauto|].
  destruct SP as [SP1 SP2]. cbn [length] in B.
  assert (HD' : forall o, In o ops -> ~ half_done o) by (intros; apply HD; right; assumption).
  destruct o as [o|p e|p e|b a]; cbn [tstep looks_up] in *.
  - destruct (estep_ok teq f s h o R ltac:(lia)) as (f1 & h1 & E & R1).
    assert (E' : estep teq f (renamed (fun y => y) o) = Val (f1, snd (elstep teq s o))) by (rewrite renamed_id; exact E).
    destruct (sim_step _ _ _ _ _ _ _ S SP1 E') as (f1' & F & S1). rewrite F. cbn [bind]. clear E'.
    pose proof (elstep_length teq s o) as LL. cbn [elrun].
    assert (MS : forall e, In e (fst s) -> In e (fst (fst (elstep teq s o)))).
    { intros e H. destruct s as [M L]. destruct o as [x|o1 o2 x y|o x y|x|x|x|i| |]; cbn [elstep fst] in *; try assumption.
      - destruct (tin teq x M); cbn; [assumption|]. apply in_or_app. auto.
      - destruct (position teq x M), (position teq y M); try assumption. destruct (ljoin L n n0); assumption.
      - destruct (position teq x M), (position teq y M); assumption. }
    assert (NXT : exists good', spared teq good' bad ops /\ (forall e, In e good' -> In e (fst (fst (elstep teq s o)))) /\
       (forall e, In e good' -> ~ In e bad)).
    { destruct o as [x|o1 o2 x y|o x y|x|x|x|i| |]; try (exists good; split; [assumption|]; split; [auto|assumption]).
      exists (x :: good). split; [assumption|]. split.
      - intros e [<-|H]; [|apply MS, G, H]. destruct s as [M L]. cbn [elstep fst]. unfold tin.
        destruct (in_dec teq x M); cbn; [assumption|]. apply in_or_app. right. left. reflexivity.
      - intros e [<-|H]; [|apply GB, H]. apply SP1. left. reflexivity. }
    destruct NXT as (good' & N1 & N2 & N3).
    destruct (elstep teq s o) as [s1 a1]. cbn [fst snd] in *.
    destruct (IH good' bad f1' f1 s1 h1 N1 HD' S1 R1 N2 N3 ltac:(lia)) as (f2' & F2). rewrite F2. cbn [bind].
    destruct (elrun teq s1 (calls ops)) as [s2 rs]. eexists. reflexivity.
  - cbn [bind]. destruct (in_dec teq e good) as [IG|NG].
    + destruct (IH good bad (insert_throws teq p f' e) f s h SP2 HD') as (f2' & F2); try assumption; try lia; [|rewrite F2; cbn [bind]; eexists; reflexivity].
      unfold insert_throws. rewrite (sim_has _ _ _ _ _ S (GB e IG)). unfold has. rewrite (erel_ids _ _ _ _ R).
      pose proof (position_tin teq e (fst s)) as PT. unfold tin in PT. destruct (in_dec teq e (fst s)) as [_|N]; [|exfalso; apply N, G, IG].
      destruct (position teq e (fst s)); [assumption|discriminate].
    + destruct (IH good (e :: bad) (insert_throws teq p f' e) f s h SP2 HD') as (f2' & F2); try assumption; try lia; [| |rewrite F2; cbn [bind]; eexists; reflexivity].
      * apply insert_throws_sim; assumption.
      * intros x H [<-|K]; [contradiction|]. exact (GB x H K).
  - cbn [bind]. destruct (in_dec teq e good) as [IG|NG].
    + destruct (IH good bad (emplace_throws teq p f' e) f s h SP2 HD') as (f2' & F2); try assumption; try lia; [|rewrite F2; cbn [bind]; eexists; reflexivity].
      unfold emplace_throws. rewrite (sim_has _ _ _ _ _ S (GB e IG)). unfold has. rewrite (erel_ids _ _ _ _ R).
      pose proof (position_tin teq e (fst s)) as PT. unfold tin in PT. destruct (in_dec teq e (fst s)) as [_|N]; [|exfalso; apply N, G, IG].
      destruct (position teq e (fst s)); [assumption|discriminate].
    + destruct (IH good (e :: bad) (emplace_throws teq p f' e) f s h SP2 HD') as (f2' & F2); try assumption; try lia; [| |rewrite F2; cbn [bind]; eexists; reflexivity].
      * apply emplace_throws_sim; [|assumption]. intros ->. apply (HD _ (or_introl eq_refl)). exact Logic.I.
      * intros x H [<-|K]; [contradiction|]. exact (GB x H K).
  - unfold join_throws. destruct b; cbn [bind].
    + destruct (estep_ok teq f s h (EFind a) R ltac:(lia)) as (f1 & h1 & E & R1).
      destruct (sim_step _ _ _ _ (EFind a) _ _ S SP1 E) as (f1' & F & S1). cbn [estep] in F.
      destruct (uf_find teq f' a) as [[f2 x]| | |]; try discriminate. cbn [bind] in *. injection F as -> _.
      destruct (IH good bad f1' f1 (fst (elstep teq s (EFind a))) h1 SP2 HD') as (f2' & F2); try assumption.
      * destruct s; assumption.
      * destruct s. cbn in *. lia.
      * destruct s. cbn [elstep fst] in F2. rewrite F2. cbn [bind]. eexists. reflexivity.
    + destruct (IH good bad f' f s h SP2 HD') as (f2' & F2); try assumption; try lia. rewrite F2. cbn [bind]. eexists. reflexivity.
Qed.

Theorem isolation c ops : spared teq [] [] ops -> (forall o, In o ops -> ~ half_done o) ->
  (N.of_nat (length ops) < two64)%N ->
  exists f f' rs, erun teq (ufind_new c) (calls ops) = Val (f, rs) /\ trun teq (ufind_new c) ops = Val (f', rs).
Proof.
  intros SP HD B.
  destruct (erun_ok teq (calls ops) _ _ _ (erel_new teq c)) as (f & h & E & _).
  { cbn [fst length]. assert (length (calls ops) <= length ops); [|lia].
    clear. induction ops as [|o ops IH]; cbn; [lia|]. destruct o; cbn; lia. }
  destruct (trun_ok ops [] [] (ufind_new c) (ufind_new c) ([], []) (fun _ => 0) SP HD) as (f' & F).
  - split; cbn; auto. exists 0. split; intros; reflexivity.
  - apply erel_new.
  - intros e [].
  - intros e [].
  - exact B.
  - eauto.
Qed.

(** ** The element whose insertion failed *)
Definition left_behind (f' f : ufind T) (e : T) : Prop :=
  (exists m, padded true [] (repeat 1%N m) (core f) (core f')) /\ elems f' = elems f /\
  ids f' = (e, length (elems f)) :: ids f.

Lemma insert_left p f e : p <> InMap -> has teq f e = false -> left_behind (insert_throws teq p f e) f e.
Proof.
  intros NP H. unfold insert_throws. rewrite H. destruct p; [congruence| |]; (split; [|split; reflexivity]).
  - exists 0. split; cbn; intros; rewrite ?app_nil_r; reflexivity.
  - exists 1. split; cbn; intros; rewrite ?app_nil_r; reflexivity.
Qed.
Lemma emplace_left f e : has teq f e = false -> left_behind (emplace_throws teq InItems f e) f e.
Proof.
  intros H. unfold emplace_throws. rewrite H. split; [|split; reflexivity].
  exists 0. split; cbn; intros; rewrite ?app_nil_r; reflexivity.
Qed.

Lemma left_dead f' f e s h : left_behind f' f e -> erel teq f s h ->
  estep teq f' (EExists e) = Val (f', VBool true) /\
  estep teq f' (EInsert e) = Val (f', VBool false) /\
  (fst s <> [] -> estep teq f' (EFind e) = UB).
Proof.
  intros [[m P] [EL ID]] R.
  assert (H : has teq f' e = true). { unfold has. rewrite ID. cbn. destruct (teq e e); congruence. }
  cbn [estep]. unfold uf_insert. rewrite H. split; [reflexivity|]. split; [reflexivity|].
  intros NE. unfold uf_find. rewrite ID. cbn [id_of]. destruct (teq e e) as [_|]; [|congruence].
  assert (LE : length (parents (core f')) = length (elems f)).
  { rewrite (pad_par _ _ _ _ _ P), app_nil_r, (rel_par_len _ _ _ (erel_core _ _ _ _ R)), (erel_len _ _ _ _ R), (erel_elems _ _ _ _ R). reflexivity. }
  unfold find_root. rewrite LE. destruct (length (elems f)) eqn:L.
  { exfalso. rewrite (erel_elems _ _ _ _ R) in L. destruct (fst s); [congruence|discriminate]. }
  cbn [find_]. unfold get_parent. destruct (nth_error (parents (core f')) (S n)) eqn:X; [|reflexivity].
  exfalso. assert (S n < length (parents (core f'))) by (apply nth_error_Some; congruence). lia.
Qed.

Lemma left_alias f' f e x later f1 rs : left_behind f' f e -> has teq f x = false -> x <> e ->
  erun teq f (EInsert x :: map (renamed (alias teq e x)) later) = Val (f1, rs) ->
  exists f1', erun teq f' (EInsert x :: later) = Val (f1', rs).
Proof.
  intros [[m P] [EL ID]] HX NE. cbn [erun estep].
  assert (HX' : has teq f' x = false).
  { unfold has in *. rewrite ID. cbn. destruct (teq x e); [congruence|assumption]. }
  unfold uf_insert. rewrite HX, HX'. cbn [bind].
  match goal with |- bind (erun teq ?A _) _ = _ -> exists _, bind (erun teq ?B _) _ = _ => set (fa := A); set (fb := B) end.
  destruct (erun teq fa (map (renamed (alias teq e x)) later)) as [[f2 rs']| | |] eqn:E; try discriminate. cbn [bind].
  intros H. injection H as <- <-.
  assert (S : sim (fun _ => True) (alias teq e x) fb fa).
  { destruct P as [Q1 Q2 Q3 Q4 Q5]. specialize (Q3 eq_refl). specialize (Q4 eq_refl). rewrite app_nil_r in Q1. split; unfold fa, fb; cbn [core elems ids].
    - exists m. split; cbn; rewrite ?app_nil_r; try (intros; congruence).
      rewrite Q2, <- !app_assoc. f_equal. apply repeat_snoc.
    - rewrite !app_length. cbn. congruence.
    - intros y _. rewrite ID, EL. cbn [id_of]. unfold alias. destruct (teq y e) as [->|N].
      + destruct (teq e x); [congruence|]. destruct (teq x x); congruence.
      + destruct (teq y x); reflexivity.
    - intros y z _ _. unfold alias. intros EQ. destruct (teq y e) as [->|N]; destruct (teq z e) as [->|N']; auto.
      + right. cbn. destruct (teq x x); congruence.
      + right. subst y. cbn. destruct (teq x x); congruence. }
  destruct (sim_run _ _ later _ _ _ _ S (fun _ _ _ _ => Logic.I) E) as (f3 & -> & _). cbn [bind]. eauto.
Qed.
End Elements.

(** ** Calls do not change the sizes of the arrays *)
Definition same_sizes (u v : uset) : Prop := length (parents v) = length (parents u) /\ length (ranks v) = length (ranks u).
Lemma same_sizes_trans u v w : same_sizes u v -> same_sizes v w -> same_sizes u w.
Proof. intros [A B] [C D]. split; congruence. Qed.
Lemma set_rank_sizes u i x : same_sizes u (set_rank u i x).
Proof. split; cbn; rewrite ?set_nth_length; reflexivity. Qed.
Lemma join_set_sizes u s m v : join_set u s m = Val v -> same_sizes u v.
Proof.
  unfold join_set.
  destruct (get_rank u s); try discriminate. destruct (get_rank u m); try discriminate.
  destruct (get_parent u s); try discriminate. cbn [bind].
  destruct (get_rank (set_parent u s m) m); try discriminate. cbn [bind].
  destruct (get_rank (set_parent u s m) s); try discriminate. cbn [bind].
  intros H. injection H as <-. split; cbn; rewrite ?set_nth_length; reflexivity.
Qed.
Lemma find_sizes fuel : forall u x v a, find_ fuel u x = Val (v, a) -> same_sizes u v.
Proof.
  induction fuel as [|fuel IH]; intros u x v a H; [discriminate|]. cbn [find_] in H.
  destruct (get_parent u x) as [q| | |]; try discriminate. destruct (get_rank u x); try discriminate. cbn [bind] in H.
  destruct (get_rank u q); try discriminate. cbn [bind] in H.
  destruct (x =? q). { injection H as <- <-. split; reflexivity. }
  destruct (compress u); [|eapply IH; exact H].
  destruct (find_ fuel u q) as [[u1 root]| | |] eqn:F; try discriminate. cbn [bind] in H.
  apply IH in F.
  destruct (get_parent u1 x) as [q1| | |]; try discriminate. cbn [bind] in H.
  match type of H with bind ?e _ = _ => destruct e as [u2| | |] eqn:E; try discriminate end. cbn [bind] in H.
  destruct (get_rank u2 x); try discriminate. cbn [bind] in H. injection H as <- <-.
  apply (same_sizes_trans _ u1); [assumption|]. apply (same_sizes_trans _ u2); [|apply set_rank_sizes].
  destruct (root =? q1). { injection E as <-. split; reflexivity. }
  destruct (get_rank u1 q); try discriminate. cbn [bind] in E.
  destruct (get_rank u1 x); try discriminate. cbn [bind] in E. apply join_set_sizes in E.
  eapply same_sizes_trans; [|exact E]. destruct (1 <? _)%N; apply set_rank_sizes.
Qed.
Lemma find_two_sizes o u a b v x y : find_two o u a b = Val (v, x, y) -> same_sizes u v.
Proof.
  unfold find_two, find_root. destruct o; intros H.
  - destruct (find_ _ u a) as [[u1 ?]| | |] eqn:E; try discriminate. cbn [bind] in H.
    destruct (find_ _ u1 b) as [[u2 ?]| | |] eqn:E2; try discriminate. cbn [bind] in H. injection H as <- <- <-.
    eapply same_sizes_trans; eapply find_sizes; eassumption.
  - destruct (find_ _ u b) as [[u1 ?]| | |] eqn:E; try discriminate. cbn [bind] in H.
    destruct (find_ _ u1 a) as [[u2 ?]| | |] eqn:E2; try discriminate. cbn [bind] in H. injection H as <- <- <-.
    eapply same_sizes_trans; eapply find_sizes; eassumption.
Qed.
Lemma same_set_sizes o u a b v x : same_set o u a b = Val (v, x) -> same_sizes u v.
Proof.
  unfold same_set. destruct (a =? b); intros H. { injection H as <- <-. split; reflexivity. }
  destruct (find_two o u a b) as [[[u1 ?] ?]| | |] eqn:E; try discriminate. cbn [bind] in H. injection H as <- <-.
  eapply find_two_sizes; eassumption.
Qed.
Lemma join_roots_sizes byref o u a b v x : join_roots byref o u a b = Val (v, x) -> same_sizes u v.
Proof.
  unfold join_roots. intros H.
  destruct (get_rank u a) as [ra| | |]; try discriminate. destruct (get_rank u b) as [rb| | |]; try discriminate. cbn [bind] in H.
  destruct (same_set o u a b) as [[u1 s]| | |] eqn:E; try discriminate. cbn [bind] in H. apply same_set_sizes in E.
  destruct s. { injection H as <- <-. assumption. }
  destruct (if byref then get_rank u1 a else Val ra); try discriminate. cbn [bind] in H.
  destruct (if byref then get_rank u1 b else Val rb); try discriminate. cbn [bind] in H.
  match type of H with bind ?e _ = _ => destruct e as [u2| | |] eqn:E2; try discriminate end. cbn [bind] in H.
  destruct (if byref then get_rank u2 a else Val ra); try discriminate. cbn [bind] in H.
  destruct (if byref then get_rank u2 b else Val rb); try discriminate. cbn [bind] in H.
  injection H as <- <-. apply (same_sizes_trans _ u1); [assumption|].
  match type of E2 with (if ?c then _ else _) = _ => destruct c end; apply join_set_sizes in E2; exact E2.
Qed.

(** ** emplace throws after it has extended the items *)
Section Half.
Context {T : Type} (teq : forall a b : T, {a = b} + {a <> b}).

Record half (f : ufind T) (present : list T) (y : T) : Prop := {
  half_par : length (parents (core f)) = length (elems f);
  half_rk : S (length (ranks (core f))) = length (elems f);
  half_id : S match id_of teq (ids f) y with Some i => i | None => length (elems f) end = length (elems f);
  half_has : forall x, has teq f x = true <-> In x present
}.

Lemma half_with f present y u : half f present y -> same_sizes (core f) u -> half (with_core f u) present y.
Proof. intros [A B C D] [E F]. split; cbn; try congruence. assumption. Qed.

Lemma half_step f present y o f1 a : half f present y -> estep teq f o = Val (f1, a) ->
  match o with
  | EInsert x => if in_dec teq x present then half f1 present y else half f1 (x :: present) x
  | _ => half f1 present y
  end.
Proof.
  intros H. pose proof H as [A B C D].
  destruct o as [x|o1 o2 x z|o x z|x|x|x|i| |]; cbn [estep].
  - unfold uf_insert. destruct (in_dec teq x present) as [I|N].
    + apply D in I. rewrite I. intros E. injection E as <- _. assumption.
    + destruct (has teq f x) eqn:HX; [apply D in HX; contradiction|]. intros E. injection E as <- _.
      split; cbn [core elems ids parents ranks].
      * rewrite !app_length. cbn. lia.
      * rewrite !app_length. cbn. lia.
      * cbn [id_of]. destruct (teq x x); [|congruence]. rewrite app_length. cbn. lia.
      * intros z. unfold has. cbn [ids id_of In]. destruct (teq z x) as [->|NZ]; [tauto|].
        rewrite <- D. unfold has. split; [auto|]. intros [K|K]; [congruence|assumption].
  - unfold uf_join.
    destruct (id_of teq (ids f) x) as [i|]; [|cbn [bind]; intros E; injection E as <- _; assumption].
    destruct (id_of teq (ids f) z) as [j|]; [|cbn [bind]; intros E; injection E as <- _; assumption].
    destruct (find_two o1 (core f) i j) as [[[u ri] rj]| | |] eqn:F; try discriminate. cbn [bind].
    destruct (join_roots true o2 u ri rj) as [[v b]| | |] eqn:J; try discriminate. cbn [bind]. intros E. injection E as <- _.
    apply half_with; [assumption|]. eapply same_sizes_trans; [eapply find_two_sizes; eassumption|eapply join_roots_sizes; eassumption].
  - unfold uf_same.
    destruct (id_of teq (ids f) x) as [i|]; [|cbn [bind]; intros E; injection E as <- _; assumption].
    destruct (id_of teq (ids f) z) as [j|]; [|cbn [bind]; intros E; injection E as <- _; assumption].
    destruct (same_set o (core f) i j) as [[u b]| | |] eqn:F; try discriminate. cbn [bind]. intros E. injection E as <- _.
    apply half_with; [assumption|]. eapply same_set_sizes; eassumption.
  - unfold uf_find. destruct (id_of teq (ids f) x) as [i|]; [|cbn [bind]; intros E; injection E as <- _; assumption].
    destruct (find_root (core f) i) as [[u b]| | |] eqn:F; try discriminate. cbn [bind]. intros E. injection E as <- _.
    apply half_with; [assumption|]. eapply find_sizes; eassumption.
  - unfold uf_size_of, uf_find. destruct (id_of teq (ids f) x) as [i|]; [|cbn [bind]; intros E; injection E as <- _; assumption].
    destruct (find_root (core f) i) as [[u b]| | |] eqn:F; try discriminate. cbn [bind with_core core].
    destruct (get_rank u b) as [k| | |]; try discriminate. cbn [bind]. intros E. injection E as <- _.
    apply half_with; [assumption|]. eapply find_sizes; eassumption.
  - intros E; injection E as <- _; assumption.
  - intros E; injection E as <- _; assumption.
  - intros E; injection E as <- _; assumption.
  - intros E; injection E as <- _; assumption.
Qed.

Lemma half_dead f present y : half f present y -> estep teq f (EFind y) = UB.
Proof.
  intros [A B C D]. cbn [estep]. unfold uf_find. destruct (id_of teq (ids f) y) as [i|]; [|lia].
  unfold find_root. rewrite A, <- C. cbn [find_]. unfold get_parent.
  destruct (nth_error (parents (core f)) i) as [q|] eqn:E.
  2:{ reflexivity. }
  cbn [bind]. unfold get_rank at 1.
  destruct (nth_error (ranks (core f)) i) eqn:E2; [|reflexivity].
  exfalso. assert (i < length (ranks (core f))) by (apply nth_error_Some; congruence). lia.
Qed.

Lemma half_run later : forall f present y f1 rs, half f present y -> erun teq f later = Val (f1, rs) ->
  estep teq f1 (EFind (newest teq present y later)) = UB.
Proof.
  induction later as [|o later IH]; intros f present y f1 rs H E.
  - cbn in E. injection E as <- _. cbn [newest]. eapply half_dead; eassumption.
  - cbn [erun] in E. destruct (estep teq f o) as [[f2 a]| | |] eqn:S; try discriminate. cbn [bind] in E.
    destruct (erun teq f2 later) as [[f3 rs']| | |] eqn:E2; try discriminate. cbn [bind] in E. injection E as <- _.
    pose proof (half_step _ _ _ _ _ _ H S) as H2.
    destruct o as [x|o1 o2 x z|o x z|x|x|x|i| |]; cbn [newest]; try (eapply IH; eassumption).
    destruct (in_dec teq x present); eapply IH; eassumption.
Qed.

Lemma half_new f e s h : erel teq f s h -> has teq f e = false -> half (emplace_throws teq InRanks f e) (e :: fst s) e.
Proof.
  intros R HE. unfold emplace_throws. rewrite HE.
  pose proof (erel_core _ _ _ _ R) as RC. pose proof (erel_elems _ _ _ _ R) as RE. pose proof (erel_len _ _ _ _ R) as RL.
  pose proof (rel_par_len _ _ _ RC) as L1. pose proof (rel_rk_len _ _ _ RC) as L2.
  split; cbn [core elems ids parents ranks].
  - rewrite !app_length. cbn. rewrite RE. lia.
  - rewrite !app_length. cbn. rewrite RE. lia.
  - cbn [id_of]. destruct (teq e e); [|congruence]. rewrite app_length. cbn. lia.
  - intros x. unfold has. cbn [ids id_of In]. destruct (teq x e) as [->|N]; [tauto|].
    rewrite (erel_ids _ _ _ _ R). pose proof (position_tin teq x (fst s)) as PT. unfold tin in PT.
    destruct (in_dec teq x (fst s)) as [I|NI].
    + destruct (position teq x (fst s)); [|discriminate]. tauto.
    + destruct (position teq x (fst s)); [discriminate|]. split; [discriminate|]. intros [K|K]; [congruence|contradiction].
Qed.
End Half.

(** ** union_set: resize throws *)
Lemma resize_padded u n : length (parents u) < n ->
  padded true (repeat 0 (n - length (parents u))) [] u (resize_throws InRanks u n).
Proof.
  intros H. unfold resize_throws. apply Nat.ltb_lt in H. rewrite H.
  split; cbn; intros; rewrite ?app_nil_r; reflexivity.
Qed.

Section Old.
Let k := true.
Context (p : list nat) (r : list N).

Lemma pad_exists u u' x : padded k p r u u' -> x < length (parents u) -> exists_ u' x = true /\ exists_ u x = true.
Proof.
  intros P H. unfold exists_. rewrite (pad_par _ _ _ _ _ P), app_length. split; apply Nat.ltb_lt; lia.
Qed.

Lemma old_step u u' o v a : padded k p r u u' -> only_old (length (parents u)) o -> ustep u o = Val (v, a) ->
  exists v', ustep u' o = Val (v', a) /\ padded k p r v v' /\ length (parents v) = length (parents u).
Proof.
  intros P O. destruct o as [o1 o2 x y|o x y|x|x|n|x| |]; cbn [ustep only_old] in *.
  - destruct O as [O1 O2]. unfold join.
    destruct (pad_exists _ _ _ P O1) as [-> ->]. destruct (pad_exists _ _ _ P O2) as [-> ->]. cbn [andb].
    destruct (find_two o1 u x y) as [[[u1 ra] rb]| | |] eqn:F; try discriminate.
    destruct (find_two_pad _ _ _ _ _ _ _ _ _ _ _ P F) as (u1' & -> & P1). cbn [bind].
    destruct (join_roots false o2 u1 ra rb) as [[u2 b]| | |] eqn:J; try discriminate.
    destruct (join_roots_pad _ _ _ _ _ _ _ _ _ _ _ P1 J) as (u2' & -> & P2). cbn [bind].
    intros H. injection H as <- <-. eexists. split; [reflexivity|]. split; [assumption|].
    apply find_two_sizes in F. apply join_roots_sizes in J. destruct F, J. congruence.
  - destruct O as [O1 O2]. unfold same.
    destruct (pad_exists _ _ _ P O1) as [-> ->]. destruct (pad_exists _ _ _ P O2) as [-> ->]. cbn [andb].
    destruct (same_set o u x y) as [[u1 b]| | |] eqn:F; try discriminate.
    destruct (same_set_pad _ _ _ _ _ _ _ _ _ _ P F) as (u1' & -> & P1). cbn [bind].
    intros H. injection H as <- <-. eexists. split; [reflexivity|]. split; [assumption|].
    apply same_set_sizes in F. destruct F. congruence.
  - unfold find. destruct (pad_exists _ _ _ P O) as [-> ->]. cbn [negb].
    destruct (find_root u x) as [[u1 b]| | |] eqn:F; try discriminate.
    destruct (find_root_pad _ _ _ _ _ _ _ _ P F) as (u1' & -> & P1). cbn [bind].
    intros H. injection H as <- <-. eexists. split; [reflexivity|]. split; [assumption|].
    apply find_sizes in F. destruct F. congruence.
  - unfold size_of, find. destruct (pad_exists _ _ _ P O) as [-> ->]. cbn [negb].
    destruct (find_root u x) as [[u1 b]| | |] eqn:F; try discriminate.
    destruct (find_root_pad _ _ _ _ _ _ _ _ P F) as (u1' & -> & P1). cbn [bind].
    destruct (get_rank u1 b) as [kk| | |] eqn:K; try discriminate. rewrite (pad_get_rank _ _ _ _ _ _ _ P1 K). cbn [bind].
    intros H. injection H as <- <-. eexists. split; [reflexivity|]. split; [assumption|].
    apply find_sizes in F. destruct F. congruence.
  - contradiction.
  - destruct (pad_exists _ _ _ P O) as [-> ->]. intros H. injection H as <- <-. eauto.
  - rewrite (pad_disj _ _ _ _ _ P eq_refl). intros H. injection H as <- <-. eauto.
  - rewrite (pad_acorn _ _ _ _ _ P eq_refl). intros H. injection H as <- <-. eauto.
Qed.

Lemma old_run ops : forall u u' v rs, padded k p r u u' -> (forall o, In o ops -> only_old (length (parents u)) o) ->
  urun u ops = Val (v, rs) -> exists v', urun u' ops = Val (v', rs) /\ padded k p r v v'.
Proof.
  induction ops as [|o ops IH]; intros u u' v rs P O; cbn [urun].
  - intros H. injection H as <- <-. eauto.
  - destruct (ustep u o) as [[u1 a]| | |] eqn:S; try discriminate.
    destruct (old_step _ _ _ _ _ P (O o (or_introl eq_refl)) S) as (u1' & -> & P1 & L1). cbn [bind].
    destruct (urun u1 ops) as [[u2 rs']| | |] eqn:E; try discriminate.
    destruct (IH u1 u1' u2 rs' P1) as (u2' & -> & P2); [|assumption|].
    { rewrite L1. intros o' H. apply O. right. assumption. }
    cbn [bind]. intros H. injection H as <- <-. eauto.
Qed.
End Old.

Lemma resize_retry u n k : length (parents u) < n -> k <= n ->
  resize (resize_throws InRanks u n) k = (resize_throws InRanks u n, false).
Proof.
  intros H K. unfold resize. rewrite (pad_par _ _ _ _ _ (resize_padded u n H)), app_length, repeat_length.
  destruct (Nat.ltb_spec (length (parents u) + (n - length (parents u))) k); [lia|reflexivity].
Qed.

Lemma resize_dead u L h n x : rel u L h -> length L <= x < n -> ustep (resize_throws InRanks u n) (UFind x) = UB.
Proof.
  intros R H. pose proof (rel_par_len _ _ _ R) as L1. pose proof (rel_rk_len _ _ _ R) as L2.
  assert (P : padded true (repeat 0 (n - length (parents u))) [] u (resize_throws InRanks u n)) by (apply resize_padded; lia).
  cbn [ustep]. unfold find, exists_. rewrite (pad_par _ _ _ _ _ P), app_length, repeat_length.
  destruct (Nat.ltb_spec x (length (parents u) + (n - length (parents u)))); [|lia]. cbn [negb].
  unfold find_root. rewrite (pad_par _ _ _ _ _ P), app_length, repeat_length.
  replace (length (parents u) + (n - length (parents u))) with (S (n - 1)) by lia. cbn [find_].
  destruct (get_parent _ x) as [q| | |] eqn:G; unfold get_parent in G;
    destruct (nth_error (parents (resize_throws InRanks u n)) x); try discriminate; [|reflexivity].
  cbn [bind]. unfold get_rank at 1. rewrite (pad_rk _ _ _ _ _ P), app_nil_r.
  destruct (nth_error (ranks u) x) eqn:E; [|reflexivity].
  exfalso. assert (x < length (ranks u)) by (apply nth_error_Some; congruence). lia.
Qed.

(** A later resize that succeeds repairs the arrays but not the ids in between. *)
Lemma insert_all k : forall P R d a c s, length P = s -> length R = s ->
  exists d' a', fold_left (fun u ii => fst (insert u ii)) (seq s k) (mkU (P ++ repeat 0 k) (R ++ repeat 0%N k) d a c) =
    mkU (P ++ seq s k) (R ++ repeat 1%N k) d' a' c.
Proof.
  induction k as [|k IH]; intros P R d a c s LP LR.
  - exists d, a. cbn. rewrite !app_nil_r. reflexivity.
  - cbn [seq fold_left repeat].
    pose proof (insert_fresh (mkU P R d a c) P (repeat 0 k) (repeat 0%N k) eq_refl) as F. cbn [parents ranks disjoint acorn compress] in F.
    rewrite LP in F. rewrite F by assumption.
    destruct (IH (P ++ [s]) (R ++ [1%N]) (wadd d 1) (wadd a 1) c (S s)) as (d' & a' & E).
    { rewrite app_length. cbn. lia. } { rewrite app_length. cbn. lia. }
    exists d', a'. rewrite E, <- !app_assoc. reflexivity.
Qed.

Lemma resize_later u L h n m : rel u L h -> length L < n < m ->
  exists d a, fst (resize (resize_throws InRanks u n) m) =
    mkU (parents u ++ repeat 0 (n - length L) ++ seq n (m - n)) (ranks u ++ repeat 0%N (n - length L) ++ repeat 1%N (m - n)) d a (compress u)
    /\ snd (resize (resize_throws InRanks u n) m) = true.
Proof.
  intros R H. pose proof (rel_par_len _ _ _ R) as L1. pose proof (rel_rk_len _ _ _ R) as L2.
  pose proof (resize_padded u n ltac:(lia)) as P. rewrite L1 in P.
  unfold resize. rewrite (pad_par _ _ _ _ _ P), (pad_rk _ _ _ _ _ P), (pad_disj _ _ _ _ _ P eq_refl), (pad_acorn _ _ _ _ _ P eq_refl), (pad_compress _ _ _ _ _ P).
  rewrite app_nil_r, app_length, repeat_length, L1, L2, firstn_all2 by lia.
  replace (length L + (n - length L)) with n by lia.
  destruct (Nat.ltb_spec n m); [|lia]. cbn [fst snd].
  replace (m - length L) with ((n - length L) + (m - n)) by lia. rewrite repeat_app, app_assoc.
  destruct (insert_all (m - n) (parents u ++ repeat 0 (n - length L)) (ranks u ++ repeat 0%N (n - length L)) (disjoint u) (acorn u) (compress u) n)
    as (d & a & E).
  { rewrite app_length, repeat_length. lia. } { rewrite app_length, repeat_length. lia. }
  exists d, a. rewrite E, <- !app_assoc. split; reflexivity.
Qed.

(** An id whose parent is 0 joins the set of 0. *)
Lemma find_alias k p r u w L h i : padded k p r u w -> rel u L h -> 0 < length L ->
  nth_error p i = Some 0 -> i < length r ->
  exists p' r' v w', find_root w (length L + i) = Val (w', lab L 0) /\ padded k p' r' v w' /\ rel v L h.
Proof.
  intros P R H0 Hp Hr. pose proof (rel_par_len _ _ _ R) as L1. pose proof (rel_rk_len _ _ _ R) as L2.
  set (x := length L + i).
  assert (Ip : i < length p) by (apply nth_error_Some; congruence).
  assert (GP : forall v w', padded k p r v w' -> length (parents v) = length L -> get_parent w' x = Val 0).
  { intros v w' Q E. unfold get_parent. rewrite (pad_par _ _ _ _ _ Q). unfold x. rewrite nth_error_app2 by lia.
    replace (length L + i - length (parents v)) with i by lia. rewrite Hp. reflexivity. }
  unfold find_root. rewrite (pad_par _ _ _ _ _ P), app_length.
  destruct (length (parents u) + length p) as [|fuel] eqn:EF; [lia|]. cbn [find_].
  rewrite (GP u w P L1). cbn [bind].
  rewrite (get_rank_ok w x) by (rewrite (pad_rk _ _ _ _ _ P), app_length; unfold x; lia). cbn [bind].
  rewrite (get_rank_ok w 0) by (rewrite (pad_rk _ _ _ _ _ P), app_length; lia). cbn [bind].
  destruct (Nat.eqb_spec x 0) as [E|_]; [unfold x in E; lia|].
  destruct (find_ok (length L) u L h 0 R H0) as (v & F & Rv & Cv & _ & K1).
  { pose proof (rel_h_bound _ _ _ _ R H0). pose proof (weight_le L (lab L 0)). lia. }
  destruct (find_pad k p r (length L) fuel u w 0 v (lab L 0) ltac:(lia) P F) as (w1 & F1 & P1). rewrite F1.
  pose proof (rel_par_len _ _ _ Rv) as V1. pose proof (rel_rk_len _ _ _ Rv) as V2.
  rewrite (pad_compress _ _ _ _ _ P). destruct (compress u) eqn:CU; cbn [bind].
  2:{ exists p, r, v, w1. auto. }
  rewrite (GP v w1 P1 V1). cbn [bind].
  assert (R1 : length (ranks w1) = length L + length r) by (rewrite (pad_rk _ _ _ _ _ P1), app_length; lia).
  assert (Q1 : length (parents w1) = length L + length p) by (rewrite (pad_par _ _ _ _ _ P1), app_length; lia).
  destruct (rel_wf _ _ _ Rv 0 H0) as [W1 W2].
  assert (XR : forall r0 c, length r0 = length r -> forall w0, padded k p r0 v w0 -> padded k p (set_nth r0 i c) v (set_rank w0 x c)).
  { intros r0 c LR w0 [A B C D E]. split; cbn; try assumption. rewrite B. unfold x.
    rewrite <- V2. apply set_nth_app. }
  destruct (Nat.eqb_spec (lab L 0) 0) as [E0|E0]; cbn [bind].
  - rewrite (get_rank_ok w1 x) by (unfold x; lia). cbn [bind].
    exists p, (set_nth r i 1%N), v, (set_rank w1 x 1%N). split; [reflexivity|]. split; [|assumption].
    apply XR; [reflexivity|assumption].
  - assert (Z : rk v 0 = 1%N) by (apply K1; [reflexivity|assumption]).
    assert (Z1 : rk w1 0 = 1%N).
    { unfold rk in *. rewrite (pad_rk _ _ _ _ _ P1), app_nth1 by lia. assumption. }
    rewrite (get_rank_ok w1 0) by lia. cbn [bind]. rewrite Z1. cbn [N.ltb N.compare Pos.compare Pos.compare_cont].
    rewrite (get_rank_ok w1 x) by (unfold x; lia). cbn [bind].
    unfold join_set.
    rewrite get_rank_ok by (cbn; rewrite set_nth_length; unfold x; lia). cbn [bind].
    rewrite get_rank_ok by (cbn; rewrite set_nth_length; lia). cbn [bind].
    rewrite get_parent_ok by (cbn; unfold x; lia). cbn [bind].
    rewrite get_rank_ok by (cbn; rewrite set_nth_length; lia). cbn [bind].
    rewrite get_rank_ok by (cbn; rewrite set_nth_length; unfold x; lia). cbn [bind].
    rewrite !rk_set_parent. rewrite !rk_set_rank by (unfold x; lia). rewrite Nat.eqb_refl.
    destruct (Nat.eqb_spec x (lab L 0)) as [E|_]; [unfold x in E; lia|].
    destruct (rel_root _ _ _ Rv (lab L 0) W1 W2) as [KR _].
    assert (RR : rk w1 (lab L 0) = rk v (lab L 0)).
    { unfold rk. rewrite (pad_rk _ _ _ _ _ P1), app_nth1 by lia. reflexivity. }
    assert (WA : wadd (rk w1 (lab L 0)) 0 = rk w1 (lab L 0)).
    { rewrite wadd_small; [apply N.add_0_r|]. rewrite RR, KR. pose proof (weight_le L (lab L 0)). pose proof (rel_bound _ _ _ Rv). lia. }
    rewrite WA. rewrite get_rank_ok by (cbn; rewrite !set_nth_length; unfold x; lia). cbn [bind].
    assert (X : set_rank (set_rank (set_parent (set_rank w1 x 0%N) x (lab L 0)) (lab L 0) (rk w1 (lab L 0))) x 1%N
                = set_rank (set_parent w1 x (lab L 0)) x 1%N).
    { change (set_parent (set_rank w1 x 0%N) x (lab L 0)) with (set_rank (set_parent w1 x (lab L 0)) x 0%N).
      rewrite (set_rank_comm _ (lab L 0) x) by (unfold x; lia).
      rewrite set_rank_twice. rewrite (set_rank_comm _ x (lab L 0)) by (unfold x; lia).
      rewrite <- (rk_set_parent w1 x (lab L 0) (lab L 0)).
      rewrite set_rank_same by (cbn; lia). reflexivity. }
    rewrite X. exists (set_nth p i (lab L 0)), (set_nth r i 1%N), v, (set_rank (set_parent w1 x (lab L 0)) x 1%N).
    split; [reflexivity|]. split; [|assumption].
    destruct P1 as [A B C D E]. split; cbn; try assumption.
    + rewrite A. unfold x. rewrite <- V1. apply set_nth_app.
    + rewrite B. unfold x. rewrite <- V2. apply set_nth_app.
Qed.

Lemma resize_joins_zero u L h n m x o : rel u L h -> 0 < length L -> length L <= x < n -> n < m ->
  let w := fst (resize (resize_throws InRanks u n) m) in
  snd (resize (resize_throws InRanks u n) m) = true /\
  (exists w', ustep w (USame o 0 x) = Val (w', VBool true)) /\
  exists w', ustep w (UFind x) = Val (w', VId (Some (lab L 0))).
Proof.
  intros R H0 Hx Hm. cbv zeta.
  destruct (resize_later u L h n m R ltac:(lia)) as (d & a & E & S). split; [assumption|]. rewrite E. clear E S.
  set (p := repeat 0 (n - length L) ++ seq n (m - n)). set (r := repeat 0%N (n - length L) ++ repeat 1%N (m - n)).
  set (w := mkU (parents u ++ p) (ranks u ++ r) d a (compress u)).
  assert (EX : forall y, y < m -> exists_ w y = true).
  { intros y Hy. unfold exists_, w, p. cbn [parents]. rewrite !app_length, repeat_length, seq_length, (rel_par_len _ _ _ R).
    apply Nat.ltb_lt. lia. }
  assert (NP : nth_error p (x - length L) = Some 0).
  { unfold p. rewrite nth_error_app1 by (rewrite repeat_length; lia). apply nth_error_repeat. lia. }
  assert (NR : x - length L < length r) by (unfold r; rewrite app_length, !repeat_length; lia).
  assert (P : padded false p r u w) by (split; try reflexivity; discriminate).
  assert (EQ : length L + (x - length L) = x) by lia.
  split.
  - cbn [ustep]. unfold same. rewrite !EX by lia. cbn [andb]. unfold same_set.
    destruct (Nat.eqb_spec 0 x) as [E0|_]; [lia|]. unfold find_two. destruct o.
    + destruct (find_root_ok u L h 0 R H0) as (v & F & Rv & _).
      destruct (find_root_pad _ _ _ _ _ _ _ _ P F) as (w1 & -> & P1). cbn [bind].
      destruct (find_alias _ _ _ _ _ _ _ _ P1 Rv H0 NP NR) as (p' & r' & v2 & w2 & F2 & _). rewrite EQ in F2. rewrite F2. cbn [bind].
      rewrite Nat.eqb_refl. eauto.
    + destruct (find_alias _ _ _ _ _ _ _ _ P R H0 NP NR) as (p' & r' & v & w1 & F & P1 & Rv). rewrite EQ in F. rewrite F. cbn [bind].
      destruct (find_root_ok v L h 0 Rv H0) as (v2 & F2 & _).
      destruct (find_root_pad _ _ _ _ _ _ _ _ P1 F2) as (w2 & -> & _). cbn [bind]. rewrite Nat.eqb_refl. eauto.
  - cbn [ustep]. unfold find. rewrite EX by lia. cbn [negb].
    destruct (find_alias _ _ _ _ _ _ _ _ P R H0 NP NR) as (p' & r' & v & w1 & F & _). rewrite EQ in F. rewrite F. cbn [bind]. eauto.
Qed.

(** ** Reached states *)
Section Reached.
Context {T : Type} (teq : forall a b : T, {a = b} + {a <> b}) (c : bool) (ops : list (eop T)).

Lemma reached : (N.of_nat (length ops) < two64)%N -> exists f rs s h,
  erun teq (ufind_new c) ops = Val (f, rs) /\ erel teq f s h /\ fst s = members teq [] ops /\
  forall e, has teq f e = false <-> ~ In e (members teq [] ops).
Proof.
  intros B. destruct (ehistory_ok teq c ops B) as (f & rs & L & h & E & _ & R & _).
  exists f, rs, (members teq [] ops, L), h. split; [assumption|]. split; [assumption|]. split; [reflexivity|].
  intros e. unfold has. rewrite (erel_ids _ _ _ _ R). cbn [fst].
  pose proof (position_tin teq e (members teq [] ops)) as PT. unfold tin in PT.
  destruct (in_dec teq e (members teq [] ops)); destruct (position teq e (members teq [] ops)); try discriminate; split; congruence || tauto.
Qed.

Lemma left_over_behind f e f' : has teq f e = false -> left_over teq f e f' -> left_behind f' f e.
Proof.
  intros H [->|[->| ->]]; [apply insert_left|apply insert_left|apply emplace_left]; congruence.
Qed.

Theorem reached_dead e : (N.of_nat (length ops) < two64)%N -> ~ In e (members teq [] ops) ->
  exists f rs, erun teq (ufind_new c) ops = Val (f, rs) /\ forall f', left_over teq f e f' ->
  estep teq f' (EExists e) = Val (f', VBool true) /\
  estep teq f' (EInsert e) = Val (f', VBool false) /\
  (members teq [] ops <> [] -> estep teq f' (EFind e) = UB).
Proof.
  intros B N. destruct (reached B) as (f & rs & s & h & E & R & M & H). exists f, rs. split; [assumption|].
  intros f' LO. rewrite <- M. eapply left_dead; [|eassumption]. apply left_over_behind; [apply H; assumption|assumption].
Qed.

Theorem reached_alias e x later : (N.of_nat (length ops + S (length later)) < two64)%N ->
  ~ In e (members teq [] ops) -> ~ In x (members teq [] ops) -> x <> e ->
  exists f rs f1 rs1, erun teq (ufind_new c) ops = Val (f, rs) /\
    erun teq f (EInsert x :: map (renamed (alias teq e x)) later) = Val (f1, rs1) /\
    forall f', left_over teq f e f' -> exists f1', erun teq f' (EInsert x :: later) = Val (f1', rs1).
Proof.
  intros B NE NX D. destruct (reached ltac:(lia)) as (f & rs & s & h & E & R & M & H).
  destruct (erun_ok teq (EInsert x :: map (renamed (alias teq e x)) later) f s h R) as (f1 & h1 & E1 & _).
  { cbn [length]. rewrite map_length, M. pose proof (members_length teq ops ltac:(lia) ops []). cbn [length] in *. lia. }
  exists f, rs, f1, (snd (elrun teq s (EInsert x :: map (renamed (alias teq e x)) later))).
  split; [assumption|]. split; [assumption|]. intros f' LO. eapply left_alias; [|apply H; eassumption|eassumption|eassumption].
  apply left_over_behind; [apply H; assumption|assumption].
Qed.

Theorem reached_half e later f1 rs1 : (N.of_nat (length ops) < two64)%N -> ~ In e (members teq [] ops) ->
  exists f rs, erun teq (ufind_new c) ops = Val (f, rs) /\
  (erun teq (emplace_throws teq InRanks f e) later = Val (f1, rs1) ->
   estep teq f1 (EFind (newest teq (e :: members teq [] ops) e later)) = UB).
Proof.
  intros B N. destruct (reached B) as (f & rs & s & h & E & R & M & H). exists f, rs. split; [assumption|].
  intros E1. rewrite <- M. eapply half_run; [|eassumption]. apply (half_new teq f e s h); [assumption|]. apply H; assumption.
Qed.
End Reached.

Section ReachedSet.
Context (k : nat) (c : bool) (ops : list uop).
Hypothesis B : (N.of_nat k < two64)%N.
Hypothesis OK : Forall uop_ok ops.
Let n := universe k ops.

Theorem set_resize_throws m : n < m -> exists u rs, urun (uset_of k c) ops = Val (u, rs) /\
  let u' := resize_throws InRanks u m in
  (forall j, j <= m -> ustep u' (UResize j) = Val (u', VBool false)) /\
  (forall x, n <= x < m -> ustep u' (UExists x) = Val (u', VBool true) /\ ustep u' (UFind x) = UB) /\
  (forall later, (forall o, In o later -> only_old n o) -> exists v v' a, urun u later = Val (v, a) /\ urun u' later = Val (v', a)) /\
  (forall x j o, 0 < n -> n <= x < m -> m < j -> exists w w', ustep u' (UResize j) = Val (w, VBool true) /\ ustep w (USame o 0 x) = Val (w', VBool true)).
Proof using B OK.
  intros Hm. destruct (history_ok k c ops B OK) as (u & rs & h & E & _ & R & I).
  pose proof (linv_len _ _ _ I) as LL. rewrite seq_length in LL. fold n in LL.
  set (L := fst (lrun (seq 0 k) ops)) in *. pose proof (rel_par_len _ _ _ R) as LP.
  exists u, rs. split; [assumption|]. cbv zeta.
  pose proof (resize_padded u m ltac:(lia)) as P.
  split; [|split; [|split]].
  - intros j Hj. cbn [ustep]. rewrite resize_retry by lia. reflexivity.
  - intros x Hx. split; [|eapply resize_dead; [eassumption|lia]]. cbn [ustep]. unfold exists_.
    rewrite (pad_par _ _ _ _ _ P), app_length, repeat_length.
    destruct (Nat.ltb_spec x (length (parents u) + (m - length (parents u)))); [reflexivity|lia].
  - intros later O.
    destruct (urun_ok later u L h R) as (v & h' & EV & _).
    { apply Forall_forall. intros o H. specialize (O o H). destruct o; try exact Logic.I. contradiction. }
    assert (O' : forall o, In o later -> only_old (length (parents u)) o) by (intros o H; rewrite LP, LL; apply O; assumption).
    destruct (old_run _ _ later u _ v _ P O' EV) as (v' & EV' & _).
    eauto.
  - intros x j o H0 Hx Hj.
    destruct (resize_joins_zero u L h m j x o R ltac:(lia) ltac:(lia) Hj) as (S & [w' W] & _).
    cbn [ustep]. destruct (resize (resize_throws InRanks u m) j) as [w b]. cbn [fst snd] in *. subst b. eauto.
Qed.
End ReachedSet.
