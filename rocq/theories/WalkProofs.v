(** Proofs about traversals that run at the same time. *)
Require Import List Arith NArith Lia Bool.
Require Import Verif.Base Verif.TraverseModel Verif.TraverseSpec Verif.TraverseProofs Verif.WalkModel Verif.WalkSpec.
Import ListNotations.

Section Walk.
Context {V : Type}.
Notation ktree := (ktree V).
Implicit Types (h g : thread V).

(** One traversal alone. *)
Fixpoint alone (k : nat) h (b : bool) : option (thread V * bool) :=
  match k with
  | O => Some (h, b)
  | S k => match walk h b with Some (h, b) => alone k h b | None => None end
  end.
Definition reaches h (b : bool) g (c : bool) : Prop := exists k, alone k h b = Some (g, c).
Lemma reach_refl : forall h b, reaches h b h b.
Proof. intros h b. exists 0. reflexivity. Qed.
Lemma alone_add : forall k h b g c j, alone k h b = Some (g, c) -> alone (k + j) h b = alone j g c.
Proof.
  induction k as [|k IH]; intros h b g c j E; cbn in *; [injection E as -> ->; reflexivity|].
  destruct (walk h b) as [[h' b']|]; [|discriminate E]. exact (IH _ _ _ _ _ E).
Qed.
Lemma reach_trans : forall h b g c g' c', reaches h b g c -> reaches g c g' c' -> reaches h b g' c'.
Proof. intros h b g c g' c' (k & E) (j & E'). exists (k + j). rewrite (alone_add _ _ _ _ _ _ E). exact E'. Qed.
Lemma reach_step : forall h b g c g' c', walk h b = Some (g, c) -> reaches g c g' c' -> reaches h b g' c'.
Proof. intros h b g c g' c' W (k & E). exists (S k). cbn. rewrite W. exact E. Qed.
Definition mk (cb : list ktree -> ktree -> bool) (made : list ktree) (stack : list (frame V)) (p : pc V) : thread V :=
  {| cb := cb; made := made; stack := stack; at_ := p |}.
Ltac walks := eapply reach_step; [unfold walk; cbn; reflexivity|cbn].

Lemma loop_alone : forall cb t s, Forall (fun c => match c with Some c => forall past l b, 
    let '(p, n, brk) := kin_order cb c past in reaches (mk cb past l (Enter c)) b (mk cb p l (Back n)) brk | None => True end) s ->
  forall calls past visited l, let '(p, n, brk) := kin_loop cb t s calls past visited in
    reaches (mk cb past ({| node := t; rest := s; calls := calls; visited := visited |} :: l) For) false (mk cb p l (Back n)) brk.
Proof.
  intros cb t s F. induction F as [|c s Hc F IH]; intros calls past visited l; cbn [kin_loop].
  - walks. apply reach_refl.
  - assert (A : forall past visited, 
        let '(p, n, brk) := if (calls =? 0)%N then kin_loop cb t s (wsub calls 1) past visited
          else if cb past t then (past ++ [t], visited, true) else kin_loop cb t s (wsub calls 1) (past ++ [t]) visited in
        reaches (mk cb past ({| node := t; rest := s; calls := calls; visited := visited |} :: l) Own) false (mk cb p l (Back n)) brk).
    { intros past' visited'. destruct (calls =? 0)%N eqn:E0.
      - specialize (IH (wsub calls 1) past' visited' l). destruct (kin_loop cb t s (wsub calls 1) past' visited') as [[p n] brk].
        eapply reach_step; [unfold walk; cbn; rewrite E0; reflexivity|]. exact IH.
      - destruct (cb past' t) eqn:Ec.
        + eapply reach_step; [unfold walk; cbn; rewrite E0, Ec; reflexivity|]. walks. walks. apply reach_refl.
        + specialize (IH (wsub calls 1) (past' ++ [t]) visited' l). destruct (kin_loop cb t s (wsub calls 1) (past' ++ [t]) visited') as [[p n] brk].
          eapply reach_step; [unfold walk; cbn; rewrite E0, Ec; reflexivity|]. walks. walks. exact IH. }
    destruct c as [c|].
    + specialize (Hc past ({| node := t; rest := s; calls := calls; visited := visited |} :: l) false).
      destruct (kin_order cb c past) as [[p n] brk]. destruct brk.
      * walks. eapply reach_trans; [exact Hc|]. walks. walks. apply reach_refl.
      * specialize (A p (visited + n)).
        destruct (if (calls =? 0)%N then kin_loop cb t s (wsub calls 1) p (visited + n)
          else if cb p t then (p ++ [t], visited + n, true) else kin_loop cb t s (wsub calls 1) (p ++ [t]) (visited + n)) as [[p' n'] brk'].
        walks. eapply reach_trans; [exact Hc|]. walks. walks. exact A.
    + specialize (A past visited).
      destruct (if (calls =? 0)%N then kin_loop cb t s (wsub calls 1) past visited
          else if cb past t then (past ++ [t], visited, true) else kin_loop cb t s (wsub calls 1) (past ++ [t]) visited) as [[p' n'] brk'].
      walks. exact A.
Qed.
Lemma node_alone : forall cb (t : ktree) past l b, let '(p, n, brk) := kin_order cb t past in
  reaches (mk cb past l (Enter t)) b (mk cb p l (Back n)) brk.
Proof.
  intros cb t. induction t as [v s IH] using ktree_ind'. intros past l b. destruct s as [|c s].
  - cbn. walks. walks. apply reach_refl.
  - rewrite kin_eq by discriminate.
    pose proof (loop_alone cb (KNode v (c :: s)) (c :: s) IH (N.max (wsub (sizeN (c :: s)) 1) 1) past 1 l) as A.
    destruct (kin_loop cb (KNode v (c :: s)) (c :: s) (N.max (wsub (sizeN (c :: s)) 1) 1) past 1) as [[p n] brk].
    eapply reach_step; [unfold walk; cbn; reflexivity|]. exact A.
Qed.
Lemma walk_alone : forall cb (t : ktree) b p n brk, kin_order cb t [] = (p, n, brk) ->
  reaches (begin cb t) b (mk cb p [] (Done n)) brk.
Proof.
  intros cb t b p n brk E. pose proof (node_alone cb t [] [] b) as A. rewrite E in A.
  eapply reach_trans; [exact A|]. walks. apply reach_refl.
Qed.
(** A finished traversal has made no other calls. *)
Lemma alone_done : forall k h b g c n j g' c' n', alone k h b = Some (g, c) -> at_ g = Done n -> alone j h b = Some (g', c') -> at_ g' = Done n' ->
  g = g' /\ c = c'.
Proof.
  intros k h b g c n j g' c' n' E D E' D'.
  assert (St : forall g c n i r, at_ g = Done n -> alone i g c = Some r -> r = (g, c)).
  { intros x y m i r Dx R. destruct i; cbn in R; [injection R as <-; reflexivity|]. unfold walk in R. rewrite Dx in R. discriminate R. }
  destruct (Nat.le_ge_cases k j) as [L|L].
  - replace j with (k + (j - k)) in E' by lia. rewrite (alone_add _ _ _ _ _ _ E) in E'. pose proof (St _ _ _ _ _ D E') as X. injection X as -> ->. auto.
  - replace k with (j + (k - j)) in E by lia. rewrite (alone_add _ _ _ _ _ _ E') in E. pose proof (St _ _ _ _ _ D' E) as X. injection X as -> ->. auto.
Qed.
Lemma alone_result : forall cb (t : ktree) k g c n, alone k (begin cb t) false = Some (g, c) -> at_ g = Done n ->
  kin_order cb t [] = (made g, n, c).
Proof.
  intros cb t k g c n E D. destruct (kin_order cb t []) as [[p m] brk] eqn:K.
  destruct (walk_alone cb t false p m brk K) as (j & E'). destruct (alone_done _ _ _ _ _ _ _ _ _ _ E D E' eq_refl) as [-> ->].
  cbn in D. injection D as ->. reflexivity.
Qed.

(** Several, none of which is told to stop. *)
Lemma walk_made : forall h b g c, walk h b = Some (g, c) -> cb g = cb h /\ (made g = made h \/ exists x, made g = made h ++ [x]).
Proof.
  intros h b g c W. unfold walk in W. destruct h as [f m l p]. cbn in W.
  destruct p; destruct l as [|fr l]; try discriminate W;
    repeat match type of W with context [match ?x with _ => _ end] => destruct x end; try discriminate W;
    injection W as <- <-; cbn; (split; [reflexivity|]); eauto.
Qed.
Definition asked h : Prop := forall b, at_ h = Store b -> exists p x, made h = p ++ [x] /\ b = cb h p x.
Lemma walk_asked : forall h b g c, walk h b = Some (g, c) -> asked h -> asked g.
Proof.
  intros h b g c W A. unfold walk in W. destruct h as [f m l p]. unfold asked in *. cbn in *.
  destruct p; destruct l as [|fr l]; try discriminate W;
    repeat match type of W with context [match ?x with _ => _ end] => destruct x end; try discriminate W;
    injection W as <- <-; cbn; intros b1 K; try discriminate K. injection K as <-. eauto.
Qed.
Lemma run_app : forall sched1 sched2 (s : state V), run (sched1 ++ sched2) s = match run sched1 s with Some t => run sched2 t | None => None end.
Proof. induction sched1 as [|a l IH]; intros sched2 s; cbn; [reflexivity|]. destruct (step a s); [apply IH|reflexivity]. Qed.
Definition calm (s : state V) : Prop := forall i h, nth_error (threads s) i = Some h -> unbroken (cb h) (made h).
Lemma unbroken_less : forall {A} (f : list A -> A -> bool) l x, unbroken f (l ++ [x]) -> unbroken f l.
Proof. intros A f l x U p y q E. apply (U p y (q ++ [x])). rewrite E, <- app_assoc. reflexivity. Qed.
Lemma set_nth_at : forall {A} (l : list A) i x j y, nth_error (set_nth l i x) j = Some y -> nth_error l i <> None ->
  j = i /\ y = x \/ j <> i /\ nth_error l j = Some y.
Proof.
  intros A l i x j y E N. apply nth_error_Some in N. destruct (Nat.eq_dec j i) as [->|D].
  - left. rewrite nth_error_set_nth_eq in E by exact N. injection E as <-. auto.
  - right. rewrite nth_error_set_nth_neq in E by congruence. auto.
Qed.
Lemma calm_back : forall i (s t : state V), step i s = Some t -> calm t -> calm s.
Proof.
  intros i s t S C j h E. unfold step in S. destruct (nth_error (threads s) i) as [h0|] eqn:Ei; [|discriminate S].
  destruct (walk h0 (flag s)) as [[g b]|] eqn:W; [|discriminate S]. injection S as <-.
  assert (L : i < length (threads s)) by (apply nth_error_Some; congruence).
  destruct (Nat.eq_dec j i) as [->|D].
  - rewrite Ei in E. injection E as ->. specialize (C i g). cbn in C. rewrite nth_error_set_nth_eq in C by exact L. specialize (C eq_refl).
    destruct (walk_made _ _ _ _ W) as [Ec [Em|(x & Em)]]; rewrite Ec, Em in C; [exact C|]. exact (unbroken_less _ _ _ C).
  - apply (C j h). cbn. rewrite nth_error_set_nth_neq by congruence. exact E.
Qed.
Lemma together : forall l sched s, run sched (start l) = Some s -> calm s ->
  flag s = false /\ length (threads s) = length l /\
  forall i f t h, nth_error l i = Some (f, t) -> nth_error (threads s) i = Some h -> asked h /\ exists k, alone k (begin f t) false = Some (h, false).
Proof.
  intros l sched. induction sched as [|i sched IH] using rev_ind; intros s R C.
  - cbn in R. injection R as <-. split; [reflexivity|]. split; [cbn; apply map_length|]. intros i f t h E H. cbn in H.
    rewrite nth_error_map, E in H. cbn in H. injection H as <-. split; [intros b K; discriminate K|]. exists 0. reflexivity.
  - rewrite run_app in R. destruct (run sched (start l)) as [u|] eqn:R0; [|discriminate R]. cbn in R.
    destruct (step i u) as [s'|] eqn:S; [|discriminate R]. injection R as ->.
    pose proof (calm_back _ _ _ S C) as Cu. destruct (IH u eq_refl Cu) as (Fl & Len & Al).
    unfold step in S. destruct (nth_error (threads u) i) as [h0|] eqn:Ei; [|discriminate S].
    destruct (walk h0 (flag u)) as [[g b]|] eqn:W; [|discriminate S]. injection S as <-. cbn in *.
    assert (L : i < length (threads u)) by (apply nth_error_Some; congruence).
    assert (Ex : exists f t, nth_error l i = Some (f, t)).
    { rewrite Len in L. destruct (nth_error l i) as [[f t]|] eqn:El; [eauto|]. apply nth_error_None in El. lia. }
    destruct Ex as (f & t & El). destruct (Al i f t h0 El Ei) as [As (k & Ek)].
    assert (B : b = false).
    { rewrite Fl in W. unfold walk in W. destruct h0 as [cf m st p]. cbn in W.
      specialize (Cu i _ Ei). cbn in Cu.
      destruct p as [| | | | | |sb| |]; destruct st as [|fr st]; try discriminate W;
        repeat match type of W with context [match ?x with _ => _ end] => destruct x end; try discriminate W;
        injection W as <- <-; try reflexivity;
        destruct (As _ eq_refl) as (p & x & Em & ->); cbn in Em; rewrite Em in Cu; exact (Cu p x [] eq_refl). }
    subst b. split; [reflexivity|]. split; [rewrite set_nth_length; exact Len|].
    intros j f1 t1 h1 Ej Hj. apply set_nth_at in Hj; [|congruence]. destruct Hj as [[-> ->]|[D Hj]].
    + rewrite El in Ej. injection Ej as <- <-. split; [exact (walk_asked _ _ _ _ W As)|].
      exists (k + 1). rewrite (alone_add _ _ _ _ _ _ Ek). cbn. rewrite Fl in W. rewrite W. reflexivity.
    + exact (Al j f1 t1 h1 Ej Hj).
Qed.
Lemma undisturbed : forall l sched s, run sched (start l) = Some s ->
  (forall i h, nth_error (threads s) i = Some h -> unbroken (cb h) (made h)) ->
  forall i f t h n, nth_error l i = Some (f, t) -> nth_error (threads s) i = Some h -> at_ h = Done n ->
  kin_order f t [] = (made h, n, false).
Proof.
  intros l sched s R C i f t h n El Eh D. destruct (together l sched s R C) as (_ & _ & Al).
  destruct (Al i f t h El Eh) as [_ (k & Ek)]. exact (alone_result f t k h false n Ek D).
Qed.
Lemma alone_run : forall f (t : ktree) sched s, run sched (start [(f, t)]) = Some s ->
  exists k g, threads s = [g] /\ alone k (begin f t) false = Some (g, flag s).
Proof.
  intros f t sched. induction sched as [|i sched IH] using rev_ind; intros s R.
  - cbn in R. injection R as <-. exists 0, (begin f t). auto.
  - rewrite run_app in R. destruct (run sched (start [(f, t)])) as [u|] eqn:R0; [|discriminate R]. cbn in R.
    destruct (step i u) as [s'|] eqn:S; [|discriminate R]. injection R as ->. unfold step in S.
    destruct (IH u eq_refl) as (k & g & Tu & Ek). rewrite Tu in S. destruct i as [|i]; [|destruct i; discriminate S]. cbn in S.
    destruct (walk g (flag u)) as [[g' b]|] eqn:W; [|discriminate S]. injection S as <-. exists (k + 1), g'. split; [reflexivity|].
    rewrite (alone_add _ _ _ _ _ _ Ek). cbn. rewrite W. reflexivity.
Qed.
Lemma alone_exact : forall f (t : ktree) sched s h n, run sched (start [(f, t)]) = Some s -> nth_error (threads s) 0 = Some h ->
  at_ h = Done n -> exists b, kin_order f t [] = (made h, n, b).
Proof.
  intros f t sched s h n R Eh D. destruct (alone_run f t sched s R) as (k & g & Ts & Ek). rewrite Ts in Eh. injection Eh as ->.
  exists (flag s). exact (alone_result f t k h (flag s) n Ek D).
Qed.

(** It ends, whatever the others do. *)
Fixpoint cost (t : ktree) : nat :=
  match t with KNode _ s => 9 + list_sum (map (fun c => match c with Some c => cost c | None => 4 end) s) end.
Definition slots_cost (s : list (option ktree)) : nat := list_sum (map (fun c => match c with Some c => cost c | None => 4 end) s).
Definition place (p : pc V) : nat :=
  match p with Enter t => cost t | Leaf _ => 7 | Back _ => 6 | Test => 5 | Own => 4 | Store _ => 3 | Check => 2 | For => 1 | Done _ => 0 end.
Definition left_ h : nat := place (at_ h) + list_sum (map (fun f => 7 + slots_cost (rest f)) (stack h)).
Lemma walk_left : forall h b g c, walk h b = Some (g, c) -> left_ g < left_ h.
Proof.
  intros h b g c W. unfold walk in W. unfold left_. destruct h as [f m l p]. cbn in W.
  destruct p as [[v s]| | | | | | | |]; destruct l as [|fr l]; try discriminate W; try (destruct fr as [nd rs ca vi]); cbn in W;
    repeat match type of W with context [match ?x with _ => _ end] => destruct x end; try discriminate W;
    injection W as <- <-; cbn [at_ stack go set_stack call place map list_sum rest fold_right cost slots_cost]; unfold slots_cost;
    cbn [map list_sum fold_right]; unfold list_sum in *; cbn [fold_right]; try lia.
Qed.
Definition sound h : Prop := match at_ h with For | Test | Own | Store _ | Check => stack h <> [] | _ => True end.
Lemma walk_sound : forall h b g c, walk h b = Some (g, c) -> sound h -> sound g.
Proof.
  intros h b g c W S. unfold walk in W. unfold sound in *. destruct h as [f m l p]. cbn in *.
  destruct p; destruct l as [|fr l]; try discriminate W;
    repeat match type of W with context [match ?x with _ => _ end] => destruct x end; try discriminate W;
    injection W as <- <-; cbn; try exact Logic.I; try discriminate; exact S.
Qed.
Lemma walk_goes : forall h b, sound h -> (exists n, at_ h = Done n) \/ walk h b <> None.
Proof.
  intros h b S. unfold sound in S. unfold walk. destruct h as [f m l p]. cbn in *.
  destruct p; eauto; right; destruct l as [|fr l]; try contradiction;
    repeat match goal with |- context [match ?x with _ => _ end] => destruct x end; discriminate.
Qed.
Lemma ends_gen : forall l sched s, run sched (start l) = Some s -> length (threads s) = length l /\
  forall i f t h, nth_error l i = Some (f, t) -> nth_error (threads s) i = Some h ->
  sound h /\ count_occ Nat.eq_dec sched i + left_ h <= cost t.
Proof.
  intros l sched. induction sched as [|i sched IH] using rev_ind; intros s R.
  - cbn in R. injection R as <-. split; [cbn; apply map_length|]. intros i f t h E H. cbn in H.
    rewrite nth_error_map, E in H. cbn in H. injection H as <-. split; [exact Logic.I|]. unfold left_. cbn. lia.
  - rewrite run_app in R. destruct (run sched (start l)) as [u|] eqn:R0; [|discriminate R]. cbn in R.
    destruct (step i u) as [s'|] eqn:S; [|discriminate R]. injection R as ->. destruct (IH u eq_refl) as (Len & Al).
    unfold step in S. destruct (nth_error (threads u) i) as [h0|] eqn:Ei; [|discriminate S].
    destruct (walk h0 (flag u)) as [[g b]|] eqn:W; [|discriminate S]. injection S as <-. cbn in *.
    split; [rewrite set_nth_length; exact Len|].
    intros j f1 t1 h1 Ej Hj. apply set_nth_at in Hj; [|congruence]. rewrite count_occ_app. cbn. destruct Hj as [[-> ->]|[D Hj]].
    + destruct (Al i f1 t1 h0 Ej Ei) as [So Le]. split; [exact (walk_sound _ _ _ _ W So)|]. pose proof (walk_left _ _ _ _ W) as Lt.
      destruct (Nat.eq_dec i i); [lia|congruence].
    + destruct (Al j f1 t1 h1 Ej Hj) as [So Le]. split; [exact So|]. destruct (Nat.eq_dec i j); [congruence|lia].
Qed.
Lemma walks_end : forall (t : ktree), exists most, forall l sched s i f, run sched (start l) = Some s -> nth_error l i = Some (f, t) ->
  count_occ Nat.eq_dec sched i <= most /\
  exists h, nth_error (threads s) i = Some h /\ ((exists n, at_ h = Done n) \/ step i s <> None).
Proof.
  intros t. exists (cost t). intros l sched s i f R El. destruct (ends_gen l sched s R) as (Len & Al).
  assert (L : i < length (threads s)) by (rewrite Len; apply nth_error_Some; congruence).
  destruct (nth_error (threads s) i) as [h|] eqn:Eh; [|apply nth_error_None in Eh; lia].
  destruct (Al i f t h El Eh) as [So Le]. split; [lia|]. exists h. split; [reflexivity|].
  destruct (walk_goes h (flag s) So) as [D|G]; [left; exact D|right]. unfold step. rewrite Eh.
  destruct (walk h (flag s)) as [[g b]|]; [discriminate|contradiction].
Qed.
Lemma complete : forall (l : list ktree) sched s, run sched (start (map (pair never) l)) = Some s ->
  forall i t h n, nth_error l i = Some t -> nth_error (threads s) i = Some h -> at_ h = Done n -> fits t ->
  made h = kin t /\ n = kcount t.
Proof.
  intros l sched s R i t h n El Eh D F.
  assert (C : forall i h, nth_error (threads s) i = Some h -> cb h = never).
  { clear - R. revert s R. induction sched as [|j sched IH] using rev_ind; intros s R i h E.
    - cbn in R. injection R as <-. cbn in E. rewrite !nth_error_map in E. destruct (nth_error l i); [|discriminate E]. injection E as <-. reflexivity.
    - rewrite run_app in R. destruct (run sched (start (map (pair never) l))) as [u|]; [|discriminate R]. cbn in R.
      destruct (step j u) as [s'|] eqn:S; [|discriminate R]. injection R as ->. unfold step in S.
      destruct (nth_error (threads u) j) as [h0|] eqn:Ej; [|discriminate S]. destruct (walk h0 (flag u)) as [[g b]|] eqn:W; [|discriminate S].
      injection S as <-. cbn in E. apply set_nth_at in E; [|congruence]. destruct E as [[-> ->]|[_ E]]; [|exact (IH u eq_refl i h E)].
      rewrite (proj1 (walk_made _ _ _ _ W)). exact (IH u eq_refl j h0 Ej). }
  assert (U : kin_order never t [] = (made h, n, false)).
  { apply (undisturbed (map (pair never) l) sched s R) with (i := i); try assumption.
    - intros j g Ej p x q _. rewrite (C j g Ej). reflexivity.
    - rewrite nth_error_map, El. reflexivity. }
  rewrite kin_never in U by exact F. cbn in U. injection U as E1 E2. split; congruence.
Qed.
End Walk.
