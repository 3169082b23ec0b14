(** Proofs about the destruction of a message queue. *)
Require Import List Arith NArith Lia Bool Permutation.
Require Import Verif.Base Verif.MsgQueueModel Verif.MsgQueueSpec Verif.MsgQueueProofs Verif.QueueEndModel Verif.QueueEndSpec.
Import ListNotations.

Section Queue.
Context {M : Type}.
Variable select : list M -> nat.
Notation take := (take select).
Notation step := (MsgQueueModel.step select).
Notation run := (MsgQueueModel.run select).
Notation act := (act select).
Notation acts := (acts select).
Implicit Types (s t : state M) (m : M) (l : list (event M)) (o p : object M) (ds : list (deed M)).

Lemma acts_app : forall ds1 ds2 o, acts (ds1 ++ ds2) o = match acts ds1 o with Some p => acts ds2 p | None => None end.
Proof. induction ds1 as [|d ds1 IH]; intros ds2 o; cbn; [reflexivity|]. destruct (act d o); [apply IH|reflexivity]. Qed.
Lemma acts_keep : forall (P : object M -> Prop), (forall d o p, P o -> act d o = Some p -> P p) ->
  forall ds o p, P o -> acts ds o = Some p -> P p.
Proof.
  intros P K. induction ds as [|d ds IH]; intros o p I R; cbn in R; [injection R as <-; exact I|].
  destruct (act d o) as [u|] eqn:E; [|discriminate R]. exact (IH u p (K d o u I E) R).
Qed.

Ltac wcases W := unfold work, acquire, option_map in W;
    repeat match type of W with
    | context [match ?x with _ => _ end] =>
        lazymatch x with context [match _ with _ => _ end] => fail | _ => let E := fresh "E" in destruct x eqn:E end
    end; try discriminate W; injection W as <-.

(** Until the destruction the object is a queue that runs. *)
Lemma act_living : forall d o p, at_ o = Living -> alive o = true -> act d o = Some p ->
  (exists a t, d = Do a /\ step a (base o) = Some t /\ p = set_base t o) \/
  (exists safe, d = Destroy safe /\ forallb is_idle (clients (base o)) = true /\ p = go (if safe then SafeStop else Derived) o).
Proof.
  intros d o p L A H. unfold QueueEndModel.act in H. rewrite L in H. destruct d as [a|safe|].
  - left. exists a. assert (K : option_map (fun s => set_base s o) (step a (base o)) = Some p).
    { destruct a; try exact H. unfold work_on in H. rewrite A in H. exact H. }
    destruct (step a (base o)) as [t|]; [|discriminate K]. injection K as <-. exists t. auto.
  - right. exists safe. destruct (forallb is_idle (clients (base o))); [|discriminate H]. injection H as <-. auto.
  - unfold QueueEndModel.destruct in H. rewrite L in H. discriminate H.
Qed.
Definition gone_by ds o p : Prop := at_ p = Living /\ alive p = true /\ (exists sched, run sched (base o) = Some (base p)) \/
  exists ds1 safe ds2 o1, ds = ds1 ++ Destroy safe :: ds2 /\ acts ds1 o = Some o1 /\ at_ o1 = Living /\ alive o1 = true /\
    (exists sched, run sched (base o) = Some (base o1)) /\ forallb is_idle (clients (base o1)) = true /\
    acts ds2 (go (if safe then SafeStop else Derived) o1) = Some p.
Lemma goes : forall ds o p, at_ o = Living -> alive o = true -> acts ds o = Some p -> gone_by ds o p.
Proof.
  induction ds as [|d ds IH]; intros o p L A H; cbn in H.
  - injection H as <-. left. split; [exact L|]. split; [exact A|]. exists []. reflexivity.
  - destruct (act d o) as [u|] eqn:E; [|discriminate H].
    destruct (act_living d o u L A E) as [(a & t & -> & S & ->)|(safe & -> & F & ->)].
    + destruct (IH (set_base t o) p L A H) as [(L' & A' & sched & R)|(ds1 & safe & ds2 & o1 & -> & R1 & L1 & A1 & (sched & R) & F & R2)].
      * left. split; [exact L'|]. split; [exact A'|]. exists (a :: sched). cbn. rewrite S. exact R.
      * right. exists (Do a :: ds1), safe, ds2, o1. split; [reflexivity|]. split; [cbn [QueueEndModel.acts app]; rewrite E; exact R1|].
        split; [exact L1|]. split; [exact A1|]. split; [exists (a :: sched); cbn; rewrite S; exact R|]. split; [exact F|exact R2].
    + right. exists [], safe, ds, o. split; [reflexivity|]. split; [reflexivity|]. split; [exact L|]. split; [exact A|].
      split; [exists []; reflexivity|]. split; [exact F|exact H].
Qed.

(** After that. *)
Lemma inv_note : forall e s, inv (note e s) <-> inv s.
Proof. intros e s. split; intros [A B D F G H J]; split; assumption. Qed.
Lemma inv_stop_now : forall s, inv s -> inv (stop_now s).
Proof. intros s [A B D F G H J]. split; assumption. Qed.
Lemma inv_join : chooses select -> forall s t, inv s -> join_now s = Some t -> inv t.
Proof.
  intros C s t I H. unfold join_now in H. destruct (worker s) eqn:E; try discriminate H; injection H as <-; [exact I|].
  apply (inv_step select C Join s); [exact I|]. cbn. unfold join. rewrite E. reflexivity.
Qed.
Lemma inv_queue : forall q s, inv s -> worker s = WOff -> inv (set_queue q s).
Proof. intros q s [A B D F G H J] W. split; cbn; try assumption. rewrite W. discriminate. Qed.
Definition free s : Prop := forall i, mtx s <> Some (Some i).
Lemma free_work : forall s t, free s -> work select s = Some t -> free t.
Proof.
  intros s t F H i. specialize (F i). wcases H; cbn; try exact F; try discriminate.
Qed.
Lemma idle_free : chooses select -> forall n sched s, run sched (init n) = Some s -> forallb is_idle (clients s) = true -> free s.
Proof.
  intros C n sched s R F i X. destruct (holder_run select n sched s R i X) as (c & E).
  destruct (MsgQueueProofs.alive select C n sched s R) as [I _]. pose proof (proj1 (i_client _ I i c E) X) as H.
  rewrite forallb_forall in F. specialize (F c (nth_error_In _ _ E)). destruct c; try discriminate F. discriminate H.
Qed.

Definition tidy o : Prop := inv (base o) /\ life (log (base o)) (phase_of (worker (base o))) /\ free (base o) /\
  match at_ o with
  | SafeStop => alive o = true
  | SafeJoin => alive o = true /\ stopped (base o) = true
  | Derived => alive o = true /\ worker (base o) = WOff
  | BaseStop | BaseJoin | BaseClear => worker (base o) = WOff
  | Destroyed => worker (base o) = WOff /\ queue (base o) = []
  | Living | Broken => False
  end.
Lemma join_cases : forall s t, join_now s = Some t -> worker s = WOff /\ t = s \/ worker s = WEnded /\ t = wgo WOff s.
Proof. intros s t H. unfold join_now in H. destruct (worker s) eqn:E; try discriminate H; injection H as <-; auto. Qed.
Lemma tidy_act : chooses select -> forall d o p, tidy o -> act d o = Some p -> tidy p.
Proof.
  intros C d o p (I & L & F & K) H. unfold QueueEndModel.act in H.
  assert (Wk : work_on select o = Some p -> tidy p).
  { clear H. intros H. unfold work_on in H.
    destruct (alive o) eqn:A.
    - destruct (work select (base o)) as [t|] eqn:W; [|discriminate H]. injection H as <-.
      destruct (life_step select C Work (base o) t (conj I L) W) as [I' L']. split; [exact I'|]. split; [exact L'|].
      split; [exact (free_work _ _ F W)|]. cbn in *.
      assert (N : worker (base o) <> WOff) by (intros N; unfold work in W; rewrite N in W; discriminate W).
      destruct (at_ o); try contradiction; cbn; try exact A; try tauto.
      split; [exact A|]. destruct K as [_ K]. clear - W K. wcases W; exact K.
    - assert (N : worker (base o) = WOff).
      { destruct (at_ o); try contradiction; try congruence; try exact K; destruct K; congruence. }
      rewrite N in H. unfold work in H. rewrite N in H. discriminate H. }
  destruct d as [a|safe|].
  - destruct (at_ o); try discriminate H; destruct a; try discriminate H; try (exact (Wk H)); try contradiction.
  - destruct (at_ o); try discriminate H; contradiction.
  - clear Wk. assert (X : QueueEndModel.destruct select o = Some p) by (destruct (at_ o); try contradiction; try discriminate H; exact H).
    clear H. unfold QueueEndModel.destruct in X. destruct (at_ o) eqn:At; try contradiction; try discriminate X.
    + injection X as <-. split; [apply inv_stop_now; exact I|]. cbn. split; [apply life_other; [reflexivity|exact L]|].
      split; [exact F|]. split; [exact K|reflexivity].
    + destruct (join_now (base o)) as [t|] eqn:J; [|discriminate X]. injection X as <-.
      split; [exact (inv_join C _ _ I J)|]. cbn. destruct K as [K _].
      destruct (join_cases _ _ J) as [[W ->]|[W ->]]; (split; [cbn in *; rewrite W in L; cbn in L; rewrite ?W; exact L|]); (split; [exact F|]); auto.
    + injection X as <-. split; [exact I|]. split; [exact L|]. split; [exact F|]. exact (proj2 K).
    + injection X as <-. split; [apply inv_stop_now; exact I|]. cbn. split; [apply life_other; [reflexivity|exact L]|].
      split; [exact F|exact K].
    + destruct (join_now (base o)) as [t|] eqn:J; [|discriminate X]. injection X as <-.
      destruct (join_cases _ _ J) as [[W ->]|[W ->]]; [|congruence]. split; [exact I|]. split; [exact L|]. split; [exact F|exact W].
    + destruct (is_empty (queue (base o))) eqn:Em.
      * injection X as <-. split; [exact I|]. split; [exact L|]. split; [exact F|]. split; [exact K|].
        cbn. destruct (queue (base o)); [reflexivity|discriminate Em].
      * destruct (take (queue (base o))) as [[m q]|] eqn:T.
        -- injection X as <-. split; [apply inv_queue; assumption|]. split; [exact L|]. split; [exact F|]. cbn. rewrite At. exact K.
        -- exfalso. refine (take_chosen select C _ _ T). intros Q. rewrite Q in Em. discriminate Em.
Qed.
Lemma safely : forall ds o p, (forall d, In d ds -> unsafe d = false) -> gone_by ds o p ->
  at_ p = Living /\ alive p = true /\ (exists sched, run sched (base o) = Some (base p)) \/
  exists ds1 ds2 o1, ds = ds1 ++ Destroy true :: ds2 /\ acts ds1 o = Some o1 /\ at_ o1 = Living /\ alive o1 = true /\
    (exists sched, run sched (base o) = Some (base o1)) /\ forallb is_idle (clients (base o1)) = true /\
    acts ds2 (go SafeStop o1) = Some p.
Proof.
  intros ds o p S [H|(ds1 & safe & ds2 & o1 & -> & H)]; [left; exact H|right]. destruct safe; [eauto|].
  specialize (S (Destroy false)). cbn in S. discriminate S. apply in_or_app. right. left. reflexivity.
Qed.
Lemma tidy_begins : chooses select -> forall n sched o, run sched (init n) = Some (base o) -> alive o = true ->
  forallb is_idle (clients (base o)) = true -> tidy (go SafeStop o).
Proof.
  intros C n sched o R A F. destruct (MsgQueueProofs.alive select C n sched _ R) as [I L].
  split; [exact I|]. split; [exact L|]. split; [exact (idle_free C n sched _ R F)|exact A].
Qed.
Lemma tidy_holds : chooses select -> forall n ds o, acts ds (new n) = Some o -> (forall d, In d ds -> unsafe d = false) ->
  at_ o <> Living -> tidy o.
Proof.
  intros C n ds o H S N.
  destruct (safely ds _ _ S (goes ds (new n) o eq_refl eq_refl H)) as [(L & _)|(ds1 & ds2 & o1 & -> & R1 & L1 & A1 & (sched & R) & F & R2)]; [contradiction|].
  refine (acts_keep tidy (tidy_act C) ds2 _ _ _ R2). exact (tidy_begins C n sched o1 R A1 F).
Qed.
Lemma safe_ok : chooses select -> forall n ds o, acts ds (new n) = Some o -> (forall d, In d ds -> unsafe d = false) ->
  at_ o <> Broken /\ (alive o = false -> worker (base o) = WOff) /\
  (at_ o = Destroyed -> queue (base o) = [] /\ count is_start (log (base o)) = count is_stop (log (base o))).
Proof.
  intros C n ds o H S.
  destruct (safely ds _ _ S (goes ds (new n) o eq_refl eq_refl H)) as [(L & A & _)|_].
  { rewrite L. split; [discriminate|]. split; [congruence|discriminate]. }
  assert (D : at_ o = Living \/ at_ o <> Living) by (destruct (at_ o); (left; reflexivity) || (right; discriminate)).
  destruct D as [L|N].
  { destruct (goes ds (new n) o eq_refl eq_refl H) as [(_ & A & _)|(ds1 & safe & ds2 & o1 & -> & R1 & L1 & A1 & (sched & R) & F & R2)].
    - rewrite L. split; [discriminate|]. split; [congruence|discriminate].
    - exfalso. destruct safe.
      + destruct (acts_keep tidy (tidy_act C) ds2 _ _ (tidy_begins C n sched o1 R A1 F) R2) as (_ & _ & _ & K). rewrite L in K. exact K.
      + specialize (S (Destroy false)). cbn in S. discriminate S. apply in_or_app. right. left. reflexivity. }
  destruct (tidy_holds C n ds o H S N) as (I & Li & F & K).
  destruct (at_ o); try contradiction; (split; [discriminate|]); (split; [|try discriminate]); try (intros A; destruct K; congruence); auto.
  - intros A. congruence.
  - intros _. split; [exact (proj2 K)|]. pose proof (life_counts _ _ Li) as X. rewrite (proj1 K) in X. cbn in X. lia.
Qed.

(** The destructor returns. *)
Definition returns o : Prop := exists ds p, forallb own ds = true /\ acts ds o = Some p /\ at_ p = Destroyed.
Lemma returns_back : forall d o p, own d = true -> act d o = Some p -> returns p -> returns o.
Proof.
  intros d o p O A (ds & q & F & R & D). exists (d :: ds), q. split; [cbn; rewrite O; exact F|]. split; [cbn; rewrite A; exact R|exact D].
Qed.
Lemma works : forall k o t, at_ o = SafeJoin -> alive o = true -> run (repeat Work k) (base o) = Some t ->
  acts (repeat (Do Work) k) o = Some (set_base t o).
Proof.
  induction k as [|k IH]; intros o t At A R; cbn in R.
  - injection R as <-. destruct o; reflexivity.
  - cbn [repeat QueueEndModel.acts]. unfold QueueEndModel.act at 1. rewrite At. unfold work_on. rewrite A.
    destruct (work select (base o)) as [u|]; [|discriminate R]. cbn [option_map]. rewrite (IH (set_base u o) t At A R). reflexivity.
Qed.
Lemma safe_returns : chooses select -> forall n ds o, acts ds (new n) = Some o -> (forall d, In d ds -> unsafe d = false) ->
  at_ o <> Living -> returns o.
Proof.
  intros C n ds o H S N. pose proof (tidy_holds C n ds o H S N) as T. clear n ds H S N.
  assert (L1 : forall o, at_ o = Destroyed -> returns o) by (intros p D; exists [], p; auto).
  assert (L2 : forall k o, length (queue (base o)) <= k -> at_ o = BaseClear -> returns o).
  { induction k as [|k IH]; intros p L At.
    - apply (returns_back Step p (go Destroyed p)); [reflexivity| |apply L1; reflexivity]. cbn. unfold QueueEndModel.act, QueueEndModel.destruct. rewrite At.
      destruct (queue (base p)); [reflexivity|cbn in L; lia].
    - destruct (queue (base p)) as [|x q] eqn:Q.
      + apply (returns_back Step p (go Destroyed p)); [reflexivity| |apply L1; reflexivity]. cbn. unfold QueueEndModel.act, QueueEndModel.destruct. rewrite At, Q. reflexivity.
      + pose proof (take_chosen select C (queue (base p))) as T'. rewrite Q in T'.
        destruct (take (x :: q)) as [[m q']|] eqn:E; [|exfalso; apply T'; [discriminate|reflexivity]].
        eapply (returns_back Step); [reflexivity|unfold QueueEndModel.act, QueueEndModel.destruct; rewrite At, Q, E; reflexivity|].
        destruct (take_some select _ _ _ E) as [P _]. apply Permutation_length in P. apply IH; [cbn in *; lia|exact At]. }
  assert (L3 : forall o, at_ o = BaseJoin -> worker (base o) = WOff -> returns o).
  { intros p At W. eapply (returns_back Step); [reflexivity|unfold QueueEndModel.act, QueueEndModel.destruct, join_now; rewrite At, W; reflexivity|].
    eapply L2; reflexivity. }
  assert (L4 : forall o, at_ o = BaseStop -> worker (base o) = WOff -> returns o).
  { intros p At W. eapply (returns_back Step); [reflexivity|unfold QueueEndModel.act, QueueEndModel.destruct; rewrite At; reflexivity|].
    apply L3; [reflexivity|exact W]. }
  assert (L5 : forall o, at_ o = Derived -> worker (base o) = WOff -> returns o).
  { intros p At W. eapply (returns_back Step); [reflexivity|unfold QueueEndModel.act, QueueEndModel.destruct; rewrite At; reflexivity|].
    apply L4; [reflexivity|exact W]. }
  assert (L6 : forall o, tidy o -> at_ o = SafeJoin -> returns o).
  { intros p (I & L & F & K) At. rewrite At in K. destruct K as [A K].
    assert (D : worker (base p) = WOff \/ worker (base p) <> WOff) by (destruct (worker (base p)); (left; reflexivity) || (right; discriminate)).
    destruct D as [W|W].
    - eapply (returns_back Step); [reflexivity|unfold QueueEndModel.act, QueueEndModel.destruct, join_now; rewrite At, W; reflexivity|].
      apply L5; [reflexivity|exact W].
    - destruct (stop_ends_inv select C (base p) I K F W) as (k & t & R & E).
      assert (X : returns (set_base t p)).
      { eapply (returns_back Step); [reflexivity|unfold QueueEndModel.act, QueueEndModel.destruct, join_now; cbn; rewrite At, E; reflexivity|].
        apply L5; reflexivity. }
      destruct X as (ds & q & Fo & R' & D). exists (repeat (Do Work) k ++ ds), q. split; [|split; [|exact D]].
      + rewrite forallb_app, Fo, andb_true_r. clear. induction k; [reflexivity|exact IHk].
      + rewrite acts_app, (works k p t At A R). exact R'. }
  assert (L7 : forall o, tidy o -> at_ o = SafeStop -> returns o).
  { intros p T' At. assert (A : act Step p = Some (set_base (stop_now (base p)) (go SafeJoin p))).
    { unfold QueueEndModel.act, QueueEndModel.destruct. rewrite At. reflexivity. }
    apply (returns_back Step _ _ eq_refl A). apply L6; [exact (tidy_act C _ _ _ T' A)|reflexivity]. }
  pose proof T as (_ & _ & _ & K). destruct (at_ o) eqn:At; try contradiction.
  - exact (L7 o T At).
  - exact (L6 o T At).
  - exact (L5 o At (proj2 K)).
  - exact (L4 o At K).
  - exact (L3 o At K).
  - eapply L2; [reflexivity|exact At].
  - exact (L1 o At).
Qed.

(** Without safe_delete() in the derived class. *)
Definition no_message (w : wpc M) : bool := match w with WPopDone _ | WMessage _ => false | _ => true end.
Definition empty o : Prop := inv (base o) /\
  (worker (base o) = WOff \/ worker (base o) = WEnded \/ queue (base o) = [] /\ no_message (worker (base o)) = true) /\
  match at_ o with Living | Broken => False | BaseClear | Destroyed => worker (base o) = WOff | _ => True end.
Lemma empty_work : chooses select -> forall s t, inv s -> queue s = [] -> no_message (worker s) = true -> work select s = Some t ->
  queue t = [] /\ no_message (worker t) = true.
Proof.
  intros C s t I Q N H. pose proof (i_one _ I) as On. rewrite Q in On.
  unfold work in H. rewrite Q in H. cbn in H. wcases H; cbn in *; try discriminate N; try (exfalso; apply On; reflexivity); rewrite ?Q; auto.
Qed.
Lemma empty_act : chooses select -> forall d o p, empty o -> act d o = Some p -> empty p.
Proof.
  intros C d o p (I & E & K) H. unfold QueueEndModel.act in H.
  assert (Wk : work_on select o = Some p -> empty p).
  { clear H. intros H. unfold work_on in H.
    assert (Pl : forall t, work select (base o) = Some t -> empty (set_base t o)).
    { intros t W. split; [exact (inv_step select C Work _ _ I W)|].
      assert (N : worker (base o) <> WOff /\ worker (base o) <> WEnded).
      { split; intros N; unfold work in W; rewrite N in W; discriminate W. }
      destruct E as [E|[E|[Q E]]]; [tauto|tauto|]. split; [right; right; exact (empty_work C _ _ I Q E W)|].
      cbn. destruct (at_ o); tauto. }
    assert (Om : option_map (fun s => set_base s o) (work select (base o)) = Some p -> empty p).
    { destruct (work select (base o)) as [t|]; [|discriminate]. intros X. injection X as <-. apply Pl. reflexivity. }
    destruct (alive o); [exact (Om H)|].
    destruct (worker (base o)) eqn:W; try (exact (Om H)).
    - injection H as <-. assert (X0 : work select (base o) = Some (note OnStart (wgo WRun (base o)))) by (unfold work; rewrite W; reflexivity). pose proof (Pl _ X0) as X.
      clear - X. destruct X as (I' & E' & K'). split; [exact (proj1 (inv_note _ _) I')|]. split; [exact E'|exact K'].
    - exfalso. destruct E as [E|[E|[_ E]]]; discriminate E.
    - injection H as <-. assert (X0 : work select (base o) = Some (note OnStop (wgo WExit (base o)))) by (unfold work; rewrite W; reflexivity). pose proof (Pl _ X0) as X.
      clear - X. destruct X as (I' & E' & K'). split; [exact (proj1 (inv_note _ _) I')|]. split; [exact E'|exact K']. }
  destruct d as [a|safe|].
  - destruct (at_ o); try discriminate H; destruct a; try discriminate H; try (exact (Wk H)); try contradiction.
  - destruct (at_ o); try discriminate H; contradiction.
  - clear Wk. assert (X : QueueEndModel.destruct select o = Some p) by (destruct (at_ o); try contradiction; try discriminate H; exact H).
    clear H. unfold QueueEndModel.destruct in X. destruct (at_ o) eqn:At; try contradiction; try discriminate X.
    + injection X as <-. split; [apply inv_stop_now; exact I|]. split; [exact E|exact Logic.I].
    + destruct (join_now (base o)) as [t|] eqn:J; [|discriminate X]. injection X as <-. split; [exact (inv_join C _ _ I J)|].
      split; [|exact Logic.I]. left. destruct (join_cases _ _ J) as [[W ->]|[W ->]]; [exact W|reflexivity].
    + injection X as <-. split; [exact I|]. split; [exact E|exact Logic.I].
    + injection X as <-. split; [apply inv_stop_now; exact I|]. split; [exact E|exact Logic.I].
    + destruct (join_now (base o)) as [t|] eqn:J; [|discriminate X]. injection X as <-. split; [exact (inv_join C _ _ I J)|].
      assert (W : worker t = WOff) by (destruct (join_cases _ _ J) as [[W ->]|[W ->]]; [exact W|reflexivity]).
      split; [left; exact W|exact W].
    + destruct (is_empty (queue (base o))) eqn:Em.
      * injection X as <-. split; [exact I|]. split; [exact E|exact K].
      * destruct (take (queue (base o))) as [[m q]|] eqn:T.
        -- injection X as <-. split; [apply inv_queue; assumption|]. split; [left; exact K|]. cbn. rewrite At. exact K.
        -- exfalso. refine (take_chosen select C _ _ T). intros Q. rewrite Q in Em. discriminate Em.
Qed.
Lemma dropped_count : forall l, length (gone l) = length (to_process l) + count is_dropped l.
Proof.
  unfold to_process, count. induction l as [|e l IH]; [reflexivity|].
  destruct e; cbn; try exact IH; rewrite filter_app, map_app, !app_length, IH; cbn; lia.
Qed.
Lemma broken_why : chooses select -> forall n ds o, acts ds (new n) = Some o -> at_ o = Broken ->
  exists ds1 ds2 p, ds = ds1 ++ Destroy false :: ds2 /\ acts ds1 (new n) = Some p /\ on (log (base p)) = true /\
    length (processed (log (base p))) + count is_dropped (log (base p)) < length (received (log (base p))).
Proof.
  intros C n ds o H B.
  destruct (goes ds (new n) o eq_refl eq_refl H) as [(L & _)|(ds1 & safe & ds2 & p & -> & R1 & L1 & A1 & (sched & R) & F & R2)]; [congruence|].
  destruct safe.
  { exfalso. destruct (acts_keep tidy (tidy_act C) ds2 _ _ (tidy_begins C n sched p R A1 F) R2) as (_ & _ & _ & K). rewrite B in K. exact K. }
  exists ds1, ds2, p. split; [reflexivity|]. split; [exact R1|].
  destruct (MsgQueueProofs.alive select C n sched _ R) as [I L].
  destruct (on_run select n sched _ R) as [On _]. pose proof (kept select n sched _ R) as P. apply Permutation_length in P.
  rewrite app_length, map_length, dropped_count, (life_processed _ _ L), app_length in P.
  assert (Z : ~ (worker (base p) = WOff \/ worker (base p) = WEnded \/ queue (base p) = [] /\ no_message (worker (base p)) = true)).
  { intros Z. assert (X : empty (go Derived p)) by (split; [exact I|]; split; [exact Z|exact Logic.I]).
    destruct (acts_keep empty (empty_act C) ds2 _ _ X R2) as (_ & _ & K). rewrite B in K. exact K. }
  rewrite On. split.
  - destruct (worker (base p)); try reflexivity; exfalso; apply Z; auto.
  - destruct (queue (base p)) eqn:Q; cbn in P; [|lia].
    destruct (worker (base p)); cbn in P; try lia; exfalso; apply Z; right; right; auto.
Qed.

(** With safe_delete(): what becomes of the messages. *)
Definition ready l0 o : Prop :=
  match at_ o with
  | SafeStop | SafeJoin => alive o = true /\ everything (base o) /\ worker (base o) <> WOff /\ served l0 (base o)
  | Living | Broken => False
  | _ => worker (base o) = WOff /\ length (processed (log (base o))) <= length (received (log (base o))) /\
      (~ In Discarding (log (base o)) -> exists rest, Permutation (processed (log (base o))) (received l0 ++ rest))
  end.
Lemma fewer : forall s, everything s -> length (processed (log s)) <= length (received (log s)).
Proof.
  intros s [(I & L & P) _]. apply Permutation_length in P. rewrite app_length, map_length, dropped_count, (life_processed _ _ L), app_length in P. lia.
Qed.
Lemma ready_act : chooses select -> forall l0 d o p, ready l0 o -> act d o = Some p -> ready l0 p.
Proof.
  intros C l0 d o p K H. unfold ready in K. unfold QueueEndModel.act in H.
  assert (Wk : work_on select o = Some p -> ready l0 p).
  { clear H. intros H. unfold work_on in H.
    assert (Z : worker (base o) <> WOff).
    { intros Z. unfold work in H. rewrite Z in H. destruct (alive o); discriminate H. }
    assert (Y : alive o = true /\ everything (base o) /\ worker (base o) <> WOff /\ served l0 (base o) /\ (at_ o = SafeStop \/ at_ o = SafeJoin)).
    { destruct (at_ o); try contradiction; try (exfalso; tauto); tauto. }
    destruct Y as (A & Ev & _ & Sv & At). rewrite A in H. destruct (work select (base o)) as [t|] eqn:W; [|discriminate H]. injection H as <-.
    destruct (served_step select C l0 Work _ _ (conj Ev Sv) W) as [Ev' Sv'].
    assert (X : alive o = true /\ everything t /\ worker t <> WOff /\ served l0 t).
    { split; [exact A|]. split; [exact Ev'|]. split; [|exact Sv']. clear - W. wcases W; discriminate. }
    unfold ready. cbn. destruct At as [-> | ->]; exact X. }
  destruct d as [a|safe|].
  - destruct (at_ o); try discriminate H; destruct a; try discriminate H; try (exact (Wk H)); try contradiction.
  - destruct (at_ o); try discriminate H; contradiction.
  - clear Wk. assert (X : QueueEndModel.destruct select o = Some p) by (destruct (at_ o); try contradiction; try discriminate H; exact H).
    clear H. unfold QueueEndModel.destruct in X. unfold ready. destruct (at_ o) eqn:At; try contradiction; try discriminate X.
    + injection X as <-. destruct K as (A & Ev & W & (l & El & Sv)). cbn. split; [exact A|].
      split; [|split; [exact W|]].
      * destruct Ev as [(I & L & P) Pl]. split.
        -- split; [apply inv_stop_now; exact I|]. split; [apply life_other; [reflexivity|exact L]|exact P].
        -- intros D. cbn in D. destruct (Pl (fun X => D (or_intror X))) as (F & G & Q). split; [exact F|]. split; [exact G|].
           cbn. destruct (worker (base o)); try exact Q; try (apply looked_more; [reflexivity|exact Q]).
           intros R. apply looked_more; [reflexivity|exact (Q R)].
      * exists (Stopped :: l). split; [cbn; rewrite El; reflexivity|]. intros D. cbn in D.
        destruct (Sv (fun X => D (or_intror X))) as [Y|Y]; [left; exact Y|right; exact Y].
    + destruct (join_now (base o)) as [t|] eqn:J; [|discriminate X]. injection X as <-. destruct K as (A & Ev & W & (l & El & Sv)). cbn.
      destruct (join_cases _ _ J) as [[W' _]|[W' ->]]; [contradiction|]. split; [reflexivity|]. split; [exact (fewer _ Ev)|]. cbn. intros D.
      destruct (Sv D) as [Y|Y]; [unfold will_look in Y; rewrite W' in Y; discriminate Y|exact Y].
    + injection X as <-. exact K.
    + injection X as <-. cbn. destruct K as (W & Le & K). split; [exact W|]. split; [exact Le|]. intros D. apply K. intros X. apply D. right. exact X.
    + destruct (join_now (base o)) as [t|] eqn:J; [|discriminate X]. injection X as <-.
      destruct (join_cases _ _ J) as [[W' ->]|[W' _]]; [exact K|destruct K; congruence].
    + destruct (is_empty (queue (base o))) eqn:Em.
      * injection X as <-. exact K.
      * destruct (take (queue (base o))) as [[m q]|] eqn:T.
        -- injection X as <-. cbn. rewrite At. exact K.
        -- exfalso. refine (take_chosen select C _ _ T). intros Q. rewrite Q in Em. discriminate Em.
Qed.
(** Nothing is received any more. *)
Lemma received_late : forall d o p, at_ o <> Living -> act d o = Some p -> at_ p <> Living /\ received (log (base p)) = received (log (base o)).
Proof.
  intros d o p N H. unfold QueueEndModel.act in H.
  assert (Wk : work_on select o = Some p -> at_ p <> Living /\ received (log (base p)) = received (log (base o))).
  { clear H. intros H. unfold work_on in H.
    assert (Om : option_map (fun s => set_base s o) (work select (base o)) = Some p -> at_ p <> Living /\ received (log (base p)) = received (log (base o))).
    { intros X. destruct (work select (base o)) as [t|] eqn:W; [|discriminate X]. injection X as <-. split; [exact N|]. cbn.
      clear - W. wcases W; reflexivity. }
    destruct (alive o); [exact (Om H)|]. destruct (worker (base o)) eqn:W; try (exact (Om H)); injection H as <-; (split; [|reflexivity]); try exact N.
    discriminate. }
  destruct d as [a|safe|].
  - destruct (at_ o); try discriminate H; destruct a; try discriminate H; try (exact (Wk H)); contradiction.
  - destruct (at_ o); try discriminate H; contradiction.
  - clear Wk. assert (X : QueueEndModel.destruct select o = Some p) by (destruct (at_ o); try discriminate H; exact H).
    clear H. unfold QueueEndModel.destruct in X. destruct (at_ o) eqn:At; try contradiction; try discriminate X.
    + injection X as <-. split; [discriminate|reflexivity].
    + destruct (join_now (base o)) as [t|] eqn:J; [|discriminate X]. injection X as <-. split; [discriminate|].
      destruct (join_cases _ _ J) as [[_ ->]|[_ ->]]; reflexivity.
    + injection X as <-. split; [discriminate|reflexivity].
    + injection X as <-. split; [discriminate|reflexivity].
    + destruct (join_now (base o)) as [t|] eqn:J; [|discriminate X]. injection X as <-. split; [discriminate|].
      destruct (join_cases _ _ J) as [[_ ->]|[_ ->]]; reflexivity.
    + destruct (is_empty (queue (base o))).
      * injection X as <-. split; [discriminate|reflexivity].
      * destruct (take (queue (base o))) as [[m q]|]; injection X as <-; [|split; [discriminate|reflexivity]].
        split; [cbn; rewrite At; discriminate|reflexivity].
Qed.
Lemma late : forall ds o p, at_ o <> Living -> acts ds o = Some p -> received (log (base p)) = received (log (base o)).
Proof.
  intros ds o p N H.
  refine (proj2 (acts_keep (fun q => at_ q <> Living /\ received (log (base q)) = received (log (base o))) _ ds o p (conj N eq_refl) H)).
  intros d q r [N' E] A. destruct (received_late d q r N' A) as [N2 E2]. split; [exact N2|congruence].
Qed.
Definition early n o : Prop := at_ o = Living \/ at_ o = SafeStop -> alive o = true /\ exists sched, run sched (init n) = Some (base o).
Lemma early_act : forall n d o p, early n o -> act d o = Some p -> early n p.
Proof.
  intros n d o p K H E. assert (X : at_ o = Living \/ at_ o = SafeStop \/ at_ o <> Living /\ at_ o <> SafeStop) by (destruct (at_ o); auto; right; right; split; discriminate).
  destruct X as [At|[At|[N1 N2]]].
  - destruct (K (or_introl At)) as (A & sched & R).
    destruct (act_living d o p At A H) as [(a & t & -> & S & ->)|(safe & -> & F & ->)].
    + split; [exact A|]. exists (sched ++ [a]). rewrite run_app, R. cbn. rewrite S. reflexivity.
    + split; [exact A|]. exists sched. exact R.
  - destruct (K (or_intror At)) as (A & sched & R). unfold QueueEndModel.act in H. rewrite At in H. destruct d as [a|safe|]; try discriminate H.
    + destruct a; try discriminate H. unfold work_on in H. rewrite A in H. destruct (work select (base o)) as [t|] eqn:W; [|discriminate H].
      injection H as <-. split; [exact A|]. exists (sched ++ [Work]). rewrite run_app, R. cbn. rewrite W. reflexivity.
    + unfold QueueEndModel.destruct in H. rewrite At in H. injection H as <-. destruct E as [E|E]; discriminate E.
  - exfalso. assert (X : at_ p <> Living /\ at_ p <> SafeStop); [|tauto]. clear K E. unfold QueueEndModel.act in H.
    assert (Wk : work_on select o = Some p -> at_ p <> Living /\ at_ p <> SafeStop).
    { clear H. intros H. unfold work_on in H.
      assert (Om : option_map (fun s => set_base s o) (work select (base o)) = Some p -> at_ p <> Living /\ at_ p <> SafeStop).
      { intros X. destruct (work select (base o)) as [t|]; [|discriminate X]. injection X as <-. split; assumption. }
      destruct (alive o); [exact (Om H)|]. destruct (worker (base o)); try (exact (Om H)); injection H as <-; (split; assumption) || (split; discriminate). }
    destruct d as [a|safe|].
    + destruct (at_ o); try discriminate H; destruct a; try discriminate H; try (exact (Wk H)); contradiction.
    + destruct (at_ o); try discriminate H; contradiction.
    + clear Wk. assert (X : QueueEndModel.destruct select o = Some p) by (destruct (at_ o); try discriminate H; exact H).
      clear H. unfold QueueEndModel.destruct in X.
      destruct (at_ o) eqn:At; try contradiction; try discriminate X; try (injection X as <-; split; discriminate);
        try (destruct (join_now (base o)); [|discriminate X]; injection X as <-; split; discriminate).
      destruct (is_empty (queue (base o))); [injection X as <-; split; discriminate|].
      destruct (take (queue (base o))) as [[m q]|]; injection X as <-; cbn; rewrite ?At; split; discriminate.
Qed.
Lemma all_served : chooses select -> forall n ds1 o ds2 p, acts ds1 (new n) = Some o -> at_ o = SafeStop ->
  on (log (base o)) = true -> ~ In Stopped (log (base o)) -> worker (base o) <> WStopped -> acts ds2 o = Some p -> at_ p = Destroyed ->
  ~ In Discarding (log (base p)) -> Permutation (received (log (base p))) (processed (log (base p))).
Proof.
  intros C n ds1 o ds2 p H At On Ns W R D Di.
  assert (E0 : early n (new n)) by (intros _; split; [reflexivity|exists []; reflexivity]).
  destruct (acts_keep (early n) (early_act n) ds1 _ _ E0 H (or_intror At)) as (A & sched & R0).
  assert (Fr : inv (base o) /\ fresh (base o)).
  { revert R0. apply (run_keeps _ _ (fresh_step select C)). split; [apply inv_init|]. split; [intros K; discriminate K|]. right. left. reflexivity. }
  destruct Fr as [_ [_ [K|[K|K]]]]; [contradiction| |contradiction].
  assert (Wo : worker (base o) <> WOff).
  { intros X. destruct (on_run select n sched _ R0) as [Y _]. rewrite On, X in Y. discriminate Y. }
  assert (G : ready (log (base o)) o).
  { unfold ready. rewrite At. split; [exact A|]. split; [exact (everything_holds select C n sched _ R0)|]. split; [exact Wo|].
    exists []. split; [reflexivity|]. intros _. left. exact K. }
  pose proof (acts_keep _ (ready_act C (log (base o))) ds2 _ _ G R) as G'. unfold ready in G'. rewrite D in G'. destruct G' as (_ & Le & G').
  destruct (G' Di) as (rest & P). rewrite <- (late ds2 o p) in P by (congruence || exact R).
  pose proof (Permutation_length P) as Len. rewrite app_length in Len.
  destruct rest; [|cbn in Len; lia]. rewrite app_nil_r in P. symmetry. exact P.
Qed.
End Queue.
