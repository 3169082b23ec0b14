(** Proofs about the hooks of a message queue. *)
Require Import List Arith NArith Lia Bool Permutation.
Require Import Verif.Base Verif.MsgQueueModel Verif.MsgQueueSpec Verif.MsgQueueProofs Verif.QueueHookModel Verif.QueueHookSpec.
Import ListNotations.

Lemma among_refl : forall {A} (l : list A), among l l.
Proof. intros A l. exists []. rewrite app_nil_r. reflexivity. Qed.
Lemma among_more : forall {A} (l l' k : list A), among l l' -> among l (l' ++ k).
Proof. intros A l l' k (r & P). exists (r ++ k). rewrite P, app_assoc. reflexivity. Qed.
Lemma among_perm : forall {A} (l l' k : list A), Permutation l' k -> among l l' -> among l k.
Proof. intros A l l' k Q (r & P). exists r. rewrite <- Q. exact P. Qed.

(** Taking a step apart. *)
Local Ltac cases H := unfold MsgQueueModel.step, start, join, work, begin, next, acquire, option_map in H;
    repeat match type of H with
    | context [match ?x with _ => _ end] =>
        lazymatch x with context [match _ with _ => _ end] => fail | _ => let E := fresh "E" in destruct x eqn:E end
    end; try discriminate H; injection H as <-.

Local Arguments nth_error : simpl never.

Section Hooks.
Context {M : Type}.
Variable select : list M -> nat.
Variable hooks : list (event M) -> prog M.
Notation hwork := (hwork select hooks).
Notation hstep := (hstep select hooks).
Notation hrun := (hrun select hooks).
Implicit Types (s t u : hstate M) (l : list (event M)).

Lemma hrun_app : forall sched1 sched2 s, hrun (sched1 ++ sched2) s =
  match hrun sched1 s with Some t => hrun sched2 t | None => None end.
Proof. induction sched1 as [|a sched1 IH]; intros sched2 s; cbn; [reflexivity|]. destruct (hstep a s); [apply IH|reflexivity]. Qed.
Lemma hrun_keeps : forall (P : hstate M -> Prop), (forall a s t, P s -> hstep a s = Some t -> P t) ->
  forall sched s t, P s -> hrun sched s = Some t -> P t.
Proof.
  intros P K. induction sched as [|a sched IH]; intros s t I R; cbn in R; [injection R as <-; exact I|].
  destruct (hstep a s) as [u|] eqn:E; [|discriminate R]. exact (IH u t (K a s u I E) R).
Qed.

(** The ways a step can go. *)
Inductive way : hstate M -> hstate M -> Prop :=
  | way_work b c : work select b = Some c -> is_hook_pc (worker b) = false ->
      way {| base := b; at_ := Outside; over := false |} {| base := c; at_ := Outside; over := false |}
  | way_enter b c : work select b = Some c -> is_hook_pc (worker b) = true ->
      way {| base := b; at_ := Outside; over := false |} {| base := c; at_ := Inside (hooks (log c)); over := false |}
  | way_leave b : way {| base := b; at_ := Inside Leave; over := false |} {| base := b; at_ := Outside; over := false |}
  | way_raise b p : p = Raise \/ p = StartSelf ->
      way {| base := b; at_ := Inside p; over := false |} {| base := b; at_ := Outside; over := true |}
  | way_join b k : way {| base := b; at_ := Inside (JoinSelf k); over := false |} {| base := b; at_ := Inside k; over := false |}
  | way_begin b o k c : begin 0 o b = Some c ->
      way {| base := b; at_ := Inside (Use o k); over := false |} {| base := c; at_ := Calling k; over := false |}
  | way_next b k c : nth_error (clients b) 0 <> Some CIdle -> next 0 b = Some c ->
      way {| base := b; at_ := Calling k; over := false |} {| base := c; at_ := Calling k; over := false |}
  | way_back b k : nth_error (clients b) 0 = Some CIdle ->
      way {| base := b; at_ := Calling k; over := false |} {| base := b; at_ := Inside (k (log b)); over := false |}
  | way_other a b c p : other a = true -> step select a b = Some c ->
      way {| base := b; at_ := p; over := false |} {| base := c; at_ := p; over := false |}.
Lemma ways : forall a s t, hstep a s = Some t -> way s t.
Proof.
  intros a [b p ov] t H. unfold QueueHookModel.hstep in H. cbn [over] in H. destruct ov; [discriminate H|].
  destruct a as [|a].
  - unfold QueueHookModel.hwork in H. cbn [at_ base] in H.
    destruct p as [|p|k].
    + destruct (work select b) as [c|] eqn:E; [|discriminate H]. cbn [option_map] in H. injection H as <-.
      destruct (is_hook_pc (worker b)) eqn:K; constructor; assumption.
    + destruct p as [| |o k|k|].
      * injection H as <-. constructor.
      * injection H as <-. constructor. left. reflexivity.
      * destruct (begin 0 o b) as [c|] eqn:E; [|discriminate H]. injection H as <-. constructor. exact E.
      * injection H as <-. constructor.
      * injection H as <-. constructor. right. reflexivity.
    + destruct (nth_error (clients b) 0) as [c|] eqn:E.
      * destruct c; try (destruct (next 0 b) as [d|] eqn:N; [|discriminate H]; injection H as <-; constructor; [rewrite E; discriminate|exact N]).
        injection H as <-. constructor. exact E.
      * destruct (next 0 b) as [d|] eqn:N; [|discriminate H]; injection H as <-; constructor; [rewrite E; discriminate|exact N].
  - cbn [base at_] in H. destruct (other a) eqn:O; [|discriminate H]. destruct (step select a b) as [c|] eqn:E; [|discriminate H].
    injection H as <-. econstructor; eassumption.
Qed.
Lemma way_base : forall s t, way s t -> base t = base s \/ exists a, step select a (base s) = Some (base t).
Proof.
  intros s t W. destruct W; cbn; auto; right.
  - exists Work. assumption.
  - exists Work. assumption.
  - exists (Begin 0 o). assumption.
  - exists (Next 0). assumption.
  - exists a. assumption.
Qed.
(** Every execution with hooks is one of the model without them. *)
Lemma refines : forall sched s t, hrun sched s = Some t -> exists sched', run select sched' (base s) = Some (base t).
Proof.
  intros sched s t. refine (hrun_keeps (fun t => exists sched', run select sched' (base s) = Some (base t)) _ sched s t _); [|exists []; reflexivity].
  intros a u v (sched' & R) H. destruct (way_base _ _ (ways _ _ _ H)) as [->|(b & S)]; [exists sched'; exact R|].
  exists (sched' ++ [b]). rewrite run_app, R. cbn. rewrite S. reflexivity.
Qed.
Lemma reaches : forall n sched s, hrun sched (hinit n) = Some s -> exists sched', run select sched' (init (S n)) = Some (base s).
Proof. intros n sched s R. exact (refines sched (hinit n) s R). Qed.

(** Where the thread of the queue is while a hook runs, and its calls. *)
Definition waits (w : wpc M) : bool := match w with WRun | WLook | WExit => true | _ => false end.
Record hinv s : Prop := {
  h_base : inv (base s);
  h_idle : match at_ s with Calling _ => exists c, nth_error (clients (base s)) 0 = Some c | _ => nth_error (clients (base s)) 0 = Some CIdle end;
  h_wait : at_ s <> Outside -> waits (worker (base s)) = true }.
Lemma hinv_init : forall n, hinv (hinit n).
Proof. intros n. split; [apply inv_init|reflexivity|intros H; destruct (H eq_refl)]. Qed.
Lemma work_clients : forall (b c : state M), work select b = Some c -> clients c = clients b.
Proof.
  intros b c H. assert (H' : step select Work b = Some c) by exact H. clear H. cases H'; reflexivity.
Qed.
Lemma set_nth_other : forall {A} (l : list A) i x j, i <> j -> nth_error (set_nth l i x) j = nth_error l j.
Proof. intros. apply nth_error_set_nth_neq. assumption. Qed.
Lemma other_keeps : forall a (b c : state M), other a = true -> step select a b = Some c ->
  nth_error (clients c) 0 = nth_error (clients b) 0 /\ (waits (worker b) = true -> worker c = worker b).
Proof.
  intros a b c O H. cases H; cbn in *; try discriminate O; (split; [|intros W; rewrite ?E in W; try discriminate W; reflexivity]);
    try reflexivity; apply set_nth_other; intros ->; discriminate O.
Qed.
Lemma begin_next_worker : forall i o (b c : state M), begin i o b = Some c \/ next i b = Some c -> worker c = worker b.
Proof.
  intros i o b c [H|H]; [assert (H' : step select (Begin i o) b = Some c) by exact H|assert (H' : step select (Next i) b = Some c) by exact H];
    clear H; cases H'; reflexivity.
Qed.
Lemma begin_next_client : forall i o (b c : state M), begin i o b = Some c \/ next i b = Some c -> exists d, nth_error (clients c) i = Some d.
Proof.
  intros i o b c [H|H]; [assert (H' : step select (Begin i o) b = Some c) by exact H|assert (H' : step select (Next i) b = Some c) by exact H];
    clear H; cases H'; cbn; eexists; eapply set_nth_same; eassumption.
Qed.
Lemma enter_waits : forall (b c : state M), work select b = Some c -> is_hook_pc (worker b) = true -> waits (worker c) = true.
Proof. intros b c H K. unfold work in H. destruct (worker b); try discriminate K; injection H as <-; reflexivity. Qed.
Lemma hinv_step : chooses select -> forall a s t, hinv s -> hstep a s = Some t -> hinv t.
Proof.
  intros C a s t [B I W] H. apply ways in H.
  assert (B' : inv (base t)).
  { destruct (way_base _ _ H) as [->|(x & S)]; [exact B|exact (inv_step select C x _ _ B S)]. }
  split; [exact B'| |]; clear B B'; destruct H as [b c H K|b c H K|b|b p K|b k|b o k c H|b k c N H|b k H|x b c p O H]; cbn in *.
  - rewrite (work_clients _ _ H). exact I.
  - rewrite (work_clients _ _ H). exact I.
  - exact I.
  - exact I.
  - exact I.
  - exact (begin_next_client 0 o b c (or_introl H)).
  - exact (begin_next_client 0 Stop b c (or_intror H)).
  - exact H.
  - destruct (other_keeps _ _ _ O H) as [-> _]. exact I.
  - intros X. destruct (X eq_refl).
  - intros _. exact (enter_waits _ _ H K).
  - intros X. destruct (X eq_refl).
  - intros X. destruct (X eq_refl).
  - intros _. apply W. discriminate.
  - intros _. rewrite (begin_next_worker 0 o b c (or_introl H)). apply W. discriminate.
  - intros _. rewrite (begin_next_worker 0 Stop b c (or_intror H)). apply W. discriminate.
  - intros _. apply W. discriminate.
  - intros X. specialize (W X). destruct (other_keeps _ _ _ O H) as [_ Q]. rewrite (Q W). exact W.
Qed.
Lemma hinv_run : chooses select -> forall n sched s, hrun sched (hinit n) = Some s -> hinv s.
Proof. intros C n sched s. apply (hrun_keeps _ (hinv_step C)). apply hinv_init. Qed.

(** The thread of the queue waits for other threads only. *)
Lemma never_stuck : chooses select -> forall n sched s, hrun sched (hinit n) = Some s -> over s = false ->
  worker (base s) <> WOff -> worker (base s) <> WEnded -> (forall i, i <> 0 -> mtx (base s) <> Some (Some i)) ->
  hwork s <> None.
Proof.
  intros C n sched s R Ov O E X. destruct (hinv_run C n sched s R) as [B I W]. pose proof (i_order _ B) as Or.
  destruct s as [b p ov]. cbn in *. unfold QueueHookModel.hwork. cbn [at_ base].
  assert (Xw : wholds (worker b) = false -> forall c, nth_error (clients b) 0 = Some c -> cholds c = false -> mtx b = None).
  { intros K c Hc Kc. destruct (mtx b) as [[i|]|] eqn:Q; [| |reflexivity].
    - destruct (Nat.eq_dec i 0) as [->|N]; [|destruct (X i N eq_refl)]. pose proof (proj1 (i_client _ B 0 c Hc) Q) as Y. congruence.
    - pose proof (proj1 (i_worker _ B) Q). congruence. }
  destruct p as [|p|k].
  - unfold work, acquire, option_map. destruct (worker b) eqn:Ew; try discriminate Or; try congruence; try discriminate.
    + rewrite (Xw eq_refl _ I eq_refl). discriminate.
    + destruct (is_empty (queue b)) eqn:Q; [discriminate|]. destruct (MsgQueueModel.take select (queue b)) as [[m q]|]; discriminate.
    + destruct (is_empty (queue b)); discriminate.
    + destruct (discard b); discriminate.
    + rewrite (Xw eq_refl _ I eq_refl). discriminate.
    + destruct (MsgQueueModel.take select (queue b)) as [[m q]|]; discriminate.
  - destruct p as [| |o k|k|]; try discriminate. unfold begin. rewrite I. discriminate.
  - destruct I as [c Hc]. rewrite Hc. assert (Wh : wholds (worker b) = false).
    { specialize (W ltac:(discriminate)). destruct (worker b); (discriminate W || reflexivity). }
    specialize (Xw Wh c Hc). destruct c; try discriminate; unfold next, acquire; rewrite Hc; try discriminate;
      try (rewrite (Xw eq_refl); discriminate).
Qed.

(** What the log gains. *)
Lemma hstep_log : forall a s t, hstep a s = Some t -> log (base t) = log (base s) \/ exists e, log (base t) = e :: log (base s).
Proof.
  intros a s t H. destruct (way_base _ _ (ways _ _ _ H)) as [->|(b & S)]; [left; reflexivity|exact (step_log select b _ _ S)].
Qed.
Lemma hmoment : forall n sched s, hrun sched (hinit n) = Some s -> forall l1 e l2, log (base s) = l1 ++ e :: l2 ->
  exists sched1 s1 a t sched2, hrun sched1 (hinit n) = Some s1 /\ log (base s1) = l2 /\ hstep a s1 = Some t /\
    log (base t) = e :: l2 /\ hrun sched2 t = Some s.
Proof.
  intros n sched s R0. 
  refine (proj2 (hrun_keeps (fun s => (exists sched, hrun sched (hinit n) = Some s) /\ forall l1 e l2, log (base s) = l1 ++ e :: l2 ->
    exists sched1 s1 a t sched2, hrun sched1 (hinit n) = Some s1 /\ log (base s1) = l2 /\ hstep a s1 = Some t /\
    log (base t) = e :: l2 /\ hrun sched2 t = Some s) _ sched _ _ _ R0)).
  2: { split; [exists []; reflexivity|]. intros l1 e l2 H. destruct l1; discriminate H. }
  intros a u v [(sc & R) IH] H. split; [exists (sc ++ [a]); rewrite hrun_app, R; cbn; rewrite H; reflexivity|].
  intros l1 e l2 El.
  assert (Old : forall l1', log (base u) = l1' ++ e :: l2 -> exists sched1 s1 a0 t sched2, hrun sched1 (hinit n) = Some s1 /\ log (base s1) = l2 /\ hstep a0 s1 = Some t /\
    log (base t) = e :: l2 /\ hrun sched2 t = Some v).
  { intros l1' Eu. destruct (IH l1' e l2 Eu) as (s1 & x & b & t & s2 & A & B & D & F & G).
    exists s1, x, b, t, (s2 ++ [a]). repeat (split; [assumption|]). rewrite hrun_app, G. cbn. rewrite H. reflexivity. }
  destruct (hstep_log _ _ _ H) as [K|(e' & K)].
  - rewrite K in El. exact (Old l1 El).
  - rewrite K in El. destruct l1 as [|x l1].
    + injection El as -> El. exists sc, u, a, v, []. repeat split; auto. rewrite K, El. reflexivity.
    + injection El as -> El. exact (Old l1 El).
Qed.

(** Messages that hooks send. *)
Definition pending (c : cpc M) : list M := match c with CLock m | CPush m => [m] | _ => [] end.
Definition pends s : list M := match nth_error (clients (base s)) 0 with Some c => pending c | None => [] end.
Definition sent s : Prop := among (own_messages (log (base s))) (received (log (base s)) ++ pends s).
Definition seen s : Prop := ~ In Discarding (log (base s)) ->
  match worker (base s) with
  | WStopped | WSetRunning _ | WStop => among (own_messages (log (base s))) (processed (log (base s)))
  | WExit | WEnded => among (own_messages (before_stop (log (base s)))) (processed (log (base s)))
  | WLoop => running (base s) = false -> among (own_messages (log (base s))) (processed (log (base s)))
  | _ => True
  end.
Lemma own_other : forall e l, (forall m, e <> Call 0 (Receive m)) -> own_messages (e :: l) = own_messages l.
Proof.
  intros e l H. destruct e as [i o| | | | | | | | | | | | | | | | |]; try reflexivity. destruct i as [|i]; [|reflexivity]. destruct o; try reflexivity. destruct (H m eq_refl).
Qed.
Lemma own_call : forall i o l, own_messages (Call i o :: l) = own_messages l ++ match i, o with 0, Receive m => [m] | _, _ => [] end.
Proof. intros [|i] [m| | | |] l; cbn; rewrite ?app_nil_r; reflexivity. Qed.
Lemma sent_step : forall a s t, hinv s /\ sent s -> hstep a s = Some t -> sent t.
Proof.
  intros a s t [[_ I _] S] H. apply ways in H. unfold sent, pends in *.
  destruct H as [b c H K|b c H K|b|b p K|b k|b o k c H|b k c N H|b k H|x b c p O H]; cbn [base at_] in *; try exact S.
  - rewrite (work_clients _ _ H). assert (H' : step select Work b = Some c) by exact H. rewrite I in *. cbn [pending] in *. rewrite app_nil_r in *.
    clear H I. cases H'; cbn; exact S.
  - rewrite (work_clients _ _ H). assert (H' : step select Work b = Some c) by exact H. rewrite I in *. cbn [pending] in *. rewrite app_nil_r in *.
    clear H I. cases H'; cbn; exact S.
  - unfold begin in H. rewrite I in *. injection H as <-. unfold note, cgo. cbn [clients log received]. rewrite (set_nth_same _ _ _ _ I), own_call.
    cbn [pending] in S. rewrite app_nil_r in S. destruct S as (r & P).
    destruct o as [m| | | |]; cbn; rewrite ?app_nil_r; try (exists r; exact P).
    exists r. rewrite P, <- !app_assoc. apply Permutation_app_head. apply Permutation_app_comm.
  - destruct I as [d Hd]. rewrite Hd in *. unfold next, acquire, option_map in H. rewrite Hd in H.
    destruct d; try destruct (mtx b); try destruct (running b); try discriminate H; injection H as <-;
      unfold note, cgo, set_mtx, set_queue, set_discard, set_stopped; cbn [clients log received];
      rewrite ?(set_nth_same _ _ _ _ Hd); rewrite ?own_other by discriminate; cbn [pending] in *; rewrite ?app_nil_r in *; exact S.
  - destruct (other_keeps _ _ _ O H) as [-> _]. revert S. generalize (match nth_error (clients b) 0 with Some c0 => pending c0 | None => [] end).
    intros z S. cases H; cbn [note cgo set_mtx set_queue set_discard set_stopped set_active wgo clients log received]; 
      rewrite ?own_other by (try discriminate; intros ? K; injection K; intros; subst; discriminate O); try exact S.
    destruct S as (r & P). exists (r ++ [m]). rewrite app_assoc, <- P, <- !app_assoc. apply Permutation_app_head, Permutation_app_comm.
Qed.

Definition all s : Prop := hinv s /\ everything (base s) /\ sent s.
Lemma all_step : chooses select -> forall a s t, all s -> hstep a s = Some t -> all t.
Proof.
  intros C a s t (I & E & S) H. split; [exact (hinv_step C a s t I H)|]. split; [|exact (sent_step a s t (conj I S) H)].
  destruct (way_base _ _ (ways _ _ _ H)) as [->|(x & K)]; [exact E|exact (plain_step select C x _ _ E K)].
Qed.
Lemma all_init : forall n, all (hinit n).
Proof.
  intros n. split; [apply hinv_init|]. split; [|apply among_refl].
  split; [split; [apply inv_init|split; [apply life_new|reflexivity]]|]. intros _. split; [reflexivity|]. split; [intros x []|exact I].
Qed.
Lemma all_run : chooses select -> forall n sched s, hrun sched (hinit n) = Some s -> all s.
Proof. intros C n sched s. apply (hrun_keeps _ (all_step C)). apply all_init. Qed.
Lemma processed_cons : forall e l, exists k, processed (e :: l) = processed l ++ k.
Proof. intros e l. destruct e; cbn; eauto; exists []; rewrite app_nil_r; reflexivity. Qed.
Lemma among_cons : forall x e l, among x (processed l) -> among x (processed (e :: l)).
Proof. intros x e l H. destruct (processed_cons e l) as [k ->]. apply among_more, H. Qed.
Lemma seen_step : chooses select -> forall a s t, all s /\ seen s -> hstep a s = Some t -> all t /\ seen t.
Proof.
  intros C a s t [A S] H. split; [exact (all_step C a s t A H)|]. destruct A as ([B I W] & E & Se). pose proof (i_calm _ B) as Ca. apply ways in H. intros D.
  assert (D0 : ~ In Discarding (log (base s))).
  { destruct (way_base _ _ H) as [<-|(x & K)]; [exact D|]. destruct (step_log select x _ _ K) as [L|(e & L)]; rewrite L in D; [exact D|].
    intros X. apply D. right. exact X. }
  specialize (S D0). destruct E as [(_ & L & P) Pl]. destruct (Pl D0) as (Fd & G & _). unfold sent, pends in Se.
  destruct H as [b c H K|b c H K|b|b p K|b k|b o k c H|b k c N H|b k H|x b c p O H]; cbn [base at_] in *; try exact S.
  - assert (H' : step select Work b = Some c) by exact H. rewrite I in Se. cbn [pending] in Se. rewrite app_nil_r in Se.
    clear H I. cases H'; cbn in *; repeat match goal with Ew : worker b = _ |- _ => rewrite Ew in *; clear Ew end; cbn in *;
      try discriminate K; try exact Logic.I; try exact S; try (intros; exact S); try congruence; try (apply S; congruence).
    all: refine (among_perm _ _ _ _ Se); rewrite P; replace (queue b) with (@nil M) by (destruct (queue b); (reflexivity || discriminate));
      rewrite app_nil_r; pose proof (life_processed _ _ L) as T; rewrite app_nil_r in T; rewrite <- T;
      unfold to_process; rewrite (filter_all _ _ G); reflexivity.
  - unfold work in H. destruct (worker b) eqn:Ew; try discriminate K; injection H as <-; cbn; try exact Logic.I. exact S.
  - specialize (W ltac:(discriminate)). unfold begin in H. rewrite I in H. injection H as <-. cbn. 
    destruct (worker b); try discriminate W; try exact Logic.I. exact S.
  - specialize (W ltac:(discriminate)). pose proof (begin_next_worker 0 Stop b c (or_intror H)) as Ew. rewrite Ew.
    destruct (worker b) eqn:Eb; try discriminate W; try exact Logic.I.
    assert (H' : step select (Next 0) b = Some c) by exact H. clear H. cases H'; cbn in *; try exact S.
  - cases H; cbn in *; try discriminate O; repeat match goal with Ew : worker b = _ |- _ => rewrite Ew in *; clear Ew end; cbn in *; try exact Logic.I; try exact S;
    try (destruct (worker b); try exact Logic.I; try exact S;
      rewrite ?own_call; try (destruct i as [|i]; [discriminate O|]); rewrite ?app_nil_r; try exact S; fail).
    all: match goal with E : running ?z = _, S : _ |- _ => rewrite E; exact S end.
Qed.
Lemma own_processed : chooses select -> forall n sched s, hrun sched (hinit n) = Some s -> ~ In Discarding (log (base s)) ->
  worker (base s) = WEnded -> among (own_messages (before_stop (log (base s)))) (processed (log (base s))).
Proof.
  intros C n sched s R D W.
  assert (X : all s /\ seen s). { revert R. apply (hrun_keeps _ (seen_step C)). split; [apply all_init|]. intros _. exact Logic.I. }
  destruct X as [_ X]. specialize (X D). rewrite W in X. exact X.
Qed.

(** Calls of stop() and discard_messages() in a hook. *)
Lemma life_unique : forall l p, life l p -> forall q, life l q -> p = q.
Proof.
  intros l p H. induction H; intros q Q; inversion Q; subst; try reflexivity; try discriminate; auto.
Qed.
Lemma call_way : forall s t o, way s t -> log (base t) = Call 0 o :: log (base s) ->
  exists k, way s t /\ at_ s = Inside (Use o k) /\ at_ t = Calling k /\ begin 0 o (base s) = Some (base t).
Proof.
  intros s t o W L. pose proof W as W0.
  assert (N : forall x (b : state M), log b = x :: log b -> False).
  { intros x b X. apply (f_equal (@length _)) in X. cbn in X. lia. }
  destruct W as [b c H K|b c H K|b|b p K|b k|b o' k c H|b k c N' H|b k H|x b c p O H]; cbn [base at_] in *; try (destruct (N _ _ L)).
  - assert (H' : step select Work b = Some c) by exact H. clear H W0. exfalso. cases H'; cbn in L; try (destruct (N _ _ L)); discriminate L.
  - assert (H' : step select Work b = Some c) by exact H. clear H W0. exfalso. cases H'; cbn in L; try (destruct (N _ _ L)); discriminate L.
  - exists k. repeat split; auto; unfold begin in *; destruct (nth_error (clients b) 0) as [[]|]; try discriminate H; injection H as <-; cbn in L; injection L as ->; reflexivity.
  - assert (H' : step select (Next 0) b = Some c) by exact H. clear H W0. exfalso. cases H'; cbn in L; try (destruct (N _ _ L)); discriminate L.
  - clear W0. exfalso. cases H; cbn in L; try (destruct (N _ _ L)); try discriminate L. injection L as -> ->. discriminate O.
Qed.
Lemma hook_stop : chooses select -> forall n sched s l1 l2, hrun sched (hinit n) = Some s ->
  log (base s) = l1 ++ Call 0 Stop :: l2 -> life l2 Up -> ~ In Discarding (log (base s)) -> worker (base s) = WEnded ->
  among (received l2) (processed (log (base s))).
Proof.
  intros C n sched s l1 l2 R L U D W.
  destruct (hmoment n sched s R l1 _ l2 L) as (sc1 & s1 & a & t & sc2 & R1 & <- & S & Lt & R2).
  pose proof (all_run C n sc1 s1 R1) as A1. pose proof (all_step C a s1 t A1 S) as At.
  destruct (call_way s1 t Stop (ways _ _ _ S) Lt) as (k & _ & Pl & Pt & B).
  pose proof (begin_next_worker 0 Stop _ _ (or_introl B)) as Ew.
  assert (Wl : will_look (base t) = true).
  { unfold will_look. rewrite Ew. destruct A1 as (I1 & [(_ & L1 & _) _] & _). pose proof (h_wait _ I1) as Wt. rewrite Pl in Wt. specialize (Wt ltac:(discriminate)).
    pose proof (life_unique _ _ L1 _ U) as Ph. destruct (worker (base s1)); try discriminate Wt; try reflexivity. discriminate Ph. }
  destruct (refines sc2 t s R2) as (sched' & R').
  assert (V : everything (base s) /\ served (log (base s1)) (base s)).
  { refine (run_keeps select _ (served_step select C (log (base s1))) sched' (base t) (base s) _ R').
    split; [exact (proj1 (proj2 At))|]. exists [Call 0 Stop]. split; [exact Lt|]. intros _. left. exact Wl. }
  destruct V as [_ (l & El & Z)]. destruct (Z D) as [Y|Y]; [|exact Y]. unfold will_look in Y. rewrite W in Y. discriminate Y.
Qed.
Definition hprompt l0 s : Prop := exists l, log (base s) = l ++ l0 /\ (count is_clear l = 0 ->
  count is_took l = 0 /\ match worker (base s) with WPopLock | WPop => False | _ => True end /\
  (discard (base s) = true \/ (exists k, at_ s = Calling k) /\ nth_error (clients (base s)) 0 = Some CDiscard)).
Lemma hprompt_step : forall l0 a s t, hprompt l0 s -> hstep a s = Some t -> hprompt l0 t.
Proof.
  intros l0 a s t (l & El & Pr) H. apply ways in H. unfold hprompt.
  assert (Z0 : forall e, count is_clear (e :: l) = 0 -> is_clear e = false /\ count is_clear l = 0).
  { intros e. unfold count. cbn. destruct (is_clear e); cbn; [discriminate|auto]. }
  destruct H as [b c H K|b c H K|b|b p K|b k|b o' k c H|b k c N' H|b k H|x b c p O H]; cbn [base at_] in *;
    try (exists l; split; [exact El|]; intros Z; destruct (Pr Z) as (T & Q & [D|[[k0 F] G]]); repeat (split; [assumption|]); first [left; exact D|discriminate F|congruence]).
  - assert (H' : step select Work b = Some c) by exact H. clear H. cases H'; cbn in K; try discriminate K; cbn;
      try (exists l; split; [exact El|]; intros Z; destruct (Pr Z) as (T & Q & [D|[[k0 F] G]]); [|discriminate F];
           repeat match goal with Ew : worker b = _ |- _ => rewrite Ew in *; clear Ew end; try (exfalso; first [exact Q|congruence]); repeat (split; auto); fail);
      try (match goal with |- context [?e :: log b] => exists (e :: l) end; split; [rewrite El; reflexivity|]; intros Z; destruct (Z0 _ Z) as [Z1 Z2]; try discriminate Z1;
           destruct (Pr Z2) as (T & Q & [D|[[k0 F] G]]); [|discriminate F];
           repeat match goal with Ew : worker b = _ |- _ => rewrite Ew in *; clear Ew end; try (exfalso; first [exact Q|congruence]); repeat (split; auto); fail).
    exists (ClearBegin :: l). split; [rewrite El; reflexivity|]. intros Z. destruct (Z0 _ Z) as [Z1 _]. cbn in Z1. discriminate Z1.
  - assert (H' : step select Work b = Some c) by exact H. clear H. cases H'; cbn in K; repeat match goal with Ew : worker b = _ |- _ => rewrite Ew in *; clear Ew end; try discriminate K; cbn in Pr; cbn;
      try (match goal with |- context [?e :: log b] => exists (e :: l) end; split; [rewrite El; reflexivity|]; intros Z; destruct (Z0 _ Z) as [Z1 Z2]; try discriminate Z1;
           destruct (Pr Z2) as (T & Q & [D|[[k0 F] G]]); [|discriminate F]; repeat (split; auto); fail).
  - rewrite (begin_next_worker 0 o' b c (or_introl H)). unfold begin in H. destruct (nth_error (clients b) 0) as [[]|]; try discriminate H; injection H as <-. cbn.
    exists (Call 0 o' :: l). split; [rewrite El; reflexivity|]. intros Z; destruct (Z0 _ Z) as [_ Z2]. destruct (Pr Z2) as (T & Q & [D|[[k0 F] G]]); [|discriminate F].
    repeat (split; auto).
  - rewrite (begin_next_worker 0 Stop b c (or_intror H)). 
    assert (H' : step select (Next 0) b = Some c) by exact H. clear H. cases H'; cbn;
      try (exists l; split; [exact El|]; intros Z; destruct (Pr Z) as (T & Q & [D|[[k0 F] G]]); [repeat (split; auto)|congruence]; fail);
      try (match goal with |- context [?e :: log b] => exists (e :: l) end; split; [rewrite El; reflexivity|]; intros Z; destruct (Z0 _ Z) as [Z1 Z2]; try discriminate Z1;
           destruct (Pr Z2) as (T & Q & [D|[[k0 F] G]]); [repeat (split; auto)|first [congruence|repeat (split; auto)]]; fail).
  - destruct (other_keeps _ _ _ O H) as [Ec _]. rewrite Ec. clear Ec. cases H; cbn in O; try discriminate O; cbn;
      try (exists l; split; [exact El|]; intros Z; destruct (Pr Z) as (T & Q & DD); repeat match goal with Ew : worker b = _ |- _ => rewrite Ew in *; clear Ew end; repeat (split; auto); fail);
      try (match goal with |- context [?e :: log b] => exists (e :: l) end; split; [rewrite El; reflexivity|]; intros Z; destruct (Z0 _ Z) as [Z1 Z2]; try discriminate Z1;
           destruct (Pr Z2) as (T & Q & DD); repeat match goal with Ew : worker b = _ |- _ => rewrite Ew in *; clear Ew end; repeat (split; auto); fail).
Qed.
Lemma hook_discard : chooses select -> forall n sched s l1 l2, hrun sched (hinit n) = Some s ->
  log (base s) = l1 ++ Call 0 Discard :: l2 -> count is_clear l1 = 0 -> count is_took l1 = 0.
Proof.
  intros C n sched s l1 l2 R L Z.
  destruct (hmoment n sched s R l1 _ l2 L) as (sc1 & s1 & a & t & sc2 & R1 & E1 & S & Lt & R2). subst l2.
  destruct (call_way s1 t Discard (ways _ _ _ S) Lt) as (k & _ & Pl & Pt & B).
  pose proof (hinv_run C n sc1 s1 R1) as I1. pose proof (h_wait _ I1) as Wt. rewrite Pl in Wt. specialize (Wt ltac:(discriminate)).
  assert (P : hprompt (Call 0 Discard :: log (base s1)) s).
  { revert R2. apply (hrun_keeps _ (hprompt_step _)). exists []. split; [exact Lt|]. intros _. split; [reflexivity|].
    rewrite (begin_next_worker 0 Discard _ _ (or_introl B)). split; [destruct (worker (base s1)); (discriminate Wt || exact Logic.I)|].
    right. split; [eauto|]. pose proof (h_idle _ I1) as Id. rewrite Pl in Id. unfold begin in B. rewrite Id in B. injection B as <-. cbn. apply (set_nth_same _ _ _ _ Id). }
  destruct P as (l & El & P). rewrite L in El. apply app_inv_tail in El. subst l. exact (proj1 (P Z)).
Qed.

(** Hooks that put the message back. *)
Definition hot s : Prop :=
  match worker (base s) with
  | WPopDone _ | WMessage _ => True
  | WLook => queue (base s) <> [] \/ (exists m k, at_ s = Inside (Use (Receive m) k)) \/
      (exists m k, at_ s = Calling k /\ (nth_error (clients (base s)) 0 = Some (CLock m) \/ nth_error (clients (base s)) 0 = Some (CPush m)))
  | WLook2 | WPopLock | WPop => queue (base s) <> []
  | _ => False
  end.
Definition warm l0 s : Prop := exists l, log (base s) = l ++ l0 /\ (~ In Discarding (log (base s)) -> ~ In OnStop l /\ hot s).
Lemma app_nonempty : forall {A} (q : list A) m, q ++ [m] <> [].
Proof. intros A [|x q] m; discriminate. Qed.
Lemma warm_step : forall f, (forall l, hooks l = resend f l) -> chooses select -> forall l0 a s t, all s /\ warm l0 s -> hstep a s = Some t -> all t /\ warm l0 t.
Proof.
  intros f Hr C l0 a s t [A (l & El & Wm)] H. split; [exact (all_step C a s t A H)|]. apply ways in H.
  assert (Z : ~ In Discarding (log (base s)) -> discard (base s) = false).
  { destruct A as (_ & [_ Pl] & _). intros D. exact (proj1 (Pl D)). }
  assert (Q : forall e, log (base t) = e :: log (base s) -> (~ In Discarding (log (base t)) -> ~ In Discarding (log (base s)))).
  { intros e -> D X. apply D. right. exact X. }
  assert (I0 := h_idle _ (proj1 A)). assert (W0 := h_wait _ (proj1 A)). clear A. unfold warm, hot in *.
  destruct H as [b c H K|b c H K|b|b p K|b k|b o' k c H|b k c N' H|b k H|x b c p O H]; cbn [base at_] in *.
  - assert (H' : step select Work b = Some c) by exact H. clear H.
    cases H'; cbn in K; try discriminate K; cbn in *; repeat match goal with Ew : worker b = _ |- _ => rewrite Ew in *; clear Ew end; cbn in *; try discriminate K;
      first [exists l; split; [exact El|]; intros D; specialize (Wm D); specialize (Z D)
            |match goal with |- context [?e :: log b] => exists (e :: l) end; split; [rewrite El; reflexivity|]; intros D; specialize (Q _ eq_refl D); specialize (Wm Q); specialize (Z Q)];
      destruct Wm as [Wm Ho]; try (exfalso; exact Ho);
      try (split; [first [exact Wm|intros [X|X]; [discriminate X|exact (Wm X)]]|]); try exact Logic.I; try exact Ho; try congruence.
    + exfalso. destruct Ho as [Ho|[(m & k & X)|(m & k & X & _)]]; try discriminate X. apply Ho. destruct (queue b); [reflexivity|discriminate].
    + destruct Ho as [Ho|[(m & k & X)|(m & k & X & _)]]; try discriminate X. exact Ho.
    + exfalso. match goal with T : MsgQueueModel.take _ _ = None |- _ => exact (take_chosen select C _ Ho T) end.
  - unfold work in H. destruct (worker b) eqn:Ew; try discriminate K; injection H as <-; cbn in *.
    + exists (OnStart :: l). split; [rewrite El; reflexivity|]. intros D. destruct (proj2 (Wm (Q _ eq_refl D))).
    + exists (OnMessage m :: l). split; [rewrite El; reflexivity|]. intros D. destruct (Wm (Q _ eq_refl D)) as [W _].
      split; [intros [X|X]; [discriminate X|exact (W X)]|]. right. left. rewrite Hr. cbn. eauto.
    + exists (OnStop :: l). split; [rewrite El; reflexivity|]. intros D. destruct (proj2 (Wm (Q _ eq_refl D))).
  - exists l. split; [exact El|]. intros D. destruct (Wm D) as [W Ho]. split; [exact W|]. destruct (worker b); try exact Ho.
    destruct Ho as [Ho|[(m & k & X)|(m & k & X & _)]]; try discriminate X. left. exact Ho.
  - exists l. split; [exact El|]. intros D. destruct (Wm D) as [W Ho]. split; [exact W|]. destruct (worker b); try exact Ho.
    destruct Ho as [Ho|[(m & k & X)|(m & k & X & _)]]; try discriminate X. left. exact Ho.
    injection X as ->. destruct K; discriminate.
  - exists l. split; [exact El|]. intros D. destruct (Wm D) as [W Ho]. split; [exact W|]. destruct (worker b); try exact Ho.
    destruct Ho as [Ho|[(m & k' & X)|(m & k' & X & _)]]; try discriminate X. left. exact Ho.
  - unfold begin in H. rewrite I0 in H. injection H as <-. cbn in *. exists (Call 0 o' :: l). split; [rewrite El; reflexivity|].
    intros D. destruct (Wm (Q _ eq_refl D)) as [W Ho]. split; [intros [X|X]; [discriminate X|exact (W X)]|].
    destruct (worker b); try exact Ho. destruct Ho as [Ho|[(m & k' & X)|(m & k' & X & _)]]; try discriminate X; [left; exact Ho|].
    injection X as -> ->. right. right. exists m, k'. split; [reflexivity|]. left. apply (set_nth_same _ _ _ _ I0).
  - specialize (W0 ltac:(discriminate)). rewrite (begin_next_worker 0 Stop b c (or_intror H)).
    assert (Pr : ~ In Discarding (log b) -> ~ In OnStop l /\ worker b = WLook /\
      (queue b <> [] \/ (exists m, nth_error (clients b) 0 = Some (CLock m) \/ nth_error (clients b) 0 = Some (CPush m)))).
    { intros D. destruct (Wm D) as [W Ho]. split; [exact W|]. destruct (worker b); try discriminate W0; try (destruct Ho; fail). split; [reflexivity|].
      destruct Ho as [Ho|[(m & k' & X)|(m & k' & X & Y)]]; try discriminate X; eauto. }
    assert (H' : step select (Next 0) b = Some c) by exact H. clear H Wm Z.
    cases H'; cbn in *;
      first [exists l; split; [exact El|]; intros D; destruct (Pr D) as (W & -> & Ho)
            |match goal with |- context [?e :: log b] => exists (e :: l) end; split; [rewrite El; reflexivity|]; intros D; specialize (Q _ eq_refl D); destruct (Pr Q) as (W & -> & Ho)];
      (split; [first [exact W|intros [X|X]; [discriminate X|exact (W X)]]|]); destruct Ho as [Ho|[m' [Ho|Ho]]];
      try congruence; try (left; exact Ho); try (left; apply app_nonempty).
    right. right. exists m', k. split; [reflexivity|]. right. replace m' with m by congruence. eapply set_nth_same. eassumption.
  - exists l. split; [exact El|]. intros D. destruct (Wm D) as [W Ho]. split; [exact W|]. destruct (worker b); try exact Ho.
    destruct Ho as [Ho|[(m & k' & X)|(m & k' & X & Y)]]; try discriminate X; [left; exact Ho|]. destruct Y; congruence.
  - destruct (other_keeps _ _ _ O H) as [Ec _]. rewrite Ec. clear Ec.
    cases H; cbn in O; try discriminate O; cbn in *; repeat match goal with Ew : worker b = _ |- _ => rewrite Ew in *; clear Ew end; cbn in *;
      first [exists l; split; [exact El|]; intros D; specialize (Wm D)
            |match goal with |- context [?e :: log b] => exists (e :: l) end; split; [rewrite El; reflexivity|]; intros D; specialize (Q _ eq_refl D); specialize (Wm Q)];
      destruct Wm as [Wm Ho]; try (exfalso; exact Ho);
      try (split; [first [exact Wm|intros [X|X]; [discriminate X|exact (Wm X)]]|]); try exact Ho;
      try (destruct (worker b); try exact Ho; try apply app_nonempty; destruct Ho as [Ho|Ho]; [left; apply app_nonempty|right; exact Ho]).
Qed.
Lemma resend_goes_on : forall f, (forall l, hooks l = resend f l) -> chooses select -> forall n sched s l1 m l2, hrun sched (hinit n) = Some s ->
  log (base s) = l1 ++ Took m :: l2 -> ~ In Discarding (log (base s)) -> ~ In OnStop l1 /\ worker (base s) <> WEnded.
Proof.
  intros f Hr C n sched s l1 m l2 R L D.
  destruct (hmoment n sched s R l1 _ l2 L) as (sc1 & s1 & a & t & sc2 & R1 & E1 & S & Lt & R2). subst l2.
  pose proof (all_run C n sc1 s1 R1) as A1. pose proof (all_step C a s1 t A1 S) as At.
  assert (X : all s /\ warm (Took m :: log (base s1)) s).
  { revert R2. apply (hrun_keeps _ (warm_step f Hr C _)). split; [exact At|]. exists []. split; [exact Lt|]. intros _. split; [intros []|].
    unfold hot. apply ways in S.
    assert (N : forall x (b : state M), log b = x :: log b -> False).
    { intros x b X. apply (f_equal (@length _)) in X. cbn in X. lia. }
    destruct S as [b c H K|b c H K|b|b p K|b k|b o' k c H|b k c N' H|b k H|x b c p O H]; cbn [base at_] in *; try (destruct (N _ _ Lt));
      [assert (H' : step select Work b = Some c) by exact H; clear H|assert (H' : step select Work b = Some c) by exact H; clear H|
       assert (H' : step select (Begin 0 o') b = Some c) by exact H; clear H|assert (H' : step select (Next 0) b = Some c) by exact H; clear H|rename H into H'];
      cases H'; cbn in *; try (destruct (N _ _ Lt)); try discriminate Lt; try exact Logic.I. }
  destruct X as [_ (l & El & X)]. rewrite L in El. apply app_inv_tail in El. subst l. destruct (X D) as [X1 X2]. split; [exact X1|].
  intros E. unfold hot in X2. rewrite E in X2. exact X2.
Qed.

(** Hooks that cannot end the program. *)
Definition tame s : Prop := over s = false /\
  match at_ s with Outside => True | Inside p => harmless p | Calling k => forall l, harmless (k l) end.
Lemma tame_step : (forall l, harmless (hooks l)) -> forall a s t, tame s -> hstep a s = Some t -> tame t.
Proof.
  intros Hh a s t [_ T] H. apply ways in H. unfold tame.
  destruct H as [b c H K|b c H K|b|b p K|b k|b o' k c H|b k c N' H|b k H|x b c p O H]; cbn [base at_ over] in *; (split; [|]); try reflexivity; auto.
  - destruct K as [-> | ->]; inversion T.
  - inversion T; assumption.
  - inversion T; assumption.
Qed.
Lemma never_over : (forall l, harmless (hooks l)) -> forall n sched s, hrun sched (hinit n) = Some s -> over s = false.
Proof. intros Hh n sched s R. refine (proj1 (hrun_keeps _ (tame_step Hh) sched (hinit n) s _ R)). split; [reflexivity|exact I]. Qed.

(** The end of the thread, if messages do not make ever more messages. *)
Section Ends.
Variable weight : M -> nat.
Hypothesis Hd : dwindling weight hooks.
Hypothesis C : chooses select.
Definition load (q : list M) : nat := list_sum (map weight q).
Local Arguments load : simpl never.
Lemma load_one : forall m, load [m] = weight m.
Proof. intros m. unfold load, list_sum. cbn. lia. Qed.
Lemma load_app : forall q q', load (q ++ q') = load q + load q'.
Proof. intros. unfold load. rewrite map_app, list_sum_app. reflexivity. Qed.
Lemma load_perm : forall q q', Permutation q q' -> load q = load q'.
Proof.
  intros q q' P. induction P as [|x q q' P IH|x y q|q q' q'' P IH P' IH'].
  - reflexivity.
  - unfold load in *. cbn [map list_sum fold_right] in *. unfold list_sum in *. cbn [fold_right] in *. lia.
  - unfold load, list_sum. cbn [map fold_right]. lia.
  - congruence.
Qed.
Definition bounded s : Prop :=
  match at_ s with Outside => True | Inside p => exists w, modest weight p w | Calling k => exists w, forall l, modest weight (k l) w end.
Lemma hooks_bounded : forall l, exists w, modest weight (hooks l) w.
Proof. intros l. specialize (Hd l). destruct l as [|[] l]; auto. destruct Hd as (w & _ & X). eauto. Qed.
Lemma bounded_step : forall a s t, bounded s -> hstep a s = Some t -> bounded t.
Proof.
  intros a s t T H. apply ways in H. unfold bounded in *.
  destruct H as [b c H K|b c H K|b|b p K|b k|b o' k c H|b k c N' H|b k H|x b c p O H]; cbn [base at_ over] in *; try exact I; try exact T.
  - apply hooks_bounded.
  - destruct T as [w T]. inversion T; subst. eauto.
  - destruct T as [w T]. inversion T; subst; eauto.
  - destruct T as [w T]. eauto.
Qed.

Definition leads s t : Prop := exists k, hrun (repeat HWork k) s = Some t.
Definition hends s : Prop := exists t, leads s t /\ worker (base t) = WEnded /\ at_ t = Outside /\ over t = false.
Notation out b := {| base := b; at_ := Outside; over := false |}.
Notation ins b p := {| base := b; at_ := Inside p; over := false |}.
Lemma hends_back : forall s t, over s = false -> hwork s = Some t -> hends t -> hends s.
Proof.
  intros s t O W (u & (k & R) & X). exists u. split; [|exact X]. exists (S k). cbn. unfold QueueHookModel.hstep. rewrite O, W. exact R.
Qed.
Lemma hends_work : forall b c, work select b = Some c -> is_hook_pc (worker b) = false -> hends (out c) -> hends (out b).
Proof.
  intros b c W K. apply hends_back; [reflexivity|]. unfold QueueHookModel.hwork. cbn [at_ base]. rewrite W, K. reflexivity.
Qed.
(** A state in which the thread is in no call. *)
Definition good (b c : state M) (x : nat) : Prop := nth_error (clients c) 0 = Some CIdle /\ mtx c = None /\ worker c = worker b /\
  running c = running b /\ (stopped b = true -> stopped c = true) /\ load (queue c) <= load (queue b) + x.
(** A call made by a hook, from anywhere in it. *)
Definition due_message (c : cpc M) : nat := match c with CLock m | CPush m => weight m | _ => 0 end.
Lemma call_ends : forall b d k, nth_error (clients b) 0 = Some d -> (if cholds d then mtx b = Some (Some 0) else mtx b = None) ->
  (forall c, good b c (due_message d) -> hends (ins c (k (log c)))) -> hends {| base := b; at_ := Calling k; over := false |}.
Proof.
  assert (St : forall b d k, nth_error (clients b) 0 = Some d -> d <> CIdle -> forall c, next 0 b = Some c ->
    hends {| base := c; at_ := Calling k; over := false |} -> hends {| base := b; at_ := Calling k; over := false |}).
  { intros b d k Hd' Nd c Nx. apply hends_back; [reflexivity|]. unfold QueueHookModel.hwork. cbn [at_ base]. rewrite Hd', Nx.
    destruct d; try reflexivity. congruence. }
  assert (R : forall b k, nth_error (clients b) 0 = Some CIdle -> hends (ins b (k (log b))) -> hends {| base := b; at_ := Calling k; over := false |}).
  { intros b k Hi. apply hends_back; [reflexivity|]. unfold QueueHookModel.hwork. cbn [at_ base]. rewrite Hi. reflexivity. }
  set (P := fun d => forall b k, nth_error (clients b) 0 = Some d -> (if cholds d then mtx b = Some (Some 0) else mtx b = None) ->
    (forall c, good b c (due_message d) -> hends (ins c (k (log c)))) -> hends {| base := b; at_ := Calling k; over := false |}).
  assert (P0 : P CIdle).
  { intros b k Hc X G. apply R; [exact Hc|]. apply G. repeat split; auto. lia. }
  assert (One : forall d d', P d' -> d <> CIdle -> due_message d' <= due_message d ->
    (forall b, nth_error (clients b) 0 = Some d -> (if cholds d then mtx b = Some (Some 0) else mtx b = None) ->
      exists c, next 0 b = Some c /\ nth_error (clients c) 0 = Some d' /\ (if cholds d' then mtx c = Some (Some 0) else mtx c = None) /\
        worker c = worker b /\ running c = running b /\ (stopped b = true -> stopped c = true) /\
        load (queue c) + due_message d' <= load (queue b) + due_message d) -> P d).
  { intros d d' Pd Nd Le Nx b k Hc X G. destruct (Nx b Hc X) as (c & N & Hc' & X' & W & Ru & Sp & Lo).
    refine (St b d k Hc Nd c N _). refine (Pd c k Hc' X' _). intros e (G1 & G2 & G3 & G4 & G5 & G6). apply G.
    repeat split; try assumption; try congruence; auto. lia. }
  assert (Two : forall d, P d).
  2: { intros b d k. apply (Two d b k). }
  Local Ltac one Hc X := eexists; (split; [unfold next, acquire, option_map; rewrite Hc, ?X; reflexivity|]); cbn; rewrite (set_nth_same _ _ _ _ Hc);
    repeat (split; auto); rewrite ?load_app, ?load_one; lia.
  assert (PN : forall m, P (CNotify m)).
  { intros m. apply (One _ CIdle P0); [discriminate|cbn; lia|]. intros b Hc X. cbn in X. one Hc X. }
  assert (PU : forall m, P (CUnlock m)).
  { intros m. apply (One _ _ (PN m)); [discriminate|cbn; lia|]. intros b Hc X. cbn in X. one Hc X. }
  assert (PP : forall m, P (CPush m)).
  { intros m. apply (One _ _ (PU m)); [discriminate|cbn; lia|]. intros b Hc X. cbn in X. one Hc X. }
  assert (PSN : P CStopNotify) by (apply (One _ CIdle P0); [discriminate|cbn; lia|]; intros b Hc X; cbn in X; one Hc X).
  assert (PDN : P CDiscardNotify) by (apply (One _ CIdle P0); [discriminate|cbn; lia|]; intros b Hc X; cbn in X; one Hc X).
  assert (PR2 : P CRunning2) by (apply (One _ CIdle P0); [discriminate|cbn; lia|]; intros b Hc X; cbn in X; one Hc X).
  assert (PSU : P CSizeUnlock) by (apply (One _ CIdle P0); [discriminate|cbn; lia|]; intros b Hc X; cbn in X; one Hc X).
  assert (PS : P CSize) by (apply (One _ _ PSU); [discriminate|cbn; lia|]; intros b Hc X; cbn in X; one Hc X).
  intros d. destruct d as [|m|m|m|m| | | | | | | | |]; auto.
  - apply (One _ _ (PP m)); [discriminate|cbn; lia|]. intros b Hc X. cbn in X. one Hc X.
  - apply (One _ _ PSN); [discriminate|cbn; lia|]. intros b Hc X. cbn in X. one Hc X.
  - apply (One _ _ PDN); [discriminate|cbn; lia|]. intros b Hc X. cbn in X. one Hc X.
  - intros b k Hc X G. destruct (running b) eqn:Ru.
    + eapply (St b _ k Hc); [discriminate|unfold next; rewrite Hc, Ru; reflexivity|].
      apply P0; [exact (set_nth_same _ _ _ _ Hc)|exact X|]. intros e Ge. apply G. exact Ge.
    + eapply (St b _ k Hc); [discriminate|unfold next; rewrite Hc, Ru; reflexivity|].
      apply PR2; [exact (set_nth_same _ _ _ _ Hc)|exact X|]. intros e Ge. apply G. exact Ge.
  - apply (One _ _ PS); [discriminate|cbn; lia|]. intros b Hc X. cbn in X. one Hc X.
Qed.
Lemma good_trans : forall b c d x y, good b c x -> good c d y -> good b d (x + y).
Proof.
  intros b c d x y (A1 & A2 & A3 & A4 & A5 & A6) (B1 & B2 & B3 & B4 & B5 & B6). repeat split; auto; try congruence. lia.
Qed.
Lemma inside_ends : forall p w, modest weight p w -> forall b, nth_error (clients b) 0 = Some CIdle -> mtx b = None ->
  (forall c, good b c w -> hends (out c)) -> hends (ins b p).
Proof.
  assert (Use_ : forall o k b, nth_error (clients b) 0 = Some CIdle -> mtx b = None ->
    (forall c, good b c (match o with Receive m => weight m | _ => 0 end) -> hends (ins c (k (log c)))) -> hends (ins b (Use o k))).
  { intros o k b Hc X G. eapply hends_back; [reflexivity|unfold QueueHookModel.hwork; cbn [at_ base]; unfold begin; rewrite Hc; reflexivity|].
    eapply call_ends; [cbn; eapply set_nth_same; exact Hc|destruct o; exact X|]. intros c Gc. apply G. destruct o; exact Gc. }
  intros p w Mo. induction Mo as [w|m k w Mo IH|o k w No Mo IH|k w Mo IH]; intros b Hc X G.
  - eapply hends_back; [reflexivity|reflexivity|]. cbn [base]. apply G. repeat split; auto. lia.
  - apply Use_; [exact Hc|exact X|]. intros c Gc. apply IH; try apply Gc. intros d Gd. apply G. exact (good_trans _ _ _ _ _ Gc Gd).
  - apply Use_; [exact Hc|exact X|]. intros c Gc. apply IH; try apply Gc. intros d Gd. apply G.
    assert (Gc' : good b c 0) by (destruct o; try exact Gc; destruct (No m eq_refl)). exact (good_trans _ _ _ _ _ Gc' Gd).
  - eapply hends_back; [reflexivity|reflexivity|]. cbn [base]. apply IH; auto.
Qed.
Lemma calling_ends : forall k w, (forall l, modest weight (k l) w) -> forall b d, nth_error (clients b) 0 = Some d ->
  (if cholds d then mtx b = Some (Some 0) else mtx b = None) ->
  (forall c x, good b c x -> hends (out c)) -> hends {| base := b; at_ := Calling k; over := false |}.
Proof.
  intros k w Mo b d Hc X G. eapply call_ends; [exact Hc|exact X|]. intros c Gc. eapply inside_ends; [apply Mo|apply Gc|apply Gc|].
  intros e Ge. exact (G e _ (good_trans _ _ _ _ _ Gc Ge)).
Qed.
Lemma enter_ends : forall b c w, work select b = Some c -> is_hook_pc (worker b) = true -> modest weight (hooks (log c)) w ->
  nth_error (clients c) 0 = Some CIdle -> mtx c = None -> (forall d, good c d w -> hends (out d)) -> hends (out b).
Proof.
  intros b c w W K Mo Hc X G. eapply hends_back; [reflexivity|unfold QueueHookModel.hwork; cbn [at_ base]; rewrite W, K; reflexivity|].
  exact (inside_ends _ _ Mo c Hc X G).
Qed.

(** From every place outside the hooks. *)
Definition calmly (b : state M) : Prop := nth_error (clients b) 0 = Some CIdle /\ stopped b = true.
Lemma e_ended : forall b, worker b = WEnded -> hends (out b).
Proof. intros b W. exists (out b). split; [exists 0; reflexivity|]. repeat split. exact W. Qed.
Lemma e_exit : forall b, worker b = WExit -> hends (out b).
Proof. intros b W. eapply hends_work; [unfold work; rewrite W; reflexivity|rewrite W; reflexivity|]. apply e_ended. reflexivity. Qed.
Lemma e_stop : forall b, worker b = WStop -> calmly b -> mtx b = None -> hends (out b).
Proof.
  intros b W [Hc S] X. destruct (hooks_bounded (OnStop :: log b)) as [w Mo].
  eapply enter_ends; [unfold work; rewrite W; reflexivity|rewrite W; reflexivity|exact Mo|exact Hc|exact X|].
  intros d (_ & _ & Wd & _). apply e_exit. rewrite Wd. reflexivity.
Qed.
Lemma e_loop0 : forall b, worker b = WLoop -> running b = false -> calmly b -> mtx b = None -> hends (out b).
Proof. intros b W Ru Cb X. eapply hends_work; [unfold work; rewrite W, Ru; reflexivity|rewrite W; reflexivity|]. apply e_stop; auto. Qed.
Lemma e_set : forall b, worker b = WSetRunning false -> calmly b -> mtx b = None -> hends (out b).
Proof. intros b W Cb X. eapply hends_work; [unfold work; rewrite W; reflexivity|rewrite W; reflexivity|]. apply e_loop0; auto. Qed.
Lemma e_stopped : forall b, worker b = WStopped -> calmly b -> mtx b = None -> hends (out b).
Proof. intros b W Cb X. eapply hends_work; [unfold work; rewrite W, (proj2 Cb); reflexivity|rewrite W; reflexivity|]. apply e_set; auto. Qed.
Lemma e_clear : forall k b, length (queue b) <= k -> worker b = WClear -> calmly b -> hends (out b).
Proof.
  induction k as [|k IH]; intros b L W Cb.
  - eapply hends_work; [unfold work; rewrite W; destruct (queue b); [reflexivity|cbn in L; lia]|rewrite W; reflexivity|]. apply e_stopped; auto.
  - destruct (queue b) as [|x q] eqn:Q.
    + eapply hends_work; [unfold work; rewrite W, Q; reflexivity|rewrite W; reflexivity|]. apply e_stopped; auto.
    + pose proof (take_chosen select C (queue b)) as T. rewrite Q in T. destruct (take select (x :: q)) as [[m q']|] eqn:E; [|exfalso; apply T; [discriminate|reflexivity]].
      eapply hends_work; [unfold work; rewrite W, Q, E; reflexivity|rewrite W; reflexivity|]. destruct (take_some select _ _ _ E) as [P _]. apply Permutation_length in P.
      apply IH; [cbn in *; lia|reflexivity|exact Cb].
Qed.
Lemma e_clearlock : forall b, worker b = WClearLock -> calmly b -> mtx b = None -> hends (out b).
Proof. intros b W Cb X. eapply hends_work; [unfold work, acquire; rewrite W, X; reflexivity|rewrite W; reflexivity|]. eapply e_clear; [reflexivity|reflexivity|exact Cb]. Qed.
Definition look_upto k : Prop := forall b, load (queue b) <= k -> worker b = WLook -> calmly b -> mtx b = None -> hends (out b).
Lemma e_message : forall b m, (forall j, j < load (queue b) + weight m -> look_upto j) -> worker b = WMessage m -> calmly b -> mtx b = None -> hends (out b).
Proof.
  intros b m IH W [Hc Sp] X. destruct (Hd (OnMessage m :: log b)) as (w & Lw & Mo).
  eapply enter_ends; [unfold work; rewrite W; reflexivity|rewrite W; reflexivity|exact Mo|exact Hc|exact X|].
  intros d (G1 & G2 & G3 & G4 & G5 & G6). cbn in G6. eapply (IH (load (queue d))); [lia|reflexivity|rewrite G3; reflexivity|split; [exact G1|exact (G5 Sp)]|exact G2].
Qed.
Lemma e_popdone : forall b m, (forall j, j < load (queue b) + weight m -> look_upto j) -> worker b = WPopDone m -> calmly b -> hends (out b).
Proof.
  intros b m IH W Cb. eapply hends_work; [unfold work; rewrite W; reflexivity|rewrite W; reflexivity|]. eapply e_message; [exact IH|reflexivity|exact Cb|reflexivity].
Qed.
Lemma e_pop : forall b, (forall j, j < load (queue b) -> look_upto j) -> queue b <> [] -> worker b = WPop -> calmly b -> hends (out b).
Proof.
  intros b IH Q W Cb. pose proof (take_chosen select C (queue b) Q) as T. destruct (take select (queue b)) as [[m q']|] eqn:E; [|congruence].
  eapply hends_work; [unfold work; rewrite W, E; reflexivity|rewrite W; reflexivity|]. eapply e_popdone; [|reflexivity|exact Cb].
  cbn. destruct (take_some select _ _ _ E) as [P _]. apply load_perm in P. intros j J. apply IH. rewrite P. unfold load, list_sum in *. cbn. lia.
Qed.
Lemma e_poplock : forall b, (forall j, j < load (queue b) -> look_upto j) -> queue b <> [] -> worker b = WPopLock -> calmly b -> mtx b = None -> hends (out b).
Proof.
  intros b IH Q W Cb X. eapply hends_work; [unfold work, acquire; rewrite W, X; reflexivity|rewrite W; reflexivity|]. apply e_pop; auto.
Qed.
Lemma e_look2 : forall b, (forall j, j < load (queue b) -> look_upto j) -> queue b <> [] -> worker b = WLook2 -> calmly b -> mtx b = None -> hends (out b).
Proof.
  intros b IH Q W Cb X. destruct (discard b) eqn:D.
  - eapply hends_work; [unfold work; rewrite W, D; reflexivity|rewrite W; reflexivity|]. apply e_stopped; auto.
  - eapply hends_work; [unfold work; rewrite W, D; reflexivity|rewrite W; reflexivity|]. apply e_poplock; auto.
Qed.
Lemma e_look_all : forall k, look_upto k.
Proof.
  intros k. induction k as [k IH] using lt_wf_ind. intros b L W Cb X. destruct (queue b) as [|x q] eqn:Q.
  - eapply hends_work; [unfold work; rewrite W, Q; reflexivity|rewrite W; reflexivity|]. apply e_stopped; auto.
  - eapply hends_work; [unfold work; rewrite W, Q; reflexivity|rewrite W; reflexivity|]. apply e_look2; auto.
    + cbn. rewrite Q. intros j J. apply IH. lia.
    + cbn. rewrite Q. discriminate.
Qed.
Lemma e_look : forall b, worker b = WLook -> calmly b -> mtx b = None -> hends (out b).
Proof. intros b. exact (e_look_all _ b (le_n _)). Qed.
Lemma e_discard : forall b, worker b = WDiscard -> calmly b -> mtx b = None -> hends (out b).
Proof.
  intros b W Cb X. destruct (discard b) eqn:D.
  - eapply hends_work; [unfold work; rewrite W, D; reflexivity|rewrite W; reflexivity|].
    eapply hends_work; [unfold work; cbn; reflexivity|reflexivity|]. apply e_clearlock; auto.
  - eapply hends_work; [unfold work; rewrite W, D; reflexivity|rewrite W; reflexivity|]. apply e_look; auto.
Qed.
Lemma e_loop : forall b, worker b = WLoop -> calmly b -> mtx b = None -> hends (out b).
Proof.
  intros b W Cb X. destruct (running b) eqn:D; [|apply e_loop0; auto].
  eapply hends_work; [unfold work; rewrite W, D; reflexivity|rewrite W; reflexivity|].
  eapply hends_work; [unfold work; cbn; reflexivity|reflexivity|]. apply e_discard; auto.
Qed.
Lemma e_run : forall b, worker b = WRun -> calmly b -> mtx b = None -> hends (out b).
Proof. intros b W Cb X. eapply hends_work; [unfold work; rewrite W; reflexivity|rewrite W; reflexivity|]. apply e_loop; auto. Qed.
Lemma e_start : forall b, worker b = WStart -> calmly b -> mtx b = None -> hends (out b).
Proof.
  intros b W [Hc S] X. destruct (hooks_bounded (OnStart :: log b)) as [w Mo].
  eapply enter_ends; [unfold work; rewrite W; reflexivity|rewrite W; reflexivity|exact Mo|exact Hc|exact X|].
  intros d (G1 & G2 & Wd & _ & G5 & _). apply e_run; [rewrite Wd; reflexivity|split; [exact G1|exact (G5 S)]|exact G2].
Qed.
Lemma e_out : forall b, inv b -> calmly b -> (forall i, i <> 0 -> mtx b <> Some (Some i)) -> worker b <> WOff -> hends (out b).
Proof.
  intros b I Cb X O. destruct I as [W Cl Ca Lo Wa On Or].
  assert (Xn : wholds (worker b) = false -> mtx b = None).
  { intros K. destruct (mtx b) as [[i|]|] eqn:E; [| |reflexivity].
    - destruct (Nat.eq_dec i 0) as [->|N]; [|destruct (X i N eq_refl)]. pose proof (proj1 (Cl 0 _ (proj1 Cb)) eq_refl) as Y. discriminate Y.
    - rewrite (proj1 W eq_refl) in K. discriminate K. }
  clear W X Lo Cl. destruct (worker b) eqn:E; cbn in *; try congruence; try discriminate Or; try specialize (Xn eq_refl); try specialize (Ca eq_refl); try specialize (On eq_refl).
  - eapply hends_work; [unfold work; rewrite E, Ca; reflexivity|rewrite E; reflexivity|]. apply e_start; auto.
  - apply e_start; auto.
  - apply e_run; auto.
  - apply e_loop; auto.
  - eapply hends_work; [unfold work; rewrite E; reflexivity|rewrite E; reflexivity|]. apply e_discard; auto.
  - apply e_discard; auto.
  - eapply hends_work; [unfold work; rewrite E; reflexivity|rewrite E; reflexivity|]. apply e_clearlock; auto.
  - apply e_clearlock; auto.
  - eapply e_clear; [reflexivity|exact E|exact Cb].
  - apply e_look; auto.
  - apply e_look2; auto. intros. apply e_look_all.
  - apply e_poplock; auto. intros. apply e_look_all.
  - apply e_pop; auto. intros. apply e_look_all.
  - eapply e_popdone; [intros; apply e_look_all|exact E|exact Cb].
  - eapply e_message; [intros; apply e_look_all|exact E|exact Cb|exact Xn].
  - apply e_stopped; auto.
  - eapply hends_work; [unfold work; rewrite E; reflexivity|rewrite E; reflexivity|]. apply e_loop; auto.
  - apply e_stop; auto.
  - apply e_exit; auto.
  - apply e_ended; auto.
Qed.
Lemma hook_ends : forall n sched s, hrun sched (hinit n) = Some s -> over s = false -> stopped (base s) = true ->
  (forall i, i <> 0 -> mtx (base s) <> Some (Some i)) -> worker (base s) <> WOff -> hends s.
Proof.
  intros n sched s R Ov Sp X O. pose proof (hinv_run C n sched s R) as I.
  assert (B : bounded s) by (refine (hrun_keeps _ bounded_step sched (hinit n) s Logic.I R)).
  destruct s as [b p ov]. destruct I as [Ib Id W]. cbn [base at_ over] in *. subst ov. unfold bounded in B. cbn [at_] in B.
  assert (Aft : forall x c, waits (worker b) = true -> good b c x -> hends (out c)).
  { intros x c Wb (G1 & G2 & G3 & G4 & G5 & G6). assert (Cc : calmly c) by (split; [exact G1|exact (G5 Sp)]).
    destruct (worker b) eqn:E; try discriminate Wb; [apply e_run|apply e_look|apply e_exit]; auto. }
  assert (Xn : forall d, waits (worker b) = true -> nth_error (clients b) 0 = Some d -> if cholds d then mtx b = Some (Some 0) else mtx b = None).
  { intros d Wb Hc. pose proof (i_client _ Ib 0 d Hc) as K. destruct (cholds d); [apply K; reflexivity|].
    destruct (mtx b) as [[i|]|] eqn:E; [| |reflexivity].
    - destruct (Nat.eq_dec i 0) as [->|N]; [|destruct (X i N eq_refl)]. discriminate (proj1 K eq_refl).
    - pose proof (proj1 (i_worker _ Ib) E) as Y. destruct (worker b); discriminate. }
  destruct p as [|p|k].
  - apply e_out; auto. split; assumption.
  - destruct B as [w Mo]. specialize (W ltac:(discriminate)). eapply inside_ends; [exact Mo|exact Id|exact (Xn _ W Id)|]. intros c. exact (Aft w c W).
  - destruct B as [w Mo]. destruct Id as [d Hc]. specialize (W ltac:(discriminate)). eapply calling_ends; [exact Mo|exact Hc|exact (Xn d W Hc)|]. intros c x. exact (Aft x c W).
Qed.
End Ends.
End Hooks.
