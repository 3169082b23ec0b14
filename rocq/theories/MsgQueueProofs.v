(** Proofs about the model of message_queue.h. *)
Require Import List Arith NArith Lia Bool Permutation.
Require Import Verif.Base Verif.MsgQueueModel Verif.MsgQueueSpec.
Import ListNotations.

Lemma set_nth_same : forall {A} (l : list A) i x y, nth_error l i = Some x -> nth_error (set_nth l i y) i = Some y.
Proof. intros. apply nth_error_set_nth_eq. apply nth_error_Some. congruence. Qed.
Lemma set_nth_cases : forall {A} (l : list A) i x j y, nth_error (set_nth l i x) j = Some y ->
  (j = i /\ y = x /\ i < length l) \/ (j <> i /\ nth_error l j = Some y).
Proof.
  intros A l i x j y H. destruct (Nat.eq_dec j i) as [->|N].
  - left. destruct (nth_error l i) eqn:E.
    + rewrite (set_nth_same _ _ _ x E) in H. injection H as <-. split; [|split]; auto. apply nth_error_Some. congruence.
    + apply nth_error_None in E. exfalso. assert (L : i < length (set_nth l i x)) by (apply nth_error_Some; congruence).
      rewrite set_nth_length in L. lia.
  - right. split; [exact N|]. rewrite nth_error_set_nth_neq in H by congruence. exact H.
Qed.

Section Queue.
Context {M : Type}.
Variable select : list M -> nat.
Notation take := (take select).
Notation step := (step select).
Notation run := (run select).
Implicit Types (s t : state M) (m : M) (l : list (event M)) (q : list M).

Lemma run_app : forall sched1 sched2 s, run (sched1 ++ sched2) s =
  match run sched1 s with Some t => run sched2 t | None => None end.
Proof. induction sched1 as [|a sched1 IH]; intros sched2 s; cbn; [reflexivity|]. destruct (step a s); [apply IH|reflexivity]. Qed.
(** A property kept by every step holds at the end of every schedule. *)
Lemma run_keeps : forall (P : state M -> Prop), (forall a s t, P s -> step a s = Some t -> P t) ->
  forall sched s t, P s -> run sched s = Some t -> P t.
Proof.
  intros P K. induction sched as [|a sched IH]; intros s t I R; cbn in R; [injection R as <-; exact I|].
  destruct (step a s) as [u|] eqn:E; [|discriminate R]. exact (IH u t (K a s u I E) R).
Qed.
Lemma take_some : forall q m q', take q = Some (m, q') -> Permutation q (m :: q') /\ nth_error q (select q) = Some m.
Proof.
  intros q m q' H. unfold MsgQueueModel.take in H. destruct (nth_error q (select q)) as [x|] eqn:E; [|discriminate H].
  remember (firstn (select q) q ++ skipn (S (select q)) q) as f eqn:F. injection H as -> <-. subst f. split; [|reflexivity].
  destruct (nth_error_split _ _ E) as (l1 & l2 & -> & L).
  revert L. generalize (select (l1 ++ m :: l2)). intros k <-.
  assert (K : forall (l1 : list M), skipn (S (length l1)) (l1 ++ m :: l2) = l2) by (clear; induction l1 as [|a l1 IH]; [reflexivity|exact IH]).
  rewrite K, firstn_app, firstn_all, Nat.sub_diag. cbn [firstn]. rewrite app_nil_r. symmetry. apply Permutation_middle.
Qed.
Lemma take_chosen : chooses select -> forall q, q <> [] -> take q <> None.
Proof.
  intros C q N. unfold MsgQueueModel.take. destruct (nth_error q (select q)) eqn:E; [discriminate|].
  apply nth_error_None in E. specialize (C q N). lia.
Qed.

(** Taking a step apart. *)
Ltac cases H := unfold MsgQueueModel.step, start, join, work, begin, next, acquire, option_map in H;
    repeat match type of H with
    | context [match ?x with _ => _ end] =>
        lazymatch x with context [match _ with _ => _ end] => fail | _ => let E := fresh "E" in destruct x eqn:E end
    end; try discriminate H; injection H as <-.

(** One event at most per step. *)
Lemma step_log : forall a s t, step a s = Some t -> log t = log s \/ exists e, log t = e :: log s.
Proof.
  intros a s t H. cases H; cbn; first [left; reflexivity|right; eexists; reflexivity].
Qed.
Lemma run_log : forall sched s t, run sched s = Some t -> exists l, log t = l ++ log s.
Proof.
  intros sched s t. refine (run_keeps (fun t => exists l, log t = l ++ log s) _ sched s t _); [|exists []; reflexivity].
  intros a u v (l & E) H. destruct (step_log a u v H) as [->|(e & ->)]; [exists l; exact E|]. exists (e :: l). rewrite E. reflexivity.
Qed.

(** The mutex, the flag and the queue as the worker's position says. *)
Definition wholds (w : wpc M) : bool := match w with WClear | WPop | WPopDone _ => true | _ => false end.
Definition cholds (c : cpc M) : bool := match c with CPush _ | CUnlock _ | CSize | CSizeUnlock => true | _ => false end.
Definition calm (w : wpc M) : bool :=
  match w with WOff | WTest | WStart | WRun | WStop | WExit | WEnded => true | _ => false end.
Definition has_one (w : wpc M) : bool := match w with WLook2 | WPopLock | WPop => true | _ => false end.
Definition in_order (w : wpc M) : bool := match w with WThrew | WUndefined => false | _ => true end.
Record inv s : Prop := {
  i_worker : mtx s = Some None <-> wholds (worker s) = true;
  i_client : forall i c, nth_error (clients s) i = Some c -> (mtx s = Some (Some i) <-> cholds c = true);
  i_calm : calm (worker s) = true -> running s = false;
  i_loud : forall b, worker s = WSetRunning b -> running s = true;
  i_wait : match worker s with WWait | WDiscard | WUndiscard | WClearLock | WClear | WLook | WLook2 | WPopLock | WPop
             | WPopDone _ | WMessage _ | WStopped => running s = true | _ => True end;
  i_one : has_one (worker s) = true -> queue s <> [];
  i_order : in_order (worker s) = true }.
Lemma inv_init : forall n, inv (init n).
Proof.
  intros n. split; cbn; try easy. intros i c H. apply nth_error_In, repeat_spec in H. subst c. cbn. split; discriminate.
Qed.
Lemma inv_step : chooses select -> forall a s t, inv s -> step a s = Some t -> inv t.
Proof.
  intros C a s t [W Cl Ca Lo Wa On Or] H.
  cases H; try match goal with Ei : nth_error (clients s) _ = Some _ |- _ => pose proof (Cl _ _ Ei) as Ci end;
    repeat match goal with Ew : worker s = _ |- _ => rewrite Ew in *; clear Ew end.
  all: split; cbn in *; try easy.
  all: try lazymatch goal with
       | Cl : (forall i c, nth_error _ i = Some c -> _) |- forall (i : nat) (c : cpc M), nth_error (set_nth _ _ _) _ = _ -> _ =>
           let j := fresh in let d := fresh in let D := fresh in
           intros j d D; apply set_nth_cases in D as [(-> & -> & _)|(N & D)]; [|specialize (Cl j d D)]
       | Cl : (forall i c, nth_error _ i = Some c -> _) |- forall (i : nat) (c : cpc M), nth_error _ _ = _ -> _ =>
           let j := fresh in let d := fresh in let D := fresh in intros j d D; specialize (Cl j d D)
       end.
  all: try solve [cbn in *; intuition congruence].
  all: try solve [exfalso; match goal with E : MsgQueueModel.take _ ?q = None |- _ =>
         refine (take_chosen C q _ E); destruct q; [discriminate|congruence] end].
  - intros _ K. rewrite K in E1. discriminate E1.
  - exfalso. exact (take_chosen C _ (On eq_refl) E1).
  - exfalso. exact (take_chosen C _ (On eq_refl) E1).
  - destruct o; exact Ci.
  - intros _ K. destruct (queue s); discriminate K.
  - destruct (worker s); first [exact Logic.I|congruence].
  - intros b X. specialize (Lo b X). congruence.
  - destruct (worker s); first [exact Logic.I|congruence].
Qed.

(** Messages received are those gone and those in the queue. *)
Lemma kept_step : forall a s t, Permutation (received (log s)) (map fst (gone (log s)) ++ queue s) ->
  step a s = Some t -> Permutation (received (log t)) (map fst (gone (log t)) ++ queue t).
Proof.
  intros a s t P H. cases H; cbn; try exact P.
  - destruct (take_some _ _ _ E2) as [Q _]. rewrite P, map_app, Q, <- app_assoc. reflexivity.
  - destruct (take_some _ _ _ E1) as [Q _]. rewrite P, map_app, Q, <- app_assoc. reflexivity.
  - rewrite P, <- app_assoc. reflexivity.
Qed.
Lemma kept : forall n sched s, run sched (init n) = Some s -> Permutation (received (log s)) (map fst (gone (log s)) ++ queue s).
Proof. intros n sched s. apply (run_keeps _ kept_step). reflexivity. Qed.

(** The worker's position and what its hooks saw. *)
Definition phase_of (w : wpc M) : phase :=
  match w with
  | WOff | WTest | WStart | WEnded | WThrew | WUndefined => Off
  | WPopDone m | WMessage m => Has m
  | WExit => Down
  | _ => Up
  end.
Lemma life_step : chooses select -> forall a s t, inv s /\ life (log s) (phase_of (worker s)) -> step a s = Some t ->
  inv t /\ life (log t) (phase_of (worker t)).
Proof.
  intros C a s t [I L] H. pose proof (inv_step C a s t I H) as J. split; [exact J|]. pose proof (i_order _ J) as O. clear J.
  cases H; cbn in *; try discriminate O; repeat match goal with Ew : worker s = _ |- _ => rewrite Ew in *; clear Ew end;
    cbn in *; try exact L; try (constructor; exact L); try (apply life_other; [reflexivity|exact L]).
Qed.
Lemma alive : chooses select -> forall n sched s, run sched (init n) = Some s -> inv s /\ life (log s) (phase_of (worker s)).
Proof. intros C n sched s. apply (run_keeps _ (life_step C)). split; [apply inv_init|]. apply life_new. Qed.
Lemma no_accident : chooses select -> forall n sched s, run sched (init n) = Some s -> worker s <> WThrew /\ worker s <> WUndefined.
Proof.
  intros C n sched s R. destruct (alive C n sched s R) as [I _]. pose proof (i_order _ I) as O.
  split; intros E; rewrite E in O; discriminate O.
Qed.
Lemma life_processed : forall l p, life l p -> to_process l = processed l ++ match p with Has m => [m] | _ => [] end.
Proof.
  unfold to_process. induction 1; cbn; rewrite ?filter_app, ?map_app; cbn; rewrite ?app_nil_r in *; auto.
  - rewrite IHlife. reflexivity.
  - destruct e; cbn in *; try discriminate; auto.
Qed.

(** The moment of an event: the states before and after it. *)
Lemma moment : forall n sched s, run sched (init n) = Some s -> forall l1 e l2, log s = l1 ++ e :: l2 ->
  exists sched1 s1 a t, run sched1 (init n) = Some s1 /\ log s1 = l2 /\ step a s1 = Some t /\ log t = e :: l2.
Proof.
  intros n sched. induction sched as [|a sched IH] using rev_ind; intros s R l1 e l2 E.
  - injection R as <-. destruct l1; discriminate E.
  - rewrite run_app in R. destruct (run sched (init n)) as [u|] eqn:U; [|discriminate R]. cbn in R.
    destruct (step a u) as [v|] eqn:S; [|discriminate R]. injection R as <-.
    destruct (step_log a u v S) as [K|(e' & K)].
    + rewrite K in E. exact (IH u eq_refl l1 e l2 E).
    + rewrite K in E. destruct l1 as [|e1 l1]; cbn in E; injection E as -> E.
      * exists sched, u, a, v. subst l2. rewrite K. auto.
      * exact (IH u eq_refl l1 e l2 E).
Qed.
(** A queue seen to be empty, or cleared. *)
Lemma seen_empty : forall n sched s l1 e l2, run sched (init n) = Some s -> log s = l1 ++ e :: l2 -> e = SawEmpty \/ e = Cleared ->
  Permutation (received l2) (map fst (gone l2)).
Proof.
  intros n sched s l1 e l2 R E D. destruct (moment n sched s R l1 e l2 E) as (sched1 & s1 & a & t & R1 & <- & S & L).
  pose proof (kept n sched1 s1 R1) as P. replace (queue s1) with (@nil M) in P; [rewrite app_nil_r in P; exact P|].
  cases S; cbn in L; try (exfalso; revert L; clear; intros L; apply (f_equal (@length _)) in L; cbn in L; lia);
    injection L as <-; destruct D as [D|D]; try discriminate D; destruct (queue s1); (reflexivity || discriminate).
Qed.
Lemma size_ok : forall n sched s l1 k l2, run sched (init n) = Some s -> log s = l1 ++ Sized k :: l2 ->
  k + length (gone l2) = length (received l2).
Proof.
  intros n sched s l1 e l2 R E. destruct (moment n sched s R l1 _ l2 E) as (sched1 & s1 & a & t & R1 & <- & S & L).
  pose proof (kept n sched1 s1 R1) as P. apply Permutation_length in P. rewrite app_length, map_length in P.
  cases S; cbn in L; try (exfalso; revert L; clear; intros L; apply (f_equal (@length _)) in L; cbn in L; lia); 
    injection L; intros; try discriminate. lia.
Qed.
Lemma greatest_ok : forall less n sched s l1 m l2, greatest less select -> run sched (init n) = Some s -> log s = l1 ++ Took m :: l2 ->
  exists waiting, Permutation (received l2) (map fst (gone l2) ++ waiting) /\ In m waiting /\
    forall x, In x waiting -> less m x = false.
Proof.
  intros less n sched s l1 m l2 G R E. destruct (moment n sched s R l1 _ l2 E) as (sched1 & s1 & a & t & R1 & <- & S & L).
  pose proof (kept n sched1 s1 R1) as P. exists (queue s1). split; [exact P|].
  cases S; cbn in L; try (exfalso; revert L; clear; intros L; apply (f_equal (@length _)) in L; cbn in L; lia); 
    injection L; intros; try discriminate; subst.
  destruct (take_some _ _ _ E2) as [Q N]. split; [apply (nth_error_In _ _ N)|]. apply G, N.
Qed.

(** The end of the worker, with no discarding. *)
Definition looked l : Prop := exists l1 l2, l = l1 ++ SawEmpty :: l2 /\ Permutation (received l2) (processed l2) /\
  forall e, In e l1 -> quiet e = true.
Definition plain s : Prop := ~ In Discarding (log s) ->
  discard s = false /\ (forall x, In x (gone (log s)) -> snd x = true) /\
  match worker s with
  | WUndiscard | WClearLock | WClear => False
  | WStopped | WSetRunning _ | WStop | WExit | WEnded => looked (log s)
  | WLoop => running s = false -> looked (log s)
  | _ => True
  end.
Lemma looked_more : forall e l, quiet e = true -> looked l -> looked (e :: l).
Proof.
  intros e l Q (l1 & l2 & -> & P & F). exists (e :: l1), l2. split; [reflexivity|]. split; [exact P|].
  intros x [<-|X]; auto.
Qed.
Lemma filter_all : forall {A} (f : A -> bool) (l : list A), (forall x, In x l -> f x = true) -> filter f l = l.
Proof.
  intros A f. induction l as [|x l IH]; intros H; cbn; [reflexivity|]. rewrite (H x (or_introl eq_refl)). f_equal.
  apply IH. intros y Y. apply H. right. exact Y.
Qed.
Lemma plain_step : chooses select -> forall a s t,
  (inv s /\ life (log s) (phase_of (worker s)) /\ Permutation (received (log s)) (map fst (gone (log s)) ++ queue s)) /\ plain s ->
  step a s = Some t ->
  (inv t /\ life (log t) (phase_of (worker t)) /\ Permutation (received (log t)) (map fst (gone (log t)) ++ queue t)) /\ plain t.
Proof.
  intros C a s t [(I & L & P) Pl] H. destruct (life_step C a s t (conj I L) H) as [I' L'].
  split; [split; [exact I'|split; [exact L'|exact (kept_step a s t P H)]]|]. intros D.
  assert (D0 : ~ In Discarding (log s)).
  { destruct (step_log a s t H) as [K|(e & K)]; rewrite K in D; [exact D|]. intros X. apply D. right. exact X. }
  destruct (Pl D0) as (F & G & K). clear Pl.
  cases H; cbn in *; repeat match goal with Ew : worker s = _ |- _ => rewrite Ew in *; clear Ew end; cbn in *;
    try (exfalso; first [exact K|apply D; left; reflexivity|congruence]); (split; [congruence|]);
    (split; [first [exact G|intros x X; apply in_app_or in X as [X|[<-|[]]]; [exact (G x X)|reflexivity]]|]);
    try exact Logic.I; try exact K; try discriminate; try (intros _; exact K); try (apply looked_more; [reflexivity|exact K]);
    try (destruct (worker s); try exact K; try (apply looked_more; [reflexivity|exact K]);
         intros R; apply looked_more; [reflexivity|exact (K R)]).
  - apply K. congruence.
  - exists [], (log s). split; [reflexivity|]. split; [|intros e []].
    rewrite P. replace (queue s) with (@nil M) by (destruct (queue s); (reflexivity || discriminate)).
    rewrite app_nil_r. pose proof (life_processed _ _ L) as T. rewrite app_nil_r in T. rewrite <- T.
    unfold to_process. rewrite (filter_all _ _ G). reflexivity.
  - destruct (worker s); try exact K; try (apply looked_more; [reflexivity|exact K]). intros R. congruence.
  - destruct (worker s); try exact K. intros _. exact (K eq_refl).
Qed.
Definition everything s : Prop :=
  (inv s /\ life (log s) (phase_of (worker s)) /\ Permutation (received (log s)) (map fst (gone (log s)) ++ queue s)) /\ plain s.
Lemma everything_holds : chooses select -> forall n sched s, run sched (init n) = Some s -> everything s.
Proof.
  intros C n sched s. apply (run_keeps _ (plain_step C)). split; [split; [apply inv_init|split; [apply life_new|reflexivity]]|].
  intros _. split; [reflexivity|]. split; [intros x []|exact I].
Qed.
Lemma last_look : chooses select -> forall n sched s, run sched (init n) = Some s -> ~ In Discarding (log s) ->
  worker s = WEnded -> looked (log s).
Proof.
  intros C n sched s R D W. destruct (everything_holds C n sched s R) as [_ P]. destruct (P D) as (_ & _ & K).
  rewrite W in K. exact K.
Qed.

(** stop(), when the worker is not just after its look at the queue. *)
Definition will_look s : bool :=
  match worker s with
  | WStopped | WSetRunning false | WStop | WExit | WEnded | WThrew | WUndefined => false
  | WLoop => running s
  | _ => true
  end.
Definition fresh s : Prop := (stopped s = true -> In Stopped (log s)) /\
  (In Stopped (log s) \/ will_look s = true \/ worker s = WStopped).
Lemma fresh_step : chooses select -> forall a s t, inv s /\ fresh s -> step a s = Some t -> inv t /\ fresh t.
Proof.
  intros C a s t [I [F G]] H. pose proof (inv_step C a s t I H) as J. split; [exact J|]. pose proof (i_order _ J) as O.
  pose proof (i_calm _ I) as Ca. clear J. unfold fresh, will_look in *.
  cases H; cbn in *; try discriminate O; repeat match goal with Ew : worker s = _ |- _ => rewrite Ew in *; clear Ew end; cbn in *;
    (split; [tauto|]); try tauto; try solve [intuition congruence].
  - destruct (stopped s); [left; apply F; reflexivity|right; left; reflexivity].
  - destruct b; [right; left; reflexivity|]. intuition congruence.
  - match goal with E : running s = true |- _ => rewrite E end. clear - G. destruct G as [G|G]; [left; right; exact G|right; exact G].
  - match goal with E : running s = false |- _ => rewrite E end. exact G.
Qed.
Lemma processed_app : forall l l', processed (l ++ l') = processed l' ++ processed l.
Proof.
  induction l as [|e l IH]; intros l'; cbn; [rewrite app_nil_r; reflexivity|]. destruct e; rewrite ?IH, ?app_assoc; reflexivity.
Qed.
Lemma received_app : forall l l', received (l ++ l') = received l' ++ received l.
Proof.
  induction l as [|e l IH]; intros l'; cbn; [rewrite app_nil_r; reflexivity|]. destruct e; rewrite ?IH, ?app_assoc; reflexivity.
Qed.
Definition served l0 s : Prop := exists l, log s = l ++ l0 /\
  (~ In Discarding (log s) -> will_look s = true \/ exists rest, Permutation (processed (log s)) (received l0 ++ rest)).
Lemma served_step : chooses select -> forall l0 a s t, everything s /\ served l0 s -> step a s = Some t -> everything t /\ served l0 t.
Proof.
  intros C l0 a s t [Ev (l & El & Sv)] H. split; [exact (plain_step C a s t Ev H)|].
  assert (X : exists k, log t = k ++ log s /\ (k = [] \/ exists e, k = [e])).
  { destruct (step_log a s t H) as [K|(e & K)]; [exists []|exists [e]]; (split; [exact K|]); eauto. }
  destruct X as (k & Ek & _). exists (k ++ l). split; [rewrite Ek, El, app_assoc; reflexivity|]. intros D.
  assert (D0 : ~ In Discarding (log s)) by (intros Y; apply D; rewrite Ek; apply in_or_app; right; exact Y).
  destruct Ev as [(I & L & P) Pl]. destruct (Pl D0) as (F & G & K).
  destruct (Sv D0) as [W|(rest & Q)].
  2: { right. exists (rest ++ processed k). rewrite Ek, processed_app, Q, app_assoc. reflexivity. }
  pose proof (i_order _ (inv_step C a s t I H)) as O. pose proof (i_calm _ I) as Ca.
  unfold will_look in *. clear Ek.
  cases H; cbn in *; repeat match goal with Ew : worker s = _ |- _ => rewrite Ew in *; clear Ew end; cbn in *; auto; try congruence.
  - right. exists (received l). 
    assert (Z : Permutation (received (log s)) (processed (log s))).
    { rewrite P. replace (queue s) with (@nil M) by (destruct (queue s); (reflexivity || discriminate)).
      rewrite app_nil_r. pose proof (life_processed _ _ L) as T. rewrite app_nil_r in T. rewrite <- T.
      unfold to_process. rewrite (filter_all _ _ G). reflexivity. }
    rewrite <- Z, El, received_app. reflexivity.
  - destruct b; [left; reflexivity|discriminate W].
  - left. match goal with E : running s = true |- _ => rewrite E end. exact W.
  - left. match goal with E : running s = false |- _ => rewrite E end. exact W.
Qed.
Lemma stop_serves : chooses select -> forall n sched1 s i t sched2 u, run sched1 (init n) = Some s ->
  ~ In Stopped (log s) -> worker s <> WStopped -> nth_error (clients s) i = Some CStop -> next i s = Some t ->
  run sched2 t = Some u -> ~ In Discarding (log u) -> worker u = WEnded ->
  exists rest, Permutation (processed (log u)) (received (log s) ++ rest).
Proof.
  intros C n sched1 s i t sched2 u R1 Fs Ws Ci N R2 D W.
  assert (Fr : inv s /\ fresh s).
  { revert R1. apply (run_keeps _ (fresh_step C)). split; [apply inv_init|]. split; [intros K; discriminate K|]. right. left. reflexivity. }
  destruct Fr as [_ [_ [K|[K|K]]]]; [contradiction| |contradiction].
  pose proof (everything_holds C n sched1 s R1) as Ev.
  assert (V : everything u /\ served (log s) u).
  { refine (run_keeps _ (served_step C (log s)) (Next i :: sched2) s u _ _).
    - split; [exact Ev|]. exists []. split; [reflexivity|]. intros _. left. exact K.
    - cbn. rewrite N. exact R2. }
  destruct V as [_ (l & El & Z)]. destruct (Z D) as [Y|Y]; [|exact Y]. unfold will_look in Y. rewrite W in Y. discriminate Y.
Qed.

(** Discarding. *)
Definition clearing l : Prop := exists l3 l4, l = l3 ++ ClearBegin :: l4 /\ In Discarding l4 /\ forall e, In e l3 -> e <> Cleared /\ is_took e = false.
Definition due s : Prop :=
  count is_clear (log s) + (if discard s then 1 else 0) <= count is_discarding (log s) /\
  match worker s with WUndiscard => discard s = true | WClearLock | WClear => clearing (log s) | _ => True end.
Lemma clearing_more : forall e l, e <> Cleared -> is_took e = false -> clearing l -> clearing (e :: l).
Proof.
  intros e l N T (l3 & l4 & -> & D & F). exists (e :: l3), l4. split; [reflexivity|]. split; [exact D|].
  intros x [<-|X]; auto.
Qed.
Lemma count_in : forall l, 0 < count is_discarding l -> In Discarding l.
Proof.
  intros l. induction l as [|e l IH]; unfold count in *; cbn; [lia|]. destruct e; cbn; auto.
Qed.
Lemma due_step : forall a s t, due s -> step a s = Some t -> due t.
Proof.
  intros a s t [Cn W] H. unfold due, count in *.
  cases H; cbn in *; repeat match goal with Ew : worker s = _ |- _ => rewrite Ew in *; clear Ew end; cbn in *;
    repeat match goal with Ed : discard s = _ |- _ => rewrite Ed in * end;
    (split; [lia|]); try exact W; try exact Logic.I; try assumption; try reflexivity;
    try (destruct (worker s); first [exact W|reflexivity|apply clearing_more; [discriminate|reflexivity|exact W]]);
    try (apply clearing_more; [discriminate|reflexivity|exact W]).
  exists [], (log s). split; [reflexivity|]. split; [|intros e []]. apply count_in. unfold count. lia.
Qed.
Lemma due_holds : forall n sched s, run sched (init n) = Some s -> due s.
Proof. intros n sched s. apply (run_keeps _ due_step). split; [reflexivity|exact I]. Qed.
Lemma dropped_ok : forall n sched s l1 m l2, run sched (init n) = Some s -> log s = l1 ++ Dropped m :: l2 -> clearing l2.
Proof.
  intros n sched s l1 m l2 R E. destruct (moment n sched s R l1 _ l2 E) as (sched1 & s1 & a & t & R1 & <- & S & L).
  destruct (due_holds n sched1 s1 R1) as [_ W].
  cases S; cbn in L; try (exfalso; revert L; clear; intros L; apply (f_equal (@length _)) in L; cbn in L; lia);
    try discriminate L. exact W.
Qed.
Definition prompt l0 s : Prop := exists l, log s = l ++ l0 /\ (count is_clear l = 0 -> discard s = true /\
  count is_took l + match worker s with WPopLock | WPop => 1 | _ => 0 end <= 1).
Lemma prompt_step : forall l0 a s t, prompt l0 s -> step a s = Some t -> prompt l0 t.
Proof.
  intros l0 a s t (l & El & Pr) H.
  destruct (step_log a s t H) as [K|(e & K)].
  - exists l. split; [rewrite K; exact El|]. intros Z. destruct (Pr Z) as [D B].
    cases H; cbn in *; try (exfalso; revert K; clear; intros L; apply (f_equal (@length _)) in L; cbn in L; lia); repeat match goal with Ew : worker s = _ |- _ => rewrite Ew in *; clear Ew end; cbn in *;
    try discriminate; try congruence; (split; [congruence|]); lia.
  - exists (e :: l). split; [rewrite K, El; reflexivity|].
    assert (Z0 : count is_clear (e :: l) = 0 -> is_clear e = false /\ count is_clear l = 0).
    { unfold count. cbn. destruct (is_clear e); cbn; [discriminate|auto]. }
    intros Z. destruct (Z0 Z) as [Z1 Z2]. destruct (Pr Z2) as [D B]. clear Z0 Z Z2 Pr.
    cases H; cbn in K; try (exfalso; revert K; clear; intros L; apply (f_equal (@length _)) in L; cbn in L; lia);
    injection K; intros; subst e; try discriminate; unfold count in *; cbn in *;
    repeat match goal with Ew : worker s = _ |- _ => rewrite Ew in *; clear Ew end; cbn in *;
    try discriminate; try congruence; (split; [congruence|]); lia.
Qed.
Lemma discard_prompt : forall s i t sched u l, nth_error (clients s) i = Some CDiscard -> next i s = Some t ->
  run sched t = Some u -> log u = l ++ log t -> count is_clear l = 0 -> count is_took l <= 1.
Proof.
  intros s i t sched u l Ci N R El Z.
  assert (P : prompt (log t) u).
  { revert R. apply (run_keeps _ (prompt_step (log t))). exists []. split; [reflexivity|]. intros _.
    unfold next in N. rewrite Ci in N. injection N as <-. cbn. split; [reflexivity|]. destruct (worker s); lia. }
  destruct P as (l' & El' & P). rewrite El in El'. apply app_inv_tail in El'. subst l'. destruct (P Z) as [_ B]. lia.
Qed.

(** Hooks. *)
Lemma life_between : forall l p, life l p -> match p with Up | Has _ => True | _ => False end ->
  exists l3 l4, l = l3 ++ OnStart :: l4 /\ life l4 Off /\ forall e, In e l3 -> e <> OnStart /\ e <> OnStop /\ e <> Ended.
Proof.
  induction 1; intros U; try destruct U.
  1: { exists [], l. split; [reflexivity|]. split; [exact H|]. intros e []. }
  all: destruct IHlife as (l3 & l4 & -> & L4 & F); [try exact Logic.I; assumption|];
    match goal with |- context [?x :: l3 ++ OnStart :: l4] => exists (x :: l3), l4 end;
    (split; [reflexivity|]); (split; [exact L4|]); intros e' [<-|X]; [|exact (F e' X)]; repeat split; try discriminate;
    try (intros ->; discriminate).
Qed.
Lemma life_inv_message : forall m l p, life (OnMessage m :: l) p -> life l (Has m).
Proof. intros m l p H. inversion H; subst; [assumption|discriminate]. Qed.
Lemma message_between : chooses select -> forall n sched s l1 m l2, run sched (init n) = Some s -> log s = l1 ++ OnMessage m :: l2 ->
  exists l3 l4, l2 = l3 ++ OnStart :: l4 /\ forall e, In e l3 -> e <> OnStart /\ e <> OnStop /\ e <> Ended.
Proof.
  intros C n sched s l1 m l2 R E.
  destruct (moment n sched s R l1 _ l2 E) as (sched1 & s1 & a & t & R1 & El & S & L).
  destruct (alive C n (sched1 ++ [a]) t) as [_ Lt].
  { rewrite run_app, R1. cbn. rewrite S. reflexivity. }
  rewrite L in Lt. apply life_inv_message in Lt. destruct (life_between _ _ Lt Logic.I) as (l3 & l4 & -> & _ & F).
  exists l3, l4. auto.
Qed.
Lemma life_counts : forall l p, life l p -> count is_start l = count is_stop l + match p with Up | Has _ => 1 | _ => 0 end.
Proof.
  unfold count. induction 1; cbn; try lia. destruct e; cbn in *; try discriminate; exact IHlife.
Qed.
Lemma hook_counts : chooses select -> forall n sched s, run sched (init n) = Some s ->
  count is_stop (log s) <= count is_start (log s) <= count is_stop (log s) + 1.
Proof.
  intros C n sched s R. destruct (alive C n sched s R) as [_ L]. apply life_counts in L.
  destruct (phase_of (worker s)); lia.
Qed.
Lemma processed_ok : chooses select -> forall n sched s, run sched (init n) = Some s ->
  exists pending, to_process (log s) = processed (log s) ++ pending /\ length pending <= 1.
Proof.
  intros C n sched s R. destruct (alive C n sched s R) as [_ L]. rewrite (life_processed _ _ L). eexists. split; [reflexivity|].
  destruct (phase_of (worker s)); cbn; lia.
Qed.

(** Data races. *)
Lemma races : chooses select -> forall n sched s i c, run sched (init n) = Some s -> nth_error (clients s) i = Some c ->
  (conflict (waccesses (worker s)) (caccesses c) ->
     c = CRunning \/ c = CRunning2 \/ (exists m, c = CPush m) /\ (worker s = WWait \/ worker s = WLook)) /\
  (forall j d, nth_error (clients s) j = Some d -> i <> j -> ~ conflict (caccesses c) (caccesses d)).
Proof.
  intros C n sched s i c R Ci. destruct (alive C n sched s R) as [I _]. split.
  - intros (x & a & b & A & B & O). pose proof (i_worker _ I) as W. pose proof (i_client _ I i c Ci) as K.
    destruct c; cbn in B; try contradiction; destruct B as [B|[]]; injection B as <- <-; auto; right; right;
    destruct (worker s) eqn:E; cbn in *; try contradiction; destruct A as [A|[]]; try discriminate A; injection A as <-; try discriminate O; eauto;
    exfalso; intuition congruence.
  - intros j d Dj N (x & a & b & A & B & O). pose proof (i_client _ I i c Ci) as K. pose proof (i_client _ I j d Dj) as K'.
    destruct c; cbn in A; try contradiction; destruct A as [A|[]]; injection A as <- <-;
      destruct d; cbn in B; try contradiction; destruct B as [B|[]]; try discriminate B; injection B as <-;
      try discriminate O; cbn in *; intuition congruence.
Qed.

(** Progress of the worker after stop(). *)
Definition ends s : Prop := exists k t, run (repeat Work k) s = Some t /\ worker t = WEnded.
Lemma ends_back : forall s t, work select s = Some t -> ends t -> ends s.
Proof. intros s t W (k & u & R & E). exists (S k), u. split; [|exact E]. cbn. rewrite W. exact R. Qed.
Lemma ends_leaving : forall s, match worker s with WStop | WExit | WEnded => True | WLoop | WSetRunning _ => False
    | WStopped => stopped s = true | _ => False end \/ (worker s = WLoop /\ running s = false) \/ worker s = WSetRunning false -> ends s.
Proof.
  assert (A : forall s, worker s = WEnded -> ends s) by (intros s E; exists 0, s; split; [reflexivity|exact E]).
  assert (B : forall s, worker s = WExit -> ends s).
  { intros s E. eapply ends_back; [unfold work; rewrite E; reflexivity|]. apply A. reflexivity. }
  assert (D : forall s, worker s = WStop -> ends s).
  { intros s E. eapply ends_back; [unfold work; rewrite E; reflexivity|]. apply B. reflexivity. }
  assert (F : forall s, worker s = WLoop -> running s = false -> ends s).
  { intros s E Q. eapply ends_back; [unfold work; rewrite E, Q; reflexivity|]. apply D. reflexivity. }
  assert (G : forall s, worker s = WSetRunning false -> ends s).
  { intros s E. eapply ends_back; [unfold work; rewrite E; reflexivity|]. apply F; reflexivity. }
  intros s [H|[[H Q]|H]]; [|apply F; assumption|apply G; assumption].
  destruct (worker s) eqn:E; try contradiction; auto.
  eapply ends_back; [unfold work; rewrite E, H; reflexivity|]. apply G. reflexivity.
Qed.
Lemma ends_stopped : forall s, worker s = WStopped -> stopped s = true -> ends s.
Proof. intros s W S. apply ends_leaving. left. rewrite W. exact S. Qed.
Lemma ends_clear : chooses select -> forall k s, length (queue s) <= k -> worker s = WClear -> stopped s = true -> ends s.
Proof.
  intros C. induction k as [|k IH]; intros s L W S.
  - eapply ends_back; [unfold work; rewrite W; destruct (queue s); [reflexivity|cbn in L; lia]|]. apply ends_stopped; [reflexivity|exact S].
  - destruct (queue s) as [|x q] eqn:Q.
    + eapply ends_back; [unfold work; rewrite W, Q; reflexivity|]. apply ends_stopped; [reflexivity|exact S].
    + pose proof (take_chosen C (queue s)) as T. rewrite Q in T. destruct (take (x :: q)) as [[m q']|] eqn:E; [|exfalso; apply T; [discriminate|reflexivity]].
      eapply ends_back; [unfold work; rewrite W, Q, E; reflexivity|]. destruct (take_some _ _ _ E) as [P _]. apply Permutation_length in P.
      apply IH; [cbn in *; lia|reflexivity|exact S].
Qed.
Lemma ends_clearlock : chooses select -> forall s, worker s = WClearLock -> mtx s = None -> stopped s = true -> ends s.
Proof.
  intros C s W X S. eapply ends_back; [unfold work, acquire; rewrite W, X; reflexivity|]. eapply ends_clear; [exact C|reflexivity|reflexivity|exact S].
Qed.
Lemma ends_look : chooses select -> forall k s, length (queue s) <= k -> worker s = WLook -> mtx s = None -> stopped s = true -> ends s.
Proof.
  intros C. induction k as [|k IH]; intros s L W X S.
  - eapply ends_back; [unfold work; rewrite W; destruct (queue s); [reflexivity|cbn in L; lia]|]. apply ends_stopped; [reflexivity|exact S].
  - destruct (queue s) as [|x q] eqn:Q.
    + eapply ends_back; [unfold work; rewrite W, Q; reflexivity|]. apply ends_stopped; [reflexivity|exact S].
    + eapply ends_back; [unfold work; rewrite W, Q; reflexivity|].
      destruct (discard s) eqn:D.
      { eapply ends_back; [unfold work; cbn; rewrite D; reflexivity|]. apply ends_stopped; [reflexivity|exact S]. }
      eapply ends_back; [unfold work; cbn; rewrite D; reflexivity|].
      eapply ends_back; [unfold work, acquire; cbn; rewrite X; reflexivity|].
      pose proof (take_chosen C (queue s)) as T. rewrite Q in T. destruct (take (x :: q)) as [[m q']|] eqn:E; [|exfalso; apply T; [discriminate|reflexivity]].
      destruct (take_some _ _ _ E) as [P _]. apply Permutation_length in P.
      eapply ends_back; [unfold work; cbn; rewrite Q, E; reflexivity|].
      eapply ends_back; [unfold work; cbn; reflexivity|].
      eapply ends_back; [unfold work; cbn; reflexivity|].
      apply IH; [cbn in *; lia|reflexivity|reflexivity|exact S].
Qed.
Lemma stop_ends_inv : chooses select -> forall s, inv s -> stopped s = true ->
  (forall i, mtx s <> Some (Some i)) -> worker s <> WOff -> ends s.
Proof.
  intros C s I S X Wo.
  destruct I as [W _ Ca Lo Wa On Or].
  assert (L1 : forall s, worker s = WLook -> mtx s = None -> stopped s = true -> ends s) by (intros; eapply ends_look; eauto).
  assert (L2 : forall s, worker s = WDiscard -> mtx s = None -> stopped s = true -> ends s).
  { clear - L1 C. intros s W X S. destruct (discard s) eqn:D.
    - eapply ends_back; [unfold work; cbn; rewrite W, D; reflexivity|].
      eapply ends_back; [unfold work; cbn; reflexivity|]. apply ends_clearlock; auto.
    - eapply ends_back; [unfold work; cbn; rewrite W, D; reflexivity|]. apply L1; auto. }
  assert (L3 : forall s, worker s = WLoop -> mtx s = None -> stopped s = true -> ends s).
  { clear - L2. intros s W X S. destruct (running s) eqn:D.
    - eapply ends_back; [unfold work; cbn; rewrite W, D; reflexivity|].
      eapply ends_back; [unfold work; cbn; reflexivity|]. apply L2; auto.
    - apply ends_leaving. auto. }
  assert (L4 : forall s m, worker s = WPopDone m -> stopped s = true -> ends s).
  { clear - L1. intros s m W S.
    eapply ends_back; [unfold work; cbn; rewrite W; reflexivity|].
    eapply ends_back; [unfold work; cbn; reflexivity|]. apply L1; auto. }
  assert (L5 : forall s, worker s = WPop -> queue s <> [] -> stopped s = true -> ends s).
  { clear - L4 C. intros s W Q S. pose proof (take_chosen C (queue s) Q) as T. destruct (take (queue s)) as [[m q']|] eqn:E; [|congruence].
    eapply ends_back; [unfold work; cbn; rewrite W, E; reflexivity|]. eapply L4; [reflexivity|exact S]. }
  assert (L6 : forall s, worker s = WPopLock -> mtx s = None -> queue s <> [] -> stopped s = true -> ends s).
  { clear - L5. intros s W X Q S. eapply ends_back; [unfold work, acquire; cbn; rewrite W, X; reflexivity|]. apply L5; auto. }
  assert (Xn : wholds (worker s) = false -> mtx s = None).
  { intros K. destruct (mtx s) as [[i|]|] eqn:E; [destruct (X i eq_refl)| |reflexivity]. rewrite (proj1 W eq_refl) in K. discriminate K. }
  clear W X Lo. destruct (worker s) eqn:E; cbn in *; try congruence; try discriminate Or; try specialize (Xn eq_refl); try specialize (Ca eq_refl);
    try specialize (On eq_refl); auto;
    try (apply ends_leaving; rewrite ?E; auto; fail).
  - (* WTest *) eapply ends_back; [unfold work; cbn; rewrite E, Ca; reflexivity|].
    eapply ends_back; [unfold work; cbn; reflexivity|].
    eapply ends_back; [unfold work; cbn; reflexivity|]. apply L3; auto.
  - eapply ends_back; [unfold work; cbn; rewrite E; reflexivity|].
    eapply ends_back; [unfold work; cbn; reflexivity|]. apply L3; auto.
  - eapply ends_back; [unfold work; cbn; rewrite E; reflexivity|]. apply L3; auto.
  - eapply ends_back; [unfold work; cbn; rewrite E; reflexivity|]. apply L2; auto.
  - eapply ends_back; [unfold work; cbn; rewrite E; reflexivity|]. apply ends_clearlock; auto.
  - apply ends_clearlock; auto.
  - eapply ends_clear; [exact C|reflexivity|exact E|exact S].
  - destruct (discard s) eqn:D.
    + eapply ends_back; [unfold work; cbn; rewrite E, D; reflexivity|]. apply ends_stopped; auto.
    + eapply ends_back; [unfold work; cbn; rewrite E, D; reflexivity|]. apply L6; auto.
  - eapply L4; eauto.
  - eapply ends_back; [unfold work; cbn; rewrite E; reflexivity|]. apply L1; auto.
  - eapply ends_back; [unfold work; cbn; rewrite E; reflexivity|]. apply L3; auto.
Qed.
Lemma stop_ends : chooses select -> forall n sched s, run sched (init n) = Some s -> stopped s = true ->
  (forall i, mtx s <> Some (Some i)) -> worker s <> WOff -> ends s.
Proof. intros C n sched s R. exact (stop_ends_inv C s (proj1 (alive C n sched s R))). Qed.
(** is_running(). *)
Definition busy (w : wpc M) : bool := match w with WOff | WEnded => false | _ => true end.
Lemma on_step : forall a s t, on (log s) = busy (worker s) /\ active s = busy (worker s) -> step a s = Some t ->
  on (log t) = busy (worker t) /\ active t = busy (worker t).
Proof.
  intros a s t [O A] H.
  cases H; cbn in *; repeat match goal with Ew : worker s = _ |- _ => rewrite Ew in *; clear Ew end; cbn in *; auto.
Qed.
Lemma on_run : forall n sched s, run sched (init n) = Some s -> on (log s) = busy (worker s) /\ active s = busy (worker s).
Proof. intros n sched s. apply (run_keeps _ on_step). split; reflexivity. Qed.
Lemma said_running : chooses select -> forall n sched s l1 i b l2, run sched (init n) = Some s -> log s = l1 ++ SaidRunning i b :: l2 ->
  b = on l2.
Proof.
  intros C n sched s l1 i b l2 R E. destruct (moment n sched s R _ _ _ E) as (sched1 & u & a & t & R1 & <- & S & L).
  destruct (on_run n sched1 u R1) as [O A]. destruct (alive C n sched1 u R1) as [I _]. pose proof (i_calm _ I) as Ca.
  rewrite O. cases S; cbn in L; try (exfalso; revert L; clear; intros L; apply (f_equal (@length _)) in L; cbn in L; lia); try discriminate L.
  - injection L as _ <-. destruct (worker u); try reflexivity; discriminate (Ca eq_refl).
  - injection L as _ <-. exact A.
Qed.

(** A queue started after stop(). *)
Definition passing (w : wpc M) : nat :=
  match w with WStopped | WSetRunning _ | WStop | WExit | WEnded | WOff => 1 | _ => 0 end.
Definition again s : Prop := (In Stopped (log s) -> stopped s = true) /\
  forall l l0, log s = l ++ Begun :: l0 -> count is_begun l = 0 -> In Stopped l0 ->
  match worker s with
  | WLoop => count is_pass l = (if running s then 0 else 1)
  | WSetRunning b => b = false /\ count is_pass l = 1
  | w => count is_pass l = passing w
  end.
Lemma again_step : forall a s t, again s -> step a s = Some t -> again t.
Proof.
  intros a s t [S P] H. split.
  - clear P. cases H; cbn in *; try exact S; try (intros [X|X]; [discriminate X|exact (S X)]); reflexivity.
  - intros l l0 E B St.
    assert (X : log t = log s /\ log s = l ++ Begun :: l0 \/ log t = Begun :: log s /\ l = [] /\ l0 = log s \/
      exists e l1, log t = e :: log s /\ l = e :: l1 /\ log s = l1 ++ Begun :: l0).
    { destruct (step_log a s t H) as [K|(e & K)]; [left; split; congruence|right]. rewrite K in E. destruct l as [|e1 l1].
      - left. injection E as Ee E0. rewrite <- E0, <- Ee. split; [exact K|split; reflexivity].
      - right. injection E as -> E. exists e1, l1. split; [exact K|split; [reflexivity|exact E]]. }
    assert (S1 : stopped s = true).
    { apply S. destruct X as [[_ X]|[(_ & _ & <-)|(e & l1 & _ & _ & X)]]; [|exact St|]; rewrite X; apply in_or_app; right; right; exact St. }
    clear S. destruct X as [[K X]|[(K & -> & ->)|(e & l1 & K & -> & X)]].
    + specialize (P l l0 X B St). cases H; cbn in *; try (exfalso; revert K; clear; intros K; apply (f_equal (@length _)) in K; cbn in K; lia);
        repeat match goal with Ew : worker s = _ |- _ => rewrite Ew in *; clear Ew end; cbn in *; try exact P;
        try (match goal with Er : running s = _ |- _ => rewrite ?Er in * end; exact P).
      * rewrite S1. split; [reflexivity|exact P].
      * destruct P as [-> P]. exact P.
    + cases H; cbn in K; try (exfalso; revert K; clear; intros K; apply (f_equal (@length _)) in K; cbn in K; lia); try discriminate K. reflexivity.
    + assert (B1 : count is_begun l1 = 0) by (unfold count in *; cbn in B; destruct (is_begun e); [discriminate B|exact B]).
      specialize (P l1 l0 X B1 St).
      cases H; cbn in *; try (exfalso; revert K; clear; intros K; apply (f_equal (@length _)) in K; cbn in K; lia);
        injection K as <-; unfold count in *; cbn in *; try discriminate B;
        repeat match goal with Ew : worker s = _ |- _ => rewrite Ew in *; clear Ew end; cbn in *; try exact P; try (rewrite P; reflexivity);
        match goal with Er : running s = _ |- _ => rewrite ?Er in * end; exact P.
Qed.
Lemma again_run : forall n sched s, run sched (init n) = Some s -> again s.
Proof. intros n sched s. apply (run_keeps _ again_step). split; [intros []|]. intros l l0 E. destruct l; discriminate E. Qed.
Lemma one_pass : forall n sched s l l0, run sched (init n) = Some s -> log s = l ++ Begun :: l0 -> count is_begun l = 0 -> In Stopped l0 ->
  count is_pass l <= 1 /\ (on (log s) = false -> count is_pass l = 1).
Proof.
  intros n sched s l l0 R E B St. pose proof (proj2 (again_run n sched s R) l l0 E B St) as P. rewrite (proj1 (on_run n sched s R)).
  destruct (worker s); cbn in *; try (split; [lia|intros X; first [discriminate X|exact P]]).
  - destruct (running s); (split; [lia|discriminate]).
Qed.
Lemma no_more : forall n sched s l1 m l2 l0, run sched (init n) = Some s -> log s = l1 ++ Took m :: l2 ++ Begun :: l0 -> count is_begun l2 = 0 ->
  In Stopped l0 -> count is_pass l2 = 0.
Proof.
  intros n sched s l1 m l2 l0 R E B St. destruct (moment n sched s R _ _ _ E) as (sched1 & u & a & t & R1 & E1 & S & L).
  pose proof (proj2 (again_run n sched1 u R1) l2 l0 E1 B St) as P. rewrite <- E1 in L.
  cases S; cbn in L; try (exfalso; revert L; clear; intros L; apply (f_equal (@length _)) in L; cbn in L; lia); try discriminate L.
  exact P.
Qed.
Lemma clients_length : forall n sched s, run sched (init n) = Some s -> length (clients s) = n.
Proof.
  intros n sched s. apply (run_keeps (fun s => length (clients s) = n)); [|apply repeat_length].
  intros a u v L H. cases H; cbn; rewrite ?set_nth_length; exact L.
Qed.
Definition holder s : Prop := forall i, mtx s = Some (Some i) -> exists c, nth_error (clients s) i = Some c.
Lemma holder_step : forall a s t, holder s -> step a s = Some t -> holder t.
Proof.
  intros a s t D H j X.
  assert (Len : length (clients t) = length (clients s)) by (clear D X; cases H; cbn; rewrite ?set_nth_length; reflexivity).
  assert (K : mtx s = Some (Some j) \/ exists c, nth_error (clients s) j = Some c).
  { cases H; cbn in X; try (left; exact X); try discriminate X; try (injection X as <-; right; eexists; eassumption). }
  assert (Y : nth_error (clients s) j <> None) by (destruct K as [K|(c & K)]; [destruct (D j K) as (c & ->)|rewrite K]; discriminate).
  apply nth_error_Some in Y. rewrite <- Len in Y. apply nth_error_Some in Y. destruct (nth_error (clients t) j) as [c|]; [eexists; reflexivity|congruence].
Qed.
Lemma holder_run : forall n sched s, run sched (init n) = Some s -> holder s.
Proof. intros n sched s. apply (run_keeps _ holder_step). intros j X. discriminate X. Qed.
Lemma mutex_released : chooses select -> forall n sched s i, run sched (init n) = Some s -> mtx s = Some (Some i) ->
  exists k t, k <= 2 /\ run (repeat (Next i) k) s = Some t /\ mtx t = None.
Proof.
  intros C n sched s i R X. destruct (holder_run n sched s R i X) as (c & E).
  destruct (alive C n sched s R) as [I _]. pose proof (proj1 (i_client _ I i c E) X) as H.
  destruct c; try discriminate H.
  - exists 2. eexists. split; [lia|]. cbn [repeat MsgQueueModel.run MsgQueueModel.step]. unfold next. rewrite E.
    cbn [clients note cgo set_queue]. rewrite (set_nth_same _ _ _ _ E). split; reflexivity.
  - exists 1. eexists. split; [lia|]. cbn [repeat MsgQueueModel.run MsgQueueModel.step]. unfold next. rewrite E. split; reflexivity.
  - exists 2. eexists. split; [lia|]. cbn [repeat MsgQueueModel.run MsgQueueModel.step]. unfold next. rewrite E.
    cbn [clients note cgo set_queue]. rewrite (set_nth_same _ _ _ _ E). split; reflexivity.
  - exists 1. eexists. split; [lia|]. cbn [repeat MsgQueueModel.run MsgQueueModel.step]. unfold next. rewrite E. split; reflexivity.
Qed.
End Queue.

(** The std::queue. *)
Lemma fifo_chooses : forall {M}, chooses (@fifo M).
Proof. intros M [|x q] N; [congruence|]. unfold fifo. cbn. lia. Qed.
Lemma fifo_kept : forall {M} n sched (s : state M), run fifo sched (init n) = Some s ->
  received (log s) = map fst (gone (log s)) ++ queue s.
Proof.
  intros M n sched s. apply (run_keeps fifo (fun s => received (log s) = map fst (gone (log s)) ++ queue s)); [|reflexivity].
  intros a u v P H.
  assert (T : forall q (m : M) q', MsgQueueModel.take fifo q = Some (m, q') -> q = m :: q').
  { intros [|x q] m q' E; [discriminate E|]. injection E as <- <-. reflexivity. }
  unfold step, start, join, work, begin, next, acquire, option_map in H;
    repeat match type of H with
    | context [match ?x with _ => _ end] =>
        lazymatch x with context [match _ with _ => _ end] => fail | _ => let E := fresh "E" in destruct x eqn:E end
    end; try discriminate H; injection H as <-; cbn; try exact P.
  - rewrite P, map_app, (T _ _ _ E2), <- app_assoc. reflexivity.
  - rewrite P, map_app, (T _ _ _ E1), <- app_assoc. reflexivity.
  - rewrite P, <- app_assoc. reflexivity.
Qed.
Lemma fifo_no_discard : forall {M} n sched (s : state M), run fifo sched (init n) = Some s -> ~ In Discarding (log s) ->
  exists pending, received (log s) = processed (log s) ++ pending ++ queue s /\ length pending <= 1.
Proof.
  intros M n sched s R D. destruct (everything_holds fifo fifo_chooses n sched s R) as [_ P]. destruct (P D) as (_ & G & _).
  destruct (processed_ok fifo fifo_chooses n sched s R) as (p & E & L). exists p. split; [|exact L].
  rewrite (fifo_kept n sched s R), app_assoc, <- E. unfold to_process. rewrite (filter_all _ _ G). reflexivity.
Qed.
