(** Proofs about the model of timer.h. *)
Require Import List Arith ZArith Lia Bool.
Require Import Verif.Base Verif.TimerModel Verif.TimerSpec.
Import ListNotations.
Local Open Scope Z_scope.

Lemma set_nth_same : forall {A} (l : list A) i x y, nth_error l i = Some x -> nth_error (set_nth l i y) i = Some y.
Proof. intros. apply nth_error_set_nth_eq. apply nth_error_Some. congruence. Qed.
Lemma set_nth_cases : forall {A} (l : list A) i x j y, nth_error (set_nth l i x) j = Some y ->
  (j = i /\ y = x /\ (i < length l)%nat) \/ (j <> i /\ nth_error l j = Some y).
Proof.
  intros A l i x j y H. destruct (Nat.eq_dec j i) as [->|N].
  - left. destruct (nth_error l i) eqn:E.
    + rewrite (set_nth_same _ _ _ x E) in H. injection H as <-. split; [|split]; auto. apply nth_error_Some. congruence.
    + apply nth_error_None in E. exfalso. assert (L : (i < length (set_nth l i x))%nat) by (apply nth_error_Some; congruence).
      rewrite set_nth_length in L. lia.
  - right. split; [exact N|]. rewrite nth_error_set_nth_neq in H by congruence. exact H.
Qed.
Lemma run_app : forall sched1 sched2 s, run (sched1 ++ sched2) s =
  match run sched1 s with Some t => run sched2 t | None => None end.
Proof. induction sched1 as [|a sched1 IH]; intros sched2 s; cbn; [reflexivity|]. destruct (step a s); [apply IH|reflexivity]. Qed.
Lemma run_keeps : forall (P : state -> Prop), (forall a s t, P s -> step a s = Some t -> P t) ->
  forall sched s t, P s -> run sched s = Some t -> P t.
Proof.
  intros P K. induction sched as [|a sched IH]; intros s t I R; cbn in R; [injection R as <-; exact I|].
  destruct (step a s) as [u|] eqn:E; [|discriminate R]. exact (IH u t (K a s u I E) R).
Qed.
(** Taking a step apart. *)
Ltac cases H := unfold step, start, work, wake, result, begin, next, joined, acquire, option_map in H;
    repeat match type of H with
    | context [match ?x with _ => _ end] =>
        lazymatch x with context [match _ with _ => _ end] => fail | _ => let E := fresh "E" in destruct x eqn:E end
    end; try discriminate H; injection H as <-.
Lemma step_log : forall a s t, step a s = Some t -> log t = log s \/ exists e, log t = e :: log s.
Proof. intros a s t H. cases H; cbn; first [left; reflexivity|right; eexists; reflexivity]. Qed.
Lemma run_log : forall sched s t, run sched s = Some t -> exists l, log t = l ++ log s.
Proof.
  intros sched s t. refine (run_keeps (fun t => exists l, log t = l ++ log s) _ sched s t _); [|exists []; reflexivity].
  intros a u v (l & E) H. destruct (step_log a u v H) as [->|(e & ->)]; [exists l; exact E|]. exists (e :: l). rewrite E. reflexivity.
Qed.
Lemma moment : forall k n t0 sched s, run sched (init k n t0) = Some s -> forall l1 e l2, log s = l1 ++ e :: l2 ->
  exists sched1 s1 a t, run sched1 (init k n t0) = Some s1 /\ log s1 = l2 /\ step a s1 = Some t /\ log t = e :: l2.
Proof.
  intros k n t0 sched. induction sched as [|a sched IH] using rev_ind; intros s R l1 e l2 E.
  - injection R as <-. destruct l1; discriminate E.
  - rewrite run_app in R. destruct (run sched (init k n t0)) as [u|] eqn:U; [|discriminate R]. cbn in R.
    destruct (step a u) as [v|] eqn:S; [|discriminate R]. injection R as <-.
    destruct (step_log a u v S) as [K|(e' & K)].
    + rewrite K in E. exact (IH u eq_refl l1 e l2 E).
    + rewrite K in E. destruct l1 as [|e1 l1]; cbn in E; injection E as -> E.
      * exists sched, u, a, v. subst l2. rewrite K. auto.
      * exact (IH u eq_refl l1 e l2 E).
Qed.

(** The mutex. *)
Definition wholds (w : wpc) : bool :=
  match w with
  | TStart | TWait | TAwake _ | TDecide _ | TCall | TCallback | TForced | TAnd | TAnd2 _ | TRestart | TElapsed | TMin
  | TReset | TUnlock | TStop => true
  | _ => false
  end.
Definition cholds (c : cpc) : bool := match c with DMark | DUnlock => true | _ => false end.
Record owned (s : state) : Prop := {
  o_worker : worker s = TUndefined \/ (mtx s = Some None <-> wholds (worker s) = true);
  o_client : forall i c, nth_error (clients s) i = Some c -> (mtx s = Some (Some i) <-> cholds c = true) }.

(** The code last returned, in [ret]. *)
Definition coded (s : state) : Prop :=
  match worker s with
  | TOff | TEnded | TUndefined => True
  | TInit => last_code (log s) = 0
  | TStartLock | TStart | TSetRunning | TStamp
  | TLock | TWait | TSleep _ | TAwake _ | TDecide _ | TCall | TCallback | TElapsed | TMin => ret s = 0 /\ last_code (log s) = 0
  | TLoop | TReset | TUnlock | TRestart => ret s = last_code (log s) /\ (running s = true -> ret s = 0)
  | TForced | TAnd | TAnd2 _ | TStopLock | TStop | TReturn => ret s = last_code (log s)
  end.
Lemma coded_step : forall a s t, coded s -> step a s = Some t -> coded t.
Proof.
  intros a s t C H. unfold coded in *.
  cases H; cbn in *; repeat match goal with Ew : worker s = _ |- _ => rewrite Ew in *; clear Ew end; cbn in *;
    try (intuition congruence); try (destruct (worker s); intuition congruence).
  split; [exact C|]. intros B. apply andb_true_iff in B as [_ B]. apply Z.eqb_eq, B.
Qed.
Lemma coded_run : forall k n t0 sched s, run sched (init k n t0) = Some s -> coded s.
Proof. intros k n t0 sched s. apply (run_keeps _ coded_step). exact I. Qed.
Ltac grown L := try (exfalso; revert L; clear; intros L; apply (f_equal (@length _)) in L; cbn in L; lia).
Lemma ended_code : forall k n t0 sched s l1 c l2, run sched (init k n t0) = Some s -> log s = l1 ++ Ended c :: l2 -> c = last_code l2.
Proof.
  intros k n t0 sched s l1 c l2 R E. destruct (moment k n t0 sched s R _ _ _ E) as (sched1 & u & a & t & R1 & <- & S & L).
  pose proof (coded_run k n t0 sched1 u R1) as C. unfold coded in C.
  cases S; cbn in L; grown L; try discriminate L. injection L as <-. exact C.
Qed.
Lemma called_after : forall k n t0 sched s l1 t l2, run sched (init k n t0) = Some s -> log s = l1 ++ OnInterval t :: l2 -> last_code l2 = 0.
Proof.
  intros k n t0 sched s l1 c l2 R E. destruct (moment k n t0 sched s R _ _ _ E) as (sched1 & u & a & t & R1 & <- & S & L).
  pose proof (coded_run k n t0 sched1 u R1) as C. unfold coded in C.
  cases S; cbn in L; grown L; try discriminate L. exact (proj2 C).
Qed.

(** The period. *)
Definition usual (c : cpc) : bool := match c with CSet _ | CNotify => false | _ => true end.
Definition paced (n t0 : Z) (s : state) : Prop :=
  t0 <= now s /\
  match worker s with
  | TOff | TEnded | TUndefined | TStopLock | TStop | TReturn | TInit => True
  | TStartLock | TStart | TSetRunning | TStamp => rem s = n
  | TCallback | TForced | TAnd | TAnd2 _ | TRestart => rem s <= n
  | TLoop | TLock | TWait | TElapsed | TUnlock => rem s <= n /\ t0 <= stamp s <= now s /\ n * ms <= rem s * ms + (stamp s - t0)
  | TSleep dl => (rem s <= n /\ t0 <= stamp s <= now s /\ n * ms <= rem s * ms + (stamp s - t0)) /\ t0 + n * ms <= dl
  | TAwake b | TDecide b => (rem s <= n /\ t0 <= stamp s <= now s /\ n * ms <= rem s * ms + (stamp s - t0)) /\
      (b = true -> t0 + n * ms <= now s)
  | TCall => rem s <= n /\ t0 + n * ms <= now s
  | TMin | TReset => rem s <= n /\ n * ms <= rem s * ms + (now s - t0)
  end.
Definition even (n : Z) (s : state) : Prop := count is_change (log s) = 0%nat ->
  interval s = n /\ forced s = false /\ (forall i c, nth_error (clients s) i = Some c -> usual c = true) /\
  ((worker s = TOff \/ worker s = TEnded \/ worker s = TUndefined) \/ exists t0, base (log s) = Some t0 /\ paced n t0 s).
Lemma even_step : forall n a s t, even n s -> step a s = Some t -> even n t.
Proof.
  intros n a s t P H Z.
  assert (Z0 : count is_change (log s) = 0%nat).
  { destruct (step_log a s t H) as [K|(e & K)]; rewrite K in Z; [exact Z|]. unfold count in *. cbn in Z. destruct (is_change e); [discriminate|exact Z]. }
  destruct (P Z0) as (In & Fo & Cl & W). clear P Z0.
  unfold paced in *.
  cases H; cbn in *; repeat match goal with Ew : worker s = _ |- _ => rewrite Ew in *; clear Ew end; cbn in *;
    try (exfalso; match goal with Ei : nth_error (clients s) _ = Some _ |- _ => discriminate (Cl _ _ Ei) end);
    (split; [assumption|split; [first [assumption|reflexivity]|split]]); try assumption;
    try (let j := fresh in let d := fresh in let D := fresh in
         intros j d D; apply set_nth_cases in D as [(-> & -> & _)|(N & D)]; [try reflexivity|exact (Cl j d D)]);
    try exact W; try (left; auto; fail).
  all: try (destruct W as [[W|[W|W]]|(t0 & B & T & W)]; [discriminate W..|]).
  all: try (right; first [eexists; split; [eassumption|]|eexists; split; [reflexivity|]]; unfold ms in *; intuition lia).
  - right. exists t0. split; [exact B|]. rewrite Fo, orb_false_r in *. subst timeout. intuition lia.
  - right. exists t0. split; [exact B|]. split; [exact T|].
    assert (Q : 0 <= ms * (Z.quot (now s - stamp s) ms) <= now s - stamp s) by (apply Z.mul_quot_le; [lia|discriminate]).
    unfold ms in *. lia.
  - destruct W as [W|(t0 & B & T & W)]; [left; exact W|]. right. exists t0. split; [exact B|]. split; [lia|].
    destruct (worker s); intuition lia.
  - destruct o; try reflexivity; discriminate Z.
Qed.
Lemma even_run : forall k n t0 sched s, run sched (init k n t0) = Some s -> even n s.
Proof.
  intros k n t0 sched s. apply (run_keeps _ (even_step n)). intros _. split; [reflexivity|]. split; [reflexivity|].
  split; [|left; left; reflexivity]. intros i c H. apply nth_error_In, repeat_spec in H. subst c. reflexivity.
Qed.
Lemma apart : forall k n t0 sched s l1 t l2, run sched (init k n t0) = Some s -> count is_change l2 = 0%nat ->
  log s = l1 ++ OnInterval t :: l2 -> exists t1, base l2 = Some t1 /\ t1 + n * ms <= t.
Proof.
  intros k n t0 sched s l1 c l2 R Z E. destruct (moment k n t0 sched s R _ _ _ E) as (sched1 & u & a & t & R1 & <- & S & L).
  destruct (even_run k n t0 sched1 u R1 Z) as (_ & _ & _ & W). unfold paced in W.
  cases S; cbn in L; grown L; try discriminate L. injection L as <-.
  destruct W as [[W|[W|W]]|(t1 & B & T & W)]; [congruence..|].
  exists t1. split; [exact B|]. exact (proj2 W).
Qed.
Lemma rem_bound : forall k n t0 sched s, run sched (init k n t0) = Some s -> count is_change (log s) = 0%nat -> worker s = TWait ->
  rem s <= n.
Proof.
  intros k n t0 sched s R Z W. destruct (even_run k n t0 sched s R Z) as (_ & _ & _ & P). unfold paced in P. rewrite W in P.
  destruct P as [[P|[P|P]]|(t1 & B & T & P)]; try discriminate P. exact (proj1 P).
Qed.

(** The same with set_interval() and notify(). *)
Definition within (m M x : Z) : Prop := m <= x <= M.
Definition kept_pace (m M t0 : Z) (s : state) : Prop :=
  t0 <= now s /\
  match worker s with
  | TOff | TEnded | TUndefined | TStopLock | TStop | TReturn | TInit => True
  | TStartLock | TStart | TSetRunning | TStamp => within m M (rem s)
  | TCallback | TForced | TAnd | TAnd2 _ | TRestart => rem s <= M
  | TLoop | TLock | TWait | TElapsed | TUnlock => rem s <= M /\ t0 <= stamp s <= now s /\ m * ms <= rem s * ms + (stamp s - t0)
  | TSleep dl => (rem s <= M /\ t0 <= stamp s <= now s /\ m * ms <= rem s * ms + (stamp s - t0)) /\ t0 + m * ms <= dl
  | TAwake b | TDecide b => (rem s <= M /\ t0 <= stamp s <= now s /\ m * ms <= rem s * ms + (stamp s - t0)) /\
      (b = true -> t0 + m * ms <= now s)
  | TCall => rem s <= M /\ (t0 + m * ms <= now s \/ notified (log s) = true)
  | TMin | TReset => rem s <= M /\ m * ms <= rem s * ms + (now s - t0)
  end.
Definition mixed (m M : Z) (s : state) : Prop := Forall (within m M) (periods (log s)) ->
  within m M (interval s) /\ (forced s = true -> worker s = TForced \/ notified (log s) = true) /\
  (forall i x, nth_error (clients s) i = Some (CSet x) -> within m M x) /\
  ((worker s = TOff \/ worker s = TEnded \/ worker s = TUndefined) \/ exists t0, base (log s) = Some t0 /\ kept_pace m M t0 s).
Lemma mixed_step : forall m M a s t, mixed m M s -> step a s = Some t -> mixed m M t.
Proof.
  intros m M a s t P H Z.
  assert (Z0 : Forall (within m M) (periods (log s))).
  { destruct (step_log a s t H) as [K|(e & K)]; rewrite K in Z; [exact Z|]. cbn in Z. destruct e as [i []| | | | | | | | | | |]; try exact Z.
    inversion Z; assumption. }
  destruct (P Z0) as (In & Fo & Cl & W). clear P.
  unfold kept_pace, within in *.
  cases H; cbn in *; repeat match goal with Ew : worker s = _ |- _ => rewrite Ew in *; clear Ew end; cbn in *;
    (split; [first [assumption|exact (Cl _ _ ltac:(eassumption))]|split; [try assumption; try (intros F; discriminate F); try (intros F; destruct (Fo F) as [X|X]; [discriminate X|right; exact X]); try (intros _; left; reflexivity); try (intros _; right; reflexivity)|split]]); try assumption;
    try (intros j1 d1 D1; apply set_nth_cases in D1 as [(-> & D1 & _)|(N & D1)]; [try discriminate D1|exact (Cl j1 d1 D1)]);
    try exact W; try (left; auto; fail).
  all: try (destruct W as [[W|[W|W]]|(t0 & B & T & W)]; [discriminate W..|]).
  all: try (right; first [eexists; split; [eassumption|]|eexists; split; [reflexivity|]]; unfold ms in *; intuition lia).
  - right. exists t0. split; [exact B|]. split; [exact T|]. split; [apply W|]. destruct timeout; [left; apply W; reflexivity|].
    destruct (Fo ltac:(assumption)) as [X|X]; [discriminate X|right; exact X].
  - right. exists t0. split; [exact B|]. split; [exact T|].
    assert (Q : 0 <= ms * (Z.quot (now s - stamp s) ms) <= now s - stamp s) by (apply Z.mul_quot_le; [lia|discriminate]).
    unfold ms in *. lia.
  - destruct W as [W|(t0 & B & T & W)]; [left; exact W|]. right. exists t0. split; [exact B|]. split; [lia|].
    destruct (worker s); intuition lia.
  - destruct o; try discriminate D1. injection D1 as <-. cbn in Z. inversion Z; assumption.
  - destruct W as [W|(t0 & B & T & W)]; [left; exact W|]. right. exists t0. split; [exact B|]. split; [exact T|].
    destruct (worker s); intuition lia.
Qed.
Lemma mixed_run : forall k n t0 sched s m M, run sched (init k n t0) = Some s -> within m M n -> mixed m M s.
Proof.
  intros k n t0 sched s m M R W. revert R. apply (run_keeps _ (mixed_step m M)). intros _. split; [exact W|]. split; [intros F; discriminate F|].
  split; [|left; left; reflexivity]. intros i c H. apply nth_error_In, repeat_spec in H. discriminate H.
Qed.
Lemma apart_mixed : forall k n t0 sched s l1 t l2 m, run sched (init k n t0) = Some s -> Forall (fun x => m <= x) (n :: periods l2) ->
  log s = l1 ++ OnInterval t :: l2 -> notified l2 = false -> exists t1, base l2 = Some t1 /\ t1 + m * ms <= t.
Proof.
  intros k n t0 sched s l1 c l2 m R Z E N. destruct (moment k n t0 sched s R _ _ _ E) as (sched1 & u & a & t & R1 & <- & S & L).
  assert (HM : exists M, Forall (within m M) (n :: periods (log u))).
  { clear -Z. induction Z as [|x l X _ (M & IH)]; [exists m; constructor|]. exists (Z.max x M). constructor; [unfold within; lia|].
    eapply Forall_impl; [|exact IH]. cbv beta. unfold within. intros y; lia. }
  destruct HM as (M & HM). inversion HM as [|x l X F]; subst.
  destruct (mixed_run k n t0 sched1 u m M R1 X F) as (_ & _ & _ & W). unfold kept_pace in W.
  cases S; cbn in L; grown L; try discriminate L. injection L as <-.
  destruct W as [[W|[W|W]]|(t1 & B & T & W)]; [congruence..|].
  exists t1. split; [exact B|]. destruct W as [_ [W|W]]; [exact W|congruence].
Qed.
Lemma wait_mixed : forall k n t0 sched s M, run sched (init k n t0) = Some s -> Forall (fun x => x <= M) (n :: periods (log s)) ->
  worker s = TWait -> rem s <= M.
Proof.
  intros k n t0 sched s M R Z W.
  assert (HM : exists m, Forall (within m M) (n :: periods (log s))).
  { clear -Z. induction Z as [|x l X _ (m & IH)]; [exists M; constructor|]. exists (Z.min x m). constructor; [unfold within; lia|].
    eapply Forall_impl; [|exact IH]. cbv beta. unfold within. intros y; lia. }
  destruct HM as (m & HM). inversion HM as [|x l X F]; subst.
  destruct (mixed_run k n t0 sched s m M R X F) as (_ & _ & _ & P). unfold kept_pace in P. rewrite W in P.
  destruct P as [[P|[P|P]]|(t1 & B & T & P)]; try discriminate P. exact (proj1 P).
Qed.
(** A new period takes effect when the thread has woken up. *)
Definition adopting (x : Z) (l0 : list event) (s : state) : Prop := exists l, log s = l ++ l0 /\ (count is_set l = 0%nat ->
  interval s = x /\ (forall i y, nth_error (clients s) i <> Some (CSet y)) /\
  match worker s with
  | TReset | TLock | TWait | TSleep _ | TStartLock | TStart | TSetRunning | TStamp => rem s <= x
  | TUnlock | TLoop => rem s <= x \/ running s = false
  | _ => True
  end).
Lemma adopting_step : forall x l0 a s t, adopting x l0 s -> step a s = Some t -> adopting x l0 t.
Proof.
  intros x l0 a s t (l & E & P) H.
  assert (X : exists l1, log t = l1 ++ l0 /\ (count is_set l1 = 0%nat -> count is_set l = 0%nat /\ forall e, log t = e :: log s -> is_set e = false)).
  { destruct (step_log a s t H) as [K|(e & K)]; [exists l|exists (e :: l)]; (split; [cbn; congruence|]).
    - intros Z. split; [exact Z|]. intros e Y. rewrite K in Y. grown Y.
    - unfold count. cbn. destruct (is_set e) eqn:F; [discriminate|]. intros Z. split; [exact Z|]. intros e1 Y. congruence. }
  destruct X as (l1 & E1 & X). exists l1. split; [exact E1|]. intros Z. destruct (X Z) as [Z0 Y]. destruct (P Z0) as (I & C & W). clear X P E1 E Z Z0.
  cases H; cbn in *; repeat match goal with Ew : worker s = _ |- _ => rewrite Ew in *; clear Ew end; cbn in *;
    (split; [try assumption|split; [|try exact W; try exact Logic.I]]); try assumption;
    try (intros j1 d1 D1; apply set_nth_cases in D1 as [(-> & D1 & _)|(N & D1)]; [try discriminate D1|exact (C j1 d1 D1)]);
    try congruence; try lia; try (destruct (worker s); intuition fail);
    try (exfalso; match goal with Ei : nth_error (clients s) _ = Some (CSet _) |- _ => exact (C _ _ Ei) end).
  - destruct o; try discriminate D1. discriminate (Y _ eq_refl).
  - destruct (worker s); intuition congruence.
Qed.
Lemma adopts : forall s x b sched t l, worker s = TAwake b -> interval s = x -> (forall i y, nth_error (clients s) i <> Some (CSet y)) ->
  run sched s = Some t -> log t = l ++ log s -> count is_set l = 0%nat -> worker t = TWait -> rem t <= x.
Proof.
  intros s x b sched t l W I C R E Z T.
  assert (A : adopting x (log s) t).
  { revert R. apply (run_keeps _ (adopting_step x (log s))). exists []. split; [reflexivity|]. intros _. rewrite W. repeat split; assumption. }
  destruct A as (l1 & E1 & P). rewrite E in E1. apply app_inv_tail in E1. subst l1. destruct (P Z) as (_ & _ & Q). rewrite T in Q. exact Q.
Qed.

(** A new period asked for while the callback runs. *)
Definition anew (x : Z) (l0 : list event) (s : state) : Prop := exists l, log s = l ++ l0 /\ (count is_change l = 0%nat ->
  interval s = x /\ (forall i c, nth_error (clients s) i = Some c -> usual c = true) /\
  match worker s with
  | TCallback | TUndefined => True
  | TForced => exists t0, base (log s) = Some t0 /\ t0 <= now s
  | TAnd | TAnd2 _ | TRestart => forced s = false /\ exists t0, base (log s) = Some t0 /\ t0 <= now s
  | TOff | TEnded => forced s = false
  | _ => forced s = false /\ exists t0, base (log s) = Some t0 /\ paced x t0 s
  end).
Lemma anew_step : forall x l0 a s t, anew x l0 s -> step a s = Some t -> anew x l0 t.
Proof.
  intros x l0 a s t (l & E & P) H.
  assert (X : exists l1, log t = l1 ++ l0 /\ (count is_change l1 = 0%nat -> count is_change l = 0%nat /\ forall e, log t = e :: log s -> is_change e = false)).
  { destruct (step_log a s t H) as [K|(e & K)]; [exists l|exists (e :: l)]; (split; [cbn; congruence|]).
    - intros Z. split; [exact Z|]. intros e Y. rewrite K in Y. grown Y.
    - unfold count. cbn. destruct (is_change e) eqn:F; [discriminate|]. intros Z. split; [exact Z|]. intros e1 Y. congruence. }
  destruct X as (l1 & E1 & X). exists l1. split; [exact E1|]. intros Z. destruct (X Z) as [Z0 Y]. destruct (P Z0) as (In & Cl & W). clear X P E1 E Z Z0.
  unfold paced in *.
  cases H; cbn in *; repeat match goal with Ew : worker s = _ |- _ => rewrite Ew in *; clear Ew end; cbn in *;
    try (exfalso; match goal with Ei : nth_error (clients s) _ = Some _ |- _ => discriminate (Cl _ _ Ei) end);
    (split; [assumption|split]); try assumption;
    try (let j := fresh in let d := fresh in let D := fresh in
         intros j d D; apply set_nth_cases in D as [(-> & -> & _)|(N & D)]; [try reflexivity|exact (Cl j d D)]);
    try exact W; try exact Logic.I.
  all: try (destruct W as (Fo & t1 & B & T & W)).
  all: try (split; [assumption|]; eexists; split; [first [eassumption|reflexivity]|]; unfold ms in *; intuition lia).
  all: try exact Fo.
  - split; [exact Fo|]. exists t1. split; [exact B|]. rewrite Fo, orb_false_r in *. subst timeout. intuition lia.
  - split; [reflexivity|exact W].
  - destruct W as (Fo & t1 & B & T). split; [exact Fo|]. exists t1. split; [exact B|]. unfold ms. lia.
  - split; [exact Fo|]. exists t1. split; [exact B|]. split; [exact T|].
    assert (Q : 0 <= ms * (Z.quot (now s - stamp s) ms) <= now s - stamp s) by (apply Z.mul_quot_le; [lia|discriminate]).
    unfold ms in *. lia.
  - exists (now s). split; [reflexivity|lia].
  - destruct (worker s); try exact W; try exact Logic.I;
      try (destruct W as (t1 & B & T); exists t1; split; [exact B|lia]);
      try (destruct W as (Fo & t1 & B & T); split; [exact Fo|]; exists t1; split; [exact B|]; intuition lia).
  - destruct o; try reflexivity; discriminate (Y _ eq_refl).
Qed.

(** stop(), outside the two windows. *)
Definition about (w : wpc) : nat := match w with TDecide _ | TCall => 1 | _ => 0 end.
Definition halting (l0 : list event) (s : state) : Prop := exists l, log s = l ++ l0 /\ (count is_begun l = 0%nat ->
  running s = false /\ early (worker s) = false /\ (count is_interval l + about (worker s) <= 1)%nat).
Lemma halting_step : forall l0 a s t, halting l0 s -> step a s = Some t -> halting l0 t.
Proof.
  intros l0 a s t (l & El & Pr) H.
  destruct (step_log a s t H) as [K|(e & K)].
  - exists l. split; [rewrite K; exact El|]. intros Z. destruct (Pr Z) as (D & Ea & B).
    cases H; cbn in *; grown K; repeat match goal with Ew : worker s = _ |- _ => rewrite Ew in *; clear Ew end; cbn in *;
    try discriminate; try congruence; (split; [try congruence|]); try rewrite D; try (split; [first [assumption|reflexivity]|lia]).
    destruct b; [discriminate Ea|reflexivity].
  - exists (e :: l). split; [rewrite K, El; reflexivity|].
    assert (Z0 : count is_begun (e :: l) = 0%nat -> is_begun e = false /\ count is_begun l = 0%nat).
    { unfold count. cbn. destruct (is_begun e); cbn; [discriminate|auto]. }
    intros Z. destruct (Z0 Z) as [Z1 Z2]. destruct (Pr Z2) as (D & Ea & B). clear Z0 Z Z2 Pr.
    cases H; cbn in K; grown K;
    injection K; intros; subst e; try discriminate; unfold count in *; cbn in *;
    repeat match goal with Ew : worker s = _ |- _ => rewrite Ew in *; clear Ew end; cbn in *;
    try discriminate; try congruence; (split; [congruence|]); (split; [first [assumption|reflexivity]|lia]).
Qed.
Lemma stop_halts : forall s i j t sched u l, nth_error (clients s) i = Some (CStop j) -> next i s = Some t -> early (worker s) = false ->
  run sched t = Some u -> log u = l ++ log t -> count is_begun l = 0%nat ->
  running u = false /\ (count is_interval l <= 1)%nat /\ early (worker u) = false.
Proof.
  intros s i j t sched u l Ci N Ea R El Z.
  assert (P : halting (log t) u).
  { revert R. apply (run_keeps _ (halting_step (log t))). exists []. split; [reflexivity|]. intros _.
    unfold next in N. rewrite Ci in N. injection N as <-. cbn. split; [reflexivity|]. split; [exact Ea|].
    destruct (worker s); cbn; lia. }
  destruct P as (l' & El' & P). rewrite El in El'. apply app_inv_tail in El'. subst l'. destruct (P Z) as (D & E & B).
  split; [exact D|]. split; [lia|exact E].
Qed.

(** The mutex, the sleeper. *)
Lemma owned_step : forall a s t, owned s -> step a s = Some t -> owned t.
Proof.
  intros a s t [W Cl] H.
  cases H; try match goal with Ei : nth_error (clients s) _ = Some _ |- _ => pose proof (Cl _ _ Ei) as Ci end; (split; cbn in *);
    repeat match goal with Ew : worker s = _ |- _ => rewrite Ew in *; clear Ew end.
  all: try assumption.
  all: try lazymatch goal with
       | Cl : (forall i c, nth_error _ i = Some c -> _) |- forall (i : nat) (c : cpc), nth_error (set_nth _ _ _) _ = _ -> _ =>
           let j := fresh in let d := fresh in let D := fresh in
           intros j d D; apply set_nth_cases in D as [(-> & -> & _)|(N & D)]; [|specialize (Cl j d D)]
       | Cl : (forall i c, nth_error _ i = Some c -> _) |- forall (i : nat) (c : cpc), nth_error _ _ = _ -> _ =>
           let j := fresh in let d := fresh in let D := fresh in intros j d D; specialize (Cl j d D)
       end.
  all: try solve [cbn in *; intuition congruence].
  destruct o; exact Ci.
Qed.
Record sound (s : state) : Prop := {
  d_owned : owned s;
  d_sleep : match worker s with TSleep dl => dl <= now s + rem s * ms | _ => True end;
  d_alive : worker s = TUndefined -> alive s = false }.
Lemma sound_step : forall a s t, sound s -> step a s = Some t -> sound t.
Proof.
  intros a s t [O S A] H. split; [exact (owned_step a s t O H)| |].
  - clear O A. cases H; cbn in *; repeat match goal with Ew : worker s = _ |- _ => rewrite Ew in *; clear Ew end; cbn in *;
      try exact Logic.I; try exact S; try lia. destruct (worker s); try exact Logic.I. lia.
  - clear O S. cases H; cbn in *; repeat match goal with Ew : worker s = _ |- _ => rewrite Ew in *; clear Ew end; cbn in *;
      try discriminate; try assumption; try (intros _; assumption); try reflexivity; try (intros X; reflexivity).
Qed.
Lemma sound_run : forall k n t0 sched s, run sched (init k n t0) = Some s -> sound s.
Proof.
  intros k n t0 sched s. apply (run_keeps _ sound_step). split; [split|exact I|discriminate].
  - right. cbn. split; discriminate.
  - intros i c H. apply nth_error_In, repeat_spec in H. subst c. cbn. split; discriminate.
Qed.

(** The timer that was told to stop ends. *)
Definition ends (d : Z) (s : state) : Prop := exists sched t, Forall (fun a => alone a = true) sched /\ run sched s = Some t /\
  worker t = TEnded /\ now t <= now s + d.
Lemma ends_back : forall d a s t, alone a = true -> step a s = Some t -> now t = now s -> ends d t -> ends d s.
Proof.
  intros d a s t A S N (sched & u & F & R & E & B). exists (a :: sched), u. split; [constructor; assumption|].
  split; [cbn; rewrite S; exact R|]. split; [exact E|]. rewrite <- N. exact B.
Qed.
Lemma ends_later : forall d s, worker s = TEnded -> 0 <= d -> ends d s.
Proof. intros d s E D. exists [], s. split; [constructor|]. split; [reflexivity|]. split; [exact E|lia]. Qed.
Definition longest (s : state) : Z := match worker s with TLock | TWait | TSleep _ => Z.max 0 (rem s * ms) | _ => 0 end.
Definition usable (s : state) : Prop := alive s = true \/ deleted s = true.
Lemma stopped_ends : forall s, running s = false -> usable s -> (calling (worker s) = true -> alive s = true) -> early (worker s) = false -> worker s <> TOff -> worker s <> TUndefined ->
  (wholds (worker s) = false -> mtx s = None) -> match worker s with TSleep dl => dl <= now s + rem s * ms | _ => True end ->
  ends (longest s) s.
Proof.
  assert (L1 : forall d s, 0 <= d -> worker s = TReturn -> ends d s).
  { intros d s D W. eapply (ends_back d Work); [reflexivity|cbn; unfold work; rewrite W; reflexivity|reflexivity|].
    apply ends_later; [reflexivity|exact D]. }
  assert (L2 : forall d s, 0 <= d -> usable s -> worker s = TStop -> ends d s).
  { intros d s D [A|A] W; destruct (deleted s) eqn:X; try discriminate A.
    - eapply (ends_back d Work); [reflexivity|cbn; unfold work; rewrite W, X; reflexivity|reflexivity|]. apply L1; auto.
    - eapply (ends_back d Work); [reflexivity|cbn; unfold work; rewrite W, X, A; reflexivity|reflexivity|]. apply L1; auto.
    - eapply (ends_back d Work); [reflexivity|cbn; unfold work; rewrite W, X; reflexivity|reflexivity|]. apply L1; auto. }
  assert (L3 : forall d s, 0 <= d -> usable s -> mtx s = None -> worker s = TStopLock -> ends d s).
  { intros d s D A M W. eapply (ends_back d Work); [reflexivity|cbn; unfold work, acquire; rewrite W, M; reflexivity|reflexivity|]. apply L2; auto. }
  assert (L4 : forall d s, 0 <= d -> running s = false -> usable s -> mtx s = None -> worker s = TLoop -> ends d s).
  { intros d s D R A M W. eapply (ends_back d Work); [reflexivity|cbn; unfold work; rewrite W, R; reflexivity|reflexivity|]. apply L3; auto. }
  assert (L5 : forall d s, 0 <= d -> running s = false -> usable s -> worker s = TUnlock -> ends d s).
  { intros d s D R A W. eapply (ends_back d Work); [reflexivity|cbn; unfold work; rewrite W; reflexivity|reflexivity|]. apply L4; auto. }
  assert (L6 : forall d s, 0 <= d -> running s = false -> usable s -> worker s = TReset -> ends d s).
  { intros d s D R A W. eapply (ends_back d Work); [reflexivity|cbn; unfold work; rewrite W; reflexivity|reflexivity|]. apply L5; auto. }
  assert (L7 : forall d s, 0 <= d -> running s = false -> usable s -> worker s = TRestart -> ends d s).
  { intros d s D R A W. eapply (ends_back d Work); [reflexivity|cbn; unfold work; rewrite W; reflexivity|reflexivity|]. apply L6; auto. }
  assert (L8 : forall d s, 0 <= d -> usable s -> worker s = TAnd2 false -> ends d s).
  { intros d s D A W. eapply (ends_back d Work); [reflexivity|cbn; unfold work; rewrite W; reflexivity|reflexivity|]. apply L7; auto. }
  assert (L9 : forall d s, 0 <= d -> running s = false -> usable s -> worker s = TAnd -> ends d s).
  { intros d s D R A W. eapply (ends_back d Work); [reflexivity|cbn; unfold work; rewrite W, R; reflexivity|reflexivity|]. apply L8; auto. }
  assert (L10 : forall d s, 0 <= d -> running s = false -> usable s -> worker s = TForced -> ends d s).
  { intros d s D R A W. eapply (ends_back d Work); [reflexivity|cbn; unfold work; rewrite W; reflexivity|reflexivity|]. apply L9; auto. }
  assert (L11 : forall d s, 0 <= d -> running s = false -> alive s = true -> worker s = TCallback -> ends d s).
  { intros d s D R A W. eapply (ends_back d (Result 0)); [reflexivity|cbn; unfold result; rewrite W, A; reflexivity|reflexivity|]. apply L10; auto. left. exact A. }
  assert (L12 : forall d s, 0 <= d -> running s = false -> alive s = true -> worker s = TCall -> ends d s).
  { intros d s D R A W. eapply (ends_back d Work); [reflexivity|cbn; unfold work; rewrite W, A; reflexivity|reflexivity|]. apply L11; auto. }
  assert (L13 : forall d s, 0 <= d -> running s = false -> usable s -> worker s = TMin -> ends d s).
  { intros d s D R A W. eapply (ends_back d Work); [reflexivity|cbn; unfold work; rewrite W; reflexivity|reflexivity|]. apply L6; auto. }
  assert (L14 : forall d s, 0 <= d -> running s = false -> usable s -> worker s = TElapsed -> ends d s).
  { intros d s D R A W. eapply (ends_back d Work); [reflexivity|cbn; unfold work; rewrite W; reflexivity|reflexivity|]. apply L13; auto. }
  assert (L15 : forall d s b, 0 <= d -> running s = false -> alive s = true -> worker s = TDecide b -> ends d s).
  { intros d s b D R A W. destruct (b || forced s)%bool eqn:X.
    - eapply (ends_back d Work); [reflexivity|cbn; unfold work; rewrite W, X; reflexivity|reflexivity|]. apply L12; auto.
    - eapply (ends_back d Work); [reflexivity|cbn; unfold work; rewrite W, X; reflexivity|reflexivity|]. apply L14; auto. left. exact A. }
  assert (L16 : forall d s b, 0 <= d -> running s = false -> usable s -> worker s = TAwake b -> ends d s).
  { intros d s b D R A W. eapply (ends_back d Work); [reflexivity|cbn; unfold work; rewrite W, R; reflexivity|reflexivity|]. apply L5; auto. }
  assert (L17 : forall s dl d, dl <= now s + d -> 0 <= d -> running s = false -> usable s -> mtx s = None -> worker s = TSleep dl -> ends d s).
  { intros s dl d B D R A M W. pose (x := Z.max 0 (dl - now s)).
    assert (E : ends (d - x) (set_now (now s + Z.of_N (Z.to_N x)) s)).
    { assert (Le : (dl <=? now s + Z.of_N (Z.to_N x)) = true) by (apply Z.leb_le; lia).
      eapply (ends_back _ Work); [reflexivity|cbn; unfold work, acquire; cbn; rewrite W, Le, M; reflexivity|reflexivity|].
      eapply L16; auto; try reflexivity. lia. }
    destruct E as (sched & u & F & Ru & E & N). exists (Tick (Z.to_N x) :: sched), u. split; [constructor; [reflexivity|exact F]|].
    split; [exact Ru|]. split; [exact E|]. cbn in N. lia. }
  assert (L18 : forall s, running s = false -> usable s -> worker s = TWait -> ends (Z.max 0 (rem s * ms)) s).
  { intros s R A W. eapply (ends_back _ Work); [reflexivity|cbn; unfold work; rewrite W; reflexivity|reflexivity|].
    apply (L17 _ (now s + rem s * ms)); cbn -[ms Z.mul]; auto; lia. }
  assert (L19 : forall s, running s = false -> usable s -> mtx s = None -> worker s = TLock -> ends (Z.max 0 (rem s * ms)) s).
  { intros s R A M W. eapply (ends_back _ Work); [reflexivity|cbn; unfold work, acquire; rewrite W, M; reflexivity|reflexivity|].
    apply (L18 (wgo TWait (set_mtx (Some None) s))); auto. }
  assert (L20 : forall d s, 0 <= d -> running s = false -> usable s -> mtx s = None -> worker s = TStamp -> ends d s).
  { intros d s D R A M W. eapply (ends_back d Work); [reflexivity|cbn; unfold work; rewrite W; reflexivity|reflexivity|]. apply L4; auto. }
  intros s R A CA Ea N1 N2 M S. assert (Z0 : 0 <= Z.max 0 (rem s * ms)) by lia. assert (Z1 : 0 <= 0) by lia. unfold longest.
  destruct (worker s) eqn:W; cbn -[ms Z.mul Z.max] in *; try congruence; try discriminate Ea; try specialize (M eq_refl); try specialize (CA eq_refl);
    try solve [eapply L1; eassumption|eapply L2; eassumption|eapply L3; eassumption|eapply L4; eassumption|eapply L5; eassumption|eapply L6; eassumption|eapply L7; eassumption
      |eapply L9; eassumption|eapply L10; eassumption|eapply L11; eassumption|eapply L12; eassumption|eapply L13; eassumption|eapply L14; eassumption
      |eapply L15; eassumption|eapply L16; eassumption|eapply L18; eassumption|eapply L19; eassumption|eapply L20; eassumption|eapply ends_later; eassumption].
  - eapply L17; try eassumption. lia.
  - destruct b; [discriminate Ea|]. apply L8; assumption.
Qed.
Lemma halted_ends : forall k n t0 sched s, run sched (init k n t0) = Some s -> running s = false -> alive s = true ->
  early (worker s) = false -> worker s <> TOff -> (forall i, mtx s <> Some (Some i)) ->
  exists sched1 t, Forall (fun a => alone a = true) sched1 /\ run sched1 s = Some t /\ worker t = TEnded /\
    now t <= now s + longest s.
Proof.
  intros k n t0 sched s R F A E O M. destruct (sound_run k n t0 sched s R) as [[W _] S U].
  assert (NU : worker s <> TUndefined) by (intros X; rewrite (U X) in A; discriminate A).
  apply stopped_ends; auto; [left; exact A|]. intros H. destruct W as [W|W]; [contradiction|].
  destruct (mtx s) as [[i|]|] eqn:X; [destruct (M i eq_refl)| |reflexivity]. rewrite (proj1 W eq_refl) in H. discriminate H.
Qed.

(** A timer that goes on for ever. *)
Definition going (s : state) : Prop := worker s = TLoop /\ running s = true /\ mtx s = None /\ alive s = true /\ ret s = 0.
Definition more (m : nat) (s : state) : Prop := exists sched t l, Forall (fun a => alone a = true) sched /\ run sched s = Some t /\ going t /\
  log t = l ++ log s /\ count is_interval l = m.
Lemma more_back : forall m a s t l0, alone a = true -> step a s = Some t -> log t = l0 ++ log s -> more m t -> more (count is_interval l0 + m) s.
Proof.
  intros m a s t l0 A S N (sched & u & l & F & R & G & E & C). exists (a :: sched), u, (l ++ l0). split; [constructor; assumption|].
  split; [cbn; rewrite S; exact R|]. split; [exact G|]. split; [rewrite E, N, app_assoc; reflexivity|].
  unfold count in *. rewrite filter_app, app_length. lia.
Qed.
Lemma going_once : forall s, going s -> more 1 s.
Proof.
  assert (L1 : forall s, running s = true -> alive s = true -> ret s = 0 -> worker s = TUnlock -> more 0 s).
  { intros s R A Z W. eapply (more_back 0 Work _ _ []); [reflexivity|cbn; unfold work; rewrite W; reflexivity|reflexivity|].
    exists [], (wgo TLoop (set_mtx None s)), []. split; [constructor|]. repeat split; assumption. }
  assert (L2 : forall s, running s = true -> alive s = true -> ret s = 0 -> worker s = TReset -> more 0 s).
  { intros s R A Z W. eapply (more_back 0 Work _ _ []); [reflexivity|cbn; unfold work; rewrite W; reflexivity|reflexivity|]. apply L1; auto. }
  assert (L3 : forall s, running s = true -> alive s = true -> ret s = 0 -> worker s = TRestart -> more 0 s).
  { intros s R A Z W. eapply (more_back 0 Work _ _ []); [reflexivity|cbn; unfold work; rewrite W; reflexivity|reflexivity|]. apply L2; auto. }
  assert (L4 : forall s, alive s = true -> ret s = 0 -> worker s = TAnd2 true -> more 0 s).
  { intros s A Z W. eapply (more_back 0 Work _ _ []); [reflexivity|cbn; unfold work; rewrite W, Z; reflexivity|reflexivity|]. apply L3; auto. }
  assert (L5 : forall s, running s = true -> alive s = true -> ret s = 0 -> worker s = TAnd -> more 0 s).
  { intros s R A Z W. eapply (more_back 0 Work _ _ []); [reflexivity|cbn; unfold work; rewrite W, R; reflexivity|reflexivity|]. apply L4; auto. }
  assert (L6 : forall s, running s = true -> alive s = true -> ret s = 0 -> worker s = TForced -> more 0 s).
  { intros s R A Z W. eapply (more_back 0 Work _ _ []); [reflexivity|cbn; unfold work; rewrite W; reflexivity|reflexivity|]. apply L5; auto. }
  assert (M1 : forall s, running s = true -> alive s = true -> worker s = TCallback -> more 0 s).
  { intros s R A W. eapply (more_back 0 (Result 0) _ _ [Done 0 (now s)]); [reflexivity|cbn; unfold result; rewrite W, A; reflexivity|reflexivity|]. apply L6; auto. }
  assert (M2 : forall s, running s = true -> alive s = true -> worker s = TCall -> more 1 s).
  { intros s R A W. eapply (more_back 0 Work _ _ [OnInterval (now s)]); [reflexivity|cbn; unfold work; rewrite W, A; reflexivity|reflexivity|]. apply M1; auto. }
  assert (M3 : forall s, running s = true -> alive s = true -> worker s = TDecide true -> more 1 s).
  { intros s R A W. eapply (more_back 1 Work _ _ []); [reflexivity|cbn; unfold work; rewrite W; reflexivity|reflexivity|]. apply M2; auto. }
  assert (M4 : forall s, running s = true -> alive s = true -> worker s = TAwake true -> more 1 s).
  { intros s R A W. eapply (more_back 1 Work _ _ []); [reflexivity|cbn; unfold work; rewrite W, R; reflexivity|reflexivity|]. apply M3; auto. }
  assert (M5 : forall s dl, running s = true -> alive s = true -> mtx s = None -> worker s = TSleep dl -> more 1 s).
  { intros s dl R A M W. pose (x := Z.max 0 (dl - now s)).
    assert (Le : (dl <=? now s + Z.of_N (Z.to_N x)) = true) by (apply Z.leb_le; lia).
    apply (more_back 1 (Tick (Z.to_N x)) _ (set_now (now s + Z.of_N (Z.to_N x)) s) []); [reflexivity|reflexivity|reflexivity|].
    eapply (more_back 1 Work _ _ []); [reflexivity|cbn; unfold work, acquire; cbn; rewrite W, Le, M; reflexivity|reflexivity|]. apply M4; auto. }
  assert (M6 : forall s, running s = true -> alive s = true -> worker s = TWait -> more 1 s).
  { intros s R A W. eapply (more_back 1 Work _ _ []); [reflexivity|cbn; unfold work; rewrite W; reflexivity|reflexivity|]. eapply M5; auto; reflexivity. }
  assert (M7 : forall s, running s = true -> alive s = true -> mtx s = None -> worker s = TLock -> more 1 s).
  { intros s R A M W. eapply (more_back 1 Work _ _ []); [reflexivity|cbn; unfold work, acquire; rewrite W, M; reflexivity|reflexivity|]. apply M6; auto. }
  intros s (W & R & M & A & _). eapply (more_back 1 Work _ _ []); [reflexivity|cbn; unfold work; rewrite W, R; reflexivity|reflexivity|]. apply M7; auto.
Qed.
Lemma going_on : forall n s, going s -> exists sched t l, Forall (fun a => alone a = true) sched /\ run sched s = Some t /\ going t /\
  log t = l ++ log s /\ count is_interval l = n.
Proof.
  induction n; intros s G.
  - exists [], s, []. repeat split; try apply G. constructor.
  - destruct (going_once s G) as (a & t & l & F & R & G1 & L & C). destruct (IHn t G1) as (b & u & m & F1 & R1 & G2 & L1 & C1).
    exists (a ++ b), u, (m ++ l). split; [apply Forall_app; auto|]. rewrite run_app, R. split; [exact R1|]. split; [exact G2|].
    split; [rewrite L1, L, app_assoc; reflexivity|]. unfold count in *. rewrite filter_app, app_length. lia.
Qed.

(** The life of a timer that is not destroyed. *)
Definition stage (w : wpc) : phase :=
  match w with
  | TOff | TEnded => Off | TInit | TStartLock | TStart => Born | TCallback => Inside | TReturn => Down | _ => Up
  end.
Definition leaving (c : cpc) : bool :=
  match c with DDestroy | DLock | DMark | DUnlock | DStop | DJoin | CGone => true | _ => false end.
Record kept (s : state) : Prop := {
  k_mtx : forall i, mtx s <> Some (Some i); k_alive : alive s = true; k_deleted : deleted s = false; k_worker : worker s <> TUndefined;
  k_clients : forall i c, nth_error (clients s) i = Some c -> leaving c = false;
  k_life : life (log s) = Some (stage (worker s)) }.
Lemma kept_step : forall a s t, (count is_destroy (log s) = 0%nat -> kept s) -> step a s = Some t -> count is_destroy (log t) = 0%nat -> kept t.
Proof.
  intros a s t K H Z.
  assert (Z0 : count is_destroy (log s) = 0%nat).
  { destruct (step_log a s t H) as [E|[e E]]; rewrite E in Z; [exact Z|]. unfold count in *. cbn in Z. destruct (is_destroy e); [discriminate Z|exact Z]. }
  destruct (K Z0) as [M A D N C L]. clear K Z0.
  cases H; cbn in Z;
    try (match goal with Ei : nth_error (clients s) _ = Some _ |- _ => pose proof (C _ _ Ei) as Ci end; cbn in Ci);
    try discriminate Ci; try (destruct o; cbn in Z; try discriminate Z);
    split; cbn in *; repeat match goal with Ew : worker s = _ |- _ => rewrite Ew in *; clear Ew end; cbn in *;
    try assumption; try congruence; try (rewrite L; reflexivity);
    try (intros i1 c1 X; apply set_nth_cases in X; destruct X as [(_ & -> & _)|(_ & X)]; [reflexivity|exact (C i1 c1 X)]).
Qed.
Lemma kept_run : forall k n t0 sched s, run sched (init k n t0) = Some s -> count is_destroy (log s) = 0%nat -> kept s.
Proof.
  intros k n t0 sched s. apply (run_keeps (fun s => count is_destroy (log s) = 0%nat -> kept s)); [intros a u v; apply kept_step|].
  intros _. split; try reflexivity; [discriminate|discriminate|]. intros i c H. apply nth_error_In, repeat_spec in H. subst c. reflexivity.
Qed.
Definition active (w : wpc) : bool := match w with TOff | TEnded => false | _ => true end.
Lemma on_step : forall a s t, on (log s) = active (worker s) -> step a s = Some t -> on (log t) = active (worker t).
Proof.
  intros a s t O H. cases H; cbn in *; repeat match goal with Ew : worker s = _ |- _ => rewrite Ew in *; clear Ew end; cbn in *;
    try assumption; reflexivity.
Qed.
Lemma on_run : forall k n t0 sched s, run sched (init k n t0) = Some s -> on (log s) = active (worker s).
Proof. intros k n t0 sched s. apply (run_keeps _ on_step). reflexivity. Qed.
Lemma misused_more : forall e l, misused l -> misused (e :: l).
Proof.
  intros e l (l1 & i & l2 & -> & H). exists (e :: l1), i, l2. split; [reflexivity|]. destruct H as [H|(t & H)]; [left; exact H|].
  right. exists t. right. exact H.
Qed.
Lemma destroyed_in : forall l, (0 < count is_destroy l)%nat -> exists l1 i l2, l = l1 ++ Call i Destroy :: l2.
Proof.
  induction l as [|e l IH]; intros H; [inversion H|]. unfold count in *. cbn in H. destruct (is_destroy e) eqn:E.
  - destruct e as [i []| | | | | | | | | | |]; try discriminate E. exists [], i, l. reflexivity.
  - destruct (IH H) as (l1 & i & l2 & ->). exists (e :: l1), i, l2. reflexivity.
Qed.
Lemma misused_step : forall a s t, on (log s) = active (worker s) ->
  (active (worker s) = true -> (0 < count is_destroy (log s))%nat -> misused (log s)) -> step a s = Some t ->
  active (worker t) = true -> (0 < count is_destroy (log t))%nat -> misused (log t).
Proof.
  intros a s t O K H. 
  destruct (step_log a s t H) as [E|[e E]]; rewrite E in *.
  - intros A. apply K. cases H; cbn in *; repeat match goal with Ew : worker s = _ |- _ => rewrite Ew in *; clear Ew end; cbn in *;
      try assumption; try reflexivity; try discriminate A; grown E.
  - destruct (is_destroy e) eqn:X.
    + destruct e as [i []| | | | | | | | | | |]; try discriminate X. intros A _. exists [], i, (log s). split; [reflexivity|]. left. rewrite O.
      cases H; cbn in *; repeat match goal with Ew : worker s = _ |- _ => rewrite Ew in *; clear Ew end; try discriminate E; try exact A; try reflexivity.
    + intros A C. assert (C0 : (0 < count is_destroy (log s))%nat) by (unfold count in *; cbn in C; rewrite X in C; exact C).
      destruct (active (worker s)) eqn:Y; [apply misused_more, K; auto|].
      assert (B : exists z, e = Begun z).
      { cases H; cbn in *; repeat match goal with Ew : worker s = _ |- _ => rewrite Ew in *; clear Ew end; cbn in *; try discriminate Y; try discriminate A;
          try congruence; try (injection E as <-; eexists; reflexivity). }
      destruct B as (z & ->). destruct (destroyed_in _ C0) as (l1 & i & l2 & ->).
      exists (Begun z :: l1), i, l2. split; [reflexivity|]. right. exists z. left. reflexivity.
Qed.
Lemma misused_run : forall k n t0 sched s, run sched (init k n t0) = Some s -> worker s = TUndefined -> misused (log s).
Proof.
  intros k n t0 sched s R W.
  assert (P : on (log s) = active (worker s) /\ (active (worker s) = true -> (0 < count is_destroy (log s))%nat -> misused (log s))).
  { revert R. apply (run_keeps (fun s => on (log s) = active (worker s) /\
      (active (worker s) = true -> (0 < count is_destroy (log s))%nat -> misused (log s)))); [|split; [reflexivity|discriminate]].
    intros a u v (O & M) S. split; [exact (on_step a u v O S)|exact (misused_step a u v O M S)]. }
  apply P; [rewrite W; reflexivity|]. destruct (count is_destroy (log s)) eqn:C; [|lia].
  destruct (k_worker s (kept_run k n t0 sched s R C) W).
Qed.
Lemma alive_life : forall k n t0 sched s, run sched (init k n t0) = Some s -> count is_destroy (log s) = 0%nat ->
  exists p, life (log s) = Some p /\ (p = Off <-> on (log s) = false).
Proof.
  intros k n t0 sched s R C. pose proof (kept_run k n t0 sched s R C) as K. exists (stage (worker s)). split; [apply K|].
  rewrite (on_run k n t0 sched s R). destruct (worker s); split; intros X; try reflexivity; discriminate X.
Qed.
Lemma life_counts : forall l p, life l = Some p ->
  count is_begun l = (count is_on_start l + match p with Born => 1 | _ => 0 end)%nat /\
  count is_on_start l = (count is_thread_stop l + match p with Up | Inside => 1 | _ => 0 end)%nat /\
  count is_thread_stop l = (count is_ended l + match p with Down => 1 | _ => 0 end)%nat.
Proof.
  induction l as [|e l IH]; intros p H; cbn in H; [injection H as <-; repeat split|].
  destruct (life l) as [q|]; [|discriminate H]. specialize (IH q eq_refl). unfold count in *.
  destruct e; destruct q; cbn in *; try discriminate H; injection H as <-; lia.
Qed.
Lemma cycle_counts : forall k n t0 sched s, run sched (init k n t0) = Some s -> count is_destroy (log s) = 0%nat -> on (log s) = false ->
  count is_on_start (log s) = count is_begun (log s) /\ count is_thread_stop (log s) = count is_begun (log s).
Proof.
  intros k n t0 sched s R C O. destruct (alive_life k n t0 sched s R C) as (p & L & P). rewrite (proj2 P O) in L. destruct (life_counts _ _ L). lia.
Qed.
Lemma join_ended : forall k n t0 sched s l1 i l2, run sched (init k n t0) = Some s -> log s = l1 ++ Return i (Stop true) :: l2 -> on l2 = false.
Proof.
  intros k n t0 sched s l1 i l2 R E. destruct (moment k n t0 sched s R _ _ _ E) as (sched1 & u & a & t & R1 & <- & S & L).
  rewrite (on_run k n t0 sched1 u R1).
  cases S; cbn in L; grown L; try discriminate L; repeat match goal with Ew : worker u = _ |- _ => rewrite Ew in *; clear Ew end; reflexivity.
Qed.
Definition doing (c : cpc) : option op :=
  match c with
  | CIdle | CGone => None
  | CStop j | CStopHook j | CStopNotify j => Some (Stop j) | CJoin => Some (Stop true)
  | CSet n => Some (SetInterval n) | CNotify => Some Notify | CRunning | CRunning2 => Some IsRunning | CExit => Some ExitCode
  | DDestroy | DLock | DMark | DUnlock | DStop | DJoin => Some Destroy
  end.
Definition told (s : state) : Prop := forall i c, nth_error (clients s) i = Some c -> pending i (log s) = doing c.
Lemma told_step : forall a s t, told s -> step a s = Some t -> told t.
Proof.
  intros a s t T H i1 c1 X.
  cases H; cbn in *; try exact (T i1 c1 X);
    apply set_nth_cases in X; destruct X as [(-> & -> & _)|(N & X)]; rewrite ?Nat.eqb_refl;
    try (apply Nat.eqb_neq in N; rewrite Nat.eqb_sym in N; rewrite ?N; exact (T i1 c1 X));
    try (match goal with E : nth_error (clients s) _ = Some _ |- _ => apply T in E end; assumption); try (destruct o); try reflexivity.
Qed.
Lemma told_run : forall k n t0 sched s, run sched (init k n t0) = Some s -> told s.
Proof.
  intros k n t0 sched s. apply (run_keeps _ told_step). intros i c H. apply nth_error_In, repeat_spec in H. subst c. reflexivity.
Qed.
Lemma in_callback_run : forall k n t0 sched s, run sched (init k n t0) = Some s -> worker s <> TUndefined ->
  in_callback (log s) = match worker s with TCallback => true | _ => false end.
Proof.
  intros k n t0 sched s. apply (run_keeps (fun s => worker s <> TUndefined -> in_callback (log s) = match worker s with TCallback => true | _ => false end));
    [|reflexivity].
  intros a u v I H N. cases H; cbn in *; repeat match goal with Ew : worker u = _ |- _ => rewrite Ew in *; clear Ew end; cbn in *;
    try (apply I; discriminate); try reflexivity; try (destruct (N eq_refl)); exact (I N).
Qed.
Lemma moment_rest : forall k n t0 sched s, run sched (init k n t0) = Some s -> forall l1 e l2, log s = l1 ++ e :: l2 ->
  exists sched1 s1 a t sched2, run sched1 (init k n t0) = Some s1 /\ log s1 = l2 /\ step a s1 = Some t /\ log t = e :: l2 /\ run sched2 t = Some s.
Proof.
  intros k n t0 sched. induction sched as [|a sched IH] using rev_ind; intros s R l1 e l2 E.
  - injection R as <-. destruct l1; discriminate E.
  - rewrite run_app in R. destruct (run sched (init k n t0)) as [u|] eqn:U; [|discriminate R]. cbn in R.
    destruct (step a u) as [v|] eqn:S; [|discriminate R]. injection R as <-.
    assert (Old : forall l, log u = l ++ e :: l2 -> exists sched1 s1 a t sched2, run sched1 (init k n t0) = Some s1 /\ log s1 = l2 /\
      step a s1 = Some t /\ log t = e :: l2 /\ run sched2 t = Some v).
    { intros l El. destruct (IH u eq_refl l e l2 El) as (s1 & x & b & t & s2 & A & B & C & D & F).
      exists s1, x, b, t, (s2 ++ [a]). repeat (split; [assumption|]). rewrite run_app, F. cbn. rewrite S. reflexivity. }
    destruct (step_log a u v S) as [K|(e' & K)]; rewrite K in E; [exact (Old l1 E)|].
    destruct l1 as [|e1 l1]; cbn in E; injection E as -> E; [|exact (Old l1 E)].
    exists sched, u, a, v, []. subst l2. rewrite K. auto.
Qed.
Lemma changed_in_callback : forall k n t0 sched s l1 t l2 i x l3, run sched (init k n t0) = Some s ->
  log s = l1 ++ OnInterval t :: l2 ++ Return i (SetInterval x) :: l3 -> in_callback l3 = true -> count is_change l2 = 0%nat ->
  (forall j y, j <> i -> pending j l3 <> Some (SetInterval y) /\ pending j l3 <> Some Notify) ->
  exists t1, base (l2 ++ Return i (SetInterval x) :: l3) = Some t1 /\ t1 + x * ms <= t.
Proof.
  intros k n t0 sched s l1 t l2 i x l3 R E C Z P.
  destruct (moment k n t0 sched s R _ _ _ E) as (sched1 & u & a & v & R1 & Lu & S & Lv).
  destruct (moment_rest k n t0 sched1 u R1 _ _ _ Lu) as (sched2 & s1 & b & w & sched3 & R2 & L1 & S1 & Lw & R3).
  pose proof (told_run k n t0 sched2 s1 R2) as Td. subst l3.
  assert (A : anew x (log w) u).
  { revert R3. apply (run_keeps _ (anew_step x (log w))). exists []. split; [reflexivity|]. intros _.
    assert (W : worker s1 = TCallback \/ worker s1 = TUndefined).
    { assert (D : worker s1 = TUndefined \/ worker s1 <> TUndefined) by (destruct (worker s1); auto; right; discriminate).
      destruct D as [D|D]; [right; exact D|left]. rewrite (in_callback_run k n t0 sched2 s1 R2 D) in C. destruct (worker s1); try discriminate C. reflexivity. }
    cases S1; cbn in Lw; grown Lw; try discriminate Lw; injection Lw as -> ->. cbn. split; [reflexivity|]. split.
    - intros j d X. apply set_nth_cases in X. destruct X as [(_ & -> & _)|(N & X)]; [reflexivity|].
      destruct (P j 0 N) as [_ PN]. pose proof (fun y => proj1 (P j y N)) as PS. rewrite (Td j d X) in PN. setoid_rewrite (Td j d X) in PS.
      destruct d; try reflexivity; exfalso; [exact (PS _ eq_refl)|exact (PN eq_refl)].
    - destruct W as [-> | ->]; exact Logic.I. }
  destruct A as (l & El & A). rewrite Lw, Lu in El. apply app_inv_tail in El. subst l. destruct (A Z) as (_ & _ & W).
  rewrite <- Lu in Lv |- *. unfold paced in W. cases S; cbn in Lv; grown Lv; try discriminate Lv. injection Lv as <-.
  destruct W as (_ & t1 & B & T). exists t1. split; [exact B|]. apply T.
Qed.
Lemma race_worker : forall k n t0 sched s i c, run sched (init k n t0) = Some s -> nth_error (clients s) i = Some c ->
  conflict (waccesses (worker s)) (caccesses c) ->
  on (log s) = true /\ ((exists x, pending i (log s) = Some (SetInterval x)) \/ asking i (log s)).
Proof.
  intros k n t0 sched s i c R Ci (l & x & y & A & B & _). unfold asking. rewrite (on_run k n t0 sched s R), (told_run k n t0 sched s R i c Ci). split.
  - destruct (worker s); cbn in A; try contradiction; reflexivity.
  - destruct c; cbn in *; try contradiction; [left; eexists; reflexivity|right; left; reflexivity|right; right; reflexivity].
Qed.
Lemma race_clients : forall k n t0 sched s i c j d, run sched (init k n t0) = Some s -> i <> j -> nth_error (clients s) i = Some c ->
  nth_error (clients s) j = Some d -> conflict (caccesses c) (caccesses d) ->
  exists x y, pending i (log s) = Some (SetInterval x) /\ pending j (log s) = Some (SetInterval y).
Proof.
  intros k n t0 sched s i c j d R _ Ci Cj (l & x & y & A & B & X).
  rewrite (told_run k n t0 sched s R i c Ci), (told_run k n t0 sched s R j d Cj).
  destruct c; cbn in A; try contradiction; destruct d; cbn in B; try contradiction;
    destruct A as [A|[]]; destruct B as [B|[]]; injection A as <- <-; try discriminate B; injection B as <-; try discriminate X.
  eexists _, _. split; reflexivity.
Qed.
Lemma race_start : forall k n t0 sched s i c, run sched (init k n t0) = Some s -> nth_error (clients s) i = Some c ->
  conflict saccesses (caccesses c) -> asking i (log s).
Proof.
  intros k n t0 sched s i c R Ci (l & x & y & A & B & _). unfold asking. rewrite (told_run k n t0 sched s R i c Ci).
  destruct A as [A|[]]. injection A as <- <-. destruct c; cbn in *; try contradiction; [|left; reflexivity|right; reflexivity]. destruct B as [B|[]]. discriminate B.
Qed.

Lemma lowest : forall M l, Forall (fun x => x <= M) l -> exists m, Forall (within m M) l.
Proof.
  intros M l Z. induction Z as [|x l X _ (m & IH)]; [exists M; constructor|]. exists (Z.min x m). constructor; [unfold within; lia|].
  eapply Forall_impl; [|exact IH]. cbv beta. unfold within. intros y; lia.
Qed.
Lemma longest_bound : forall k n t0 sched s M, run sched (init k n t0) = Some s -> Forall (fun x => x <= M) (n :: periods (log s)) -> longest s <= Z.max 0 (M * ms).
Proof.
  intros k n t0 sched s M R Z. destruct (lowest M _ Z) as (m & HM). inversion HM as [|x l X F]; subst.
  destruct (mixed_run k n t0 sched s m M R X F) as (_ & _ & _ & P). unfold kept_pace, longest in *.
  assert (Mo : forall x, x <= M -> x * ms <= M * ms) by (intros x0 X0; apply Z.mul_le_mono_nonneg_r; [discriminate|exact X0]).
  destruct (worker s); try lia;
    (destruct P as [[P|[P|P]]|(t1 & B & T & P)]; try discriminate P; try destruct P as [P _]; try specialize (Mo _ (proj1 P)); try specialize (Mo _ P); lia).
Qed.
Lemma stop_ends : forall k n t0 sched s M, run sched (init k n t0) = Some s -> count is_destroy (log s) = 0%nat -> Forall (fun x => x <= M) (n :: periods (log s)) ->
  running s = false -> early (worker s) = false -> on (log s) = true ->
  exists sched1 t, Forall (fun a => alone a = true) sched1 /\ run sched1 s = Some t /\ worker t = TEnded /\ now t <= now s + Z.max 0 (M * ms).
Proof.
  intros k n t0 sched s M R D C F E O. pose proof (kept_run k n t0 sched s R D) as K. rewrite (on_run k n t0 sched s R) in O.
  destruct (halted_ends k n t0 sched s R F (k_alive s K) E) as (sched1 & t & A & R1 & W & N).
  - intros X. rewrite X in O. discriminate O.
  - apply K.
  - exists sched1, t. pose proof (longest_bound k n t0 sched s M R C). repeat split; auto. lia.
Qed.
Lemma stop_then : forall k n t0 sched0 s i j t sched u l, run sched0 (init k n t0) = Some s ->
  nth_error (clients s) i = Some (CStop j) -> early (worker s) = false -> step (Next i) s = Some t ->
  run sched t = Some u -> log u = l ++ log t -> count is_begun l = 0%nat ->
  (count is_interval l <= 1)%nat /\
  (forall M, count is_destroy (log u) = 0%nat -> Forall (fun x => x <= M) (n :: periods (log u)) -> on (log u) = true ->
   exists sched1 v, Forall (fun a => alone a = true) sched1 /\ run sched1 u = Some v /\ worker v = TEnded /\
     now v <= now u + Z.max 0 (M * ms)).
Proof.
  intros k n t0 sched0 s i j t sched u l R0 Ci Ea N R El Z.
  destruct (stop_halts s i j t sched u l Ci N Ea R El Z) as (F & B & E). split; [exact B|]. intros M D C O.
  apply (stop_ends k n t0 (sched0 ++ Next i :: sched)); auto. rewrite run_app, R0. cbn [run]. rewrite N. exact R.
Qed.
Lemma going_waits : forall s i, going s -> nth_error (clients s) i = Some CJoin ->
  forall m, exists sched1 t l, Forall (fun a => alone a = true) sched1 /\ run sched1 s = Some t /\
      log t = l ++ log s /\ count is_interval l = m /\ step (Next i) t = None.
Proof.
  intros s i G C m. destruct (going_on m s G) as (sched & t & l & F & R & G1 & L & M). exists sched, t, l. repeat split; auto.
  assert (X : clients t = clients s).
  { clear - F R. revert s R. induction F as [|a sched A F IH]; intros s R; cbn in R; [injection R as <-; reflexivity|].
    destruct (step a s) as [u|] eqn:S; [|discriminate R]. rewrite (IH u R). clear - A S. cases S; cbn; try reflexivity; discriminate A. }
  cbn. unfold next. rewrite X, C. unfold joined. rewrite (proj1 G1). reflexivity.
Qed.

(** What is_running() and exit_code() answer. *)
Definition coding (s : state) : Prop :=
  if active (worker s) then exit s = -100 /\ Nat.eqb (count is_begun (log s)) 0 = false
  else if Nat.eqb (count is_begun (log s)) 0 then exit s = -101 else exit s = last_code (log s).
Lemma coding_step : forall a s t, coded s -> coding s -> step a s = Some t -> coding t.
Proof.
  intros a s t D C H. unfold coding, coded, count in *.
  cases H; cbn in *; repeat match goal with Ew : worker s = _ |- _ => rewrite Ew in *; clear Ew end; cbn in *; try assumption;
    try (split; reflexivity).
  rewrite (proj2 C). exact D.
Qed.
Lemma coding_run : forall k n t0 sched s, run sched (init k n t0) = Some s -> coding s.
Proof.
  intros k n t0 sched s R. cut (coded s /\ coding s); [tauto|]. revert R. apply (run_keeps (fun s => coded s /\ coding s)).
  - intros a u v [D C] H. exact (conj (coded_step a u v D H) (coding_step a u v D C H)).
  - split; reflexivity || exact I.
Qed.
Lemma exit_code : forall k n t0 sched s, run sched (init k n t0) = Some s -> exit s = code (log s).
Proof.
  intros k n t0 sched s R. pose proof (coding_run k n t0 sched s R) as C. unfold coding, code in *. rewrite (on_run k n t0 sched s R).
  destruct (active (worker s)); [exact (proj1 C)|]. destruct (Nat.eqb _ 0); exact C.
Qed.
Lemma said_code : forall k n t0 sched s l1 i c l2, run sched (init k n t0) = Some s -> log s = l1 ++ SaidCode i c :: l2 -> c = code l2.
Proof.
  intros k n t0 sched s l1 i c l2 R E. destruct (moment k n t0 sched s R _ _ _ E) as (sched1 & u & a & t & R1 & <- & S & L).
  pose proof (exit_code k n t0 sched1 u R1) as C.
  cases S; cbn in L; grown L; try discriminate L. injection L as _ <-. exact C.
Qed.
Lemma said_true : forall k n t0 sched s l1 i l2, run sched (init k n t0) = Some s -> log s = l1 ++ SaidRunning i true :: l2 ->
  on l2 = true \/ last_code l2 = -100.
Proof.
  intros k n t0 sched s l1 i l2 R E. destruct (moment k n t0 sched s R _ _ _ E) as (sched1 & u & a & t & R1 & <- & S & L).
  pose proof (exit_code k n t0 sched1 u R1) as C. unfold code in C.
  cases S; cbn in L; grown L; try discriminate L. injection L as _ L. apply Z.eqb_eq in L. rewrite L in C.
  destruct (on (log u)); [left; reflexivity|]. destruct (Nat.eqb _ 0); [discriminate C|right; symmetry; exact C].
Qed.
Definition steadily (s : state) : Prop :=
  match worker s with
  | TInit | TStartLock | TStart | TSetRunning => count is_interval (since (log s)) = 0%nat
  | TAnd2 b => b = true /\ ret s = 0 /\ running s = true
  | TForced | TAnd => ret s = 0 /\ running s = true
  | TStopLock | TStop | TReturn | TUndefined => False
  | TOff | TEnded => True
  | _ => running s = true
  end.
Definition unstopped (l : list event) : Prop := count is_destroy l = 0%nat /\ count is_stop (since l) = 0%nat.
Lemma steadily_step : forall a s t, kept s -> (on (log s) = true -> unstopped (log s) -> steadily s) -> on (log s) = active (worker s) ->
  step a s = Some t -> on (log t) = true -> unstopped (log t) -> steadily t.
Proof.
  intros a s t [_ A D N C _] K O H O1 [Z U].
  rewrite O in K. unfold steadily, unstopped, count in *.
  cases H; cbn in Z, U, O1;
    try (match goal with Ei : nth_error (clients s) _ = Some _ |- _ => pose proof (C _ _ Ei) as Ci end; cbn in Ci);
    try discriminate Ci; try (destruct o; cbn in Z, U; try discriminate Z);
    cbn in *; repeat match goal with Ew : worker s = _ |- _ => rewrite Ew in *; clear Ew end; cbn in *; try discriminate O1; try discriminate U;
    try (exact (K eq_refl (conj Z U))); try reflexivity; try congruence; try (rewrite <- O, O1 in K; exact (K eq_refl (conj Z U))).
  - discriminate (K eq_refl (conj Z U)).
  - discriminate (K eq_refl (conj Z U)).
  - destruct (K eq_refl (conj Z U)) as [R1 R2]. split; [exact R2|split; assumption].
  - destruct (K eq_refl (conj Z U)) as (-> & -> & _). reflexivity.
  - destruct (code =? 0) eqn:E9; [|discriminate U]. apply Z.eqb_eq in E9. split; [exact E9|]. exact (K eq_refl (conj Z U)).
  - rewrite <- O, O1 in K. rewrite E2. exact (K eq_refl (conj Z U)).
  - rewrite <- O, O1 in K. rewrite E2. exact (K eq_refl (conj Z U)).
Qed.
Lemma steadily_run : forall k n t0 sched s, run sched (init k n t0) = Some s -> on (log s) = true -> unstopped (log s) -> steadily s.
Proof.
  intros k n t0 sched s R O U. pose proof (proj1 U) as Z. revert O U.
  cut ((count is_destroy (log s) = 0%nat -> kept s) /\ on (log s) = active (worker s) /\ (on (log s) = true -> unstopped (log s) -> steadily s)); [tauto|].
  clear Z. revert R.
  apply (run_keeps (fun s => (count is_destroy (log s) = 0%nat -> kept s) /\ on (log s) = active (worker s) /\
    (on (log s) = true -> unstopped (log s) -> steadily s))).
  - intros a u v (K & O & P) H. split; [intros Z; exact (kept_step a u v K H Z)|]. split; [exact (on_step a u v O H)|].
    intros O1 U. assert (Z0 : count is_destroy (log u) = 0%nat).
    { destruct (step_log a u v H) as [E|[e E]]; destruct U as [Z _]; rewrite E in Z; [exact Z|]. unfold count in *. cbn in Z.
      destruct (is_destroy e); [discriminate Z|exact Z]. }
    exact (steadily_step a u v (K Z0) P O H O1 U).
  - split; [intros _; apply (kept_run k n t0 [] _ eq_refl); reflexivity|]. split; [reflexivity|]. intros O. discriminate O.
Qed.
Lemma said_false : forall k n t0 sched s l1 i l2, run sched (init k n t0) = Some s -> log s = l1 ++ SaidRunning i false :: l2 ->
  ~ steady l2.
Proof.
  intros k n t0 sched s l1 i l2 R E (O & I & S1 & D). destruct (moment k n t0 sched s R _ _ _ E) as (sched1 & u & a & t & R1 & <- & S & L).
  pose proof (exit_code k n t0 sched1 u R1) as C. unfold code in C. rewrite O in C.
  pose proof (steadily_run k n t0 sched1 u R1 O (conj D S1)) as P. unfold steadily in P. rewrite (on_run k n t0 sched1 u R1) in O.
  cases S; cbn in L; grown L; try discriminate L.
  - destruct (worker u); cbn in O; try discriminate O; try contradiction; try discriminate P; try (destruct P as [_ P]; discriminate P);
      destruct P as (_ & _ & P); discriminate P.
  - rewrite C in L. discriminate L.
Qed.

(** notify(). *)
Definition calls (sched : list action) (s : state) : Prop := exists u, run sched s = Some u /\ log u = OnInterval (now s) :: log s.
Lemma calls_back : forall a sched s t, step a s = Some t -> log t = log s -> now t = now s -> calls sched t -> calls (a :: sched) s.
Proof.
  intros a sched s t S L N (u & R & E). exists u. split; [cbn; rewrite S; exact R|]. rewrite E, L, N. reflexivity.
Qed.
Lemma notify_calls : forall k n t0 sched s i t dl, run sched (init k n t0) = Some s -> count is_destroy (log s) = 0%nat ->
  worker s = TSleep dl -> running s = true -> nth_error (clients s) i = Some CNotify -> step (Next i) s = Some t ->
  exists u, run [Wake; Work; Work; Work] t = Some u /\ log u = OnInterval (now t) :: log t.
Proof.
  assert (L1 : forall s, alive s = true -> worker s = TCall -> calls [Work] s).
  { intros s A W. exists (note (OnInterval (now s)) (wgo TCallback s)). split; [|reflexivity]. cbn. unfold work. rewrite W, A. reflexivity. }
  assert (L2 : forall s b, alive s = true -> forced s = true -> worker s = TDecide b -> calls [Work; Work] s).
  { intros s b A F W. eapply calls_back; [cbn; unfold work; rewrite W, F, orb_true_r; reflexivity|reflexivity|reflexivity|]. apply L1; auto. }
  assert (L3 : forall s b, running s = true -> alive s = true -> forced s = true -> worker s = TAwake b -> calls [Work; Work; Work] s).
  { intros s b R A F W. eapply calls_back; [cbn; unfold work; rewrite W, R; reflexivity|reflexivity|reflexivity|]. apply (L2 _ b); auto. }
  assert (L4 : forall s dl, running s = true -> alive s = true -> forced s = true -> mtx s = None -> worker s = TSleep dl ->
    calls [Wake; Work; Work; Work] s).
  { intros s dl R A F M W. eapply calls_back; [cbn; unfold wake, acquire; rewrite W, M; reflexivity|reflexivity|reflexivity|]. apply (L3 _ false); auto. }
  intros k n t0 sched s i t dl R Z W G C H.
  pose proof (kept_run k n t0 sched s R Z) as [M A _ _ _ _].
  pose proof (o_worker s (d_owned s (sound_run k n t0 sched s R))) as O. rewrite W in O.
  assert (F : mtx s = None).
  { destruct (mtx s) as [[j|]|]; [exfalso; exact (M j eq_refl)| |reflexivity]. destruct O as [O|[O _]]; [discriminate O|]. discriminate (O eq_refl). }
  assert (T : running t = true /\ alive t = true /\ forced t = true /\ mtx t = None /\ worker t = TSleep dl).
  { unfold step, next in H. rewrite C in H. injection H as <-. repeat split; assumption. }
  destruct T as (T1 & T2 & T3 & T4 & T5). exact (L4 t dl T1 T2 T3 T4 T5).
Qed.
Lemma sleeps_on : forall s dl d t, worker s = TSleep dl -> Z.of_N d < dl - now s -> step (Tick d) s = Some t -> step Work t = None.
Proof.
  intros s dl d t W D S. cbn in S. injection S as <-. cbn. unfold work. cbn. rewrite W.
  destruct (Z.leb_spec dl (now s + Z.of_N d)); [lia|reflexivity].
Qed.

(** The destructor. *)
Definition marked (s : state) : Prop := forall i c, nth_error (clients s) i = Some c -> past c = true -> deleted s = true.
Lemma marked_step : forall a s t, marked s -> step a s = Some t -> marked t.
Proof.
  intros a s t D H i1 c1 X.
  cases H; cbn in *; try exact (D i1 c1 X);
    apply set_nth_cases in X; destruct X as [(-> & -> & _)|(N & X)]; try exact (D _ _ X); try (intros P; discriminate P); try reflexivity;
    try (intros _; match goal with E : nth_error (clients s) _ = Some _ |- _ => exact (D _ _ E eq_refl) end).
  destruct o; intros P; discriminate P.
Qed.
Lemma marked_run : forall k n t0 sched s, run sched (init k n t0) = Some s -> marked s.
Proof.
  intros k n t0 sched s. apply (run_keeps _ marked_step). intros i c H P. apply nth_error_In, repeat_spec in H. subst c. discriminate P.
Qed.
Lemma hooks_off : forall k n t0 sched s i c t, run sched (init k n t0) = Some s -> nth_error (clients s) i = Some c -> past c = true ->
  worker s = TStart \/ worker s = TStop -> step Work s = Some t -> worker t <> TUndefined.
Proof.
  intros k n t0 sched s i c t R C P W H. pose proof (marked_run k n t0 sched s R i c C P) as D.
  cbn in H. unfold work in H. destruct W as [W|W]; rewrite W, D in H; injection H as <-; discriminate.
Qed.
Lemma alone_clients : forall sched s t, Forall (fun a => alone a = true) sched -> run sched s = Some t -> clients t = clients s.
Proof.
  intros sched s t F. revert s. induction F as [|a sched A F IH]; intros s R; cbn in R; [injection R as <-; reflexivity|].
  destruct (step a s) as [u|] eqn:S; [|discriminate R]. rewrite (IH u R). clear - A S. cases S; cbn; try reflexivity; discriminate A.
Qed.
Definition holder (s : state) : Prop := forall j, mtx s = Some (Some j) -> exists c, nth_error (clients s) j = Some c.
Lemma holder_step : forall a s t, holder s -> step a s = Some t -> holder t.
Proof.
  intros a s t D H j X.
  assert (Len : length (clients t) = length (clients s)) by (clear D X; cases H; cbn; rewrite ?set_nth_length; reflexivity).
  assert (K : mtx s = Some (Some j) \/ exists c, nth_error (clients s) j = Some c).
  { cases H; cbn in X; try (left; exact X); try discriminate X; try (injection X as <-; right; eexists; eassumption). }
  assert (Y : nth_error (clients s) j <> None) by (destruct K as [K|(c & K)]; [destruct (D j K) as (c & ->)|rewrite K]; discriminate).
  apply nth_error_Some in Y. rewrite <- Len in Y. apply nth_error_Some in Y. destruct (nth_error (clients t) j) as [c|]; [eexists; reflexivity|congruence].
Qed.
Lemma holder_run : forall k n t0 sched s, run sched (init k n t0) = Some s -> holder s.
Proof. intros k n t0 sched s. apply (run_keeps _ holder_step). intros j X. discriminate X. Qed.
Lemma destructor_returns : forall k n t0 sched s i t M, run sched (init k n t0) = Some s -> nth_error (clients s) i = Some DStop ->
  (forall j, pending j (log s) = Some Destroy -> j = i) -> early (worker s) = false -> calling (worker s) = false -> worker s <> TUndefined ->
  on (log s) = true -> Forall (fun x => x <= M) (n :: periods (log s)) -> step (Next i) s = Some t ->
  exists sched1 u, Forall (fun a => alone a = true) sched1 /\ run (sched1 ++ [Next i]) t = Some u /\
    (exists l, log u = Return i Destroy :: l) /\ now u <= now s + Z.max 0 (M * ms).
Proof.
  intros k n t0 sched s i t M R C Al E Ca Un O Z H.
  assert (D : deleted s = true) by (apply (marked_run k n t0 sched s R i DStop C eq_refl)).
  assert (NC : forall j, mtx s <> Some (Some j)).
  { intros j X. destruct (sound_run k n t0 sched s R) as [[_ Oc] _ _].
    destruct (holder_run k n t0 sched s R j X) as (c & Cj). pose proof (proj1 (Oc j c Cj) X) as Hc.
    assert (j = i) by (apply Al; rewrite (told_run k n t0 sched s R j c Cj); destruct c; try discriminate Hc; reflexivity).
    subst j. rewrite C in Cj. injection Cj as <-. discriminate Hc. }
  pose proof (longest_bound k n t0 sched s M R Z) as B. rewrite (on_run k n t0 sched s R) in O.
  destruct (sound_run k n t0 sched s R) as [[W _] S _].
  unfold step, next in H. rewrite C in H. injection H as <-.
  destruct (stopped_ends (cgo i DJoin (set_running false s))) as (sched1 & u & F & R1 & E1 & N1).
  - reflexivity.
  - right. exact D.
  - intros X. cbn in X. rewrite Ca in X. discriminate X.
  - exact E.
  - cbn. intros X. rewrite X in O. discriminate O.
  - exact Un.
  - cbn. intros X. destruct W as [W|W]; [contradiction|]. destruct (mtx s) as [[j|]|] eqn:Y; [destruct (NC j eq_refl)| |reflexivity].
    rewrite (proj1 W eq_refl) in X. discriminate X.
  - exact S.
  - exists sched1, (note (Return i Destroy) (cgo i CGone (wgo TOff u))). split; [exact F|].
    pose proof (alone_clients sched1 _ u F R1) as Cl. cbn in Cl. rewrite run_app, R1. split; [|split; [eexists; reflexivity|]].
    + cbn. unfold next, joined. rewrite Cl, (set_nth_same _ _ _ _ C), E1. reflexivity.
    + cbn in N1 |- *. unfold longest in *. cbn in N1. lia.
Qed.
