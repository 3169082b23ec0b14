(** Proofs about the hooks of a timer. *)
Require Import List Arith ZArith Lia Bool.
Require Import Verif.Base Verif.TimerModel Verif.TimerSpec Verif.TimerProofs Verif.TimerHookModel Verif.TimerHookSpec.
Import ListNotations.

Local Arguments nth_error : simpl never.
Local Ltac known := repeat match goal with Ew : worker _ = _ |- _ => rewrite Ew in *; clear Ew end.

(** After a stop() inside the callback. *)
Definition leaves (w : wpc) : bool :=
  match w with
  | TCallback | TForced | TAnd | TAnd2 false | TRestart | TReset | TUnlock | TLoop | TStopLock | TStop | TReturn | TEnded | TOff | TUndefined => true
  | _ => false
  end.
Definition quiet (l0 : list event) (s : state) : Prop := exists l, log s = l ++ l0 /\ (count is_begun l = 0 ->
  running s = false /\ leaves (worker s) = true /\ count is_interval l = 0).
Lemma quiet_step : forall l0 a s t, quiet l0 s -> step a s = Some t -> quiet l0 t.
Proof.
  intros l0 a s t (l & El & Pr) H.
  destruct (step_log a s t H) as [K|(e & K)].
  - exists l. split; [rewrite K; exact El|]. intros Z. destruct (Pr Z) as (D & Q & B).
    cases H; cbn in *; grown K; known; cbn in *; try discriminate; try congruence; (split; [try congruence|]); try rewrite D;
      try (split; [first [assumption|reflexivity]|assumption]).
    destruct b; [discriminate Q|reflexivity].
  - exists (e :: l). split; [rewrite K, El; reflexivity|].
    assert (Z0 : count is_begun (e :: l) = 0 -> is_begun e = false /\ count is_begun l = 0).
    { unfold count. cbn. destruct (is_begun e); cbn; [discriminate|auto]. }
    intros Z. destruct (Z0 Z) as [Z1 Z2]. destruct (Pr Z2) as (D & Q & B). clear Z0 Z Z2 Pr.
    cases H; cbn in K; grown K; injection K; intros; subst e; try discriminate; unfold count in *; cbn in *; known; cbn in *;
      try discriminate; try congruence; (split; [congruence|]); (split; [first [assumption|reflexivity]|lia]).
Qed.

Lemma set_nth_other : forall {A} (l : list A) i x j, i <> j -> nth_error (set_nth l i x) j = nth_error l j.
Proof. intros. apply nth_error_set_nth_neq. assumption. Qed.
Lemma next_worker : forall i b c, next i b = Some c -> worker c = worker b \/ worker b = TEnded.
Proof. intros i b c H. assert (H' : step (Next i) b = Some c) by exact H. clear H. cases H'; cbn; auto. Qed.
Lemma begin_worker : forall i o b c, begin i o b = Some c -> worker c = worker b.
Proof. intros i o b c H. assert (H' : step (Begin i o) b = Some c) by exact H. clear H. cases H'; reflexivity. Qed.
Lemma next_clients : forall i b c, next i b = Some c -> exists d, clients c = set_nth (clients b) i d.
Proof. intros i b c H. assert (H' : step (Next i) b = Some c) by exact H. clear H. cases H'; cbn; eexists; reflexivity. Qed.
Lemma begin_clients : forall i o b c, begin i o b = Some c -> clients c = set_nth (clients b) i (entry o).
Proof. intros i o b c H. assert (H' : step (Begin i o) b = Some c) by exact H. clear H. cases H'; reflexivity. Qed.
Lemma work_clients : forall b c, work b = Some c -> clients c = clients b.
Proof. intros b c H. assert (H' : step Work b = Some c) by exact H. clear H. cases H'; reflexivity. Qed.
Lemma result_clients : forall x b c, result x b = Some c -> clients c = clients b.
Proof. intros x b c H. assert (H' : step (Result x) b = Some c) by exact H. clear H. cases H'; reflexivity. Qed.

Section Hooks.
Variable depth : nat.
Variable hooks : list event -> prog.
Notation hwork := (hwork depth hooks).
Notation hstep := (hstep depth hooks).
Notation hrun := (hrun depth hooks).
Notation hinit := (hinit depth).
Notation other := (other depth).
Implicit Types (s : hstate) (l : list event).

Lemma hrun_app : forall sched1 sched2 s, hrun (sched1 ++ sched2) s =
  match hrun sched1 s with Some t => hrun sched2 t | None => None end.
Proof. induction sched1 as [|a sched1 IH]; intros sched2 s; cbn; [reflexivity|]. destruct (hstep a s); [apply IH|reflexivity]. Qed.
Lemma hrun_keeps : forall (P : hstate -> Prop), (forall a s t, P s -> hstep a s = Some t -> P t) ->
  forall sched s t, P s -> hrun sched s = Some t -> P t.
Proof.
  intros P K. induction sched as [|a sched IH]; intros s t I R; cbn in R; [injection R as <-; exact I|].
  destruct (hstep a s) as [u|] eqn:E; [|discriminate R]. exact (IH u t (K a s u I E) R).
Qed.

(** The ways a step can go. *)
Notation going b f := {| base := b; frames := f; over := Going |}.
Inductive way : hstate -> hstate -> Prop :=
  | way_work b c : work b = Some c -> enters b = false -> way (going b []) (going c [])
  | way_enter b c : work b = Some c -> enters b = true -> way (going b []) (going c [Inside (hooks (log c))])
  | way_result b x c : worker b = TCallback -> result x b = Some c -> way (going b [Inside (Leave x)]) (going c [])
  | way_leave b x rest : rest <> [] \/ worker b <> TCallback -> way (going b (Inside (Leave x) :: rest)) (going b rest)
  | way_raise b p rest : p = Raise \/ p = StartSelf -> way (going b (Inside p :: rest)) {| base := b; frames := []; over := Terminated |}
  | way_full b u k rest : depth <= length rest -> way (going b (Inside (Use u k) :: rest)) {| base := b; frames := []; over := Overflowed |}
  | way_join b k rest : way (going b (Inside (JoinSelf k) :: rest)) (going b (Inside k :: rest))
  | way_begin b u k rest c : length rest < depth -> begin (length rest) (op_of u) b = Some c ->
      way (going b (Inside (Use u k) :: rest)) (going c (Calling k :: rest))
  | way_back b k rest : nth_error (clients b) (length rest) = Some CIdle ->
      way (going b (Calling k :: rest)) (going b (Inside (k (log b)) :: rest))
  | way_hook b k rest j c : nth_error (clients b) (length rest) = Some (CStopHook j) -> next (length rest) b = Some c ->
      way (going b (Calling k :: rest)) (going c (Inside (hooks (log c)) :: Calling k :: rest))
  | way_next b k rest p c : nth_error (clients b) (length rest) = Some p -> (forall j, p <> CStopHook j) -> next (length rest) b = Some c ->
      way (going b (Calling k :: rest)) (going c (Calling k :: rest))
  | way_other a b c f : other a = true -> step a b = Some c -> way (going b f) (going c f).
Lemma ways : forall a s t, hstep a s = Some t -> way s t.
Proof.
  intros a [b f ov] t H. unfold TimerHookModel.hstep in H. cbn [over] in H. destruct ov; [|discriminate H..].
  destruct a as [|a].
  - unfold TimerHookModel.hwork in H. cbn [frames base] in H. destruct f as [|[p|k] rest].
    + destruct (work b) as [c|] eqn:E; [|discriminate H]. cbn [option_map] in H. injection H as <-.
      destruct (enters b) eqn:K; constructor; assumption.
    + destruct p as [x| |u k|k|].
      * destruct rest as [|r rest].
        -- assert (D : worker b = TCallback \/ worker b <> TCallback) by (destruct (worker b); auto; right; discriminate).
           destruct D as [D|D].
           ++ rewrite D in H. destruct (result x b) as [c|] eqn:E; [|discriminate H]. injection H as <-. constructor; assumption.
           ++ assert (Hk : going b [] = t) by (destruct (worker b); congruence). subst t. apply way_leave. right. exact D.
        -- injection H as <-. apply way_leave. left. discriminate.
      * injection H as <-. constructor. left. reflexivity.
      * destruct (length rest <? depth) eqn:L.
        -- destruct (begin (length rest) (op_of u) b) as [c|] eqn:E; [|discriminate H]. injection H as <-. constructor; [apply Nat.ltb_lt; exact L|exact E].
        -- injection H as <-. constructor. apply Nat.ltb_ge. exact L.
      * injection H as <-. constructor.
      * injection H as <-. constructor. right. reflexivity.
    + destruct (nth_error (clients b) (length rest)) as [c|] eqn:E.
      * destruct c; try (destruct (next (length rest) b) as [d|] eqn:N; [|discriminate H]; injection H as <-; eapply way_next; [exact E|discriminate|exact N]).
        -- injection H as <-. constructor. exact E.
        -- destruct (next (length rest) b) as [d|] eqn:N; [|discriminate H]; injection H as <-. eapply way_hook; eassumption.
      * unfold next in H. rewrite E in H. discriminate H.
  - cbn [base frames] in H. destruct (other a) eqn:O; [|discriminate H]. destruct (step a b) as [c|] eqn:E; [|discriminate H].
    injection H as <-. econstructor; eassumption.
Qed.
Lemma way_base : forall s t, way s t -> base t = base s \/ exists a, step a (base s) = Some (base t).
Proof.
  intros s t W. destruct W; cbn; auto; right.
  - exists Work. assumption.
  - exists Work. assumption.
  - exists (Result x). assumption.
  - exists (Begin (length rest) (op_of u)). assumption.
  - exists (Next (length rest)). assumption.
  - exists (Next (length rest)). assumption.
  - exists a. assumption.
Qed.
(** Every execution with hooks is one of the model without them. *)
Lemma refines : forall sched s t, hrun sched s = Some t -> exists sched', run sched' (base s) = Some (base t).
Proof.
  intros sched s t. refine (hrun_keeps (fun t => exists sched', run sched' (base s) = Some (base t)) _ sched s t _); [|exists []; reflexivity].
  intros a u v (sched' & R) H. destruct (way_base _ _ (ways _ _ _ H)) as [->|(b & S)]; [exists sched'; exact R|].
  exists (sched' ++ [b]). rewrite run_app, R. cbn. rewrite S. reflexivity.
Qed.
Lemma reaches : forall k n t0 sched s, hrun sched (hinit k n t0) = Some s -> exists sched', run sched' (init (depth + k) n t0) = Some (base s).
Proof. intros k n t0 sched s R. exact (refines sched (hinit k n t0) s R). Qed.
Lemma hstep_log : forall a s t, hstep a s = Some t -> log (base t) = log (base s) \/ exists e, log (base t) = e :: log (base s).
Proof.
  intros a s t H. destruct (way_base _ _ (ways _ _ _ H)) as [->|(b & S)]; [left; reflexivity|]. exact (step_log b _ _ S).
Qed.
Lemma hmoment : forall k n t0 sched s, hrun sched (hinit k n t0) = Some s -> forall l1 e l2, log (base s) = l1 ++ e :: l2 ->
  exists sched1 s1 a t sched2, hrun sched1 (hinit k n t0) = Some s1 /\ log (base s1) = l2 /\ hstep a s1 = Some t /\
    log (base t) = e :: l2 /\ hrun sched2 t = Some s.
Proof.
  intros k n t0 sched s R0.
  refine (proj2 (hrun_keeps (fun s => (exists sched, hrun sched (hinit k n t0) = Some s) /\ forall l1 e l2, log (base s) = l1 ++ e :: l2 ->
    exists sched1 s1 a t sched2, hrun sched1 (hinit k n t0) = Some s1 /\ log (base s1) = l2 /\ hstep a s1 = Some t /\
    log (base t) = e :: l2 /\ hrun sched2 t = Some s) _ sched _ _ _ R0)).
  2: { split; [exists []; reflexivity|]. intros l1 e l2 H. destruct l1; discriminate H. }
  intros a u v [(sc & R) IH] H. split; [exists (sc ++ [a]); rewrite hrun_app, R; cbn; rewrite H; reflexivity|].
  intros l1 e l2 El.
  assert (Old : forall l1', log (base u) = l1' ++ e :: l2 -> exists sched1 s1 a0 t sched2, hrun sched1 (hinit k n t0) = Some s1 /\ log (base s1) = l2 /\ hstep a0 s1 = Some t /\
    log (base t) = e :: l2 /\ hrun sched2 t = Some v).
  { intros l1' Eu. destruct (IH l1' e l2 Eu) as (s1 & x & b & t & s2 & A & B & D & F & G).
    exists s1, x, b, t, (s2 ++ [a]). repeat (split; [assumption|]). rewrite hrun_app, G. cbn. rewrite H. reflexivity. }
  destruct (hstep_log _ _ _ H) as [K|(e' & K)].
  - rewrite K in El. exact (Old l1 El).
  - rewrite K in El. destruct l1 as [|x l1].
    + injection El as -> El. exists sc, u, a, v, []. repeat split; auto. rewrite K, El. reflexivity.
    + injection El as -> El. exact (Old l1 El).
Qed.

(** The calls of the hooks. *)
Definition modest (c : cpc) : bool :=
  match c with CIdle | CStop false | CStopHook false | CStopNotify false | CSet _ | CNotify | CRunning | CRunning2 | CExit => true | _ => false end.
Fixpoint below (cl : list cpc) (f : list frame) : Prop :=
  match f with [] => True | Inside _ :: _ => False | Calling _ :: r => nth_error cl (length r) = Some (CStopNotify false) /\ below cl r end.
Definition tidy (cl : list cpc) (f : list frame) : Prop :=
  match f with
  | [] => True
  | Inside _ :: r => below cl r /\ length r <= depth
  | Calling _ :: r => (exists c, nth_error cl (length r) = Some c /\ modest c = true) /\ below cl r /\ length r < depth
  end.
Definition busy (f : list frame) : nat := match f with [] => 0 | Inside _ :: r => length r | Calling _ :: r => S (length r) end.
Definition hooked (w : wpc) : bool := match w with TSetRunning | TReturn | TCallback => true | _ => false end.
Definition halted (c : cpc) : bool := match c with CStopHook _ | CStopNotify _ => true | _ => false end.
Record hinv s : Prop := {
  h_tidy : tidy (clients (base s)) (frames s);
  h_idle : forall i, busy (frames s) <= i -> i < depth -> nth_error (clients (base s)) i = Some CIdle;
  h_in : frames s <> [] -> hooked (worker (base s)) = true;
  h_out : frames s = [] -> worker (base s) <> TCallback;
  h_stop : forall i c, i < depth -> nth_error (clients (base s)) i = Some c -> halted c = true -> running (base s) = false }.
Lemma below_set : forall cl f i c, length f <= i -> below cl f -> below (set_nth cl i c) f.
Proof.
  intros cl f i c. induction f as [|[p|k] r IH]; cbn; [auto|auto|]. intros L [A B]. split; [|apply IH; [lia|exact B]].
  rewrite set_nth_other by lia. exact A.
Qed.
Lemma hooked_other : forall a b c, other a = true -> step a b = Some c -> hooked (worker b) = true -> worker c = worker b.
Proof. intros a b c O H W. cases H; cbn in *; known; try discriminate; reflexivity. Qed.
Lemma other_calls_back : forall a b c, other a = true -> step a b = Some c -> worker b <> TCallback -> worker c <> TCallback.
Proof. intros a b c O H W. cases H; cbn in *; known; try discriminate; try assumption; congruence. Qed.
Lemma other_clients : forall a b c i, other a = true -> step a b = Some c -> i < depth -> nth_error (clients c) i = nth_error (clients b) i.
Proof.
  intros a b c i O H L. cases H; cbn in *; try discriminate O; try reflexivity; apply Nat.leb_le in O; apply set_nth_other; lia.
Qed.
Lemma other_running : forall a b c, other a = true -> step a b = Some c -> running b = false -> running c = false.
Proof. intros a b c O H R. cases H; cbn in *; try discriminate O; try assumption; try congruence; reflexivity. Qed.
Lemma below_other : forall cl cl' f, (forall i, i < length f -> nth_error cl' i = nth_error cl i) -> below cl f -> below cl' f.
Proof.
  intros cl cl' f. induction f as [|[p|k] r IH]; cbn; [auto|auto|]. intros E [A B]. split; [rewrite E by lia; exact A|].
  apply IH; [intros i L; apply E; lia|exact B].
Qed.
Lemma next_modest : forall i b c p, nth_error (clients b) i = Some p -> modest p = true -> (halted p = true -> running b = false) -> next i b = Some c ->
  worker c = worker b /\ exists q, clients c = set_nth (clients b) i q /\ modest q = true /\
    (halted q = true -> running c = false) /\ (running b = false -> running c = false).
Proof.
  intros i b c p E M S H. assert (H' : step (Next i) b = Some c) by exact H. clear H.
  cases H'; cbn in *; injection E as <-; try discriminate M; (split; [reflexivity|]); eexists; (split; [reflexivity|]); cbn; auto.
  all: try (split; [reflexivity|]; split; [discriminate|auto]).
  all: try (destruct j; try discriminate M; auto).
  all: try (intros X; discriminate X).
Qed.
Lemma hinv_way : forall s t, over s = Going -> hinv s -> way s t -> over t = Going -> hinv t.
Proof.
  intros s t _ [T I W O S] H G.
  destruct H as [b c H K|b c H K|b x c K H|b x rest K|b p rest K|b u k rest K|b k rest|b u k rest c K H|b k rest H|b k rest j c K H|b k rest p c K N H|a b c f K H];
    cbn [base frames over] in *; try discriminate G.
  - pose proof (work_clients _ _ H) as Ec. split; cbn [base frames]; rewrite ?Ec; auto; try (intros X; destruct (X eq_refl)).
    + intros _. specialize (O eq_refl). unfold enters in K. assert (H' : step Work b = Some c) by exact H. clear H.
      cases H'; cbn in *; known; try discriminate; try congruence.
    + intros i c0 L E X. rewrite (I i (Nat.le_0_l i) L) in E. injection E as <-. discriminate X.
  - pose proof (work_clients _ _ H) as Ec. split; cbn [base frames]; rewrite ?Ec; auto; try (intros X; discriminate X).
    + cbn. split; [exact Logic.I|lia].
    + intros _. unfold enters in K. assert (H' : step Work b = Some c) by exact H. clear H. cases H'; cbn in *; known; try discriminate K; reflexivity.
    + intros i c0 L E X. rewrite (I i (Nat.le_0_l i) L) in E. injection E as <-. discriminate X.
  - pose proof (result_clients _ _ _ H) as Ec. split; cbn [base frames]; rewrite ?Ec; try exact Logic.I; auto; try (intros X; destruct (X eq_refl)).
    + intros _. unfold result in H. rewrite K in H. destruct (alive b); injection H as <-; discriminate.
    + intros i c0 L E X. assert (Er : running c = running b) by (unfold result in H; rewrite K in H; destruct (alive b); injection H as <-; reflexivity).
      rewrite Er. exact (S i c0 L E X).
  - destruct T as [B L]. split; cbn [base frames].
    + destruct rest as [|[p|k] r]; cbn in *; [exact Logic.I|destruct B|]. destruct B as [B1 B2]. split; [|split; [exact B2|lia]].
      exists (CStopNotify false). split; [exact B1|reflexivity].
    + intros i Li. apply I. destruct rest as [|[p|k] r]; cbn in *; [exact Li|destruct B|exact Li].
    + intros X. apply W. discriminate.
    + intros ->. destruct K as [K|K]; [destruct (K eq_refl)|exact K].
    + exact S.
  - split; cbn [base frames]; auto.
    + intros _. apply W. discriminate.
    + intros X. discriminate X.
  - destruct T as [B L]. pose proof (begin_clients _ _ _ _ H) as Ec. pose proof (begin_worker _ _ _ _ H) as Ew.
    assert (Ei : nth_error (clients b) (length rest) = Some CIdle) by (apply I; [cbn; lia|exact K]).
    split; cbn [base frames]; rewrite ?Ec, ?Ew; auto.
    + cbn. split; [|split; [apply below_set; [lia|exact B]|exact K]]. exists (entry (op_of u)). split; [exact (set_nth_same _ _ _ _ Ei)|].
      destruct u; reflexivity.
    + cbn. intros i Li L'. rewrite set_nth_other by lia. apply I; [cbn; lia|exact L'].
    + intros _. apply W. discriminate.
    + intros X. discriminate X.
    + intros i c0 L' E X. assert (Er : running c = running b) by (unfold begin in H; rewrite Ei in H; injection H as <-; reflexivity). rewrite Er.
      apply set_nth_cases in E. destruct E as [(-> & -> & _)|(_ & E)]; [destruct u; discriminate X|exact (S i c0 L' E X)].
  - destruct T as (_ & B & L). split; cbn [base frames]; auto.
    + cbn. split; [exact B|lia].
    + cbn. intros i Li L'. destruct (Nat.eq_dec i (length rest)) as [->|N]; [exact H|]. apply I; [cbn; lia|exact L'].
    + intros _. apply W. discriminate.
    + intros X. discriminate X.
  - destruct T as ((p & E & M) & B & L). rewrite K in E. injection E as <-.
    assert (Hj : halted (CStopHook j) = true -> running b = false) by (intros X; exact (S _ _ L K X)).
    destruct (next_modest _ _ _ _ K M Hj H) as (Ew & q & Ec & Mq & Hq & Hr).
    destruct j; [discriminate M|].
    assert (Eq : nth_error (clients c) (length rest) = Some (CStopNotify false)).
    { unfold next in H. rewrite K in H. injection H as <-. cbn. exact (set_nth_same _ _ _ _ K). }
    split; cbn [base frames]; rewrite ?Ew; auto.
    + cbn. split; [|lia]. split; [exact Eq|]. rewrite Ec. apply below_set; [lia|exact B].
    + cbn. intros i Li L'. rewrite Ec, set_nth_other by lia. apply I; [cbn; lia|exact L'].
    + intros _. apply W. discriminate.
    + intros X. discriminate X.
  - destruct T as ((p0 & E & M) & B & L). rewrite K in E. injection E as <-.
    assert (Hj : halted p = true -> running b = false) by (intros X; exact (S _ _ L K X)).
    destruct (next_modest _ _ _ _ K M Hj H) as (Ew & q & Ec & Mq & Hq & Hr).
    split; cbn [base frames]; rewrite ?Ew, ?Ec; auto.
    + cbn. split; [|split; [apply below_set; [lia|exact B]|exact L]]. exists q. split; [exact (set_nth_same _ _ _ _ K)|exact Mq].
    + cbn. intros i Li L'. rewrite set_nth_other by lia. apply I; [cbn; lia|exact L'].
    + intros i c0 L' E X. apply set_nth_cases in E. destruct E as [(-> & -> & _)|(_ & E)]; [exact (Hq X)|apply Hr; exact (S i c0 L' E X)].
  - pose proof (other_clients a b c) as Ec. split; cbn [base frames].
    + destruct f as [|[p|k] r]; cbn in *; [exact Logic.I| |].
      * destruct T as [B L]. split; [|exact L]. apply (below_other (clients b)); [|exact B]. intros i Li. apply Ec; auto. lia.
      * destruct T as ((q & E & M) & B & L). split; [|split; [|exact L]].
        -- exists q. split; [rewrite Ec by auto; exact E|exact M].
        -- apply (below_other (clients b)); [|exact B]. intros i Li. apply Ec; auto. lia.
    + intros i Li L. rewrite Ec by auto. exact (I i Li L).
    + intros X. specialize (W X). rewrite (hooked_other _ _ _ K H W). exact W.
    + intros X. exact (other_calls_back _ _ _ K H (O X)).
    + intros i c0 L E X. rewrite Ec in E by auto. apply (other_running _ _ _ K H). exact (S i c0 L E X).
Qed.
Lemma hinv_init : forall k n t0, hinv (hinit k n t0).
Proof.
  intros k n t0. assert (E : forall i, i < depth -> nth_error (repeat CIdle (depth + k)) i = Some CIdle).
  { intros i L. apply nth_error_repeat. lia. }
  split; cbn; auto; try discriminate; try (intros X; destruct (X eq_refl)).
Qed.
Lemma hstep_going : forall a s t, hstep a s = Some t -> over s = Going.
Proof. intros a s t H. unfold TimerHookModel.hstep in H. destruct (over s); [reflexivity|discriminate H..]. Qed.
Lemma hinv_run : forall k n t0 sched s, hrun sched (hinit k n t0) = Some s -> over s = Going -> hinv s.
Proof.
  intros k n t0 sched s. apply (hrun_keeps (fun s => over s = Going -> hinv s)); [|intros _; apply hinv_init].
  intros a u v I H G. pose proof (hstep_going _ _ _ H) as Gu. exact (hinv_way u v Gu (I Gu) (ways _ _ _ H) G).
Qed.

(** The step that made a call of a hook return. *)
Lemma return_way : forall s t i o, i < depth -> way s t -> log (base t) = Return i o :: log (base s) ->
  exists k rest p, frames s = Calling k :: rest /\ i = length rest /\ nth_error (clients (base s)) i = Some p /\ next i (base s) = Some (base t).
Proof.
  intros s t i o Li H L.
  destruct H as [b c H K|b c H K|b x c K H|b x rest K|b p rest K|b u k rest K|b k rest|b u k rest c K H|b k rest H|b k rest j c K H|b k rest p c K N H|a b c f K H];
    cbn [base frames] in *; grown L.
  - exfalso. assert (H' : step Work b = Some c) by exact H. clear H. cases H'; cbn in L; grown L; discriminate L.
  - exfalso. assert (H' : step Work b = Some c) by exact H. clear H. cases H'; cbn in L; grown L; discriminate L.
  - exfalso. assert (H' : step (Result x) b = Some c) by exact H. clear H. cases H'; cbn in L; grown L; discriminate L.
  - exfalso. assert (H' : step (Begin (length rest) (op_of u)) b = Some c) by exact H. clear H. cases H'; cbn in L; grown L; discriminate L.
  - exfalso. unfold next in H. rewrite K in H. injection H as <-. discriminate L.
  - assert (E : i = length rest).
    { assert (H' : step (Next (length rest)) b = Some c) by exact H. clear H N K. cases H'; cbn in L; grown L; try discriminate L; injection L; intros; subst; auto. }
    subst i. exists k, rest, p. auto.
  - exfalso. cases H; cbn in L; grown L; try discriminate L; injection L; intros; subst; cbn in K; try discriminate K; apply Nat.leb_le in K; lia.
Qed.
Lemma stop_in_callback : forall k n t0 sched s l1 i l2, hrun sched (hinit k n t0) = Some s -> i < depth ->
  log (base s) = l1 ++ Return i (Stop false) :: l2 -> in_callback l2 = true -> count is_begun l1 = 0 ->
  running (base s) = false /\ leaves (worker (base s)) = true /\ count is_interval l1 = 0.
Proof.
  intros k n t0 sched s l1 i l2 R Li L C Z.
  destruct (hmoment k n t0 sched s R l1 _ l2 L) as (sc1 & s1 & a & t & sc2 & R1 & E1 & S & Lt & R2). subst l2.
  pose proof (hstep_going _ _ _ S) as G1. pose proof (hinv_run k n t0 sc1 s1 R1 G1) as I1.
  destruct (return_way s1 t i _ Li (ways _ _ _ S) Lt) as (k0 & rest & p & Ef & -> & Ep & N).
  pose proof (h_in _ I1) as Hw. rewrite Ef in Hw. specialize (Hw ltac:(discriminate)).
  destruct (reaches k n t0 sc1 s1 R1) as (sched' & R').
  assert (W : worker (base s1) = TCallback).
  { rewrite (in_callback_run _ _ _ _ _ R') in C; [|intros X; rewrite X in Hw; discriminate Hw].
    destruct (worker (base s1)); try discriminate C. reflexivity. }
  assert (Er : running (base s1) = false /\ worker (base t) = TCallback /\ running (base t) = running (base s1)).
  { assert (H' : step (Next (length rest)) (base s1) = Some (base t)) by exact N. clear N.
    assert (X : p = CStopNotify false).
    { clear -H' Lt Ep. revert H' Lt Ep. generalize (base t) as bt, (base s1) as bs. intros bt bs H' Lt Ep. cases H'; cbn in Lt; grown Lt; try discriminate Lt; congruence. }
    subst p. split; [exact (h_stop _ I1 _ _ Li Ep eq_refl)|]. unfold step, next in H'. rewrite Ep in H'. injection H' as X. rewrite <- X. cbn. auto. }
  destruct Er as (Er & Wt & Et).
  destruct (refines sc2 t s R2) as (sched2 & R2').
  assert (Q : quiet (Return (length rest) (Stop false) :: log (base s1)) (base s)).
  { revert R2'. apply (run_keeps _ (quiet_step _)). exists []. split; [exact Lt|]. intros _. rewrite Wt, Et. auto. }
  destruct Q as (l & El & Q). rewrite L in El. apply app_inv_tail in El. subst l. exact (Q Z).
Qed.
(** What hooks are told. *)
Lemma code_in_hook : forall k n t0 sched s l1 i c l2, hrun sched (hinit k n t0) = Some s -> i < depth ->
  log (base s) = l1 ++ SaidCode i c :: l2 -> c = (-100)%Z.
Proof.
  intros k n t0 sched s l1 i c l2 R Li L.
  destruct (hmoment k n t0 sched s R l1 _ l2 L) as (sc1 & s1 & a & t & sc2 & R1 & E1 & S & Lt & R2). subst l2.
  pose proof (hstep_going _ _ _ S) as G1. pose proof (hinv_run k n t0 sc1 s1 R1 G1) as I1.
  destruct (reaches k n t0 sc1 s1 R1) as (sched' & R'). destruct (reaches k n t0 sched s R) as (sched1 & R1').
  rewrite (said_code _ _ _ _ _ _ _ _ _ R1' L). unfold code. rewrite (on_run _ _ _ _ _ R').
  assert (W : frames s1 <> []).
  { apply ways in S. clear -S Lt Li.
    destruct S as [b d H K|b d H K|b x d K H|b x rest K|b p rest K|b u k rest K|b k rest|b u k rest d K H|b k rest H|b k rest j d K H|b k rest p d K N H|a b d f K H];
      cbn [base frames] in *; try discriminate; exfalso.
    - assert (H' : step Work b = Some d) by exact H. clear H. cases H'; cbn in Lt; grown Lt; discriminate Lt.
    - assert (H' : step Work b = Some d) by exact H. clear H. cases H'; cbn in Lt; grown Lt; discriminate Lt.
    - cases H; cbn in Lt; grown Lt; try discriminate Lt; injection Lt; intros; subst; cbn in K; try discriminate K; apply Nat.leb_le in K; lia. }
  pose proof (h_in _ I1 W) as Hw. destruct (worker (base s1)); try discriminate Hw; reflexivity.
Qed.

(** Hooks that return. *)
Lemma mild_harmless : forall p, mild p -> harmless p.
Proof. intros p M. induction M; constructor; auto. Qed.
Definition calm (c : cpc) : bool := match c with CIdle | CSet _ | CNotify | CRunning | CRunning2 | CExit => true | _ => false end.
Definition fine (f : list frame) : Prop :=
  match f with
  | [] => True
  | [Inside p] => harmless p
  | [Calling k] => forall l, harmless (k l)
  | [Inside p; Calling k] => mild p /\ forall l, harmless (k l)
  | [Calling k'; Calling k] => (forall l, mild (k' l)) /\ forall l, harmless (k l)
  | _ => False
  end.
Definition inner_calm (cl : list cpc) (f : list frame) : Prop :=
  match f with [Calling _; _] => forall c, nth_error cl 1 = Some c -> calm c = true | _ => True end.
Definition dinv s : Prop := over s = Going /\ fine (frames s) /\ inner_calm (clients (base s)) (frames s).
Lemma calm_next : forall i b c p, nth_error (clients b) i = Some p -> calm p = true -> next i b = Some c ->
  worker c = worker b /\ exists q, clients c = set_nth (clients b) i q /\ calm q = true.
Proof.
  intros i b c p E M H. assert (H' : step (Next i) b = Some c) by exact H. clear H.
  cases H'; cbn in *; injection E as <-; try discriminate M; (split; [reflexivity|]); eexists; (split; reflexivity).
Qed.

Section Decent.
Hypothesis Deep : 2 <= depth.
Hypothesis Decent : decent hooks.
Lemma decent_harmless : forall l, harmless (hooks l).
Proof.
  intros l. pose proof (Decent l) as D. destruct l as [|e l]; [exact D|]. destruct e; try exact D; apply mild_harmless; exact D.
Qed.
Lemma dinv_way : forall s t, hinv s -> dinv s -> way s t -> dinv t.
Proof.
  intros s t HI (G & F & C) H. unfold dinv.
  destruct H as [b c H K|b c H K|b x c K H|b x rest K|b p rest K|b u k rest K|b k rest|b u k rest c K H|b k rest H|b k rest j c K H|b k rest p c K N H|a b c f K H];
    cbn [base frames over] in *.
  - auto.
  - split; [reflexivity|]. split; [apply decent_harmless|exact Logic.I].
  - auto.
  - split; [reflexivity|]. destruct rest as [|[p|k] [|r rest]]; cbn in *; auto; try contradiction. split; [apply F|exact Logic.I].
  - exfalso. destruct rest as [|[p'|k] [|r rest]]; cbn in F; try contradiction.
    + destruct K as [-> | ->]; inversion F.
    + destruct K as [-> | ->]; destruct F as [F _]; inversion F.
  - exfalso. destruct rest as [|[p'|k'] [|r rest]]; cbn in *; try contradiction; lia.
  - split; [reflexivity|]. destruct rest as [|[p'|k'] [|r rest]]; cbn in *; try contradiction.
    + inversion F; auto.
    + destruct F as [F F']. inversion F; auto.
  - split; [reflexivity|]. destruct rest as [|[p'|k'] [|r rest]]; cbn in *; try contradiction.
    + inversion F; auto.
    + destruct F as [F F']. inversion F; subst. split; [auto|]. intros d E. rewrite (begin_clients _ _ _ _ H) in E. apply set_nth_cases in E.
      destruct E as [(_ & -> & _)|(X & _)]; [|destruct (X eq_refl)]. destruct u; try reflexivity. congruence.
  - split; [reflexivity|]. destruct rest as [|[p'|k'] [|r rest]]; cbn in *; try contradiction; auto. destruct F; auto.
  - split; [reflexivity|]. destruct rest as [|[p'|k'] [|r rest]]; cbn in *; try contradiction.
    + split; [|exact Logic.I]. split; [|exact F]. unfold next in H. rewrite K in H. injection H as <-. cbn. exact (Decent (OnStopBy 0 :: log b)).
    + specialize (C _ K). discriminate C.
  - split; [reflexivity|]. split; [exact F|]. destruct rest as [|[p'|k'] [|r rest]]; cbn in *; try contradiction; auto.
    intros d E. destruct (calm_next _ _ _ _ K (C _ K) H) as (_ & q & Ec & Q). rewrite Ec in E. apply set_nth_cases in E.
    destruct E as [(_ & -> & _)|(X & _)]; [exact Q|destruct (X eq_refl)].
  - split; [reflexivity|]. split; [exact F|]. destruct f as [|[p'|k'] [|r [|r' f]]]; cbn in *; auto. intros d E.
    rewrite (other_clients _ _ _ 1 K H ltac:(lia)) in E. exact (C d E).
Qed.
Lemma dinv_run : forall k n t0 sched s, hrun sched (hinit k n t0) = Some s -> dinv s.
Proof.
  intros k n t0 sched s R. refine (proj2 (hrun_keeps (fun s => hinv s /\ dinv s) _ sched _ s _ R)).
  - intros a u v (I & D) H. pose proof (ways _ _ _ H) as W. pose proof (dinv_way u v I D W) as D'. split; [|exact D'].
    exact (hinv_way u v (proj1 D) I W (proj1 D')).
  - split; [apply hinv_init|]. split; [reflexivity|]. split; exact Logic.I.
Qed.

(** Going on alone. *)
Notation alone_to := (by_itself depth hooks).
Definition good s : Prop := hinv s /\ dinv s.
Definition leads s (Q : hstate -> Prop) : Prop := exists t, alone_to s t /\ good t /\ Q t.
Lemma good_step : forall s t, good s -> hwork s = Some t -> good t.
Proof.
  intros s t (I & D) H. assert (W : way s t) by (apply (ways HWork); unfold TimerHookModel.hstep; rewrite (proj1 D); exact H).
  pose proof (dinv_way s t I D W) as D'. split; [exact (hinv_way s t (proj1 D) I W (proj1 D'))|exact D'].
Qed.
Lemma leads_step : forall s t Q, good s -> hwork s = Some t -> (good t -> leads t Q) -> leads s Q.
Proof.
  intros s t Q G H L. destruct (L (good_step s t G H)) as (u & (n & R) & Gu & Qu). exists u. split; [|auto]. exists (S n).
  cbn. unfold TimerHookModel.hstep. rewrite (proj1 (proj2 G)). rewrite H. exact R.
Qed.
Lemma leads_here : forall s (Q : hstate -> Prop), good s -> Q s -> leads s Q.
Proof. intros s Q G H. exists s. split; [exists 0; reflexivity|auto]. Qed.
Lemma leads_then : forall s (Q Q' : hstate -> Prop), leads s Q -> (forall t, good t -> Q t -> leads t Q') -> leads s Q'.
Proof.
  intros s Q Q' (t & (n & R) & G & H) L. destruct (L t G H) as (u & (m & R') & G' & H'). exists u. split; [|auto]. exists (n + m).
  rewrite repeat_app, hrun_app, R. exact R'.
Qed.
Definition back_in (w : wpc) (k : list event -> prog) (rest : list frame) t : Prop :=
  worker (base t) = w /\ exists l, frames t = Inside (k l) :: rest.
Lemma call_idle : forall s k rest, good s -> frames s = Calling k :: rest -> nth_error (clients (base s)) (length rest) = Some CIdle ->
  leads s (back_in (worker (base s)) k rest).
Proof.
  intros s k rest G F E. eapply leads_step; [exact G|unfold TimerHookModel.hwork; rewrite F, E; reflexivity|]. intros G'.
  apply leads_here; [exact G'|]. split; [reflexivity|]. eexists. reflexivity.
Qed.
Lemma call_next : forall s k rest p c, good s -> frames s = Calling k :: rest -> nth_error (clients (base s)) (length rest) = Some p ->
  p <> CIdle -> (forall j, p <> CStopHook j) -> next (length rest) (base s) = Some c ->
  hwork s = Some {| base := c; frames := Calling k :: rest; over := Going |}.
Proof.
  intros s k rest p c G F E N1 N2 H. unfold TimerHookModel.hwork. rewrite F, E, H. destruct p; try reflexivity; [destruct (N1 eq_refl)|destruct (N2 _ eq_refl)].
Qed.
Lemma call_calm : forall s k rest p, good s -> frames s = Calling k :: rest -> nth_error (clients (base s)) (length rest) = Some p -> calm p = true ->
  leads s (back_in (worker (base s)) k rest).
Proof.
  assert (L1 : forall s k rest p c, good s -> frames s = Calling k :: rest -> nth_error (clients (base s)) (length rest) = Some p ->
    p <> CIdle -> (forall j, p <> CStopHook j) -> next (length rest) (base s) = Some c -> worker c = worker (base s) ->
    (forall t, base t = c -> good t -> frames t = Calling k :: rest -> leads t (back_in (worker c) k rest)) ->
    leads s (back_in (worker (base s)) k rest)).
  { intros s k rest p c G F E N1 N2 N W L. eapply leads_step; [exact G|exact (call_next s k rest p c G F E N1 N2 N)|]. intros G'.
    rewrite <- W. apply L; auto. }
  assert (L2 : forall s k rest, good s -> frames s = Calling k :: rest -> nth_error (clients (base s)) (length rest) = Some CRunning2 ->
    leads s (back_in (worker (base s)) k rest)).
  { intros s k rest G F E. eapply L1; [exact G|exact F|exact E|discriminate|discriminate|unfold next; rewrite E; reflexivity|reflexivity|].
    intros t B G' F'. subst. rewrite <- B. apply call_idle; auto. rewrite B. cbn. exact (set_nth_same _ _ _ _ E). }
  intros s k rest p G F E M. destruct p; try discriminate M; try (apply call_idle; assumption);
    try (eapply L1; [exact G|exact F|exact E|discriminate|discriminate|unfold next; rewrite E; reflexivity|reflexivity|];
         intros t B G' F'; rewrite <- B; apply call_idle; auto; rewrite B; cbn; exact (set_nth_same _ _ _ _ E)).
  - eapply L1; [exact G|exact F|exact E|discriminate|discriminate|unfold next; rewrite E; reflexivity|destruct (running (base s)); reflexivity|].
    intros t B G' F'. rewrite <- B. destruct (running (base s)).
    + apply L2; auto. rewrite B. cbn. exact (set_nth_same _ _ _ _ E).
    + apply call_idle; auto. rewrite B. cbn. exact (set_nth_same _ _ _ _ E).
Qed.
Lemma use_begins : forall s u k rest, good s -> frames s = Inside (Use u k) :: rest -> length rest < depth -> exists c,
  begin (length rest) (op_of u) (base s) = Some c /\ hwork s = Some {| base := c; frames := Calling k :: rest; over := Going |} /\
  worker c = worker (base s) /\ nth_error (clients c) (length rest) = Some (entry (op_of u)).
Proof.
  intros s u k rest G F L. assert (E : nth_error (clients (base s)) (length rest) = Some CIdle) by (apply (h_idle _ (proj1 G)); [rewrite F; cbn; lia|exact L]).
  exists (note (Call (length rest) (op_of u)) (cgo (length rest) (entry (op_of u)) (base s))). unfold begin. rewrite E. split; [reflexivity|].
  split; [|split; [reflexivity|cbn; exact (set_nth_same _ _ _ _ E)]]. unfold TimerHookModel.hwork. rewrite F. apply Nat.ltb_lt in L. rewrite L. unfold begin. rewrite E. reflexivity.
Qed.
Lemma inner_returns : forall p, mild p -> forall s k, good s -> frames s = [Inside p; Calling k] ->
  leads s (fun t => worker (base t) = worker (base s) /\ frames t = [Calling k] /\ nth_error (clients (base t)) 0 = Some (CStopNotify false)).
Proof.
  intros p M. induction M as [c|u k' N M IH|p M IH]; intros s k G F.
  - eapply leads_step; [exact G|unfold TimerHookModel.hwork; rewrite F; reflexivity|]. intros G'. apply leads_here; [exact G'|].
    pose proof (h_tidy _ (proj1 G)) as T. rewrite F in T. cbn in T. split; [reflexivity|]. split; [reflexivity|]. apply T.
  - destruct (use_begins s u k' _ G F ltac:(cbn; lia)) as (c & B & H & W & E). eapply leads_step; [exact G|exact H|]. intros G'.
    eapply leads_then; [eapply call_calm; [exact G'|reflexivity|exact E|destruct u; try reflexivity; congruence]|].
    intros t Gt (Wt & l & Ft). cbn [base] in Wt. rewrite <- W, <- Wt. exact (IH l t k Gt Ft).
  - eapply leads_step; [exact G|unfold TimerHookModel.hwork; rewrite F; reflexivity|]. intros G'. exact (IH _ k G' eq_refl).
Qed.
Definition outside (w : wpc) t : Prop := frames t = [] /\ (w <> TCallback -> worker (base t) = w) /\ (active w = true -> active (worker (base t)) = true).
Lemma stop_returns : forall s k, good s -> frames s = [Calling k] -> nth_error (clients (base s)) 0 = Some (CStopNotify false) ->
  leads s (back_in (worker (base s)) k []).
Proof.
  intros s k G F E. eapply leads_step; [exact G|eapply (call_next s k [] _ _ G F E); [discriminate|discriminate|unfold next; cbn; rewrite E; reflexivity]|].
  intros G'. eapply leads_then; [apply call_idle; [exact G'|reflexivity|cbn; exact (set_nth_same _ _ _ _ E)]|].
  intros t Gt Q. apply leads_here; [exact Gt|exact Q].
Qed.
Lemma outer_call : forall s k p, good s -> frames s = [Calling k] -> nth_error (clients (base s)) 0 = Some p ->
  leads s (back_in (worker (base s)) k []).
Proof.
  assert (L1 : forall s k, good s -> frames s = [Calling k] -> nth_error (clients (base s)) 0 = Some (CStopHook false) ->
    leads s (back_in (worker (base s)) k [])).
  { intros s k G F E. eapply leads_step; [exact G|unfold TimerHookModel.hwork, next; rewrite F; cbn; rewrite E; reflexivity|]. intros G'.
    eapply leads_then; [eapply inner_returns; [|exact G'|reflexivity]|].
    - exact (Decent (OnStopBy 0 :: log (base s))).
    - intros t Gt (Wt & Ft & Et). cbn [base] in Wt. cbn in Wt. rewrite <- Wt. apply stop_returns; assumption. }
  assert (L2 : forall s k, good s -> frames s = [Calling k] -> nth_error (clients (base s)) 0 = Some (CStop false) ->
    leads s (back_in (worker (base s)) k [])).
  { intros s k G F E. eapply leads_step; [exact G|eapply (call_next s k [] _ _ G F E); [discriminate|discriminate|unfold next; cbn; rewrite E; reflexivity]|].
    intros G'. eapply leads_then; [apply L1; [exact G'|reflexivity|cbn; exact (set_nth_same _ _ _ _ E)]|].
    intros t Gt Q. apply leads_here; [exact Gt|exact Q]. }
  intros s k p G F E. pose proof (h_tidy _ (proj1 G)) as T. rewrite F in T. cbn in T. destruct T as ((p' & E' & M) & _). rewrite E in E'. injection E' as <-.
  destruct p; try discriminate M; try (destruct j; [discriminate M|]); try (eapply call_calm; [exact G|exact F|exact E|reflexivity]).
  - apply L2; assumption.
  - apply L1; assumption.
  - apply stop_returns; assumption.
Qed.
Lemma outer_returns : forall p, harmless p -> forall s, good s -> frames s = [Inside p] -> leads s (outside (worker (base s))).
Proof.
  intros p M. induction M as [c|u k' M IH|p M IH]; intros s G F.
  - assert (D : worker (base s) = TCallback \/ worker (base s) <> TCallback) by (destruct (worker (base s)); auto; right; discriminate).
    destruct D as [D|D].
    + assert (X : exists c', result c (base s) = Some c') by (unfold result; rewrite D; destruct (alive (base s)); eexists; reflexivity).
      destruct X as (c' & X).
      eapply leads_step; [exact G|unfold TimerHookModel.hwork; rewrite F, D, X; reflexivity|]. intros G'. apply leads_here; [exact G'|].
      split; [reflexivity|]. split; [intros N; destruct (N D)|]. intros _. unfold result in X. rewrite D in X. destruct (alive (base s)); injection X as <-; reflexivity.
    + eapply leads_step; [exact G|unfold TimerHookModel.hwork; rewrite F; destruct (worker (base s)); try reflexivity; destruct (D eq_refl)|].
      intros G'. apply leads_here; [exact G'|]. split; [reflexivity|]. split; [reflexivity|]. intros Y; exact Y.
  - destruct (use_begins s u k' _ G F ltac:(cbn; lia)) as (c & B & H & W & E). eapply leads_step; [exact G|exact H|]. intros G'.
    eapply leads_then; [eapply outer_call; [exact G'|reflexivity|exact E]|].
    intros t Gt (Wt & l & Ft). cbn [base] in Wt. rewrite <- W, <- Wt. exact (IH l t Gt Ft).
  - eapply leads_step; [exact G|unfold TimerHookModel.hwork; rewrite F; reflexivity|]. intros G'. exact (IH _ G' eq_refl).
Qed.
Lemma all_return : forall s, good s -> leads s (outside (worker (base s))).
Proof.
  assert (L1 : forall s k, good s -> frames s = [Calling k] -> (forall l, harmless (k l)) -> leads s (outside (worker (base s)))).
  { intros s k G F H. pose proof (h_tidy _ (proj1 G)) as T. rewrite F in T. cbn in T. destruct T as ((p & E & M) & _).
    eapply leads_then; [exact (outer_call s k p G F E)|]. intros t Gt (Wt & l & Ft). rewrite <- Wt. exact (outer_returns _ (H l) t Gt Ft). }
  assert (L2 : forall s p k, good s -> frames s = [Inside p; Calling k] -> mild p -> (forall l, harmless (k l)) -> leads s (outside (worker (base s)))).
  { intros s p k G F M H. eapply leads_then; [exact (inner_returns p M s k G F)|]. intros t Gt (Wt & Ft & _). rewrite <- Wt. exact (L1 t k Gt Ft H). }
  intros s G. pose proof G as (I & _ & F & C). destruct (frames s) as [|[p|k] [|[p'|k'] [|r f]]] eqn:E; cbn in F; try contradiction.
  - apply leads_here; [exact G|]. split; [exact E|]. split; [reflexivity|]. intros Y; exact Y.
  - exact (outer_returns p F s G E).
  - exact (L2 s p k' G E (proj1 F) (proj2 F)).
  - exact (L1 s k G E F).
  - pose proof (h_tidy _ I) as T. rewrite E in T. cbn in T. destruct T as ((p & Ep & M) & _). cbn in C. specialize (C p Ep).
    eapply leads_then; [exact (call_calm s k _ p G E Ep C)|]. intros t Gt (Wt & l & Ft). rewrite <- Wt. exact (L2 t _ _ Gt Ft (proj1 F l) (proj2 F)).
Qed.
(** Hooks always return, and nothing bad happens. *)
Lemma hooks_return : forall k n t0 sched s, hrun sched (hinit k n t0) = Some s ->
  over s = Going /\ exists t, alone_to s t /\ frames t = [] /\ over t = Going.
Proof.
  intros k n t0 sched s R. pose proof (dinv_run k n t0 sched s R) as D. split; [exact (proj1 D)|].
  destruct (all_return s (conj (hinv_run k n t0 sched s R (proj1 D)) D)) as (t & A & G & Q). exists t. split; [exact A|]. split; [exact (proj1 Q)|exact (proj1 (proj2 G))].
Qed.

(** The end after a stop() in the callback. *)
Lemma alone_reaches : forall k n t0 sched s t, hrun sched (hinit k n t0) = Some s -> alone_to s t -> exists sched', hrun sched' (hinit k n t0) = Some t.
Proof. intros k n t0 sched s t R (m & R'). exists (sched ++ repeat HWork m). rewrite hrun_app, R. exact R'. Qed.
Lemma hwork_log : forall s t, over s = Going -> hinv s -> hwork s = Some t ->
  exists l, log (base t) = l ++ log (base s) /\ count is_begun l = 0 /\ count is_destroy l = 0.
Proof.
  intros s t G I H.
  assert (W : exists a, hstep a s = Some t /\ a = HWork) by (exists HWork; unfold TimerHookModel.hstep; rewrite G; auto).
  assert (X : base t = base s \/ exists a, step a (base s) = Some (base t) /\ match a with Start => False | Begin _ Destroy => False | _ => True end).
  { destruct s as [b f ov]. cbn [over] in G. subst ov. unfold TimerHookModel.hwork in H. cbn [frames base] in H. destruct f as [|[p|k] rest].
    - destruct (work b) as [c|] eqn:E; [|discriminate H]. injection H as <-. right. exists Work. auto.
    - destruct p as [x| |u k|k|]; try (injection H as <-; left; reflexivity).
      + destruct rest as [|r rest]; [|injection H as <-; left; reflexivity].
        destruct (worker b); try (injection H as <-; left; reflexivity).
        destruct (result x b) as [c|] eqn:E; [|discriminate H]. injection H as <-. right. exists (Result x). auto.
      + destruct (length rest <? depth); [|injection H as <-; left; reflexivity].
        destruct (begin (length rest) (op_of u) b) as [c|] eqn:E; [|discriminate H]. injection H as <-. right. exists (Begin (length rest) (op_of u)).
        split; [exact E|]. destruct u; exact Logic.I.
    - destruct (nth_error (clients b) (length rest)) as [q|]; [|destruct (next (length rest) b) as [c|] eqn:E; [|discriminate H]; injection H as <-; right; exists (Next (length rest)); auto].
      destruct q; try (destruct (next (length rest) b) as [c|] eqn:E; [|discriminate H]; injection H as <-; right; exists (Next (length rest)); auto).
      injection H as <-. left. reflexivity. }
  destruct X as [->|(a & S & N)]; [exists []; auto|].
  destruct (step_log a _ _ S) as [K|(e & K)]; [exists []; auto|]. exists [e]. split; [exact K|].
  revert S N K. clear. generalize (base s) as b, (base t) as c. intros b c S N K.
  cases S; cbn in K; grown K; injection K; intros; subst e; try contradiction; try (split; reflexivity). destruct o; try contradiction; split; reflexivity.
Qed.
Lemma alone_log : forall s t, good s -> alone_to s t -> exists l, log (base t) = l ++ log (base s) /\ count is_begun l = 0 /\ count is_destroy l = 0.
Proof.
  intros s t G (n & R). revert s G R. induction n as [|n IH]; intros s G R; cbn in R.
  - injection R as <-. exists []. auto.
  - destruct (hstep HWork s) as [u|] eqn:E; [|discriminate R]. unfold TimerHookModel.hstep in E. rewrite (proj1 (proj2 G)) in E.
    destruct (IH u (good_step s u G E) R) as (l1 & E1 & Z1 & D1). destruct (hwork_log s u (proj1 (proj2 G)) (proj1 G) E) as (l2 & E2 & Z2 & D2).
    exists (l1 ++ l2). rewrite E1, E2, app_assoc. split; [reflexivity|]. unfold count in *. rewrite !filter_app, !app_length. lia.
Qed.
Definition rank (w : wpc) : nat :=
  match w with TForced => 9 | TAnd => 8 | TAnd2 _ => 7 | TRestart => 6 | TReset => 5 | TUnlock => 4 | TLoop => 3 | TStopLock => 2 | TStop => 1 | _ => 0 end.
Lemma ranked : forall m k n t0 sched s, hrun sched (hinit k n t0) = Some s -> count is_destroy (log (base s)) = 0 -> frames s = [] ->
  running (base s) = false -> leaves (worker (base s)) = true -> active (worker (base s)) = true -> rank (worker (base s)) <= m ->
  leads s (fun t => worker (base t) = TEnded).
Proof.
  induction m as [m IH] using lt_wf_ind. intros k n t0 sched s R D F Ru Le Ac Rk.
  pose proof (dinv_run k n t0 sched s R) as Di. assert (G : good s) by (split; [exact (hinv_run k n t0 sched s R (proj1 Di))|exact Di]).
  destruct (reaches k n t0 sched s R) as (sched' & R'). pose proof (kept_run _ _ _ _ _ R' D) as K. pose proof (sound_run _ _ _ _ _ R') as So.
  assert (Mt : wholds (worker (base s)) = false -> mtx (base s) = None).
  { intros H. destruct (o_worker _ (d_owned _ So)) as [X|X]; [destruct (k_worker _ K X)|].
    destruct (mtx (base s)) as [[j|]|] eqn:Y; [destruct (k_mtx _ K j Y)| |reflexivity]. rewrite (proj1 X eq_refl) in H. discriminate H. }
  pose proof (h_out _ (proj1 G) F) as NC. pose proof (k_worker _ K) as NU.
  assert (Go : forall c, work (base s) = Some c -> enters (base s) = false -> running c = false -> leaves (worker c) = true -> active (worker c) = true ->
    rank (worker c) < m -> leads s (fun t => worker (base t) = TEnded)).
  { intros c W E Rc Lc Ac' Lt. eapply leads_step; [exact G|unfold TimerHookModel.hwork; rewrite F, W, E; reflexivity|]. intros G'.
    assert (R1 : hrun (sched ++ [HWork]) (hinit k n t0) = Some {| base := c; frames := []; over := Going |}).
    { rewrite hrun_app, R. cbn. unfold TimerHookModel.hstep, TimerHookModel.hwork. rewrite (proj1 Di), F, W, E. reflexivity. }
    refine (IH _ Lt k n t0 _ _ R1 _ eq_refl Rc Lc Ac' (le_n _)). cbn [base].
    assert (Hw : hwork s = Some {| base := c; frames := []; over := Going |}) by (unfold TimerHookModel.hwork; rewrite F, W, E; reflexivity).
    destruct (hwork_log _ _ (proj1 Di) (proj1 G) Hw) as (l & El & _ & Dl). cbn [base] in El. rewrite El. unfold count in *. rewrite filter_app, app_length. lia. }
  destruct (worker (base s)) eqn:W; try discriminate Le; try discriminate Ac; cbn in Rk.
  all: try (destruct (NC eq_refl)). all: try (destruct (NU eq_refl)).
  all: try (eapply Go; [unfold work; rewrite W, ?Ru; reflexivity|unfold enters; rewrite W; reflexivity|cbn; auto|reflexivity|reflexivity|cbn; lia]).
  - destruct b; [discriminate Le|reflexivity].
  - eapply Go; [unfold work, acquire; rewrite W, (Mt eq_refl); reflexivity|unfold enters; rewrite W; reflexivity|cbn; auto|reflexivity|reflexivity|cbn; lia].
  - assert (Wk : exists c, work (base s) = Some c /\ enters (base s) = true /\ worker c = TReturn).
    { unfold work, enters. rewrite W, (k_deleted _ K), (k_alive _ K). eexists. split; [reflexivity|]. split; reflexivity. }
    destruct Wk as (c & Wk & En & Wc).
    eapply leads_step; [exact G|unfold TimerHookModel.hwork; rewrite F, Wk, En; reflexivity|]. intros G'.
    eapply leads_then; [exact (all_return _ G')|]. intros t Gt (Ft & Wt & _). cbn [base] in Wt. rewrite Wc in Wt. specialize (Wt ltac:(discriminate)).
    eapply leads_step; [exact Gt|unfold TimerHookModel.hwork, work; rewrite Ft, Wt; reflexivity|]. intros G''. apply leads_here; [exact G''|reflexivity].
  - eapply leads_step; [exact G|unfold TimerHookModel.hwork, work; rewrite F, W; reflexivity|]. intros G''. apply leads_here; [exact G''|reflexivity].
Qed.
Lemma stop_in_callback_ends : forall k n t0 sched s l1 i l2, hrun sched (hinit k n t0) = Some s -> i < depth ->
  log (base s) = l1 ++ Return i (Stop false) :: l2 -> in_callback l2 = true -> count is_begun l1 = 0 ->
  count is_destroy (log (base s)) = 0 -> on (log (base s)) = true ->
  exists t, alone_to s t /\ worker (base t) = TEnded /\ over t = Going.
Proof.
  intros k n t0 sched s l1 i l2 R Li L C Z D O.
  pose proof (dinv_run k n t0 sched s R) as Di. assert (G : good s) by (split; [exact (hinv_run k n t0 sched s R (proj1 Di))|exact Di]).
  assert (X : leads s (fun t => worker (base t) = TEnded)).
  { destruct (all_return s G) as (t & A & Gt & Ft & Wt & At).
    destruct (alone_reaches k n t0 sched s t R A) as (sched' & Rt). destruct (alone_log s t G A) as (l & El & Zl & Dl).
    assert (Et : log (base t) = (l ++ l1) ++ Return i (Stop false) :: l2) by (rewrite El, L, app_assoc; reflexivity).
    assert (Zt : count is_begun (l ++ l1) = 0) by (unfold count in *; rewrite filter_app, app_length; lia).
    assert (Dt : count is_destroy (log (base t)) = 0) by (rewrite El; unfold count in *; rewrite filter_app, app_length; lia).
    destruct (stop_in_callback k n t0 sched' t _ i l2 Rt Li Et C Zt) as (Ru & Le & _).
    destruct (active (worker (base t))) eqn:Ac.
    - eapply leads_then with (Q := fun u => u = t); [exists t; auto|]. intros u Gu ->. exact (ranked _ k n t0 sched' t Rt Dt Ft Ru Le Ac (le_n _)).
    - exfalso. destruct (reaches k n t0 sched s R) as (sc & R0). rewrite (on_run _ _ _ _ _ R0) in O. specialize (At O). congruence. }
  destruct X as (t & A & Gt & W). exists t. split; [exact A|]. split; [exact W|exact (proj1 (proj2 Gt))].
Qed.
End Decent.

(** on_stop that calls stop(). *)
Section Recursion.
Hypothesis Recursive : stops_in_on_stop hooks.
Notation alone_to := (by_itself depth hooks).
Lemma alone_step : forall s t u, over s = Going -> hwork s = Some t -> alone_to t u -> alone_to s u.
Proof. intros s t u G H (n & R). exists (S n). cbn. unfold TimerHookModel.hstep. rewrite G, H. exact R. Qed.
Lemma work_keeps : forall s t, over s = Going -> hinv s -> hwork s = Some t -> over t = Going -> hinv t.
Proof.
  intros s t G I H Gt. apply (hinv_way s t G I); [|exact Gt]. apply (ways HWork). unfold TimerHookModel.hstep. rewrite G. exact H.
Qed.
Lemma recurses : forall m s k rest, depth - length rest <= m -> over s = Going -> hinv s -> frames s = Inside (Use UStop k) :: rest ->
  exists t, alone_to s t /\ over t = Overflowed.
Proof.
  induction m as [|m IH]; intros s k rest L G I F.
  - exists {| base := base s; frames := []; over := Overflowed |}. split; [|reflexivity]. exists 1. cbn. unfold TimerHookModel.hstep, TimerHookModel.hwork. rewrite G, F.
    replace (length rest <? depth) with false by (symmetry; apply Nat.ltb_ge; lia). reflexivity.
  - destruct (length rest <? depth) eqn:Lt.
    2: { exists {| base := base s; frames := []; over := Overflowed |}. split; [|reflexivity]. exists 1. cbn. unfold TimerHookModel.hstep, TimerHookModel.hwork. rewrite G, F, Lt. reflexivity. }
    pose proof Lt as Lt'. apply Nat.ltb_lt in Lt'.
    assert (E : nth_error (clients (base s)) (length rest) = Some CIdle) by (apply (h_idle _ I); [rewrite F; cbn; lia|exact Lt']).
    set (b1 := note (Call (length rest) (Stop false)) (cgo (length rest) (CStop false) (base s))).
    assert (H1 : hwork s = Some {| base := b1; frames := Calling k :: rest; over := Going |}).
    { unfold TimerHookModel.hwork. rewrite F, Lt. unfold begin. cbn [op_of]. rewrite E. reflexivity. }
    pose proof (work_keeps _ _ G I H1 eq_refl) as I1.
    assert (E1 : nth_error (clients b1) (length rest) = Some (CStop false)) by (cbn; exact (set_nth_same _ _ _ _ E)).
    set (b2 := note StopFlag (cgo (length rest) (CStopHook false) (set_running false b1))).
    assert (H2 : hwork {| base := b1; frames := Calling k :: rest; over := Going |} = Some {| base := b2; frames := Calling k :: rest; over := Going |}).
    { unfold TimerHookModel.hwork. cbn [frames base]. rewrite E1. unfold next. rewrite E1. reflexivity. }
    assert (I2 : hinv {| base := b2; frames := Calling k :: rest; over := Going |}) by (refine (work_keeps _ _ _ I1 H2 _); reflexivity).
    assert (E2 : nth_error (clients b2) (length rest) = Some (CStopHook false)) by (cbn; exact (set_nth_same _ _ _ _ E1)).
    set (b3 := note (OnStopBy (length rest)) (cgo (length rest) (CStopNotify false) b2)).
    assert (H3 : hwork {| base := b2; frames := Calling k :: rest; over := Going |} =
      Some {| base := b3; frames := Inside (hooks (log b3)) :: Calling k :: rest; over := Going |}).
    { unfold TimerHookModel.hwork. cbn [frames base]. rewrite E2. unfold next. rewrite E2. reflexivity. }
    assert (I3 : hinv {| base := b3; frames := Inside (hooks (log b3)) :: Calling k :: rest; over := Going |}) by (refine (work_keeps _ _ _ I2 H3 _); reflexivity).
    destruct (Recursive (log b3)) as (k' & Hk).
    destruct (IH {| base := b3; frames := Inside (hooks (log b3)) :: Calling k :: rest; over := Going |} k' (Calling k :: rest)) as (t & A & O).
    + cbn. lia.
    + reflexivity.
    + exact I3.
    + cbn. f_equal. f_equal. exact Hk.
    + exists t. split; [|exact O]. eapply alone_step; [exact G|exact H1|]. eapply alone_step; [reflexivity|exact H2|]. eapply alone_step; [reflexivity|exact H3|]. exact A.
Qed.
Lemma never_returns : forall k n t0 sched s, hrun sched (hinit k n t0) = Some s -> over s = Going -> frames s = [] -> worker (base s) = TStop ->
  count is_destroy (log (base s)) = 0 -> exists t, alone_to s t /\ over t = Overflowed.
Proof.
  intros k n t0 sched s R G F W D. pose proof (hinv_run k n t0 sched s R G) as I. destruct (reaches k n t0 sched s R) as (sched' & R').
  pose proof (kept_run _ _ _ _ _ R' D) as K.
  set (b := note OnStop (wgo TReturn (set_mtx None (base s)))).
  assert (H : hwork s = Some {| base := b; frames := [Inside (hooks (log b))]; over := Going |}).
  { unfold TimerHookModel.hwork, work, enters. rewrite F, W, (k_deleted _ K), (k_alive _ K). reflexivity. }
  pose proof (work_keeps _ _ G I H eq_refl) as I1. destruct (Recursive (log b)) as (k' & Hk).
  destruct (recurses depth {| base := b; frames := [Inside (hooks (log b))]; over := Going |} k' []) as (t & A & O).
  - cbn. lia.
  - reflexivity.
  - exact I1.
  - cbn. f_equal. f_equal. exact Hk.
  - exists t. split; [|exact O]. eapply alone_step; [exact G|exact H|exact A].
Qed.
End Recursion.
End Hooks.
