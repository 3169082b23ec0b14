(** Proofs for semaphore.h. *)
Require Import List Arith NArith ZArith Lia Bool.
Require Import Verif.Base Verif.SemaphoreModel Verif.SemaphoreSpec.
Import ListNotations.
Local Open Scope N_scope.

Definition critical (p : pc) : bool :=
  match p with
  | LockTest | LockThrow | LockLoop | LockCount | LockDone | TryTest | TryCount | TryDone _
  | UnTest | UnCount | UnDone _ | SetStore _ | SetDone _ _ | CountRead | CountDone _ => true
  | _ => false
  end.
Definition phase_of (p : pc) (ph : phase) : Prop :=
  match p with
  | Idle => ph = Outside
  | LockMutex | LockTest | LockLoop | LockWait | LockAwake | LockCount => ph = In Lock
  | LockThrow => ph = Decided Threw
  | LockDone => ph = Decided Acquired
  | TryMutex | TryTest | TryCount => ph = In TryLock
  | TryDone ok => ph = Decided (Tried ok)
  | UnMutex | UnTest | UnCount => ph = In Unlock
  | UnDone ok => ph = Decided (Released ok)
  | UnNotify => ph = Decided (Released true)
  | SetMutex n | SetStore n => n < two64 /\ exists m, ph = In (SetAvailable m) /\ n = m mod two64
  | SetDone _ n | SetNotify n => ph = Decided (Resized n)
  | CountMutex | CountRead => ph = In Count
  | CountDone v => ph = Decided (Counted v)
  | MaxRead => ph = In MaxCount
  | MaxDone v => ph = Decided (MaxWas v)
  end.
Definition local (p : pc) (c a : N) : Prop :=
  match p with LockCount | TryCount => c < a | UnCount => 0 < c | _ => True end.
Definition of_thread (ev : event) : nat := match ev with Call i _ | Effect i _ | Return i _ => i end.

Record inv (a0 : N) (s : state) : Prop := {
  inv_replay : replay a0 (log s) = Some (count s, available s);
  inv_count : count s < two64;
  inv_available : available s < two64;
  inv_doing : forall i p, nth_error (threads s) i = Some p -> exists ph, doing i (log s) = Some ph /\ phase_of p ph;
  inv_others : forall i, nth_error (threads s) i = None -> doing i (log s) = Some Outside;
  inv_mtx : forall i p, nth_error (threads s) i = Some p -> (critical p = true <-> mtx s = Some i);
  inv_holder : forall i, mtx s = Some i -> nth_error (threads s) i <> None;
  inv_local : forall i p, nth_error (threads s) i = Some p -> local p (count s) (available s) }.

Lemma doing_other : forall j evs log, (forall ev, List.In ev evs -> of_thread ev <> j) -> doing j (evs ++ log) = doing j log.
Proof.
  induction evs as [|ev evs IH]; intros l H; [trivial|]. cbn [app].
  assert (E := H ev (or_introl eq_refl)). assert (I := IH l (fun e J => H e (or_intror J))).
  destruct ev; cbn in E |- *; apply Nat.eqb_neq in E; now rewrite E.
Qed.
Lemma set_nth_same : forall A (l : list A) i x y, nth_error l i = Some y -> nth_error (set_nth l i x) i = Some x.
Proof. intros A l i x y E. apply nth_error_set_nth_eq. apply nth_error_Some. congruence. Qed.
Lemma set_nth_cases : forall A (l : list A) i x y j z, nth_error l i = Some y -> nth_error (set_nth l i x) j = Some z ->
  (j = i /\ z = x) \/ (j <> i /\ nth_error l j = Some z).
Proof.
  intros A l i x y j z E H. destruct (Nat.eq_dec j i) as [->|N].
  - left. rewrite (set_nth_same A l i x y E) in H. split; congruence.
  - right. split; [trivial|]. rewrite nth_error_set_nth_neq in H; auto.
Qed.
Lemma set_nth_none : forall A (l : list A) i x j, nth_error (set_nth l i x) j = None <-> nth_error l j = None.
Proof. intros. rewrite !nth_error_None, set_nth_length. tauto. Qed.

Lemma set_nth_twice : forall A (l : list A) i x y, set_nth (set_nth l i x) i y = set_nth l i y.
Proof. intros A. induction l as [|z l IH]; intros [|i] x y; cbn; trivial. now rewrite IH. Qed.

(** One step of thread [i] from [p] to [q]. *)
Lemma inv_move : forall a0 s s' i p q evs, inv a0 s -> nth_error (threads s) i = Some p ->
  threads s' = set_nth (threads s) i q -> log s' = evs ++ log s -> (forall ev, List.In ev evs -> of_thread ev = i) ->
  replay a0 (log s') = Some (count s', available s') -> count s' < two64 -> available s' < two64 ->
  (exists ph, doing i (log s') = Some ph /\ phase_of q ph) ->
  (critical q = true <-> mtx s' = Some i) -> (mtx s' = mtx s \/ (mtx s = None /\ mtx s' = Some i) \/ (mtx s = Some i /\ mtx s' = None)) ->
  local q (count s') (available s') -> (critical p = true \/ (count s' = count s /\ available s' = available s)) -> inv a0 s'.
Proof.
  intros a0 s s' i p q evs V P T L F R C A D M X W U.
  assert (O : forall j, j <> i -> doing j (log s') = doing j (log s)).
  { intros j N. rewrite L. apply doing_other. intros ev I E. apply F in I. congruence. }
  constructor; trivial; rewrite ?T.
  - intros j r E. apply set_nth_cases with (y := p) in E; trivial. destruct E as [(-> & ->)|(N & E)]; [trivial|].
    rewrite O by trivial. now apply (inv_doing _ _ V).
  - intros j E. apply set_nth_none in E. rewrite O by congruence. now apply (inv_others _ _ V).
  - intros j r E. apply set_nth_cases with (y := p) in E; trivial. destruct E as [(-> & ->)|(N & E)]; [trivial|].
    rewrite (inv_mtx _ _ V j r E). destruct X as [X|[(X & Y)|(X & Y)]]; rewrite ?X, ?Y; try tauto; split; congruence.
  - intros j E. rewrite set_nth_none. destruct (Nat.eq_dec j i) as [->|N]; [congruence|].
    apply (inv_holder _ _ V). destruct X as [X|[(X & Y)|(X & Y)]]; congruence.
  - intros j r E. apply set_nth_cases with (y := p) in E; trivial. destruct E as [(-> & ->)|(N & E)]; [trivial|].
    destruct U as [U|(-> & ->)]; [|now apply (inv_local _ _ V j)].
    apply (inv_mtx _ _ V i p P) in U.
    assert (K : critical r = false). { destruct (critical r) eqn:K; [|trivial]. apply (inv_mtx _ _ V j r E) in K. congruence. }
    destruct r; try discriminate K; exact I.
Qed.
Lemma inv_init : forall n a, inv (a mod two64) (init n a).
Proof.
  intros n a. assert (T : a mod two64 < two64) by now apply N.mod_lt.
  assert (H : forall i p, nth_error (repeat Idle n) i = Some p -> p = Idle).
  { intros i p E. apply nth_error_In in E. now apply repeat_spec in E. }
  constructor; cbn; trivial; try discriminate.
  - reflexivity.
  - intros i p E. apply H in E. subst p. eexists. split; reflexivity.
  - intros i p E. apply H in E. subst p. split; discriminate.
  - intros i p E. apply H in E. now subst p.
Qed.

Lemma inv_begin : forall a0 s i o s', inv a0 s -> begin i o s = Some s' -> inv a0 s'.
Proof.
  intros a0 s i o s' V B. unfold begin in B. destruct (nth_error (threads s) i) as [p|] eqn:P; [|discriminate].
  destruct p; try discriminate. injection B as <-.
  destruct (inv_doing _ _ V i _ P) as (ph & D & E). cbn in E. subst ph.
  assert (M : mtx s <> Some i). { intros M. apply (inv_mtx _ _ V i _ P) in M. discriminate. }
  apply (inv_move a0 s _ i Idle (entry o) [Call i o] V P); try reflexivity; try apply (inv_replay _ _ V);
    try apply (inv_count _ _ V); try apply (inv_available _ _ V).
  - intros ev [<-|[]]. trivial.
  - cbn. rewrite Nat.eqb_refl, D. exists (In o). split; [trivial|].
    destruct o; cbn; trivial. split; [now apply N.mod_lt|]. eexists. split; reflexivity.
  - cbn. split; [|contradiction]. destruct o; discriminate.
  - now left.
  - now destruct o.
  - right. now split.
Qed.
Lemma wadd_1 : forall c a, c < a -> a < two64 -> wadd c 1 = c + 1.
Proof. intros c a H T. unfold wadd. apply N.mod_small. lia. Qed.
Lemma wsub_1 : forall c, 0 < c -> c < two64 -> wsub c 1 = c - 1.
Proof.
  intros c H T. unfold wsub. replace (c + two64 - 1) with (c - 1 + 1 * two64) by lia.
  rewrite N.mod_add by discriminate. apply N.mod_small. lia.
Qed.
Lemma inv_next : forall a0 s i s', inv a0 s -> next i s = Some s' -> inv a0 s'.
Proof.
  intros a0 s i s' V B. unfold next in B. destruct (nth_error (threads s) i) as [p|] eqn:P; [|discriminate].
  destruct (inv_doing _ _ V i _ P) as (ph & D & E).
  pose proof (inv_mtx _ _ V i _ P) as M. pose proof (inv_local _ _ V i _ P) as W.
  pose proof (inv_replay _ _ V) as R. pose proof (inv_count _ _ V) as C. pose proof (inv_available _ _ V) as A.
  assert (EQ : forall e, (if effect_eq_dec e e then Some Outside else None) = Some Outside).
  { intros e. now destruct (effect_eq_dec e e). }
  destruct p; cbn [phase_of critical local] in *; try discriminate B;
    try (unfold acquire in B; destruct (mtx s) as [m|] eqn:X; [discriminate B|]);
    try (match type of B with (if ?c then _ else _) = _ => destruct c eqn:Y end);
    injection B as <-.
  all: try (destruct E as (E & m & -> & F)); try subst ph.
  all: lazymatch goal with |- inv _ ?s' =>
         lazymatch s' with
         | context [go ?t ?j ?q] =>
             lazymatch s' with
             | note ?e1 _ => eapply (inv_move _ _ s' j _ q [e1] V P)
             | _ => eapply (inv_move _ _ s' j _ q [] V P)
             end
         end end; try reflexivity; trivial.
  all: try (intros ev H; cbn in H; intuition (subst; reflexivity)).
  all: cbn [note go with_mtx with_count with_available log mtx count available threads critical local doing replay app phase_of];
    rewrite ?Nat.eqb_refl, ?D, ?R, ?X; cbn [may]; rewrite ?EQ; try (eexists; split; reflexivity); trivial.
  all: try (left; reflexivity); try (right; split; reflexivity); try (right; left; split; reflexivity).
  all: try (right; right; split; [now apply M|reflexivity]).
  all: try (split; discriminate).
  all: rewrite ?(wadd_1 _ _ W A), ?(wsub_1 _ W C); unfold seq_effect; rewrite ?N.eqb_refl.
  all: rewrite ?Y; try reflexivity; try lia.
  all: try (apply N.leb_gt in Y; lia); try (apply N.ltb_lt in Y; lia).
  all: try (rewrite (proj2 (N.ltb_lt _ _)) by lia; reflexivity).
  - apply N.eqb_neq in Y. lia.
  - eexists. split; [reflexivity|]. split; [trivial|]. now exists m.
  - change (2 ^ 64) with two64. rewrite (proj2 (N.eqb_eq _ _) F). eexists. split; reflexivity.
Qed.
Lemma inv_step : forall a0 a s s', inv a0 s -> step a s = Some s' -> inv a0 s'.
Proof. intros a0 [i o|i] s s' V H; [now apply (inv_begin a0 s i o)|now apply (inv_next a0 s i)]. Qed.
Lemma inv_run : forall a0 sched s s', inv a0 s -> run sched s = Some s' -> inv a0 s'.
Proof.
  induction sched as [|a sched IH]; intros s s' V H; cbn [run] in H; [now injection H as <-|].
  destruct (step a s) as [t|] eqn:E; [|discriminate]. apply (IH t); [now apply (inv_step a0 a s)|trivial].
Qed.
Lemma reach : forall n a sched s, run sched (init n a) = Some s -> inv (a mod two64) s.
Proof. intros n a sched s. apply inv_run, inv_init. Qed.
Lemma linearizable : forall n a sched s, run sched (init n a) = Some s ->
  replay (a mod two64) (log s) = Some (count s, available s) /\ forall i, doing i (log s) <> None.
Proof.
  intros n a sched s H. pose proof (reach n a sched s H) as V. split; [apply V|]. intros i.
  destruct (nth_error (threads s) i) as [p|] eqn:E.
  - destruct (inv_doing _ _ V i p E) as (ph & -> & _). discriminate.
  - rewrite (inv_others _ _ V i E). discriminate.
Qed.

(** ** What follows from the log alone *)
Lemma replay_tail : forall a0 l1 l2 st, replay a0 (l1 ++ l2) = Some st -> exists st', replay a0 l2 = Some st'.
Proof.
  induction l1 as [|ev l1 IH]; intros l2 st H; [now exists st|]. destruct ev; cbn in H; try (now apply (IH l2 st)).
  destruct (replay a0 (l1 ++ l2)) as [st'|] eqn:E; [|discriminate]. now apply (IH l2 st').
Qed.
Lemma replay_taken : forall a0 log c a, replay a0 log = Some (c, a) -> Z.of_N c = taken log /\ a = resources a0 log.
Proof.
  induction log as [|ev log IH]; intros c a H; cbn in H; [injection H as <- <-; now split|].
  destruct ev as [j o|j e|j e]; try (now apply IH).
  destruct (replay a0 log) as [[c' a']|]; [|discriminate]. destruct (IH c' a' eq_refl) as (T & R).
  cbn [taken resources]. subst a'. unfold seq_effect in H.
  destruct e as [| |[]|[]|n|v|v]; try (match type of H with (if ?x then _ else _) = _ => destruct x eqn:E end);
    try discriminate H; injection H as <- <-; split; trivial; try lia.
  apply N.ltb_lt in E. lia.
Qed.
Lemma replay_effect : forall a0 l1 i e l2 st, replay a0 (l1 ++ Effect i e :: l2) = Some st ->
  exists c a st', replay a0 l2 = Some (c, a) /\ seq_effect e (c, a) = Some st'.
Proof.
  intros a0 l1 i e l2 st H. apply replay_tail in H. destruct H as (st' & H). cbn in H.
  destruct (replay a0 l2) as [[c a]|]; [|discriminate]. now exists c, a, st'.
Qed.
Lemma effect_meaning : forall a0 l1 i e l2 st, replay a0 (l1 ++ Effect i e :: l2) = Some st ->
  match e with
  | Acquired | Tried true => taken l2 < Z.of_N (resources a0 l2)
  | Tried false => Z.of_N (resources a0 l2) <= taken l2
  | Threw => resources a0 l2 = 0%N
  | Released true => 0 < taken l2
  | Released false => taken l2 = 0
  | Counted v => Z.of_N v = taken l2
  | MaxWas v => v = resources a0 l2
  | Resized n => True
  end%Z.
Proof.
  intros a0 l1 i e l2 st H. destruct (replay_effect a0 l1 i e l2 st H) as (c & a & st' & R & E).
  apply replay_taken in R. destruct R as (<- & <-). unfold seq_effect in E.
  destruct e as [| |[]|[]|n|v|v]; trivial;
    (match type of E with (if ?x then _ else _) = _ => destruct x eqn:Y end); try discriminate E;
    first [apply N.ltb_lt in Y|apply N.ltb_ge in Y|apply N.eqb_eq in Y]; lia.
Qed.
Lemma taken_nonneg : forall a0 log st, replay a0 log = Some st -> (0 <= taken log)%Z.
Proof. intros a0 log [c a] H. apply replay_taken in H. lia. Qed.

(** ** Fixed number of resources *)
Lemma doing_tail : forall i ev log, doing i (ev :: log) <> None -> doing i log <> None.
Proof.
  intros i ev log H E. apply H. destruct ev; cbn; rewrite E; now destruct (_ =? _)%nat.
Qed.
Lemma doing_called : forall i log o, doing i log = Some (In o) -> List.In (Call i o) log.
Proof.
  induction log as [|ev log IH]; intros o H; [discriminate|].
  destruct ev as [j p|j e|j e]; cbn in H; destruct (Nat.eqb_spec j i) as [->|N]; try (right; now apply IH).
  - left. destruct (doing i log) as [[]|]; try discriminate. now injection H as <-.
  - destruct (doing i log) as [[]|]; try discriminate. now destruct (may _ _).
  - destruct (doing i log) as [[]|]; try discriminate. now destruct (effect_eq_dec _ _).
Qed.
Lemma fixed_tail : forall ev log, fixed (ev :: log) -> fixed log.
Proof. intros ev l F i n H. apply (F i n). now right. Qed.
Lemma fixed_resized : forall i n log, doing i log <> None -> fixed log -> ~ List.In (Effect i (Resized n)) log.
Proof.
  intros i n. induction log as [|ev log IH]; intros D F; [intros []|]. intros [->|H].
  - cbn in D. rewrite Nat.eqb_refl in D. destruct (doing i log) as [[|o|]|] eqn:E; try now destruct D.
    destruct (may o (Resized n)) eqn:M; [|now destruct D]. apply doing_called in E.
    destruct o; try discriminate M. apply (F i n0). now right.
  - apply IH; trivial; [now apply doing_tail in D|now apply fixed_tail in F].
Qed.
Lemma fixed_replay : forall a0 log c a, (forall i n, ~ List.In (Effect i (Resized n)) log) -> replay a0 log = Some (c, a) ->
  a = a0 /\ c <= a0.
Proof.
  induction log as [|ev log IH]; intros c a F H; cbn in H; [injection H as <- <-; split; [trivial|apply N.le_0_l]|].
  assert (F' : forall i n, ~ List.In (Effect i (Resized n)) log) by (intros i n I; apply (F i n); now right).
  destruct ev as [j o|j e|j e]; try (now apply IH).
  destruct (replay a0 log) as [[c' a']|]; [|discriminate]. destruct (IH c' a' F' eq_refl) as (-> & L).
  unfold seq_effect in H. destruct e as [| |[]|[]|n|v|v];
    try (match type of H with (if ?x then _ else _) = _ => destruct x eqn:E end);
    try discriminate H; try (injection H as <- <-; split; trivial; try lia; apply N.ltb_lt in E; lia).
  destruct (F j n). now left.
Qed.
Lemma fixed_bound : forall n a sched s, run sched (init n a) = Some s -> fixed (log s) ->
  available s = a mod two64 /\ count s <= a mod two64.
Proof.
  intros n a sched s H F. destruct (linearizable n a sched s H) as (R & D).
  apply (fixed_replay (a mod two64) (log s)); trivial. intros i m. now apply fixed_resized.
Qed.

(** ** Holding *)
Lemma sum_set_nth : forall (f : pc -> Z) l i p q, nth_error l i = Some p ->
  (sumZ (map f (set_nth l i q)) = sumZ (map f l) - f p + f q)%Z.
Proof.
  intros f. induction l as [|x l IH]; intros [|i] p q E; cbn in *; try discriminate.
  - injection E as ->. lia.
  - rewrite (IH i p q E). lia.
Qed.
Definition weight (p : pc) : Z :=
  match p with LockDone | TryDone true | UnMutex | UnTest | UnCount => 1 | _ => 0 end%Z.
Lemma weight_nonneg : forall l, (0 <= sumZ (map weight l))%Z.
Proof. induction l as [|p l IH]; cbn; [lia|]. assert (0 <= weight p)%Z by (destruct p as [| | | | | | | | | | | |[]| | | | | | | | | | | | | |]; cbn; lia). lia. Qed.
Lemma weight_pos : forall l i p, nth_error l i = Some p -> (weight p <= sumZ (map weight l))%Z.
Proof.
  induction l as [|x l IH]; intros [|i] p E; cbn in *; try discriminate.
  - injection E as ->. pose proof (weight_nonneg l). lia.
  - pose proof (IH i p E). assert (0 <= weight x)%Z by (destruct x as [| | | | | | | | | | | |[]| | | | | | | | | | | | | |]; cbn; lia). lia.
Qed.
Lemma total_cons : forall n ev l, (of_thread ev < n)%nat -> (total n (ev :: l) = total n l + holds1 (of_thread ev) ev)%Z.
Proof.
  intros n ev l H. unfold total.
  assert (G : forall m k, (sumZ (map (fun i => holds i (ev :: l)) (seq k m)) = sumZ (map (fun i => holds i l) (seq k m)) +
      (if ((k <=? of_thread ev) && (of_thread ev <? k + m))%nat then holds1 (of_thread ev) ev else 0))%Z).
  { induction m as [|m IH]; intros k; cbn [seq map sumZ].
    - destruct (Nat.leb_spec k (of_thread ev)), (Nat.ltb_spec (of_thread ev) (k + 0)); cbn; lia.
    - rewrite IH. cbn [holds].
      assert (E : holds1 k ev = if (of_thread ev =? k)%nat then holds1 (of_thread ev) ev else 0%Z).
      { destruct (Nat.eqb_spec (of_thread ev) k) as [->|N]; [trivial|]. apply Nat.eqb_neq in N.
        destruct ev as [j []|j e|j [| |[]|[]| | |]]; cbn in N |- *; rewrite ?N; trivial. }
      rewrite E. destruct (Nat.eqb_spec (of_thread ev) k), (Nat.leb_spec k (of_thread ev)), (Nat.leb_spec (S k) (of_thread ev)),
        (Nat.ltb_spec (of_thread ev) (S k + m)), (Nat.ltb_spec (of_thread ev) (k + S m)); cbn [andb]; lia. }
  rewrite G. destruct (Nat.leb_spec 0 (of_thread ev)), (Nat.ltb_spec (of_thread ev) (0 + n)); cbn; lia.
Qed.
Lemma total_nonneg : forall n l, (forall i, 0 <= holds i l)%Z -> (0 <= total n l)%Z.
Proof. intros n l H. unfold total. induction (seq 0 n) as [|k r IH]; cbn; [lia|]. specialize (H k). lia. Qed.
Lemma holders_total : forall n l, (forall i, 0 <= holds i l)%Z -> (Z.of_nat (length (holders n l)) <= total n l)%Z.
Proof.
  intros n l H. unfold total, holders. induction (seq 0 n) as [|k r IH]; cbn; [lia|]. specialize (H k).
  destruct (Z.ltb_spec 0 (holds k l)); cbn [length]; lia.
Qed.
Lemma disciplined_now : forall l, disciplined l -> forall i, (0 <= holds i l)%Z.
Proof. intros [|ev l] H i; [cbn; lia|]. apply H. Qed.
Definition accounted (s : state) : Prop :=
  disciplined (log s) -> Z.of_N (count s) = (total (length (threads s)) (log s) + sumZ (map weight (threads s)))%Z.
Lemma accounted_move : forall s s' i p q ev, accounted s -> nth_error (threads s) i = Some p ->
  threads s' = set_nth (threads s) i q -> log s' = ev :: log s -> of_thread ev = i ->
  (disciplined (log s) -> (forall k, 0 <= holds k (log s))%Z ->
   Z.of_N (count s') - Z.of_N (count s) = holds1 i ev + weight q - weight p)%Z -> accounted s'.
Proof.
  intros s s' i p q ev A P T L O H D. rewrite L in D. destruct D as (D & _). specialize (A D).
  specialize (H D (disciplined_now _ D)). rewrite T, L, set_nth_length, (sum_set_nth weight _ i p q P), total_cons.
  - rewrite O. lia.
  - rewrite O. apply nth_error_Some. congruence.
Qed.
Lemma accounted_move0 : forall s s' i p q, accounted s -> nth_error (threads s) i = Some p ->
  threads s' = set_nth (threads s) i q -> log s' = log s ->
  (disciplined (log s) -> Z.of_N (count s') - Z.of_N (count s) = weight q - weight p)%Z -> accounted s'.
Proof.
  intros s s' i p q A P T L H D. rewrite L in D. specialize (A D).
  specialize (H D). rewrite T, L, set_nth_length, (sum_set_nth weight _ i p q P). lia.
Qed.
Lemma accounted_step : forall a0 a s s', inv a0 s -> accounted s -> step a s = Some s' -> accounted s'.
Proof.
  intros a0 a s s' V AC B. destruct a as [i o|i]; cbn [step] in B.
  - unfold begin in B. destruct (nth_error (threads s) i) as [p|] eqn:P; [|discriminate]. destruct p; try discriminate.
    injection B as <-. apply (accounted_move s _ i Idle (entry o) (Call i o) AC P); try reflexivity.
    intros _ _. cbn [count note go holds1]. rewrite Nat.eqb_refl. destruct o; cbn; lia.
  - unfold next in B. destruct (nth_error (threads s) i) as [p|] eqn:P; [|discriminate].
    pose proof (inv_local _ _ V i _ P) as W. pose proof (inv_count _ _ V) as C. pose proof (inv_available _ _ V) as A.
    destruct p; cbn [local] in W; try discriminate B;
      try (unfold acquire in B; destruct (mtx s) as [m|] eqn:X; [discriminate B|]);
      try (match type of B with (if ?c then _ else _) = _ => destruct c eqn:Y end);
      injection B as <-.
    all: lazymatch goal with |- accounted ?s' =>
         lazymatch s' with
         | context [go ?t ?j ?q] =>
             lazymatch s' with
             | note ?e1 _ => eapply (accounted_move _ s' j _ q e1 AC P)
             | _ => eapply (accounted_move0 _ s' j _ q AC P)
             end
         end end; try reflexivity; trivial.
    all: intros D; try intros D'; cbn [note go with_mtx with_count with_available count holds1 weight];
      rewrite ?(wadd_1 _ _ W A), ?(wsub_1 _ W C), ?Nat.eqb_refl; try lia.
    all: try (destruct ok; cbn; lia).
    exfalso. apply N.eqb_eq in Y. specialize (AC D). pose proof (total_nonneg (length (threads s)) _ D').
    pose proof (weight_pos _ _ _ P) as Q. cbn [weight] in Q. lia.
Qed.
Lemma accounted_run : forall a0 sched s s', inv a0 s -> accounted s -> run sched s = Some s' -> accounted s'.
Proof.
  induction sched as [|a sched IH]; intros s s' V A H; cbn [run] in H; [now injection H as <-|].
  destruct (step a s) as [t|] eqn:E; [|discriminate].
  apply (IH t); [now apply (inv_step a0 a s)|now apply (accounted_step a0 a s)|trivial].
Qed.
Lemma threads_length : forall sched s s', run sched s = Some s' -> length (threads s') = length (threads s).
Proof.
  induction sched as [|a sched IH]; intros s s' H; cbn [run] in H; [now injection H as <-|].
  destruct (step a s) as [t|] eqn:E; [|discriminate]. rewrite (IH t s' H).
  destruct a as [i o|i]; cbn [step] in E.
  - unfold begin in E. destruct (nth_error (threads s) i) as [[]|]; try discriminate. injection E as <-. apply set_nth_length.
  - unfold next, acquire in E. destruct (nth_error (threads s) i) as [p|]; [|discriminate].
    destruct p; try discriminate E; try (destruct (mtx s); [discriminate E|]);
      try (match type of E with (if ?c then _ else _) = _ => destruct c end); injection E as <-; apply set_nth_length.
Qed.
Lemma accounted_init : forall n a, accounted (init n a).
Proof.
  intros n a _. cbn [init log count threads]. assert (Hw : forall m, sumZ (map weight (repeat Idle m)) = 0%Z) by (induction m; cbn; lia).
  rewrite Hw. assert (Ht : total (length (repeat Idle n)) [] = 0%Z). { unfold total. induction (seq 0 _); cbn in *; lia. }
  rewrite Ht. reflexivity.
Qed.
Lemma holders_bound : forall n a sched s, run sched (init n a) = Some s -> disciplined (log s) ->
  (Z.of_nat (length (holders n (log s))) <= total n (log s) <= Z.of_N (count s))%Z.
Proof.
  intros n a sched s H D. pose proof (accounted_run _ _ _ _ (inv_init n a) (accounted_init n a) H D) as A.
  rewrite (threads_length _ _ _ H) in A. cbn [init threads] in A. rewrite repeat_length in A.
  pose proof (weight_nonneg (threads s)). split; [apply holders_total, disciplined_now, D|lia].
Qed.
Lemma resource_bound : forall n a sched s, run sched (init n a) = Some s -> fixed (log s) -> disciplined (log s) ->
  (Z.of_nat (length (holders n (log s))) <= total n (log s) <= Z.of_N (a mod two64))%Z.
Proof.
  intros n a sched s H F D. pose proof (holders_bound n a sched s H D). pose proof (fixed_bound n a sched s H F). lia.
Qed.

(** ** Progress *)
Lemma run_app : forall a b s, run (a ++ b) s = match run a s with Some t => run b t | None => None end.
Proof. induction a as [|x a IH]; intros b s; cbn; [trivial|]. destruct (step x s); [apply IH|trivial]. Qed.
Lemma nth_go : forall s i p q, nth_error (threads s) i = Some p -> nth_error (threads (go s i q)) i = Some q.
Proof. intros s i p q E. cbn. now apply (set_nth_same _ _ i q p). Qed.
Ltac flat := cbn [note go with_mtx with_count with_available mtx count available threads log run step repeat]; rewrite ?set_nth_twice.
Ltac adv P := flat; unfold next at 1; flat; rewrite P; unfold acquire; flat.
Lemma waiting_gets_it : forall s i, nth_error (threads s) i = Some LockWait -> mtx s = None -> count s < available s ->
  exists s', run (repeat (Next i) 5) s = Some s' /\ log s' = Return i Acquired :: Effect i Acquired :: log s /\
    nth_error (threads s') i = Some Idle.
Proof.
  intros s i P M L. change (repeat (Next i) 5) with [Next i; Next i; Next i; Next i; Next i].
  assert (B : forall q, nth_error (set_nth (threads s) i q) i = Some q) by (intros q; apply (set_nth_same _ _ i q _ P)).
  adv P. adv B. rewrite M ; flat. adv B. rewrite (proj2 (N.leb_gt _ _) L) ; flat. adv B. adv B.
  flat. eexists. split; [reflexivity|]. split; [reflexivity|]. flat. apply B.
Qed.
Lemma holder_releases : forall a0 s j, inv a0 s -> mtx s = Some j ->
  exists k s', (k <= 4)%nat /\ run (repeat (Next j) k) s = Some s' /\ mtx s' = None.
Proof.
  intros a0 s j V M. destruct (nth_error (threads s) j) as [p|] eqn:P; [|now apply (inv_holder _ _ V) in M].
  pose proof (proj2 (inv_mtx _ _ V j p P) M) as C.
  assert (B : forall q, nth_error (set_nth (threads s) j q) j = Some q) by (intros q; apply (set_nth_same _ _ j q _ P)).
  destruct p; try discriminate C.
  - destruct (N.eqb_spec (available s) 0) as [Z|Z].
    + exists 2%nat. eexists. split; [lia|]. cbn [repeat]. adv P. rewrite Z. cbn [N.eqb]. adv B. flat; split; reflexivity.
    + destruct (N.leb_spec (available s) (count s)) as [L|L].
      * exists 2%nat. eexists. split; [lia|]. cbn [repeat]. adv P. rewrite (proj2 (N.eqb_neq _ _) Z). adv B.
        rewrite (proj2 (N.leb_le _ _) L). flat; split; reflexivity.
      * exists 4%nat. eexists. split; [lia|]. cbn [repeat]. adv P. rewrite (proj2 (N.eqb_neq _ _) Z). adv B.
        rewrite (proj2 (N.leb_gt _ _) L) ; flat. adv B. adv B. flat; split; reflexivity.
  - exists 1%nat. eexists. split; [lia|]. cbn [repeat]. adv P. flat; split; reflexivity.
  - destruct (N.leb_spec (available s) (count s)) as [L|L].
    + exists 1%nat. eexists. split; [lia|]. cbn [repeat]. adv P. rewrite (proj2 (N.leb_le _ _) L). flat; split; reflexivity.
    + exists 3%nat. eexists. split; [lia|]. cbn [repeat]. adv P. rewrite (proj2 (N.leb_gt _ _) L). adv B. adv B.
      flat; split; reflexivity.
  - exists 2%nat. eexists. split; [lia|]. cbn [repeat]. adv P. adv B. flat; split; reflexivity.
  - exists 1%nat. eexists. split; [lia|]. cbn [repeat]. adv P. flat; split; reflexivity.
  - destruct (N.ltb_spec (count s) (available s)) as [L|L].
    + exists 3%nat. eexists. split; [lia|]. cbn [repeat]. adv P. rewrite (proj2 (N.ltb_lt _ _) L). adv B. adv B.
      flat; split; reflexivity.
    + exists 2%nat. eexists. split; [lia|]. cbn [repeat]. adv P. rewrite (proj2 (N.ltb_ge _ _) L). adv B. flat; split; reflexivity.
  - exists 2%nat. eexists. split; [lia|]. cbn [repeat]. adv P. adv B. flat; split; reflexivity.
  - exists 1%nat. eexists. split; [lia|]. cbn [repeat]. adv P. flat; split; reflexivity.
  - destruct (N.eqb_spec (count s) 0) as [Z|Z].
    + exists 2%nat. eexists. split; [lia|]. cbn [repeat]. adv P. rewrite Z. cbn [N.eqb]. adv B. flat; split; reflexivity.
    + exists 3%nat. eexists. split; [lia|]. cbn [repeat]. adv P. rewrite (proj2 (N.eqb_neq _ _) Z). adv B. adv B.
      flat; split; reflexivity.
  - exists 2%nat. eexists. split; [lia|]. cbn [repeat]. adv P. adv B. flat; split; reflexivity.
  - exists 1%nat. destruct ok; eexists; (split; [lia|]); cbn [repeat]; adv P; flat; split; reflexivity.
  - exists 2%nat. destruct (available s <? n) eqn:Y; eexists; (split; [lia|]); cbn [repeat]; adv P; rewrite Y; adv B; flat; split; reflexivity.
  - exists 1%nat. destruct greater; eexists; (split; [lia|]); cbn [repeat]; adv P; flat; split; reflexivity.
  - exists 2%nat. eexists. split; [lia|]. cbn [repeat]. adv P. adv B. flat; split; reflexivity.
  - exists 1%nat. eexists. split; [lia|]. cbn [repeat]. adv P. flat; split; reflexivity.
Qed.
(** A thread in a call can go on, or another one has the mutex and can. *)
Lemma no_deadlock : forall a0 s i p, inv a0 s -> nth_error (threads s) i = Some p -> p <> Idle ->
  next i s <> None \/ exists j, mtx s = Some j /\ j <> i /\ next j s <> None.
Proof.
  intros a0 s i p V P N. destruct (mtx s) as [j|] eqn:M.
  - destruct (Nat.eq_dec j i) as [->|D].
    + left. pose proof (proj2 (inv_mtx _ _ V i p P) M) as C. unfold next. rewrite P. destruct p; try discriminate C; try discriminate;
        try destruct ok; try destruct greater; try discriminate; now match goal with |- (if ?c then _ else _) <> _ => destruct c end.
    + right. exists j. split; [trivial|]. split; [trivial|]. destruct (holder_releases a0 s j V M) as (k & s' & _ & R & M').
      destruct k; [cbn in R; congruence|]. cbn in R. intros E. now rewrite E in R.
  - left. unfold next, acquire. rewrite P, M. destruct p; try discriminate; try congruence;
      try destruct ok; try destruct greater; try discriminate; now match goal with |- (if ?c then _ else _) <> _ => destruct c end.
Qed.

(** ** No resources *)
Lemma lock_throws : forall s i, nth_error (threads s) i = Some LockMutex -> mtx s = None -> available s = 0 ->
  exists s', run (repeat (Next i) 3) s = Some s' /\ log s' = Return i Threw :: Effect i Threw :: log s /\
    nth_error (threads s') i = Some Idle.
Proof.
  intros s i P M L. change (repeat (Next i) 3) with [Next i; Next i; Next i].
  assert (B : forall q, nth_error (set_nth (threads s) i q) i = Some q) by (intros q; apply (set_nth_same _ _ i q _ P)).
  adv P. rewrite M. adv B. rewrite L. cbn [N.eqb]. adv B.
  flat. eexists. split; [reflexivity|]. split; [reflexivity|]. flat. apply B.
Qed.
Definition waits (p : pc) : bool := match p with LockLoop | LockWait | LockAwake => true | _ => false end.
Definition setting (p : pc) : bool := match p with SetMutex _ | SetStore _ => true | _ => false end.
Definition stuck (i : nat) (s : state) : Prop :=
  available s = 0 /\ (exists p, nth_error (threads s) i = Some p /\ waits p = true) /\
  (forall j p, nth_error (threads s) j = Some p -> setting p = false).
Lemma stuck_move : forall i s s' j p q, stuck i s -> nth_error (threads s) j = Some p -> threads s' = set_nth (threads s) j q ->
  available s' = available s -> setting q = false -> (j = i -> waits q = true) -> stuck i s'.
Proof.
  intros i s s' j p q (A & (r & R & W) & S) P T A' Q J. split; [congruence|]. split.
  - destruct (Nat.eq_dec j i) as [->|N].
    + exists q. rewrite T. split; [now apply (set_nth_same _ _ i q p)|auto].
    + exists r. rewrite T, nth_error_set_nth_neq by trivial. now split.
  - intros k t E. rewrite T in E. apply set_nth_cases with (y := p) in E; trivial. destruct E as [(-> & ->)|(_ & E)]; [trivial|].
    now apply (S k).
Qed.
Lemma stuck_step : forall i a s s', stuck i s -> sets a = false -> step a s = Some s' -> stuck i s'.
Proof.
  intros i a s s' K N B. pose proof K as (A & (r & R & W) & S). destruct a as [j o|j]; cbn [step] in B.
  - unfold begin in B. destruct (nth_error (threads s) j) as [p|] eqn:P; [|discriminate]. destruct p; try discriminate.
    injection B as <-. apply (stuck_move i s _ j Idle (entry o) K P); try reflexivity.
    + now destruct o.
    + intros ->. rewrite R in P. injection P as ->. discriminate.
  - unfold next in B. destruct (nth_error (threads s) j) as [p|] eqn:P; [|discriminate]. pose proof (S j p P) as Z.
    assert (X : j = i -> waits p = true) by (intros ->; congruence).
    destruct p; try discriminate B; try discriminate Z;
      try (unfold acquire in B; destruct (mtx s) as [m|]; [discriminate B|]);
      try (match type of B with (if ?c then _ else _) = _ => destruct c eqn:Y end);
      injection B as <-.
    all: lazymatch goal with |- stuck _ ?s' => lazymatch s' with context [go ?t _ ?q] => eapply (stuck_move i _ s' j _ q K P) end end;
      try reflexivity; intros E; specialize (X E); try discriminate X; trivial.
    apply N.leb_gt in Y. lia.
Qed.
Lemma stuck_run : forall i sched s s', stuck i s -> Forall (fun a => sets a = false) sched -> run sched s = Some s' -> stuck i s'.
Proof.
  induction sched as [|a sched IH]; intros s s' K F H; cbn [run] in H; [now injection H as <-|].
  destruct (step a s) as [t|] eqn:E; [|discriminate]. inversion F; subst. apply (IH t); trivial. now apply (stuck_step i a s).
Qed.
Lemma stuck_for_ever : forall n a sched s i, run sched (init n a) = Some s -> stuck i s ->
  forall more s', Forall (fun a => sets a = false) more -> run more s = Some s' -> doing i (log s') = Some (In Lock).
Proof.
  intros n a sched s i H K more s' F R. pose proof (stuck_run i more s s' K F R) as (_ & (p & P & W) & _).
  assert (V : inv (a mod two64) s') by (apply (inv_run _ more s); [apply (reach n a sched s H)|trivial]).
  destruct (inv_doing _ _ V i p P) as (ph & -> & E). destruct p; try discriminate W; cbn in E; now subst.
Qed.

(** ** Data races *)
Lemma access_critical : forall p, accesses p <> [] -> critical p = true \/ p = MaxRead.
Proof. intros p H. destruct p; try (now left); try (now right); now destruct H. Qed.
Lemma races : forall n a sched s i j p q, run sched (init n a) = Some s -> nth_error (threads s) i = Some p ->
  nth_error (threads s) j = Some q -> i <> j -> conflict (accesses p) (accesses q) ->
  (p = MaxRead /\ exists m, q = SetStore m) \/ (q = MaxRead /\ exists m, p = SetStore m).
Proof.
  intros n a sched s i j p q H P Q N (l & w & w' & I & J & W). pose proof (reach n a sched s H) as V.
  destruct (access_critical p) as [C| ->]; [intros E; rewrite E in I; destruct I| |].
  - destruct (access_critical q) as [D| ->]; [intros E; rewrite E in J; destruct J| |].
    + apply (inv_mtx _ _ V i p P) in C. apply (inv_mtx _ _ V j q Q) in D. congruence.
    + right. split; [trivial|]. cbn in J. destruct J as [J|[]]. injection J as <- <-. rewrite orb_false_r in W. subst w.
      destruct p; cbn in I; decompose [or] I; try discriminate; try contradiction. now eexists.
  - left. split; [trivial|]. cbn in I. destruct I as [I|[]]. injection I as <- <-. cbn in W. subst w'.
    destruct q; cbn in J; decompose [or] J; try discriminate; try contradiction. now eexists.
Qed.

(** ** Earlier states *)
Lemma step_log : forall a s s', step a s = Some s' -> log s' = log s \/ exists ev, log s' = ev :: log s.
Proof.
  intros a s s' B. destruct a as [i o|i]; cbn [step] in B.
  - unfold begin in B. destruct (nth_error (threads s) i) as [[]|]; try discriminate. injection B as <-. right. now eexists.
  - unfold next, acquire in B. destruct (nth_error (threads s) i) as [p|]; [|discriminate].
    destruct p; try discriminate B; try (destruct (mtx s); [discriminate B|]);
      try (match type of B with (if ?c then _ else _) = _ => destruct c end); injection B as <-;
      first [now left|right; now eexists].
Qed.
Lemma earlier : forall sched s s' l1 l2, run sched s = Some s' -> log s' = l1 ++ l2 -> (length (log s) <= length l2)%nat ->
  exists first s1 rest, sched = first ++ rest /\ run first s = Some s1 /\ log s1 = l2.
Proof.
  induction sched as [|a sched IH]; intros s s' l1 l2 H L G; cbn [run] in H.
  - injection H as <-. exists [], s, []. split; [trivial|]. split; [trivial|].
    assert (E := f_equal (@length _) L). rewrite app_length in E. destruct l1; [trivial|cbn in E; lia].
  - destruct (step a s) as [t|] eqn:E; [|discriminate].
    destruct (le_lt_dec (length (log t)) (length l2)) as [Q|Q].
    + destruct (IH t s' l1 l2 H L Q) as (f & s1 & r & -> & R & X). exists (a :: f), s1, r. cbn [run]. rewrite E. now split.
    + exists [], s, (a :: sched). split; [trivial|]. split; [trivial|].
      destruct (step_log a s t E) as [T|(ev & T)]; [rewrite T in Q; lia|].
      assert (Y : exists l3, log s' = l3 ++ log t).
      { clear - H. revert t H. induction sched as [|b sched IH]; intros t H; cbn [run] in H; [injection H as <-; now exists []|].
        destruct (step b t) as [u|] eqn:E; [|discriminate]. destruct (IH u H) as (l3 & ->).
        destruct (step_log b t u E) as [->|(ev & ->)]; [now exists l3|]. exists (l3 ++ [ev]). now rewrite <- app_assoc. }
      destruct Y as (l3 & Y). rewrite T in Y, Q. cbn in Q.
      assert (Len : length l2 = length (log s)) by lia.
      rewrite Y in L. change (ev :: log s) with ([ev] ++ log s) in L. rewrite app_assoc in L. symmetry in L.
      apply (f_equal (@rev _)) in L. rewrite !rev_app_distr in L.
      assert (K := f_equal (firstn (length (rev l2))) L). rewrite firstn_app, Nat.sub_diag, firstn_all, app_nil_r in K.
      replace (length (rev l2)) with (length (rev (log s))) in K by (rewrite !rev_length; lia).
      rewrite firstn_app, Nat.sub_diag, firstn_all, app_nil_r in K.
      apply (f_equal (@rev _)) in K. now rewrite !rev_involutive in K.
Qed.
Lemma disciplined_tail : forall l1 l2, disciplined (l1 ++ l2) -> disciplined l2.
Proof. induction l1 as [|ev l1 IH]; intros l2 D; [trivial|]. apply IH, D. Qed.
Lemma admitted_room : forall n a sched s l1 i e l2, run sched (init n a) = Some s -> disciplined (log s) ->
  log s = l1 ++ Effect i e :: l2 -> e = Acquired \/ e = Tried true ->
  (Z.of_nat (length (holders n l2)) < Z.of_N (resources (a mod two64) l2))%Z.
Proof.
  intros n a sched s l1 i e l2 H D L E.
  assert (L' : log s = (l1 ++ [Effect i e]) ++ l2) by (rewrite L, <- app_assoc; reflexivity).
  destruct (earlier sched _ s _ l2 H L') as (f & t & r & -> & R & T); [cbn; lia|].
  assert (D' : disciplined (log t)). { rewrite T. rewrite L' in D. now apply disciplined_tail in D. }
  pose proof (holders_bound n a f t R D') as B. rewrite T in B.
  destruct (linearizable n a f t R) as (P & _). rewrite T in P. apply replay_taken in P. destruct P as (P & _).
  destruct (linearizable n a _ s H) as (Q & _). rewrite L in Q. apply effect_meaning in Q. destruct E as [-> | ->]; lia.
Qed.
Lemma set_store_only : forall s i m, nth_error (threads s) i = Some (SetStore m) ->
  exists s', run [Next i] s = Some s' /\ available s' = m /\ count s' = count s /\ mtx s' = mtx s /\
    (forall j, holds j (log s') = holds j (log s)) /\
    (forall j, j <> i -> nth_error (threads s') j = nth_error (threads s) j).
Proof.
  intros s i m P. adv P. eexists. split; [reflexivity|]. repeat (split; [reflexivity|]). split.
  - intros j. cbn. lia.
  - intros j N. cbn. apply nth_error_set_nth_neq. auto.
Qed.
