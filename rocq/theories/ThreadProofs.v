(** Proofs about the model of thread.h. *)
Require Import List ZArith Lia Bool.
Require Import Verif.Base Verif.ThreadModel Verif.ThreadSpec.
Import ListNotations.
Local Open Scope Z_scope.

Lemma run_app : forall sched1 sched2 s, run (sched1 ++ sched2) s =
  match run sched1 s with Some t => run sched2 t | None => None end.
Proof. induction sched1 as [|a sched1 IH]; intros sched2 s; cbn; [reflexivity|]. destruct (step a s); [apply IH|reflexivity]. Qed.
Lemma run_keeps : forall (P : state -> Prop), (forall a s t, P s -> step a s = Some t -> P t) ->
  forall sched s t, P s -> run sched s = Some t -> P t.
Proof.
  intros P K. induction sched as [|a sched IH]; intros s t I R; cbn in R; [injection R as <-; exact I|].
  destruct (step a s) as [u|] eqn:E; [|discriminate R]. exact (IH u t (K a s u I E) R).
Qed.
Ltac cases H := unfold step, begin, next, finish, joinable in H;
    repeat match type of H with
    | context [match ?x with _ => _ end] =>
        lazymatch x with context [match _ with _ => _ end] => fail | _ => let E := fresh "E" in destruct x eqn:E end
    end; try discriminate H; injection H as <-.
Lemma step_log : forall a s t, step a s = Some t -> log t = log s \/ exists e, log t = e :: log s.
Proof. intros a s t H. cases H; cbn; first [left; reflexivity|right; eexists; reflexivity]. Qed.
Lemma moment : forall sched s, run sched init = Some s -> forall l1 e l2, log s = l1 ++ e :: l2 ->
  exists sched1 s1 a t, run sched1 init = Some s1 /\ log s1 = l2 /\ step a s1 = Some t /\ log t = e :: l2.
Proof.
  intros sched. induction sched as [|a sched IH] using rev_ind; intros s R l1 e l2 E.
  - injection R as <-. destruct l1; discriminate E.
  - rewrite run_app in R. destruct (run sched init) as [u|] eqn:U; [|discriminate R]. cbn in R.
    destruct (step a u) as [v|] eqn:S; [|discriminate R]. injection R as <-.
    destruct (step_log a u v S) as [K|(e' & K)].
    + rewrite K in E. exact (IH u eq_refl l1 e l2 E).
    + rewrite K in E. destruct l1 as [|e1 l1]; cbn in E; injection E as -> E.
      * exists sched, u, a, v. subst l2. rewrite K. auto.
      * exact (IH u eq_refl l1 e l2 E).
Qed.

Record inv (s : state) : Prop := {
  i_exit : match owner s with
           | OStart => joinable s = false -> exit s = NOT_FINISHED
           | ODead => True
           | _ => exit s = code_of (life_of (log s)) end;
  i_join : joinable s = unjoined (log s);
  i_job : worker s = Busy <-> life_of (log s) = Running;
  i_over : worker s = Over -> exists c, life_of (log s) = Ended c;
  i_owner : match owner s with OJoin | ODestroy => joinable s = true | ODone => joinable s = false | _ => True end }.
Lemma inv_step : forall a s t, inv s -> step a s = Some t -> inv t.
Proof.
  intros a s t [E J B V O] H. destruct s as [x w o l]. unfold joinable in *; cbn in *.
  destruct a as [op| |code]; cbn in H.
  - destruct o; cbn in H; try discriminate H; destruct op; destruct w; cbn in *; injection H as <-; constructor; cbn in *; auto;
      try congruence; eauto; intuition congruence.
  - destruct o; cbn in H; try discriminate H; destruct w; cbn in *; try discriminate H; injection H as <-; constructor; cbn in *; auto;
      try congruence; eauto; intuition congruence.
  - destruct w; cbn in *; try discriminate H; injection H as <-; destruct o; constructor; cbn in *; auto;
      try congruence; eauto; intuition congruence.
Qed.
Lemma inv_run : forall sched s, run sched init = Some s -> inv s.
Proof. intros sched s. apply (run_keeps _ inv_step). constructor; cbn; auto; try discriminate; split; discriminate. Qed.
Lemma said : forall sched s l1 e l2, run sched init = Some s -> log s = l1 ++ e :: l2 ->
  match e with
  | SaidCode c => c = code_of (life_of l2)
  | SaidRunning b => b = (code_of (life_of l2) =? -100)
  | SaidJoinable b => b = unjoined l2
  | Joined => exists c, life_of l2 = Ended c
  | Destroyed => life_of l2 <> Running
  | Started => unjoined l2 = false
  | Terminated => unjoined l2 = true
  | Finished _ => life_of l2 = Running
  end.
Proof.
  intros sched s l1 e l2 R El. destruct (moment sched s R l1 e l2 El) as (sched1 & u & a & t & R1 & Lu & S & L).
  destruct (inv_run sched1 u R1) as [E J B V O]. destruct u as [x w o l]. unfold joinable in *; cbn in *. subst l2.
  assert (NB : w <> Busy -> life_of l <> Running) by tauto.
  assert (Z : forall x, x :: l = l -> False) by (clear; intros x H; apply (f_equal (@length _)) in H; cbn in H; lia).
  destruct a as [op| |code]; cbn in S.
  - destruct o; cbn in S; try discriminate S; destruct op; destruct w; cbn in *; injection S as <-; cbn in *;
      try (destruct (Z _ (eq_sym L)); fail); injection L as <-; try rewrite <- E; auto; try (apply NB; discriminate); congruence.
  - destruct o; cbn in S; try discriminate S; destruct w; cbn in *; try discriminate S; injection S as <-; cbn in *; 
      try (destruct (Z _ (eq_sym L)); fail); injection L as <-; auto; try (apply NB; discriminate).
  - destruct w; cbn in *; try discriminate S; injection S as <-; cbn in *; injection L as <-; tauto.
Qed.

Lemma join_returns : forall sched s, run sched init = Some s -> owner s = OJoin \/ owner s = ODestroy ->
  exists sched1 t, run sched1 s = Some t /\ owner t <> owner s /\ unjoined (log t) = false /\
    (exists c, sched1 = [Finish c; Next] \/ sched1 = [Next]).
Proof.
  intros sched s R O. destruct (inv_run sched s R) as [E J B V Q]. destruct s as [x w o l]. cbn in *.
  destruct O as [-> | ->]; destruct w; cbn in *; try discriminate Q.
  - exists [Finish 0; Next]. eexists. split; [reflexivity|]. cbn. split; [discriminate|]. split; [reflexivity|eauto].
  - exists [Next]. eexists. split; [reflexivity|]. cbn. split; [discriminate|]. split; [reflexivity|exists 0; auto].
  - exists [Finish 0; Next]. eexists. split; [reflexivity|]. cbn. split; [discriminate|]. split; [reflexivity|eauto].
  - exists [Next]. eexists. split; [reflexivity|]. cbn. split; [discriminate|]. split; [reflexivity|exists 0; auto].
Qed.
Lemma race_only : forall sched s o c, run sched init = Some s -> step (Begin o) s <> None -> step (Finish c) s <> None ->
  conflict (accesses (Begin o)) (accesses (Finish c)) ->
  life_of (log s) = Running /\ unjoined (log s) = true /\ (o = Start \/ o = ExitCode \/ o = IsRunning).
Proof.
  intros sched s o c R A B (x & y & X & Y & _). destruct (inv_run sched s R) as [E J D V Q].
  destruct s as [z w p l]. cbn in *. destruct w; try (destruct (B eq_refl)). split; [apply D; reflexivity|].
  split; [symmetry; exact J|]. destruct o; cbn in X; auto; destruct X.
Qed.
