(** Proofs for command.h. *)
Require Import List Arith NArith Lia Bool Permutation.
Require Import Verif.Base Verif.CommandModel Verif.CommandSpec.
Import ListNotations.

Lemma del_new : forall d p, p <> 0%N -> ~ In p d -> del d p = Val (d ++ [p]).
Proof.
  intros d p Z I. unfold del. destruct (N.eqb_spec p 0) as [E|_]; [contradiction|].
  destruct (existsb (N.eqb p) d) eqn:E; [|trivial]. apply existsb_exists in E. destruct E as (x & J & E).
  apply N.eqb_eq in E. subst x. contradiction.
Qed.
Lemma NoDup_mid : forall (d : list ptr) p r, NoDup (d ++ p :: r) -> ~ In p d /\ NoDup ((d ++ [p]) ++ r).
Proof.
  intros d p r N. split.
  - apply NoDup_remove_2 in N. intros I. apply N. apply in_or_app. now left.
  - now rewrite <- app_assoc.
Qed.
Lemma objects_app : forall a b, objects (a ++ b) = objects a ++ objects b.
Proof. intros a b. apply filter_app. Qed.
(** One object or nothing more. *)
Lemma del_next : forall d p r, NoDup (d ++ objects (p :: r)) ->
  del d p = Val (d ++ objects [p]) /\ NoDup ((d ++ objects [p]) ++ objects r).
Proof.
  intros d p r N. unfold objects in *. cbn [filter] in *. destruct (N.eqb_spec p 0) as [->|E]; cbn [negb] in *.
  - rewrite app_nil_r. split; [reflexivity|exact N].
  - destruct (NoDup_mid _ _ _ N) as (I & N'). split; [now apply del_new|exact N'].
Qed.
Lemma objects_cons : forall p l, objects (p :: l) = objects [p] ++ objects l.
Proof. intros p l. apply (objects_app [p] l). Qed.
Lemma clip_deque_ok : forall (l d : list ptr), NoDup (d ++ objects l) ->
  exists a b, clip_deque l d = Val (b, d ++ objects a) /\ keeps_last max_elements l a b.
Proof.
  induction l as [|p r IH]; intros d N.
  - exists [], []. cbn. rewrite app_nil_r. split; [trivial|]. repeat split; [cbn; discriminate|congruence].
  - cbn [clip_deque]. destruct (N.ltb_spec max_elements (sizeN (p :: r))) as [L|L].
    + destruct (del_next _ _ _ N) as (-> & N'). cbn [bind].
      destruct (IH _ N') as (a & b & E & K).
      exists (p :: a), b. rewrite E. split; [now rewrite <- app_assoc, <- objects_cons|].
      destruct K as (K1 & K2 & K3). split; [cbn; now rewrite <- K1|]. split; [trivial|]. intros _.
      destruct a as [|q a]; [|apply K3; discriminate].
      cbn in K1. subst b. unfold sizeN in L. cbn [length] in L. lia.
    + exists [], (p :: r). cbn [objects filter]. rewrite app_nil_r. split; [trivial|]. repeat split; [exact L|congruence].
Qed.
Lemma dispose_back_ok : forall l d n, NoDup (d ++ objects l) ->
  dispose_back l n d = Val (d ++ objects l, (n + sizeN l)%N).
Proof.
  induction l as [|p r IH]; intros d n N; cbn [dispose_back].
  - cbn. rewrite app_nil_r, N.add_0_r. reflexivity.
  - destruct (del_next _ _ _ N) as (-> & N'). cbn [bind].
    rewrite IH by trivial. rewrite <- app_assoc, <- objects_cons. do 2 f_equal.
    unfold sizeN. cbn [length]. lia.
Qed.

(** After storing [ps]. *)
Definition kept (ps : list ptr) (s : state) : Prop :=
  second s = [] /\ exists dropped, deleted s = objects dropped /\ keeps_last max_elements ps dropped (first s).
Lemma keeps_more : forall (ps d f a b : list ptr) n, (0 < n)%N -> keeps_last n ps d f -> forall p, keeps_last n (f ++ [p]) a b ->
  keeps_last n (ps ++ [p]) (d ++ a) b.
Proof.
  intros ps d f a b n P (K1 & K2 & K3) p (L1 & L2 & L3). split; [|split; [trivial|]].
  - rewrite K1, <- !app_assoc. now rewrite L1.
  - intros N. destruct a as [|x a]; [|apply L3; discriminate]. rewrite app_nil_r in N.
    specialize (K3 N). cbn in L1. subst b. rewrite app_length in *. cbn in *. lia.
Qed.
Lemma store_ok : forall ps s p, kept ps s -> NoDup (objects (ps ++ [p])) ->
  exists s', store true p s = Val s' /\ kept (ps ++ [p]) s'.
Proof.
  intros ps [f g d] p (E & q & Q & K) N. cbn in E, Q. subst g d. unfold store. cbn [second sizeN length N.of_nat N.ltb N.compare bind].
  unfold clip. cbn [first second deleted] in *. pose proof K as (K1 & _).
  assert (N' : NoDup (objects q ++ objects (f ++ [p]))) by (rewrite <- objects_app, app_assoc, <- K1; exact N).
  destruct (clip_deque_ok _ _ N') as (a & b & -> & L). cbn [bind clip_deque].
  eexists. split; [reflexivity|]. split; [trivial|]. exists (q ++ a). cbn [deleted first]. split; [now rewrite objects_app|].
  apply keeps_more with (f := f); trivial. reflexivity.
Qed.
Lemma undo_first : forall s, second s = [] -> first s <> [] -> undo s = UB.
Proof.
  intros [f g d] E N. cbn in *. subst g. unfold undo. cbn [first]. destruct f; [congruence|]. reflexivity.
Qed.
Lemma undo_empty : forall s, first s = [] -> undo s = Val (s, 0%N).
Proof. intros s E. unfold undo. now rewrite E. Qed.
Lemma redo_ok : forall s, second s = [] -> redo s = Val (s, 0%N).
Proof. intros s E. unfold redo. now rewrite E. Qed.
Lemma dispose_ok : forall s, second s = [] -> dispose s = Val (s, 0%N).
Proof. intros [f g d] E. cbn in E. subst g. reflexivity. Qed.

Lemma stored_app : forall a b, stored (a ++ b) = stored a ++ stored b.
Proof. induction a as [|c a IH]; intros b; [trivial|]. destruct c; cbn; now rewrite ?IH. Qed.
Lemma kept_first : forall ps s, kept ps s -> (first s = [] <-> ps = []).
Proof.
  intros ps s (_ & q & _ & K1 & K2 & K3). split; intros E.
  - rewrite E in *. destruct q; [now rewrite K1|]. exfalso. assert (H := K3 ltac:(discriminate)). discriminate H.
  - rewrite E in K1. symmetry in K1. now apply app_eq_nil in K1.
Qed.
Lemma run_ok : forall cs ps s, kept ps s -> NoDup (objects (ps ++ stored cs)) ->
  (late_undo cs \/ (ps <> [] /\ In Undo cs) -> run true cs s = UB) /\
  (~ (late_undo cs \/ (ps <> [] /\ In Undo cs)) ->
    exists s', run true cs s = Val (s', repeat 0%N (length cs)) /\ kept (ps ++ stored cs) s').
Proof.
  induction cs as [|c cs IH]; intros ps s K N.
  - split; [intros [(a & b & E & _)|(_ & [])]; destruct a; discriminate|].
    intros _. exists s. rewrite app_nil_r. now split.
  - assert (GG : forall s', kept ps s' -> stored (c :: cs) = stored cs -> c <> Undo -> step true c s = Val (s', 0%N) ->
        (late_undo (c :: cs) \/ ps <> [] /\ In Undo (c :: cs) -> run true (c :: cs) s = UB) /\
        (~ (late_undo (c :: cs) \/ ps <> [] /\ In Undo (c :: cs)) -> exists s', run true (c :: cs) s = Val (s', repeat 0%N (length (c :: cs))) /\ kept (ps ++ stored (c :: cs)) s')).
    { intros s' K' E C S. rewrite E in *. destruct (IH ps s' K' N) as (A & B). cbn [run]. rewrite S. cbn [bind]. split.
      - intros H. rewrite A; [trivial|]. destruct H as [(a & b & F & G)|(G & [H|H])]; [|congruence|right; now split].
        left. destruct a as [|x a]; [now destruct G|]. injection F as <- F. exists a, b. split; [trivial|].
        destruct c; cbn in G; trivial. cbn in E. apply (f_equal (@length _)) in E. cbn in E. lia.
      - intros H. destruct B as (t & -> & T).
        { intros [(a & b & F & G)|(G & H')]; apply H; [left|right; split; [trivial|now right]].
          exists (c :: a), b. split; [cbn; now rewrite F|]. destruct c; cbn; trivial; discriminate. }
        exists t. now split. }
    destruct c as [p| | |].
    + cbn [stored] in *. replace (ps ++ p :: stored cs) with ((ps ++ [p]) ++ stored cs) in * by now rewrite <- app_assoc.
      destruct (store_ok ps s p K) as (s' & S & K').
      { rewrite objects_app in N. revert N. generalize (objects (stored cs)). intros l N. induction l using rev_ind; [now rewrite app_nil_r in N|].
        apply IHl. rewrite app_assoc in N. apply NoDup_remove_1 in N. now rewrite app_nil_r in N. }
      destruct (IH _ s' K' N) as (A & B). cbn [run step]. rewrite S. cbn [bind].
      assert (X : late_undo (Store p :: cs) \/ ps <> [] /\ In Undo (Store p :: cs) <-> late_undo cs \/ ps ++ [p] <> [] /\ In Undo cs).
      { split.
        - intros [(a & b & F & G)|(G & [H|H])]; [|discriminate|].
          + destruct a as [|x a]; [discriminate|]. injection F as <- F. right. split; [now destruct ps|].
            rewrite F. apply in_or_app. right. now left.
          + right. split; [now destruct ps|trivial].
        - intros [(a & b & F & G)|(G & H)]; left.
          + exists (Store p :: a), b. split; [cbn; now rewrite F|discriminate].
          + apply in_split in H. destruct H as (a & b & ->). exists (Store p :: a), b. split; [trivial|discriminate]. }
      split; intros H.
      * rewrite A by now apply X. trivial.
      * destruct B as (t & -> & T); [intros H'; apply H; now apply X|]. exists t. now split.
    + (* Undo *)
      destruct ps as [|p0 ps].
      * assert (F : first s = []) by now apply kept_first with (s := s) in K as [_ K]; apply K.
        destruct (IH [] s K N) as (A & B). cbn [run step stored]. rewrite (undo_empty s F). cbn [bind].
        assert (X : late_undo (Undo :: cs) \/ @nil ptr <> [] /\ In Undo (Undo :: cs) <-> late_undo cs \/ @nil ptr <> [] /\ In Undo cs).
        { split; (intros [(a & b & E & G)|(G & _)]; [left|congruence]).
          - destruct a as [|x a]; [now destruct G|]. injection E as <- E. exists a, b. now split.
          - exists (Undo :: a), b. split; [cbn; now rewrite E|trivial]. }
        split; intros H.
        -- rewrite A by now apply X. trivial.
        -- destruct B as (t & -> & T); [intros H'; apply H; now apply X|]. exists t. now split.
      * split; [|intros H; destruct H; right; split; [discriminate|now left]].
        intros _. cbn [run step]. rewrite undo_first; [trivial|apply K|].
        intros E. apply (kept_first _ _ K) in E. discriminate.
    + apply (GG s); trivial; [discriminate|]. apply redo_ok, K.
    + apply (GG s); trivial; [discriminate|]. apply dispose_ok, K.
Qed.
Lemma kept_start : kept [] start.
Proof. split; [reflexivity|]. exists []. split; [reflexivity|]. repeat split; [cbn; discriminate|intros H; now destruct H]. Qed.
Lemma program_ok : forall cs, NoDup (objects (stored cs)) -> ~ late_undo cs ->
  exists s dropped, run true cs start = Val (s, repeat 0%N (length cs)) /\ second s = [] /\
    keeps_last max_elements (stored cs) dropped (first s) /\ deleted s = objects dropped.
Proof.
  intros cs N L. destruct (run_ok cs [] start kept_start N) as (_ & B).
  destruct B as (s & E & K2 & q & Q & K); [intros [H|(H & _)]; [contradiction|congruence]|]. exists s, q. repeat split; trivial; apply K.
Qed.
(** Without any condition on the commands. *)
Definition plain (b : bool) (s : state) : Prop := second s = [] /\ (b = true -> first s <> []).
Lemma del_total : forall d p, del d p = UB \/ exists d', del d p = Val d'.
Proof. intros d p. unfold del. destruct (p =? 0)%N; [right; eauto|]. destruct (existsb (N.eqb p) d); [now left|right; eauto]. Qed.
Lemma clip_deque_total : forall l d, clip_deque l d = UB \/ exists b d', clip_deque l d = Val (b, d') /\ (l <> [] -> b <> []).
Proof.
  induction l as [|p r IH]; intros d; cbn [clip_deque]; [right; exists [], d; split; [reflexivity|congruence]|].
  destruct (N.ltb_spec max_elements (sizeN (p :: r))) as [L|L]; [|right; exists (p :: r), d; split; [reflexivity|discriminate]].
  destruct (del_total d p) as [->|(d' & ->)]; [now left|]. cbn [bind]. destruct (IH d') as [->|(b & d'' & -> & H)]; [now left|].
  right. exists b, d''. split; [reflexivity|]. intros _. apply H. intros ->. unfold sizeN in L. cbn in L. discriminate L.
Qed.
Lemma store_total : forall s p b, plain b s -> store true p s = UB \/ exists s', store true p s = Val s' /\ plain true s'.
Proof.
  intros [f g d] p b (E & _). cbn in E. subst g. unfold store, clip. cbn [first second deleted sizeN length N.of_nat N.ltb N.compare bind].
  destruct (clip_deque_total (f ++ [p]) d) as [->|(l & d' & -> & H)]; [now left|]. cbn [bind clip_deque]. right. eexists. split; [reflexivity|].
  split; [reflexivity|]. intros _. apply H. now destruct f.
Qed.
Lemma program_undo : forall cs, late_undo cs -> run true cs start = UB.
Proof.
  assert (G : forall a s b0 b, plain b0 s -> (b0 = true \/ stored a <> []) -> run true (a ++ Undo :: b) s = UB).
  { induction a as [|c a IH]; intros s b0 b P H.
    - destruct H as [->|H]; [|now destruct H]. cbn [app run step]. rewrite undo_first; [reflexivity|apply P|now apply P].
    - cbn [app run]. assert (U : undo s = UB \/ undo s = Val (s, 0%N)).
      { destruct (first s) eqn:F; [right; now apply undo_empty|left; apply undo_first; [apply P|congruence]]. }
      destruct c as [p| | |]; cbn [step stored] in *.
      + destruct (store_total s p b0 P) as [->|(s' & -> & P')]; [reflexivity|]. cbn [bind]. rewrite (IH s' true b P'); [reflexivity|now left].
      + destruct U as [->| ->]; [reflexivity|]. cbn [bind]. now rewrite (IH s b0 b P H).
      + rewrite redo_ok by apply P. cbn [bind]. now rewrite (IH s b0 b P H).
      + rewrite dispose_ok by apply P. cbn [bind]. now rewrite (IH s b0 b P H). }
  intros cs (a & b & -> & H). apply (G a start false b); [split; [reflexivity|discriminate]|now right].
Qed.
Lemma filter_rev : forall (A : Type) (f : A -> bool) l, filter f (rev l) = rev (filter f l).
Proof. induction l as [|x l IH]; [reflexivity|]. cbn. rewrite filter_app, IH. cbn. destruct (f x); cbn; [reflexivity|apply app_nil_r]. Qed.
Lemma destroy_ok : forall ps s, kept ps s -> NoDup (objects ps) ->
  destroy s = Val (deleted s ++ objects (rev (first s))) /\ Permutation (deleted s ++ objects (rev (first s))) (objects ps).
Proof.
  intros ps [f g d] (E & q & Q & K1 & _) N. cbn in *. subst g ps d. rewrite objects_app in *.
  assert (P : Permutation (objects q ++ objects (rev f)) (objects q ++ objects f))
    by (apply Permutation_app_head; unfold objects; rewrite filter_rev; apply Permutation_sym, Permutation_rev).
  split; [|exact P]. unfold destroy. cbn [first second deleted].
  rewrite dispose_back_ok; [reflexivity|]. eapply Permutation_NoDup; [apply Permutation_sym, P|exact N].
Qed.
Lemma program_destroy : forall cs, NoDup (objects (stored cs)) -> ~ late_undo cs ->
  exists d, (let* (s, _) := run true cs start in destroy s) = Val d /\ Permutation d (objects (stored cs)).
Proof.
  intros cs N L. destruct (program_ok cs N L) as (s & q & -> & E & K & Q). cbn [bind].
  destruct (destroy_ok (stored cs) s (conj E (ex_intro _ q (conj Q K))) N) as (-> & P). now eexists.
Qed.
Lemma program_strict : forall cs, stored cs <> [] -> run false cs start = UB.
Proof.
  induction cs as [|c cs IH]; intros N; [now destruct N|].
  destruct c as [p| | |]; cbn [stored] in N; cbn [run step].
  - reflexivity.
  - rewrite undo_empty by trivial. cbn [bind]. now rewrite IH.
  - rewrite redo_ok by trivial. cbn [bind]. now rewrite IH.
  - rewrite dispose_ok by trivial. cbn [bind]. now rewrite IH.
Qed.
