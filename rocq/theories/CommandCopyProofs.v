(** Proofs about copies of command managers. *)
Require Import List Arith NArith Bool Lia Permutation.
Require Import Verif.Base Verif.CommandModel Verif.CommandSpec Verif.CommandProofs Verif.CommandCopyModel Verif.CommandCopySpec.
Import ListNotations.

(** ** A pointer is held until it is deleted *)
Lemma del_in : forall d p d', del d p = Val d' -> incl d d' /\ (p <> 0%N -> ~ In p d /\ In p d').
Proof.
  intros d p d' E. unfold del in E. destruct (N.eqb_spec p 0) as [->|NZ].
  - injection E as <-. split; [apply incl_refl|congruence].
  - destruct (existsb (N.eqb p) d) eqn:X; [discriminate|]. injection E as <-. split; [apply incl_appl, incl_refl|]. intros _. split.
    + intros K. assert (existsb (N.eqb p) d = true) by (apply existsb_exists; exists p; split; [trivial|apply N.eqb_refl]). congruence.
    + apply in_app_iff. right. now left.
Qed.
Section Held.
Variable p : N.
Hypothesis NZ : p <> 0%N.
Lemma clip_deque_in : forall l d l' d', clip_deque l d = Val (l', d') -> incl d d' /\ (In p l -> In p l' \/ (~ In p d /\ In p d')).
Proof.
  induction l as [|q l IH]; intros d l' d' E; cbn [clip_deque] in E.
  - injection E as <- <-. split; [apply incl_refl|auto].
  - destruct (max_elements <? sizeN (q :: l))%N; [|injection E as <- <-; split; [apply incl_refl|auto]].
    destruct (del d q) as [d1| | |] eqn:D; try discriminate. cbn [bind] in E. destruct (del_in _ _ _ D) as (I1 & P1). destruct (IH _ _ _ E) as (I2 & P2).
    split; [eapply incl_tran; eassumption|]. intros [->|K].
    + right. destruct (P1 NZ) as (A & B). split; [trivial|]. now apply I2.
    + destruct (P2 K) as [|(A & B)]; [now left|right]. split; [|trivial]. intros X. apply A. now apply I1.
Qed.
Lemma clip_in : forall s s', clip s = Val s' -> incl (deleted s) (deleted s') /\
  (In p (first s ++ second s) -> In p (first s' ++ second s') \/ (~ In p (deleted s) /\ In p (deleted s'))).
Proof.
  intros s s' E. unfold clip in E. destruct (clip_deque (first s) (deleted s)) as [(f & d1)| | |] eqn:C1; try discriminate. cbn [bind] in E.
  destruct (clip_deque (second s) d1) as [(g & d2)| | |] eqn:C2; try discriminate. cbn [bind] in E. injection E as <-. cbn [first second deleted].
  destruct (clip_deque_in _ _ _ _ C1) as (I1 & P1). destruct (clip_deque_in _ _ _ _ C2) as (I2 & P2). split; [eapply incl_tran; eassumption|].
  rewrite !in_app_iff. intros [K|K].
  - destruct (P1 K) as [|(A & B)]; [now left; left|right; split; [trivial|now apply I2]].
  - destruct (P2 K) as [|(A & B)]; [now left; right|right; split; [|trivial]]. intros X. apply A. now apply I1.
Qed.
Lemma dispose_back_in : forall l n d d' m, dispose_back l n d = Val (d', m) -> incl d d' /\ (In p l -> ~ In p d /\ In p d').
Proof.
  induction l as [|q l IH]; intros n d d' m E; cbn [dispose_back] in E.
  - injection E as <- <-. split; [apply incl_refl|intros []].
  - destruct (del d q) as [d1| | |] eqn:D; try discriminate. cbn [bind] in E. destruct (del_in _ _ _ D) as (I1 & P1). destruct (IH _ _ _ _ E) as (I2 & P2).
    split; [eapply incl_tran; eassumption|]. intros [->|K].
    + destruct (P1 NZ) as (A & B). split; [trivial|now apply I2].
    + destruct (P2 K) as (A & B). split; [|trivial]. intros X. apply A. now apply I1.
Qed.
Lemma dispose_in : forall s s' n, dispose s = Val (s', n) -> incl (deleted s) (deleted s') /\
  (In p (first s ++ second s) -> In p (first s' ++ second s') \/ (~ In p (deleted s) /\ In p (deleted s'))).
Proof.
  intros s s' n E. unfold dispose in E. destruct (dispose_back (rev (second s)) 0 (deleted s)) as [(d & m)| | |] eqn:D; try discriminate. cbn [bind] in E.
  injection E as <- <-. cbn [first second deleted]. destruct (dispose_back_in _ _ _ _ _ D) as (I1 & P1). split; [trivial|]. rewrite !in_app_iff. intros [K|K]; [now left; left|right].
  apply P1. now apply in_rev in K.
Qed.
Lemma pop_in : forall l l' q, pop l = Val (l', q) -> l' ++ [q] = l.
Proof.
  intros l l' q E. unfold pop in E. destruct l as [|x r] eqn:L; [discriminate|]. rewrite <- L in E. inversion E. rewrite <- L. symmetry. apply app_removelast_last. rewrite L. discriminate.
Qed.
Lemma step_in : forall c s s' n, step true c s = Val (s', n) -> incl (deleted s) (deleted s') /\
  (In p (first s ++ second s) -> In p (first s' ++ second s') \/ (~ In p (deleted s) /\ In p (deleted s'))).
Proof.
  intros c s s' n E. destruct c as [q| | |]; cbn [step] in E.
  - unfold store in E.
    assert (G : exists s1, (if (0 <? sizeN (second s))%N then let* (s0, _) := dispose s in Val s0 else Val s) = Val s1 /\
      incl (deleted s) (deleted s1) /\ (In p (first s ++ second s) -> In p (first s1 ++ second s1) \/ (~ In p (deleted s) /\ In p (deleted s1)))).
    { destruct (0 <? sizeN (second s))%N; [|exists s; split; [trivial|]; split; [apply incl_refl|auto]].
      destruct (dispose s) as [(s1 & m)| | |] eqn:D; try discriminate. exists s1. split; [reflexivity|]. eapply dispose_in. eassumption. }
    destruct G as (s1 & E1 & I1 & P1). rewrite E1 in E. cbn [bind] in E.
    destruct (clip {| first := first s1 ++ [q]; second := second s1; deleted := deleted s1 |}) as [s2| | |] eqn:C; try discriminate. cbn [bind] in E. injection E as <- <-.
    destruct (clip_in _ _ C) as (I2 & P2). cbn [first second deleted] in *. split; [eapply incl_tran; eassumption|]. intros K. destruct (P1 K) as [K1|(A & B)].
    + destruct P2 as [|(A & B)]; [|now left|right; split; [|trivial]]. { rewrite !in_app_iff in *. tauto. } intros X. apply A. now apply I1.
    + right. split; [trivial|]. now apply I2.
  - unfold undo in E. destruct (0 <? sizeN (first s))%N; [|injection E as <- <-; split; [apply incl_refl|auto]].
    destruct (pop (second s)) as [(l & q)| | |] eqn:Q; try discriminate. cbn [bind] in E. apply pop_in in Q.
    destruct (clip _) as [s2| | |] eqn:C; try discriminate. cbn [bind] in E. injection E as <- <-. destruct (clip_in _ _ C) as (I2 & P2).
    cbn [first second deleted] in *. rewrite Q in P2. auto.
  - unfold redo in E. destruct (0 <? sizeN (second s))%N; [|injection E as <- <-; split; [apply incl_refl|auto]].
    destruct (pop (first s)) as [(l & q)| | |] eqn:Q; try discriminate. cbn [bind] in E. apply pop_in in Q.
    destruct (clip _) as [s2| | |] eqn:C; try discriminate. cbn [bind] in E. injection E as <- <-. destruct (clip_in _ _ C) as (I2 & P2).
    cbn [first second deleted] in *. rewrite Q in P2. auto.
  - eapply dispose_in. eassumption.
Qed.
Lemma destroy_in : forall s d, destroy s = Val d -> incl (deleted s) d /\ (In p (first s ++ second s) -> ~ In p (deleted s) /\ In p d).
Proof.
  intros s d E. unfold destroy in E. destruct (dispose_back (rev (first s)) 0 (deleted s)) as [(d1 & m1)| | |] eqn:D1; try discriminate. cbn [bind] in E.
  destruct (dispose_back (rev (second s)) 0 d1) as [(d2 & m2)| | |] eqn:D2; try discriminate. cbn [bind] in E. injection E as <-.
  destruct (dispose_back_in _ _ _ _ _ D1) as (I1 & P1). destruct (dispose_back_in _ _ _ _ _ D2) as (I2 & P2). split; [eapply incl_tran; eassumption|].
  rewrite in_app_iff. intros [K|K]; apply in_rev in K.
  - destruct (P1 K) as (A & B). split; [trivial|now apply I2].
  - destruct (P2 K) as (A & B). split; [|trivial]. intros X. apply A. now apply I1.
Qed.

Lemma alive_nth : forall w i m, alive w i = Val m -> nth_error (managers w) i = Some (Some m).
Proof. intros w i m E. unfold alive in E. destruct (nth_error (managers w) i) as [[m'|]|]; try discriminate. now injection E as <-. Qed.
Lemma nth_lt : forall A (l : list A) i x, nth_error l i = Some x -> i < length l.
Proof. intros A l i x E. apply nth_error_Some. congruence. Qed.
Definition subject (a : act) : option nat := match a with Call j _ | Destroy j => Some j | _ => None end.
(** One act, seen from manager [i]. *)
Lemma act_in : forall w a w' i, do_act w a = Val w' -> ~ assigns_to i a -> holds w i p ->
  incl (gone w) (gone w') /\ (holds w' i p \/ (subject a = Some i /\ ~ In p (gone w) /\ In p (gone w'))).
Proof.
  intros w a w' i E NA (m & M & K). assert (L := nth_lt _ _ _ _ M). destruct a as [|j c|j|j k|j]; cbn [do_act] in E.
  - injection E as <-. split; [apply incl_refl|left]. exists m. cbn [managers]. rewrite nth_error_app1 by trivial. auto.
  - destruct (alive w j) as [mj| | |] eqn:A; try discriminate. cbn [bind] in E. apply alive_nth in A.
    destruct (step true c (with_gone mj (gone w))) as [(s & r)| | |] eqn:Q; try discriminate. cbn [bind] in E. injection E as <-. cbn [managers gone].
    destruct (step_in _ _ _ _ Q) as (I1 & P1). cbn [with_gone deleted first second] in *. split; [trivial|].
    destruct (Nat.eq_dec j i) as [->|N].
    + rewrite M in A. injection A as ->. destruct mj as (f & g). cbn [held_by fst snd] in *. destruct (P1 K) as [K'|]; [left|right; now split].
      exists (Some (first s, second s)). cbn [managers held_by]. rewrite nth_error_set_nth_eq by trivial. auto.
    + left. exists m. cbn [managers]. rewrite nth_error_set_nth_neq by trivial. auto.
  - destruct (alive w j) as [mj| | |] eqn:A; try discriminate. cbn [bind] in E. injection E as <-. split; [apply incl_refl|left].
    exists m. cbn [managers]. rewrite nth_error_app1 by trivial. auto.
  - destruct (alive w j) as [mj| | |] eqn:A; try discriminate. cbn [bind] in E. destruct (alive w k) as [mk| | |] eqn:A2; try discriminate. cbn [bind] in E.
    injection E as <-. split; [apply incl_refl|left]. exists m. cbn [managers assigns_to] in *. rewrite nth_error_set_nth_neq by trivial. auto.
  - destruct (alive w j) as [mj| | |] eqn:A; try discriminate. cbn [bind] in E. apply alive_nth in A.
    destruct (destroy (with_gone mj (gone w))) as [d| | |] eqn:Q; try discriminate. cbn [bind] in E. injection E as <-. cbn [managers gone].
    destruct (destroy_in _ _ Q) as (I1 & P1). cbn [with_gone deleted first second] in *. split; [trivial|].
    destruct (Nat.eq_dec j i) as [->|N].
    + rewrite M in A. injection A as ->. destruct mj as (f & g). right. split; [reflexivity|]. now apply P1.
    + left. exists m. cbn [managers]. rewrite nth_error_set_nth_neq by trivial. auto.
Qed.
Lemma not_both : forall l w w' i j, i <> j -> acts w l = Val w' ->
  Forall (fun a => ~ assigns_to i a /\ ~ assigns_to j a) l ->
  (holds w i p /\ holds w j p) \/ (In p (gone w) /\ (holds w i p \/ holds w j p)) ->
  holds w' i p \/ holds w' j p.
Proof.
  induction l as [|a l IH]; intros w w' i j N E F H; cbn [acts] in E.
  - injection E as <-. tauto.
  - destruct (do_act w a) as [w1| | |] eqn:A; try discriminate. cbn [bind] in E. inversion F as [|? ? (F1 & F2) Fr]; subst.
    apply (IH w1 w' i j N E Fr).
    assert (ONE : forall k, ~ assigns_to k a -> holds w k p -> incl (gone w) (gone w1) /\
      (holds w1 k p \/ (subject a = Some k /\ ~ In p (gone w) /\ In p (gone w1)))) by (intros k Fk Hk; eapply act_in; eassumption).
    destruct H as [(Hi & Hj)|(G & [Hi|Hj])].
    + destruct (ONE i F1 Hi) as (_ & [Ki|(Si & Gi & Gi')]); destruct (ONE j F2 Hj) as (_ & [Kj|(Sj & Gj & Gj')]); auto. congruence.
    + destruct (ONE i F1 Hi) as (I1 & [Ki|(_ & Gi & Gi')]); [right; split; [now apply I1|auto]|contradiction].
    + destruct (ONE j F2 Hj) as (I1 & [Kj|(_ & Gj & Gj')]); [right; split; [now apply I1|auto]|contradiction].
Qed.
(** A shared pointer is deleted twice if both managers end. *)
Lemma both_end : forall l w i j, i <> j -> holds w i p -> holds w j p ->
  Forall (fun a => ~ assigns_to i a /\ ~ assigns_to j a) l ->
  forall w', acts w l = Val w' -> ~ (destroyed w' i /\ destroyed w' j).
Proof.
  intros l w i j N Hi Hj F w' E (Di & Dj). unfold destroyed in *. destruct (not_both l w w' i j N E F) as [(m & M & K)|(m & M & K)]; [auto| |].
  - rewrite Di in M. injection M as <-. exact K.
  - rewrite Dj in M. injection M as <-. exact K.
Qed.
(** *** Lost pointers *)
Lemma clip_deque_out : forall l d l' d', clip_deque l d = Val (l', d') -> ~ In p l -> ~ In p d -> ~ In p l' /\ ~ In p d'.
Proof.
  induction l as [|q l IH]; intros d l' d' E A B; cbn [clip_deque] in E.
  - injection E as <- <-. auto.
  - destruct (max_elements <? sizeN (q :: l))%N; [|injection E as <- <-; auto].
    destruct (del d q) as [d1| | |] eqn:D; try discriminate. cbn [bind] in E. apply (IH _ _ _ E); [cbn in A; tauto|].
    unfold del in D. destruct (q =? 0)%N; [injection D as <-; trivial|]. destruct (existsb (N.eqb q) d); [discriminate|]. injection D as <-.
    rewrite in_app_iff. cbn in *. tauto.
Qed.
Lemma dispose_back_out : forall l n d d' m, dispose_back l n d = Val (d', m) -> ~ In p l -> ~ In p d -> ~ In p d'.
Proof.
  induction l as [|q l IH]; intros n d d' m E A B; cbn [dispose_back] in E.
  - injection E as <- <-. auto.
  - destruct (del d q) as [d1| | |] eqn:D; try discriminate. cbn [bind] in E. apply (IH _ _ _ _ E); [cbn in A; tauto|].
    unfold del in D. destruct (q =? 0)%N; [injection D as <-; trivial|]. destruct (existsb (N.eqb q) d); [discriminate|]. injection D as <-.
    rewrite in_app_iff. cbn in *. tauto.
Qed.
Definition free (s : state) : Prop := ~ In p (first s ++ second s) /\ ~ In p (deleted s).
Lemma clip_out : forall s s', clip s = Val s' -> free s -> free s'.
Proof.
  intros s s' E (A & B). unfold clip in E. destruct (clip_deque (first s) (deleted s)) as [(f & d1)| | |] eqn:C1; try discriminate. cbn [bind] in E.
  destruct (clip_deque (second s) d1) as [(g & d2)| | |] eqn:C2; try discriminate. cbn [bind] in E. injection E as <-. unfold free. cbn [first second deleted].
  rewrite in_app_iff in A. destruct (clip_deque_out _ _ _ _ C1) as (X & Y); [tauto..|]. destruct (clip_deque_out _ _ _ _ C2) as (X2 & Y2); [tauto..|].
  rewrite in_app_iff. tauto.
Qed.
Lemma dispose_out : forall s s' n, dispose s = Val (s', n) -> free s -> free s'.
Proof.
  intros s s' n E (A & B). unfold dispose in E. destruct (dispose_back (rev (second s)) 0 (deleted s)) as [(d & m)| | |] eqn:D; try discriminate. cbn [bind] in E.
  injection E as <- <-. unfold free. cbn [first second deleted]. rewrite in_app_iff in A. rewrite app_nil_r.
  split; [tauto|]. apply (dispose_back_out _ _ _ _ _ D); [|trivial]. rewrite <- in_rev. tauto.
Qed.
Lemma step_out : forall c s s' n, c <> Store p -> step true c s = Val (s', n) -> free s -> free s'.
Proof.
  intros c s s' n NS E FR. destruct c as [q| | |]; cbn [step] in E.
  - unfold store in E.
    assert (G : forall s1, (if (0 <? sizeN (second s))%N then let* (s0, _) := dispose s in Val s0 else Val s) = Val s1 -> free s1).
    { intros s1. destruct (0 <? sizeN (second s))%N; [|intros K; now injection K as <-].
      destruct (dispose s) as [(s0 & m)| | |] eqn:D; try discriminate. intros K. injection K as <-. eapply dispose_out; eassumption. }
    destruct (if (0 <? sizeN (second s))%N then _ else _) as [s1| | |]; try discriminate. cbn [bind] in E. destruct (G s1 eq_refl) as (A & B).
    destruct (clip _) as [s2| | |] eqn:C; try discriminate. cbn [bind] in E. injection E as <- <-. apply (clip_out _ _ C). unfold free. cbn [first second deleted].
    split; [|trivial]. rewrite !in_app_iff in *. cbn. intuition congruence.
  - unfold undo in E. destruct (0 <? sizeN (first s))%N; [|now injection E as <- <-].
    destruct (pop (second s)) as [(l & q)| | |] eqn:Q; try discriminate. cbn [bind] in E. apply pop_in in Q.
    destruct (clip _) as [s2| | |] eqn:C; try discriminate. cbn [bind] in E. injection E as <- <-. apply (clip_out _ _ C). unfold free. cbn [first second deleted]. now rewrite Q.
  - unfold redo in E. destruct (0 <? sizeN (second s))%N; [|now injection E as <- <-].
    destruct (pop (first s)) as [(l & q)| | |] eqn:Q; try discriminate. cbn [bind] in E. apply pop_in in Q.
    destruct (clip _) as [s2| | |] eqn:C; try discriminate. cbn [bind] in E. injection E as <- <-. apply (clip_out _ _ C). unfold free. cbn [first second deleted]. now rewrite Q.
  - eapply dispose_out; eassumption.
Qed.
Definition nowhere (w : world) : Prop := (forall i, ~ holds w i p) /\ ~ In p (gone w).
Lemma set_none : forall w i m d, (forall k, ~ holds w k p) -> ~ In p (held_by m) ->
  forall k, ~ holds {| managers := set_nth (managers w) i m; gone := d |} k p.
Proof.
  intros w i m d A B k (mk & M & K). cbn [managers] in M. destruct (Nat.eq_dec i k) as [->|N].
  - assert (L : k < length (managers w)) by (apply nth_lt in M; now rewrite set_nth_length in M). rewrite nth_error_set_nth_eq in M by trivial. injection M as <-. contradiction.
  - rewrite nth_error_set_nth_neq in M by trivial. apply (A k). now exists mk.
Qed.
Lemma app_none : forall w m d, (forall k, ~ holds w k p) -> ~ In p (held_by m) ->
  forall k, ~ holds {| managers := managers w ++ [m]; gone := d |} k p.
Proof.
  intros w m d A B k (mk & M & K). cbn [managers] in M. destruct (Nat.lt_ge_cases k (length (managers w))) as [L|L].
  - rewrite nth_error_app1 in M by trivial. apply (A k). now exists mk.
  - rewrite nth_error_app2 in M by trivial. destruct (k - length (managers w)) as [|[|]]; try discriminate. cbn in M. injection M as <-. contradiction.
Qed.
Lemma act_out : forall w a w', (forall i, a <> Call i (Store p)) -> do_act w a = Val w' -> nowhere w -> nowhere w'.
Proof.
  intros w a w' NS E (A & B).
  assert (H : forall i f g, alive w i = Val (f, g) -> ~ In p (f ++ g)).
  { intros i f g Q K. apply alive_nth in Q. apply (A i). exists (Some (f, g)). auto. }
  destruct a as [|j c|j|j k|j]; cbn [do_act] in E.
  - injection E as <-. split; [|trivial]. apply app_none; [trivial|]. intros [].
  - destruct (alive w j) as [(f & g)| | |] eqn:Q; try discriminate. cbn [bind] in E. specialize (H _ _ _ Q).
    destruct (step true c (with_gone (f, g) (gone w))) as [(s & r)| | |] eqn:S1; try discriminate. cbn [bind] in E. injection E as <-.
    destruct (step_out _ _ _ _ (fun K => NS j (f_equal (Call j) K)) S1) as (X & Y); [now split|]. split; [|trivial]. now apply set_none.
  - destruct (alive w j) as [(f & g)| | |] eqn:Q; try discriminate. cbn [bind] in E. injection E as <-. split; [|trivial]. apply app_none; [trivial|]. exact (H _ _ _ Q).
  - destruct (alive w j) as [mj| | |]; try discriminate. cbn [bind] in E. destruct (alive w k) as [(f & g)| | |] eqn:Q; try discriminate. cbn [bind] in E.
    injection E as <-. split; [|trivial]. apply set_none; [trivial|]. exact (H _ _ _ Q).
  - destruct (alive w j) as [(f & g)| | |] eqn:Q; try discriminate. cbn [bind] in E. specialize (H _ _ _ Q). rewrite in_app_iff in H.
    unfold destroy in E. cbn [with_gone first second deleted fst snd] in E.
    destruct (dispose_back (rev f) 0 (gone w)) as [(d1 & m1)| | |] eqn:D1; try discriminate. cbn [bind] in E.
    destruct (dispose_back (rev g) 0 d1) as [(d2 & m2)| | |] eqn:D2; try discriminate. cbn [bind] in E. injection E as <-. split.
    + apply set_none; [trivial|]. intros [].
    + cbn [gone]. apply (dispose_back_out _ _ _ _ _ D2); [rewrite <- in_rev; tauto|]. apply (dispose_back_out _ _ _ _ _ D1); [rewrite <- in_rev; tauto|trivial].
Qed.
Lemma never_deleted : forall l w w', ~ In p (all_stored l) -> acts w l = Val w' -> (forall i, ~ holds w i p) -> ~ In p (gone w) ->
  ~ In p (gone w') /\ forall i, ~ holds w' i p.
Proof.
  induction l as [|a l IH]; intros w w' NS E A B; cbn [acts] in E.
  - injection E as <-. auto.
  - destruct (do_act w a) as [w1| | |] eqn:Q; try discriminate. cbn [bind] in E. destruct (act_out w a w1) as (A1 & B1); [|trivial|now split|].
    { intros i ->. apply NS. now left. }
    apply (IH w1 w'); trivial. intros K. apply NS. cbn [all_stored]. destruct a as [|j []| | |]; trivial. now right.
Qed.
End Held.

(** ** Programs without copies *)
Definition stored_by (c : call) : list N := match c with Store p => [p] | _ => [] end.
Lemma step_single : forall c f d, c <> Undo -> NoDup (d ++ objects f ++ objects (stored_by c)) ->
  exists s n, step true c (with_gone (f, []) d) = Val (s, n) /\ second s = [] /\
    Permutation (deleted s ++ objects (first s)) (d ++ objects f ++ objects (stored_by c)).
Proof.
  intros c f d NU ND. destruct c as [q| | |]; cbn [step stored_by]; [|congruence|..].
  - cbn [stored_by] in ND. rewrite <- objects_app in *. unfold store, with_gone. cbn [first second deleted fst snd sizeN length N.of_nat N.ltb N.compare bind].
    unfold clip. cbn [first second deleted]. destruct (clip_deque_ok _ _ ND) as (a & b & -> & K & _). cbn [bind clip_deque].
    eexists. eexists. split; [reflexivity|]. split; [reflexivity|]. cbn [first second deleted]. rewrite K, objects_app, app_assoc. apply Permutation_refl.
  - exists (with_gone (f, []) d), 0%N. split; [apply redo_ok; reflexivity|]. split; [reflexivity|]. cbn. rewrite app_nil_r. apply Permutation_refl.
  - exists (with_gone (f, []) d), 0%N. split; [apply dispose_ok; reflexivity|]. split; [reflexivity|]. cbn. rewrite app_nil_r. apply Permutation_refl.
Qed.
Lemma destroy_single : forall f d, NoDup (d ++ objects f) ->
  exists d', destroy (with_gone (f, []) d) = Val d' /\ Permutation d' (d ++ objects f).
Proof.
  intros f d ND. unfold destroy, with_gone. cbn [first second deleted fst snd].
  assert (P : Permutation (d ++ objects (rev f)) (d ++ objects f)).
  { apply Permutation_app_head. unfold objects. rewrite filter_rev. apply Permutation_sym, Permutation_rev. }
  rewrite dispose_back_ok by (eapply Permutation_NoDup; [apply Permutation_sym; exact P|trivial]). cbn [bind rev dispose_back]. eexists. split; [reflexivity|exact P].
Qed.
Lemma set_nth_mid : forall A (a : list A) x b y, set_nth (a ++ x :: b) (length a) y = a ++ y :: b.
Proof. induction a as [|z a IH]; intros x b y; [reflexivity|]. cbn. now rewrite IH. Qed.
Definition is_there (m : option (list N * list N)) : bool := match m with Some _ => true | None => false end.
Definition no_second (m : option (list N * list N)) : Prop := match m with Some (_, g) => g = [] | None => True end.
Lemma held_mid : forall a m b, concat (map held_by (a ++ m :: b)) = concat (map held_by a) ++ held_by m ++ concat (map held_by b).
Proof. intros a m b. now rewrite map_app, concat_app. Qed.
Lemma there_split : forall ms i, Forall no_second ms -> nth_error (map is_there ms) i = Some true ->
  exists a f b, ms = a ++ Some (f, []) :: b /\ length a = i.
Proof.
  intros ms i F T. rewrite nth_error_map in T. destruct (nth_error ms i) as [[(f & g)|]|] eqn:M; try discriminate.
  assert (G := F). rewrite Forall_forall in G. assert (G1 := G _ (nth_error_In _ _ M)). cbn in G1. subst g.
  destruct (nth_error_split _ _ M) as (a & b & E & L). eauto.
Qed.
Lemma alive_mid : forall a m b d, alive {| managers := a ++ Some m :: b; gone := d |} (length a) = Val m.
Proof. intros a m b d. unfold alive. cbn [managers]. rewrite nth_error_app2 by lia. rewrite Nat.sub_diag. reflexivity. Qed.
(** Moving the middle to the front. *)
Lemma shuffle : forall A (d a f b r : list A), Permutation (d ++ (a ++ f ++ b) ++ r) ((d ++ f) ++ a ++ b ++ r).
Proof.
  intros A d a f b r. rewrite <- !app_assoc. apply Permutation_app_head. rewrite !app_assoc. do 2 apply Permutation_app_tail. apply Permutation_app_comm.
Qed.
Lemma NoDup_front : forall A (a b : list A), NoDup (a ++ b) -> NoDup a.
Proof.
  induction a as [|x a IH]; intros b N; [constructor|]. inversion N as [|? ? N1 N2]; subst. constructor; [|eapply IH; eassumption]. intros K. apply N1. apply in_or_app. now left.
Qed.
Lemma single_ok : forall l ms d, Forall no_second ms -> single_owner (map is_there ms) l ->
  NoDup (d ++ objects (concat (map held_by ms)) ++ objects (all_stored l)) ->
  exists w', acts {| managers := ms; gone := d |} l = Val w' /\
    Permutation (gone w' ++ objects (all_held w')) (d ++ objects (concat (map held_by ms)) ++ objects (all_stored l)).
Proof.
  induction l as [|a l IH]; intros ms d F SO ND.
  - eexists. split; [reflexivity|]. cbn. rewrite app_nil_r. apply Permutation_refl.
  - destruct a as [|i c|i|i j|i]; cbn [single_owner all_stored] in SO, ND; try contradiction; cbn [acts].
    + cbn [do_act bind managers gone all_stored]. specialize (IH (ms ++ [Some ([], [])]) d). rewrite held_mid in IH. cbn [held_by app map concat] in IH. rewrite app_nil_r in IH. apply IH; [|now rewrite map_app|trivial].
      apply Forall_app. split; [trivial|]. constructor; [reflexivity|constructor].
    + destruct SO as (T & NU & SO). destruct (there_split _ _ F T) as (a & f & b & -> & <-).
      cbn [do_act]. rewrite alive_mid. cbn [bind gone managers].
      assert (ST : all_stored (Call (length a) c :: l) = stored_by c ++ all_stored l) by (destruct c; reflexivity).
      change (NoDup (d ++ objects (concat (map held_by (a ++ Some (f, []) :: b))) ++ objects (all_stored (Call (length a) c :: l)))) in ND.
      rewrite ST in *. rewrite held_mid in *. cbn [held_by] in *. rewrite app_nil_r in *. rewrite !objects_app in *.
      set (x := objects f) in *. set (A := objects (concat (map held_by a))) in *. set (B := objects (concat (map held_by b))) in *. set (R := objects (all_stored l)) in *. set (y := objects (stored_by c)) in *.
      assert (P : Permutation (d ++ (A ++ x ++ B) ++ y ++ R) ((d ++ x ++ y) ++ A ++ B ++ R)).
      { eapply perm_trans; [apply shuffle|]. rewrite <- !app_assoc. do 2 apply Permutation_app_head. rewrite !app_assoc. apply Permutation_app_tail.
        rewrite <- (app_assoc y). apply Permutation_app_comm. }
      assert (ND1 := Permutation_NoDup P ND).
      destruct (step_single c f d NU (NoDup_front _ _ _ ND1)) as (s & n & -> & S2 & P2). cbn [bind]. rewrite set_nth_mid, S2.
      assert (P3 : Permutation (deleted s ++ (A ++ objects (first s) ++ B) ++ R) ((d ++ x ++ y) ++ A ++ B ++ R)).
      { eapply perm_trans; [apply shuffle|]. now apply Permutation_app_tail. }
      destruct (IH (a ++ Some (first s, []) :: b) (deleted s)) as (w' & E & P4).
      * apply Forall_app in F. destruct F as (F1 & F2). inversion F2; subst. apply Forall_app. split; [trivial|]. constructor; [reflexivity|trivial].
      * rewrite map_app in *. exact SO.
      * rewrite held_mid. cbn [held_by]. rewrite app_nil_r, !objects_app. eapply Permutation_NoDup; [apply Permutation_sym; exact P3|trivial].
      * exists w'. split; [exact E|]. eapply perm_trans; [exact P4|]. rewrite held_mid. cbn [held_by]. rewrite app_nil_r, !objects_app.
        eapply perm_trans; [exact P3|]. apply Permutation_sym. exact P.
    + destruct SO as (T & SO). destruct (there_split _ _ F T) as (a & f & b & -> & <-).
      cbn [do_act]. rewrite alive_mid. cbn [bind gone managers all_stored].
      rewrite held_mid in *. cbn [held_by] in *. rewrite app_nil_r in *. rewrite !objects_app in *.
      set (x := objects f) in *. set (A := objects (concat (map held_by a))) in *. set (B := objects (concat (map held_by b))) in *. set (R := objects (all_stored l)) in *.
      assert (P := shuffle _ d A x B R). assert (ND1 := Permutation_NoDup P ND).
      destruct (destroy_single f d (NoDup_front _ _ _ ND1)) as (d' & -> & P2). cbn [bind]. rewrite set_nth_mid.
      assert (P3 : Permutation (d' ++ (A ++ B) ++ R) ((d ++ x) ++ A ++ B ++ R)).
      { rewrite <- (app_assoc A). now apply Permutation_app_tail. }
      destruct (IH (a ++ None :: b) d') as (w' & E & P4).
      * apply Forall_app in F. destruct F as (F1 & F2). inversion F2; subst. apply Forall_app. split; [trivial|]. constructor; [exact I|trivial].
      * rewrite map_app in *. cbn [map is_there] in *. rewrite <- (map_length is_there a), set_nth_mid in SO. exact SO.
      * rewrite held_mid. cbn [held_by app]. rewrite !objects_app. eapply Permutation_NoDup; [apply Permutation_sym; exact P3|trivial].
      * exists w'. split; [exact E|]. eapply perm_trans; [exact P4|]. rewrite held_mid. cbn [held_by app]. rewrite !objects_app.
        eapply perm_trans; [exact P3|]. apply Permutation_sym. exact P.
Qed.
Lemma single_start : forall l, single_owner [] l -> NoDup (objects (all_stored l)) ->
  exists w, acts nothing l = Val w /\ Permutation (gone w ++ objects (all_held w)) (objects (all_stored l)).
Proof. intros l SO ND. apply (single_ok l [] []); trivial. Qed.
Lemma single_end : forall l w, single_owner [] l -> NoDup (objects (all_stored l)) -> acts nothing l = Val w ->
  (forall i, i < length (managers w) -> destroyed w i) -> Permutation (gone w) (objects (all_stored l)).
Proof.
  intros l w SO ND E D. destruct (single_start l SO ND) as (w' & E' & P). rewrite E in E'. injection E' as <-.
  assert (H : all_held w = []).
  { unfold all_held. destruct w as [ms d]. cbn [managers] in *. unfold destroyed in D. cbn [managers] in D. clear -D. induction ms as [|m ms IH]; [reflexivity|].
    assert (H0 := D 0 ltac:(cbn; lia)). cbn in H0. injection H0 as ->. cbn. apply IH. intros i L. apply (D (S i)). cbn. lia. }
  rewrite H in P. cbn in P. now rewrite app_nil_r in P.
Qed.

(** ** Copies and assignments *)
Lemma copy_ends : forall w i p w1, p <> 0%N -> holds w i p -> do_act w (Copy i) = Val w1 ->
  let j := length (managers w) in
  forall l w2, Forall (fun a => ~ assigns_to i a /\ ~ assigns_to j a) l -> acts w1 l = Val w2 -> ~ (destroyed w2 i /\ destroyed w2 j).
Proof.
  intros w i p w1 NZ (m & M & K) E j l w2 F E2. assert (L := nth_lt _ _ _ _ M). cbn [do_act] in E. destruct (alive w i) as [mi| | |] eqn:Q; try discriminate.
  cbn [bind] in E. injection E as <-. apply alive_nth in Q. rewrite M in Q. injection Q as ->.
  refine (both_end p NZ l _ i j _ _ _ F w2 E2).
  - unfold j. lia.
  - exists (Some mi). cbn [managers]. rewrite nth_error_app1 by trivial. auto.
  - exists (Some mi). cbn [managers]. unfold j. rewrite nth_error_app2 by lia. rewrite Nat.sub_diag. auto.
Qed.
Lemma assign_ends : forall w i j p w1, p <> 0%N -> i <> j -> holds w j p -> do_act w (Assign i j) = Val w1 ->
  forall l w2, Forall (fun a => ~ assigns_to i a /\ ~ assigns_to j a) l -> acts w1 l = Val w2 -> ~ (destroyed w2 i /\ destroyed w2 j).
Proof.
  intros w i j p w1 NZ N (m & M & K) E l w2 F E2. cbn [do_act] in E. destruct (alive w i) as [mi| | |] eqn:Qi; try discriminate. cbn [bind] in E.
  destruct (alive w j) as [mj| | |] eqn:Q; try discriminate. cbn [bind] in E. injection E as <-. apply alive_nth in Q, Qi. rewrite M in Q. injection Q as ->.
  refine (both_end p NZ l _ i j N _ _ F w2 E2); exists (Some mj); cbn [managers].
  - rewrite nth_error_set_nth_eq by (eapply nth_lt; eassumption). auto.
  - rewrite nth_error_set_nth_neq by trivial. auto.
Qed.
Lemma assign_leaks : forall w i j p w1, p <> 0%N -> holds w i p -> (forall k, k <> i -> ~ holds w k p) -> ~ In p (gone w) -> i <> j ->
  do_act w (Assign i j) = Val w1 ->
  forall l w2, ~ In p (all_stored l) -> acts w1 l = Val w2 -> ~ In p (gone w2) /\ forall k, ~ holds w2 k p.
Proof.
  intros w i j p w1 NZ _ H G N E l w2 NS E2. cbn [do_act] in E. destruct (alive w i) as [mi| | |] eqn:Qi; try discriminate. cbn [bind] in E.
  destruct (alive w j) as [mj| | |] eqn:Q; try discriminate. cbn [bind] in E. injection E as <-. apply alive_nth in Q, Qi.
  apply (never_deleted p l _ w2 NS E2); [|trivial]. intros k (m & M & K). cbn [managers] in M. destruct (Nat.eq_dec i k) as [<-|NK].
  - rewrite nth_error_set_nth_eq in M by (eapply nth_lt; eassumption). injection M as <-. apply (H j); [congruence|]. now exists (Some mj).
  - rewrite nth_error_set_nth_neq in M by trivial. apply (H k); [congruence|]. now exists m.
Qed.
(** A manager assigned to itself stays as it is. *)
Lemma assign_self : forall w i w1, do_act w (Assign i i) = Val w1 -> w1 = w.
Proof.
  intros [ms d] i w1 E. cbn [do_act] in E. destruct (alive _ i) as [mi| | |] eqn:Q; try discriminate. cbn [bind managers gone] in E. injection E as <-.
  apply alive_nth in Q. cbn [managers] in Q. f_equal. revert i Q. induction ms as [|m ms IH]; intros [|i] Q; try discriminate; cbn in *.
  - now injection Q as ->.
  - f_equal. now apply IH.
Qed.
(** Programs throw nothing and end. *)
Definition def_or_UB {A} (o : outcome A) : Prop := match o with Val _ | UB => True | _ => False end.
Lemma total_bind : forall A B (o : outcome A) (f : A -> outcome B), def_or_UB o -> (forall x, def_or_UB (f x)) -> def_or_UB (bind o f).
Proof. intros A B [x| | |] f H G; cbn in *; auto. Qed.
Lemma total_del : forall d p, def_or_UB (del d p).
Proof. intros d p. destruct (del_total d p) as [->|(d' & ->)]; exact I. Qed.
Lemma total_clip : forall s, def_or_UB (clip s).
Proof.
  assert (C : forall l d, def_or_UB (clip_deque l d)) by (intros l d; destruct (clip_deque_total l d) as [->|(b & d' & -> & _)]; exact I).
  intros s. unfold clip. apply total_bind; [apply C|]. intros (f & d). apply total_bind; [apply C|]. intros (g & d2). exact I.
Qed.
Lemma total_back : forall l n d, def_or_UB (dispose_back l n d).
Proof. induction l as [|p l IH]; intros n d; cbn [dispose_back]; [exact I|]. apply total_bind; [apply total_del|]. intros x. apply IH. Qed.
Lemma total_dispose : forall s, def_or_UB (dispose s).
Proof. intros s. unfold dispose. apply total_bind; [apply total_back|]. intros (d & m). exact I. Qed.
Lemma total_pop : forall l, def_or_UB (pop l).
Proof. intros [|x l]; exact I. Qed.
Lemma total_step : forall c s, def_or_UB (step true c s).
Proof.
  intros c s. destruct c as [p| | |]; cbn [step].
  - unfold store. apply total_bind; [|intros x; exact I]. apply total_bind.
    + destruct (0 <? sizeN (second s))%N; [|exact I]. apply total_bind; [apply total_dispose|]. intros (s0 & m). exact I.
    + intros s1. apply total_bind; [apply total_clip|]. intros s2. exact I.
  - unfold undo. destruct (0 <? sizeN (first s))%N; [|exact I]. apply total_bind; [apply total_pop|]. intros (l & q). apply total_bind; [apply total_clip|]. intros s2. exact I.
  - unfold redo. destruct (0 <? sizeN (second s))%N; [|exact I]. apply total_bind; [apply total_pop|]. intros (l & q). apply total_bind; [apply total_clip|]. intros s2. exact I.
  - apply total_dispose.
Qed.
Lemma total_alive : forall w i, def_or_UB (alive w i).
Proof. intros w i. unfold alive. destruct (nth_error (managers w) i) as [[m|]|]; exact I. Qed.
Lemma total_acts : forall l w, acts w l = UB \/ exists w', acts w l = Val w'.
Proof.
  assert (G : forall l w, def_or_UB (acts w l)).
  { induction l as [|a l IH]; intros w; cbn [acts]; [exact I|]. apply total_bind; [|intros x; apply IH]. destruct a as [|i c|i|i j|i]; cbn [do_act].
    - exact I.
    - apply total_bind; [apply total_alive|]. intros m. apply total_bind; [apply total_step|]. intros (s & n). exact I.
    - apply total_bind; [apply total_alive|]. intros m. exact I.
    - apply total_bind; [apply total_alive|]. intros m. apply total_bind; [apply total_alive|]. intros m2. exact I.
    - apply total_bind; [apply total_alive|]. intros m. apply total_bind; [|intros d; exact I]. unfold destroy.
      apply total_bind; [apply total_back|]. intros (d & n). apply total_bind; [apply total_back|]. intros (d2 & n2). exact I. }
  intros l w. specialize (G l w). destruct (acts w l) as [w'| | |]; try contradiction; eauto.
Qed.
