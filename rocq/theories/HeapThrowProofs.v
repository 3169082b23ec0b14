(** Proofs about the array heap with moves that throw. *)
Require Import List Arith NArith Bool Lia Permutation.
Require Import Verif.Base Verif.HeapModel Verif.HeapProofs Verif.HeapThrowModel Verif.HeapThrowSpec.
Import ListNotations.
Local Open Scope N_scope.

Lemma parent_le : forall pos, parent_of pos <= pos.
Proof.
  intros pos. unfold parent_of. destruct (N.eqb_spec pos 0) as [|P]; [lia|].
  assert (W : wsub pos 1 <= pos).
  { unfold wsub. assert (B : two64 <> 0) by discriminate. replace (pos + two64 - 1) with (pos - 1 + 1 * two64) by lia. rewrite N.mod_add by trivial.
    pose proof (N.mod_le (pos - 1) two64 B). lia. }
  apply N.div_le_upper_bound; lia.
Qed.

Section Proofs.
Context {T : Type}.
Implicit Types h : list T.
Local Notation put h i x := (set_nth h (N.to_nat i) x).

Lemma cell_put : forall h i k x, i < sizeN h -> cell (put h i x) k = if k =? i then Some x else cell h k.
Proof. intros h i k x L. destruct (N.eqb_spec k i) as [->|K]; [now apply cell_set_eq|apply cell_set_neq; congruence]. Qed.
Lemma cell_ext : forall h h', (forall k, cell h k = cell h' k) -> h = h'.
Proof.
  intros h h' H. apply list_eq_nth_error. intros i. specialize (H (N.of_nat i)). unfold cell in H. now rewrite Nat2N.id in H.
Qed.
Lemma put_same : forall h i x, cell h i = Some x -> put h i x = h.
Proof. intros h i x C. apply cell_ext. intros k. rewrite cell_put by (eapply cell_some; eassumption). destruct (N.eqb_spec k i) as [->|]; congruence. Qed.
Lemma put_perm : forall h i x y, cell h i = Some x -> Permutation (y :: h) (x :: put h i y).
Proof.
  intros h i x y. unfold cell. generalize (N.to_nat i). clear i. intros n. revert n. induction h as [|z h IH]; intros [|n] C; cbn in *; try discriminate.
  - injection C as ->. apply perm_swap.
  - rewrite perm_swap. rewrite (IH n C). apply perm_swap.
Qed.
Lemma next_clean : forall sc f (r : list (fault T)), Forall clean sc -> next sc = (f, r) -> clean f /\ Forall clean r.
Proof. intros [|g sc] f r F E; cbn in E; injection E as <- <-; [split; [exact I|constructor]|]. now inversion F. Qed.
Lemma next_fine : forall sc f (r : list (fault T)), Forall (eq Fine) sc -> next sc = (f, r) -> f = Fine /\ Forall (eq Fine) r.
Proof. intros [|g sc] f r F E; cbn in E; injection E as <- <-; [auto|]. inversion F; subst. auto. Qed.

Variable d : T.
Variable hollow : T -> T.

(** What [t_swap] is where there is something to swap. *)
Lemma swap_cases : forall h pos sc, 0 < pos < sizeN h -> pos <> parent_of pos ->
  exists x y, cell h pos = Some x /\ cell h (parent_of pos) = Some y /\
    t_swap hollow h pos sc =
    match next sc with
    | (Fail src _, sc) => (put h pos (left_in src x), Threw, sc)
    | (Fine, sc) =>
        match next sc with
        | (Fail src dst, sc) => (put (put h (parent_of pos) (left_in src y)) pos (left_in dst (hollow x)), Threw, sc)
        | (Fine, sc) =>
            match next sc with
            | (Fail _ dst, sc) => (put (put h pos y) (parent_of pos) (left_in dst (hollow y)), Threw, sc)
            | (Fine, sc) => (put (put h pos y) (parent_of pos) x, Done, sc)
            end
        end
    end.
Proof.
  intros h pos sc L NE. pose proof (parent_le pos) as PL.
  destruct (cell_lt h pos) as (x & X); [lia|]. destruct (cell_lt h (parent_of pos)) as (y & Y); [lia|]. exists x, y. split; [trivial|]. split; [trivial|].
  unfold t_swap. rewrite (proj2 (N.eqb_neq _ _) NE), X. set (p := parent_of pos) in *.
  rewrite cell_put by lia. rewrite (proj2 (N.eqb_neq p pos)) by congruence. rewrite Y.
  destruct (next sc) as ([|s1 d1] & sc1); [|reflexivity].
  destruct (next sc1) as ([|s2 d2] & sc2); [destruct (next sc2) as ([|s3 d3] & sc3)|]; (do 2 f_equal; apply cell_ext; intros k;
    rewrite !cell_put by (rewrite ?sizeN_set; lia); destruct (N.eqb_spec k p), (N.eqb_spec k pos); congruence).
Qed.
Lemma swap_nothing : forall h pos sc, pos = parent_of pos -> t_swap hollow h pos sc = (h, Done, sc) /\ swap h pos = Val h.
Proof. intros h pos sc E. unfold t_swap, swap. rewrite <- E, N.eqb_refl. auto. Qed.
Lemma swap_outside : forall h pos sc, sizeN h <= pos -> pos <> parent_of pos ->
  t_swap hollow h pos sc = (h, Outside, sc) /\ swap h pos = Exn OutOfRange.
Proof. intros h pos sc L NE. unfold t_swap, swap, at_. rewrite (proj2 (N.eqb_neq _ _) NE), cell_none by trivial. auto. Qed.
Lemma swap_split : forall h pos, pos = parent_of pos \/ (sizeN h <= pos /\ pos <> parent_of pos) \/ (0 < pos < sizeN h /\ pos <> parent_of pos).
Proof.
  intros h pos. destruct (N.eq_dec pos (parent_of pos)) as [|NE]; [now left|right].
  assert (pos <> 0) by (intros ->; now apply NE). destruct (N.le_gt_cases (sizeN h) pos); [left|right]; lia || (split; [lia|trivial]).
Qed.

Lemma swap_told : forall h pos sc h' a sc', t_swap hollow h pos sc = (h', a, sc') ->
  (a = Done -> swap h pos = Val h') /\ (a = Outside -> swap h pos = Exn OutOfRange /\ h' = h).
Proof.
  intros h pos sc h' a sc' E. destruct (swap_split h pos) as [S|[(S & NE)|(S & NE)]].
  - destruct (swap_nothing h pos sc S) as (E1 & E2). rewrite E1 in E. injection E as <- <- <-. split; [trivial|discriminate].
  - destruct (swap_outside h pos sc S NE) as (E1 & E2). rewrite E1 in E. injection E as <- <- <-. split; [discriminate|auto].
  - destruct (swap_cases h pos sc S NE) as (x & y & X & Y & E1). rewrite E1 in E. clear E1.
    pose proof (parent_le pos) as PL.
    destruct (next sc) as ([|s1 d1] & sc1); [|injection E as <- <- <-; split; discriminate].
    destruct (next sc1) as ([|s2 d2] & sc2); [|injection E as <- <- <-; split; discriminate].
    destruct (next sc2) as ([|s3 d3] & sc3); injection E as <- <- <-; [|split; discriminate].
    split; [intros _|discriminate]. unfold swap. rewrite (proj2 (N.eqb_neq _ _) NE).
    rewrite (at_ok _ _ _ X), (at_ok _ _ _ Y). cbn [bind]. rewrite at_put_ok by lia. cbn [bind]. rewrite at_put_ok; [reflexivity|]. rewrite sizeN_set. lia.
Qed.
Lemma swap_returned : forall h o sc h' a sc', t_swap_op hollow h o sc = (h', a, sc') ->
  (a = Done -> as_before h o = Val h') /\ (a = Outside -> as_before h o = Exn OutOfRange /\ h' = h).
Proof.
  intros h [pos|pos|pos] sc h' a sc' E; cbn [t_swap_op as_before] in *.
  - eapply swap_told; eassumption.
  - unfold t_swap_left, swap_with_left_child in *. destruct (left_child_of pos <? sizeN h); [eapply swap_told; eassumption|].
    injection E as <- <- <-. split; [trivial|discriminate].
  - unfold t_swap_right, swap_with_right_child in *. destruct (right_child_of pos <? sizeN h); [eapply swap_told; eassumption|].
    injection E as <- <- <-. split; [trivial|discriminate].
Qed.
Lemma swap_fine : forall h pos sc h' a sc', Forall (eq Fine) sc -> t_swap hollow h pos sc = (h', a, sc') -> a <> Threw.
Proof.
  intros h pos sc h' a sc' F E. destruct (swap_split h pos) as [S|[(S & NE)|(S & NE)]].
  - destruct (swap_nothing h pos sc S) as (E1 & E2). rewrite E1 in E. injection E as <- <- <-. discriminate.
  - destruct (swap_outside h pos sc S NE) as (E1 & E2). rewrite E1 in E. injection E as <- <- <-. discriminate.
  - destruct (swap_cases h pos sc S NE) as (x & y & X & Y & E1). rewrite E1 in E. clear E1.
    destruct (next sc) as (f1 & sc1) eqn:N1. destruct (next_fine _ _ _ F N1) as (-> & F1).
    destruct (next sc1) as (f2 & sc2) eqn:N2. destruct (next_fine _ _ _ F1 N2) as (-> & F2).
    destruct (next sc2) as (f3 & sc3) eqn:N3. destruct (next_fine _ _ _ F2 N3) as (-> & F3). injection E as <- <- <-. discriminate.
Qed.
Lemma swap_op_fine : forall h o sc h' a sc', Forall (eq Fine) sc -> t_swap_op hollow h o sc = (h', a, sc') -> a <> Threw.
Proof.
  intros h [pos|pos|pos] sc h' a sc' F E; cbn [t_swap_op] in *.
  - eapply swap_fine; eassumption.
  - unfold t_swap_left in *. destruct (left_child_of pos <? sizeN h); [eapply swap_fine; eassumption|]. injection E as <- <- <-. discriminate.
  - unfold t_swap_right in *. destruct (right_child_of pos <? sizeN h); [eapply swap_fine; eassumption|]. injection E as <- <- <-. discriminate.
Qed.

(** Nothing else is touched. *)
Lemma swap_others : forall h pos sc h' a sc', t_swap hollow h pos sc = (h', a, sc') ->
  same_but (fun k => k = pos \/ k = parent_of pos) h h'.
Proof.
  intros h pos sc h' a sc' E. destruct (swap_split h pos) as [S|[(S & NE)|(S & NE)]].
  - destruct (swap_nothing h pos sc S) as (E1 & E2). rewrite E1 in E. injection E as <- <- <-. now split.
  - destruct (swap_outside h pos sc S NE) as (E1 & E2). rewrite E1 in E. injection E as <- <- <-. now split.
  - destruct (swap_cases h pos sc S NE) as (x & y & X & Y & E1). rewrite E1 in E. clear E1.
    assert (G1 : forall i w g, (i = pos \/ i = parent_of pos) -> same_but (fun k => k = pos \/ k = parent_of pos) h g ->
      same_but (fun k => k = pos \/ k = parent_of pos) h (put g i w)).
    { intros i w g I (G1 & G2). split; [now rewrite set_nth_length|]. intros k K. rewrite cell_set_neq; [auto|]. intros ->. auto. }
    assert (G0 : same_but (fun k => k = pos \/ k = parent_of pos) h h) by now split.
    destruct (next sc) as ([|s1 d1] & sc1); [|injection E as <- <- <-; apply G1; auto].
    destruct (next sc1) as ([|s2 d2] & sc2); [|injection E as <- <- <-; auto].
    destruct (next sc2) as ([|s3 d3] & sc3); injection E as <- <- <-; auto.
Qed.
(** Exactly three things can be left by a swap that throws. *)
Lemma swap_threw : forall h pos sc h' sc', Forall clean sc -> t_swap hollow h pos sc = (h', Threw, sc') ->
  exists x y, cell h pos = Some x /\ cell h (parent_of pos) = Some y /\
    (h' = h \/ h' = put h pos (hollow x) \/ h' = put (put h pos y) (parent_of pos) (hollow y)).
Proof.
  intros h pos sc h' sc' F E. destruct (swap_split h pos) as [S|[(S & NE)|(S & NE)]].
  - destruct (swap_nothing h pos sc S) as (E1 & E2). rewrite E1 in E. discriminate.
  - destruct (swap_outside h pos sc S NE) as (E1 & E2). rewrite E1 in E. discriminate.
  - destruct (swap_cases h pos sc S NE) as (x & y & X & Y & E1). rewrite E1 in E. clear E1. exists x, y. split; [trivial|]. split; [trivial|].
    destruct (next sc) as (f1 & sc1) eqn:N1. destruct (next_clean _ _ _ F N1) as (C1 & F1). destruct f1 as [|[|] [|]]; try contradiction.
    + destruct (next sc1) as (f2 & sc2) eqn:N2. destruct (next_clean _ _ _ F1 N2) as (C2 & F2). destruct f2 as [|[|] [|]]; try contradiction.
      * destruct (next sc2) as (f3 & sc3) eqn:N3. destruct (next_clean _ _ _ F2 N3) as (C3 & F3). destruct f3 as [|[|] [|]]; try contradiction; [discriminate|].
        injection E as <- <-. right. now right.
      * injection E as <- <-. right. left. cbn. now rewrite (put_same h _ y Y).
    + injection E as <- <-. left. cbn. now apply put_same.
Qed.
Lemma swap_rest : forall h pos sc h' a sc', Forall clean sc -> t_swap hollow h pos sc = (h', a, sc') -> Forall clean sc'.
Proof.
  intros h pos sc h' a sc' F E. destruct (swap_split h pos) as [S|[(S & NE)|(S & NE)]].
  - destruct (swap_nothing h pos sc S) as (E1 & E2). rewrite E1 in E. injection E as <- <- <-. trivial.
  - destruct (swap_outside h pos sc S NE) as (E1 & E2). rewrite E1 in E. injection E as <- <- <-. trivial.
  - destruct (swap_cases h pos sc S NE) as (x & y & X & Y & E1). rewrite E1 in E. clear E1.
    destruct (next sc) as (f1 & sc1) eqn:N1. destruct (next_clean _ _ _ F N1) as (C1 & F1).
    destruct (next sc1) as (f2 & sc2) eqn:N2. destruct (next_clean _ _ _ F1 N2) as (C2 & F2).
    destruct (next sc2) as (f3 & sc3) eqn:N3. destruct (next_clean _ _ _ F2 N3) as (C3 & F3).
    destruct f1; [destruct f2; [destruct f3|]|]; injection E as <- <- <-; trivial.
Qed.
(** One swap loses at most one element, and only if it throws. *)
Lemma swap_loss : forall h pos sc h' a sc', Forall clean sc -> t_swap hollow h pos sc = (h', a, sc') ->
  exists lost got, exchanged_for lost got h h' /\ length got = length lost /\
    Forall (fun y => exists x, y = hollow x) got /\ (length lost <= if threw a then 1 else 0)%nat.
Proof.
  intros h pos sc h' a sc' F E. unfold exchanged_for. destruct a.
  - exists [], []. cbn. split; [|auto]. destruct (swap_told _ _ _ _ _ _ E) as (E2 & _). specialize (E2 eq_refl).
    destruct (swap_split h pos) as [S|[(S & NE)|(S & NE)]].
    + destruct (swap_nothing h pos sc S) as (E1 & _). rewrite E1 in E. injection E as <- <-. trivial.
    + destruct (swap_outside h pos sc S NE) as (E1 & _). rewrite E1 in E. discriminate.
    + pose proof (parent_le pos) as PL. destruct (cell_lt h pos) as (x & X); [lia|]. destruct (cell_lt h (parent_of pos)) as (y & Y); [lia|].
      unfold swap in E2. rewrite (proj2 (N.eqb_neq _ _) NE), (at_ok _ _ _ X), (at_ok _ _ _ Y) in E2. cbn [bind] in E2.
      rewrite at_put_ok in E2 by lia. cbn [bind] in E2. rewrite at_put_ok in E2 by (rewrite sizeN_set; lia). injection E2 as <-.
      apply (Permutation_cons_inv (a := y)). rewrite (put_perm h pos x y X). 
      rewrite (put_perm (put h pos y) (parent_of pos) y x); [reflexivity|]. rewrite cell_put by lia. now rewrite (proj2 (N.eqb_neq _ _)) by congruence.
  - destruct (swap_threw _ _ _ _ _ F E) as (x & y & X & Y & [->|[->| ->]]).
    + exists [], []. cbn. auto.
    + exists [x], [hollow x]. cbn. split; [now apply put_perm|]. split; [trivial|]. split; [eauto|auto].
    + exists [x], [hollow y]. cbn. split; [|split; [trivial|split; [eauto|auto]]].
      destruct (N.eq_dec pos (parent_of pos)) as [EQ|NE].
      { destruct (swap_nothing h pos sc EQ) as (E1 & _). rewrite E1 in E. discriminate. }
      assert (Y2 : cell (put h pos y) (parent_of pos) = Some y).
      { rewrite cell_put by (eapply cell_some; eassumption). now rewrite (proj2 (N.eqb_neq _ _)) by congruence. }
      apply (Permutation_cons_inv (a := y)). rewrite perm_swap, (put_perm h pos x y X), perm_swap.
      rewrite (put_perm _ _ y (hollow y) Y2). apply perm_swap.
  - destruct (swap_told _ _ _ _ _ _ E) as (_ & E2). destruct (E2 eq_refl) as (_ & ->). exists [], []. cbn. auto.
Qed.
Lemma swap_op_loss : forall h o sc h' a sc', Forall clean sc -> t_swap_op hollow h o sc = (h', a, sc') ->
  Forall clean sc' /\ length h' = length h /\
  exists lost got, exchanged_for lost got h h' /\ length got = length lost /\
    Forall (fun y => exists x, y = hollow x) got /\ (length lost <= if threw a then 1 else 0)%nat.
Proof.
  intros h o sc h' a sc' F E.
  assert (D : (exists pos, t_swap hollow h pos sc = (h', a, sc')) \/ (h', a, sc') = (h, Done, sc)).
  { destruct o as [pos|pos|pos]; cbn [t_swap_op] in E; [left; eauto| |].
    - unfold t_swap_left in E. destruct (left_child_of pos <? sizeN h); [left; eauto|now right].
    - unfold t_swap_right in E. destruct (right_child_of pos <? sizeN h); [left; eauto|now right]. }
  destruct D as [(pos & D)|D].
  - split; [eapply swap_rest; eassumption|]. split; [exact (proj1 (swap_others _ _ _ _ _ _ D))|]. eapply swap_loss; eassumption.
  - injection D as -> -> ->. split; [trivial|]. split; [trivial|]. exists [], []. cbn. unfold exchanged_for. cbn. auto.
Qed.
Lemma swaps_loss : forall ops h sc, Forall clean sc ->
  let (h', l) := t_swaps hollow h ops sc in
  length h' = length h /\
  exists lost got, exchanged_for lost got h h' /\ length got = length lost /\
    Forall (fun y => exists x, y = hollow x) got /\ (length lost <= length (filter threw l))%nat.
Proof.
  induction ops as [|o ops IH]; intros h sc F; cbn [t_swaps].
  - split; [trivial|]. exists [], []. cbn. unfold exchanged_for. cbn. auto.
  - destruct (t_swap_op hollow h o sc) as ((h1 & a) & sc1) eqn:E.
    destruct (swap_op_loss _ _ _ _ _ _ F E) as (F1 & L1 & lost1 & got1 & P1 & G1 & H1 & B1).
    specialize (IH h1 sc1 F1). destruct (t_swaps hollow h1 ops sc1) as (h2 & l). destruct IH as (L2 & lost2 & got2 & P2 & G2 & H2 & B2).
    split; [congruence|]. exists (lost1 ++ lost2), (got2 ++ got1). unfold exchanged_for in *.
    split; [|split; [|split]].
    + rewrite <- app_assoc, P1, !app_assoc, (Permutation_app_comm got2 lost1), <- !app_assoc, P2. reflexivity.
    + rewrite !app_length. lia.
    + apply Forall_app. auto.
    + cbn [filter]. destruct (threw a); cbn [length]; rewrite app_length; lia.
Qed.

(** *** Stores *)
Lemma resize_grown : forall h n, sizeN h <= n -> grown d h (resize d h n).
Proof. intros h n L. unfold grown, resize. eexists. rewrite firstn_all2 by (unfold sizeN in L; lia). reflexivity. Qed.
Lemma grown_refl : forall h, grown d h h.
Proof. intros h. exists O. cbn. now rewrite app_nil_r. Qed.
Definition set_child h (child : N) (x : T) : outcome (list T) :=
  at_put (if sizeN h <? child then resize d h (right_child_of child) else h) child x.
Lemma set_ends : forall h child x sc h' x' a sc', child < 2 ^ 62 -> t_set d hollow h child x sc = (h', x', a, sc') ->
  (a = Done -> set_child h child x = Val h' /\ x' = hollow x) /\
  (a = Outside -> set_child h child x = Exn OutOfRange /\ h' = h /\ x' = x) /\
  (a = Threw -> exists g, grown d h g /\ same_but (fun k => k = child) g h' /\ (Forall clean sc -> h' = g /\ x' = x)).
Proof.
  intros h child x sc h' x' a sc' B E. unfold set_child, t_set in *.
  assert (G : forall g sc0, (Forall clean sc -> Forall clean sc0) -> grown d h g -> t_put hollow g child x sc0 = (h', x', a, sc') ->
    (a = Done -> at_put g child x = Val h' /\ x' = hollow x) /\
    (a = Outside -> at_put g child x = Exn OutOfRange /\ h' = g /\ x' = x) /\
    (a = Threw -> exists g, grown d h g /\ same_but (fun k => k = child) g h' /\ (Forall clean sc -> h' = g /\ x' = x))).
  { intros g sc0 FC GR P. unfold t_put in P. destruct (cell g child) as [y|] eqn:C.
    - destruct (next sc0) as (f & sc1) eqn:N. destruct f as [|src dst]; injection P as <- <- <- <-.
      + split; [|split; discriminate]. intros _. rewrite at_put_ok by (eapply cell_some; eassumption). auto.
      + split; [discriminate|]. split; [discriminate|]. intros _. exists g. split; [trivial|]. split.
        * split; [apply set_nth_length|]. intros k K. apply cell_set_neq. congruence.
        * intros F. destruct (next_clean _ _ _ (FC F) N) as (CL & _). destruct src, dst; try contradiction. cbn. split; [now apply put_same|trivial].
    - injection P as <- <- <- <-. split; [discriminate|]. split; [|discriminate]. intros _. unfold at_put, at_. rewrite C. auto. }
  destruct (N.ltb_spec (sizeN h) child) as [L|L].
  - destruct (next sc) as (f & sc1) eqn:N. destruct f as [|src dst].
    + assert (R : right_child_of child = 2 * child + 2) by now apply right_small.
      destruct (G (resize d h (right_child_of child)) sc1) as (G1 & G2 & G3); [|apply resize_grown; lia|exact E|].
      { intros F. now destruct (next_clean _ _ _ F N). }
      split; [exact G1|]. split; [|exact G3]. intros ->. destruct (G2 eq_refl) as (A & _). exfalso.
      rewrite at_put_ok in A; [discriminate|]. rewrite resize_size. lia.
    + injection E as <- <- <- <-. split; [discriminate|]. split; [discriminate|]. intros _. exists h. split; [apply grown_refl|]. split; [now split|auto].
  - destruct (G h sc) as (G1 & G2 & G3); [trivial|apply grown_refl|exact E|]. auto.
Qed.
Lemma zero_child : forall h, (sizeN h <? 0) = false.
Proof. intros h. apply N.ltb_ge. lia. Qed.
Lemma sets_end : forall h x sc h' x' a sc',
  (forall pos, pos < 2 ^ 61 -> t_set_left d hollow h pos x sc = (h', x', a, sc') -> ends_well d hollow h x sc (left_child_of pos) (set_left d h pos x) h' x' a) /\
  (forall pos, pos < 2 ^ 61 - 1 -> t_set_right d hollow h pos x sc = (h', x', a, sc') -> ends_well d hollow h x sc (right_child_of pos) (set_right d h pos x) h' x' a) /\
  (t_set_root hollow h x sc = (h', x', a, sc') -> ends_well d hollow h x sc 0 (set_root h x) h' x' a).
Proof.
  intros h x sc h' x' a sc'. split; [|split].
  - intros pos B E. apply (set_ends h (left_child_of pos) x sc h' x' a sc'); [|exact E]. rewrite left_small; change (2 ^ 62) with (2 * 2 ^ 61); lia.
  - intros pos B E. apply (set_ends h (right_child_of pos) x sc h' x' a sc'); [|exact E]. rewrite right_small; change (2 ^ 62) with (2 * 2 ^ 61); lia.
  - intros E. pose proof (set_ends h 0 x sc h' x' a sc') as G. unfold set_child, t_set in G. rewrite zero_child in G. apply G; [reflexivity|exact E].
Qed.
End Proofs.
