(** Proofs about the AVL tree whose calls can throw. *)
Require Import List NArith ZArith Bool Arith Lia Permutation Sorting.Sorted.
Require Import Verif.Base Verif.AvlModel Verif.AvlSpec Verif.AvlProofs Verif.AvlThrowModel Verif.AvlThrowSpec.
Import ListNotations.

Section P.
Context {T : Type} (o : order T) (dflt : T) (risk : kind -> bool).
Notation tree := (tree T).
Notation avl := (avl T).

Lemma point_cases {S A} k fs (thrown : S) (go : list bool -> ending S A) :
  point risk k fs thrown go = Threw thrown \/ exists fs', point risk k fs thrown go = go fs'.
Proof. unfold point. destruct fs as [|f fs]; [eauto|]. destruct (f && risk k); eauto. Qed.

(** Splits on the next point of the goal. *)
Local Ltac pt :=
  match goal with |- context [point risk ?k ?fs ?th ?go] =>
    let E := fresh "E" in let g := fresh "fs" in
    destruct (point_cases k fs th go) as [E|[g E]]; rewrite E; clear E; cbv beta
  end.

(** The same for the point at the head of [H]. *)
Local Ltac pth H g :=
  match type of H with point risk ?k ?fs ?th ?go = _ =>
    let E := fresh "E" in
    destruct (point_cases k fs th go) as [E|[g E]]; rewrite E in H; clear E; cbv beta in H
  end.

Lemma trotate_ok i p h x (l r : tree) value fs :
  wf false l -> wf false r -> haspar l -> haspar r -> (N.of_nat (size l + size r) < big)%N ->
  match trotate_if_needed o risk (Node i p h x l r) value fs with
  | Done t' _ | Threw t' => kept false (Node i p h x l r) t'
  | Undef => False
  end.
Proof.
  intros Wl Wr Hl Hr B. destruct (rotate_if_needed_ok o false i p h x l r value) as (t' & R & K); auto.
  assert (K0 : kept false (Node i p h x l r) (Node i p (S (Nat.max (ht l) (ht r))) x l r)).
  { split; [reflexivity|]. split; [reflexivity|]. apply wf_node; auto. }
  cbn [rotate_if_needed trotate_if_needed] in *.
  destruct (diff (ht l) (ht r) 2).
  - destruct l; [discriminate|]. pt; [exact K0|]. destruct (lt_ o value v); injection R as <-; exact K.
  - destruct (diff (ht r) (ht l) 2); [|injection R as <-; exact K].
    destruct r; [discriminate|]. pt; [exact K0|]. destruct (gt_ o value v); injection R as <-; exact K.
Qed.

Context (LAW : lawful o).
Notation le := (le o).

(** What making a node means for a subtree. *)
Definition made_ok dup value (t t' : tree) : Prop :=
  (dup = false -> ~ In value (in_order t)) /\
  Permutation (in_order t') (value :: in_order t) /\ sorted o (in_order t') /\ wf false t' /\ t' <> Leaf /\
  (t <> Leaf -> ppar t' = ppar t).

Definition insert_end dup value (t : tree) (par : option nat) (e : ending (tree * bool) (tree * bool)) : Prop :=
  match e with
  | Done (t', b) _ =>
      if b then made_ok dup value t t' /\ (t = Leaf -> ppar t' = par) else t' = t /\ dup = false /\ In value (in_order t)
  | Threw (t', b) => if b then made_ok dup value t t' /\ (t = Leaf -> ppar t' = par) else t' = t
  | Undef => False
  end.

Lemma made_haspar dup value c c' j : haspar c -> made_ok dup value c c' -> (c = Leaf -> ppar c' = Some j) -> haspar c'.
Proof.
  intros H (_ & _ & _ & _ & N & P) L. destruct c' as [|i q g y a b]; [congruence|]. cbn in *.
  destruct c as [|i0 q0 g0 y0 a0 b0]; [rewrite L by reflexivity; discriminate|]. rewrite P by discriminate. exact H.
Qed.

Lemma made_left dup value j p h x (l l' r : tree) : wf false (Node j p h x l r) -> sorted o (in_order (Node j p h x l r)) ->
  lt_ o value x = true -> made_ok dup value l l' -> (l = Leaf -> ppar l' = Some j) ->
  made_ok dup value (Node j p h x l r) (Node j p h x l' r).
Proof.
  intros W S LT M L. pose proof W as (Wh & _ & Wl & Wr & Hl & Hr). cbn [in_order] in S.
  apply (sorted_app o LAW) in S. destruct S as (Sl & Sr & Fl & Fr).
  pose proof (made_haspar _ _ _ _ _ Hl M L) as Hl'. destruct M as (M1 & M2 & M3 & M4 & M5 & M6).
  pose proof (perm_size _ _ _ M2) as SZ. rewrite size_node in Wh.
  split; [|split; [|split; [|split; [|split]]]].
  - intros ND. cbn [in_order]. rewrite (in_left o LAW) by assumption. auto.
  - cbn [in_order]. rewrite M2. reflexivity.
  - cbn [in_order]. apply (sorted_app o LAW). split; [assumption|]. split; [assumption|]. split; [|assumption].
    eapply Forall_perm; [exact M2|]. constructor; [apply (lt_le o LAW); assumption|assumption].
  - cbn [wf]. rewrite size_node. split; [lia|]. split; [discriminate|]. tauto.
  - discriminate.
  - reflexivity.
Qed.

Lemma made_right dup value j p h x (l r r' : tree) : wf false (Node j p h x l r) -> sorted o (in_order (Node j p h x l r)) ->
  lt_ o value x = false -> gt_ o value x || dup = true -> made_ok dup value r r' -> (r = Leaf -> ppar r' = Some j) ->
  made_ok dup value (Node j p h x l r) (Node j p h x l r').
Proof.
  intros W S LT GD M L. pose proof W as (Wh & _ & Wl & Wr & Hl & Hr). cbn [in_order] in S.
  apply (sorted_app o LAW) in S. destruct S as (Sl & Sr & Fl & Fr).
  pose proof (made_haspar _ _ _ _ _ Hr M L) as Hr'. destruct M as (M1 & M2 & M3 & M4 & M5 & M6).
  pose proof (perm_size _ _ _ M2) as SZ. rewrite size_node in Wh.
  split; [|split; [|split; [|split; [|split]]]].
  - intros ND. cbn [in_order]. rewrite ND, orb_false_r, (gt_is_lt o LAW) in GD.
    rewrite (in_right o LAW) by assumption. auto.
  - cbn [in_order]. rewrite M2. rewrite (perm_swap value x). symmetry. apply Permutation_middle.
  - cbn [in_order]. apply (sorted_app o LAW). split; [assumption|]. split; [assumption|]. split; [assumption|].
    eapply Forall_perm; [exact M2|]. constructor; assumption.
  - cbn [wf]. rewrite size_node. split; [lia|]. split; [discriminate|]. tauto.
  - discriminate.
  - reflexivity.
Qed.

Lemma kept_made dup value t t1 t2 : made_ok dup value t t1 -> kept false t1 t2 -> made_ok dup value t t2 /\ ppar t2 = ppar t1.
Proof.
  intros (M1 & M2 & M3 & M4 & M5 & M6) K. pose proof (kept_not_leaf _ _ _ M5 K) as N. destruct K as (K1 & K2 & K3).
  split; [|exact K2]. split; [assumption|]. rewrite K1. split; [assumption|]. split; [assumption|].
  split; [assumption|]. split; [assumption|]. intros H. rewrite K2. auto.
Qed.

Lemma finish_ok dup value t j p h x (l r : tree) fs : made_ok dup value t (Node j p h x l r) ->
  (N.of_nat (S (size t)) < big)%N -> insert_end dup value t p (finish_insert o risk (Node j p h x l r) value true fs).
Proof.
  intros M B. pose proof M as (_ & M2 & _ & (_ & _ & Wl & Wr & Hl & Hr) & _). pose proof (perm_size _ _ _ M2) as SZ.
  rewrite size_node in SZ. unfold finish_insert.
  pose proof (trotate_ok j p h x l r value fs Wl Wr Hl Hr ltac:(lia)) as R.
  destruct (trotate_if_needed o risk (Node j p h x l r) value fs) as [t' fs'|t'|]; [| |contradiction];
    destruct (kept_made _ _ _ _ _ M R) as [A P]; (split; [assumption|]; intros _; exact P).
Qed.

Lemma leaf_made dup value i q : made_ok dup value Leaf (Node i q 1 value Leaf Leaf).
Proof.
  split; [intros _ []|]. split; [reflexivity|]. split; [repeat constructor|]. split; [|split; [discriminate|congruence]].
  unfold size; cbn; repeat split; lia.
Qed.

Lemma tinsert_ok dup i value t : forall fs, wf false t -> sorted o (in_order t) -> (N.of_nat (S (size t)) < big)%N ->
  insert_end dup value t None (tinsert_node o risk dup i value t fs).
Proof.
  induction t as [|j p h x l IHl r IHr]; intros fs W S B.
  - cbn [tinsert_node]. pt; [reflexivity|]. apply finish_ok; [apply leaf_made|assumption].
  - pose proof B as B0. rewrite size_node in B. pose proof S as S0. cbn [in_order] in S. apply (sorted_app o LAW) in S. destruct S as (Sl & Sr & Fl & Fr).
    pose proof W as (_ & _ & Wl & Wr & Hl & Hr). cbn [tinsert_node].
    set (below := fun (c : tree) (fs : list bool) => match c with
        | Leaf => point risk Copy fs (Leaf, false) (fun fs => Done (Node i (Some j) 1 value Leaf Leaf, true) fs)
        | Node _ _ _ _ _ _ => tinsert_node o risk dup i value c fs end).
    assert (BL : forall c, (forall fs, insert_end dup value c None (tinsert_node o risk dup i value c fs)) ->
      forall fs, insert_end dup value c (Some j) (below c fs)).
    { intros c H fs0. unfold below. destruct c; [pt; [reflexivity|]; split; [apply leaf_made|reflexivity]|].
      specialize (H fs0). destruct (tinsert_node o risk dup i value _ fs0) as [[c' b] ?|[c' b]|]; cbn in *;
        [| |assumption]; destruct b; try assumption; split; try tauto; discriminate. }
    pt; [reflexivity|]. destruct (lt_ o value x) eqn:LT.
    + change (match l with Leaf => point risk Copy fs0 (Leaf, false) (fun fs => Done (Node i (Some j) 1 value Leaf Leaf, true) fs)
        | Node _ _ _ _ _ _ => tinsert_node o risk dup i value l fs0 end) with (below l fs0).
      pose proof (BL l ltac:(intros; apply IHl; auto; lia) fs0) as H. destruct (below l fs0) as [[l' b] fs1|[l' b]|]; [| |exact H].
      * destruct b; cbn in H.
        -- destruct H as [M L]. pose proof (finish_ok dup value _ j p h x l' r fs1 (made_left dup value j p h x l l' r W S0 LT M L) B0) as F.
           destruct (finish_insert o risk (Node j p h x l' r) value true fs1) as [[t' b] ?|[t' b]|]; [| |exact F];
             cbn in *; destruct b; try assumption; split; try tauto; discriminate.
        -- destruct H as (-> & D & IN). cbn. split; [reflexivity|]. split; [assumption|]. cbn [in_order]. apply in_or_app. auto.
      * cbn in *. destruct b; [|rewrite H; reflexivity]. destruct H as [M L]. split; [|discriminate].
        apply made_left; assumption.
    + pt; [reflexivity|]. destruct (gt_ o value x || dup) eqn:GD.
      * change (match r with Leaf => point risk Copy fs1 (Leaf, false) (fun fs => Done (Node i (Some j) 1 value Leaf Leaf, true) fs)
        | Node _ _ _ _ _ _ => tinsert_node o risk dup i value r fs1 end) with (below r fs1).
      pose proof (BL r ltac:(intros; apply IHr; auto; lia) fs1) as H. destruct (below r fs1) as [[r' b] fs2|[r' b]|]; [| |exact H].
        -- destruct b; cbn in H.
           ++ destruct H as [M L]. pose proof (finish_ok dup value _ j p h x l r' fs2 (made_right dup value j p h x l r r' W S0 LT GD M L) B0) as F.
              destruct (finish_insert o risk (Node j p h x l r') value true fs2) as [[t' b] ?|[t' b]|]; [| |exact F];
                cbn in *; destruct b; try assumption; split; try tauto; discriminate.
           ++ destruct H as (-> & D & IN). cbn. split; [reflexivity|]. split; [assumption|]. cbn [in_order]. apply in_or_app. right. right. assumption.
        -- cbn in *. destruct b; [|rewrite H; reflexivity]. destruct H as [M L]. split; [|discriminate].
           apply made_right; assumption.
      * cbn. apply orb_false_iff in GD. destruct GD as [G D]. split; [reflexivity|]. split; [assumption|].
        cbn [in_order]. apply in_or_app. right. left. symmetry. apply (not_lt_gt o LAW); assumption.
Qed.

(** ** remove *)
Lemma tremove_sim t : forall value fs,
  match tremove_node o risk value t fs with
  | Done r _ => remove_node o value t = Val r
  | Undef => forall r, remove_node o value t <> Val r
  | Threw _ => True
  end.
Proof.
  assert (RB : forall S (t : tree) b fs,
    match @trebalance T S t b fs with
    | Done r _ => (let* t := rebalance t in Val (t, b)) = Val r
    | Undef => forall r, (let* t := rebalance t in Val (t, b)) <> Val r
    | Threw _ => True
    end).
  { intros S t' b fs. unfold trebalance. destruct (rebalance t') as [t2| | |]; cbn; try reflexivity; discriminate. }
  induction t as [|j p h x l IHl r IHr]; intros value fs; [reflexivity|].
  cbn [tremove_node remove_node]. pt; [exact Logic.I|]. destruct (lt_ o value x).
  - specialize (IHl value fs0). destruct (tremove_node o risk value l fs0) as [[l' b] fs1|l'|]; [|exact Logic.I|].
    + rewrite IHl. cbn [bind]. apply RB.
    + intros r0. destruct (remove_node o value l) as [q| | |]; cbn; try discriminate. exfalso. apply (IHl q). reflexivity.
  - pt; [exact Logic.I|]. destruct (gt_ o value x).
    + specialize (IHr value fs1). destruct (tremove_node o risk value r fs1) as [[r' b] fs2|r'|]; [|exact Logic.I|].
      * rewrite IHr. cbn [bind]. apply RB.
      * intros r0. destruct (remove_node o value r) as [q| | |]; cbn; try discriminate. exfalso. apply (IHr q). reflexivity.
    + destruct l as [|k q g y ll lr]; [apply RB|]. destruct r as [|k' q' g' y' rl rr]; [apply RB|].
      pt; [exact Logic.I|]. pt; [exact Logic.I|]. pt; [exact Logic.I|].
      specialize (IHr (leftmost y' rl) fs4).
      destruct (tremove_node o risk (leftmost y' rl) (Node k' q' g' y' rl rr) fs4) as [[r' b] fs5|r'|]; [|exact Logic.I|].
      * rewrite IHr. cbn [bind]. apply RB.
      * intros r0. destruct (remove_node o _ (Node k' q' g' y' rl rr)) as [w| | |]; cbn; try discriminate. exfalso. apply (IHr w). reflexivity.
Qed.

Lemma trebalance_threw S (t : tree) b fs s : @trebalance T S t b fs <> Threw s.
Proof. unfold trebalance. destruct (rebalance t); discriminate. Qed.

(** Removing the least value, when it is there once, changes nothing before the
    node is deleted. *)
Lemma tremove_least m t : forall fs tl t', in_order t = m :: tl -> sorted o (in_order t) -> ~ In m tl ->
  tremove_node o risk m t fs = Threw t' -> t' = t.
Proof.
  induction t as [|j p h x l IHl r IHr]; intros fs tl t' E S N H; [discriminate|].
  cbn [tremove_node] in H. pth H fs1; [congruence|].
  cbn [in_order] in E, S. pose proof S as S0. apply (sorted_app o LAW) in S. destruct S as (Sl & Sr & Fl & Fr).
  destruct (in_order l) as [|a l0] eqn:IL.
  - destruct l as [|? ? ? ? a b]; [|cbn in IL; destruct (in_order a); discriminate].
    cbn in E. injection E as <- <-. rewrite (lt_irrefl o LAW) in H. cbv beta in H.
    pth H fs2; [congruence|]. rewrite (gt_is_lt o LAW), (lt_irrefl o LAW) in H. exfalso. eapply trebalance_threw. exact H.
  - cbn [app] in E. injection E as E1 E2. subst a tl. assert (L : lt_ o m x = true).
    { destruct (lt_total o LAW m x) as [L|[L|L]]; [assumption| |].
      - exfalso. apply N. subst x. apply in_or_app. right. left. reflexivity.
      - inversion Fl as [|? ? A]; subst. unfold AvlProofs.le in A. congruence. }
    rewrite L in H. destruct (tremove_node o risk m l fs1) as [[l' b] ?|l'|] eqn:R; [exfalso; eapply trebalance_threw; exact H| |discriminate].
    injection H as <-. f_equal. eapply (IHl fs1 l0); auto.
    intros I. apply N. apply in_or_app. auto.
Qed.

Definition threw_ok value (t t' : tree) : Prop :=
  wf false t' /\ ppar t' = ppar t /\ t' <> Leaf /\ size t' = size t /\ sorted o (in_order t') /\
  (t' = t \/ overwritten o value (in_order t) (in_order t')).

Lemma over_left value x (l l' r : list T) : sorted o (l ++ x :: r) -> overwritten o value l l' -> overwritten o value (l ++ x :: r) (l' ++ x :: r).
Proof.
  intros S (w & rest & A & B & C & D). apply (sorted_app o LAW) in S. destruct S as (Sl & Sr & Fl & Fr).
  exists w, (rest ++ x :: r). split; [assumption|]. split; [rewrite B; reflexivity|]. split; [rewrite C; reflexivity|].
  intros ND u I L. assert (W : In w l) by (eapply Permutation_in; [symmetry; exact B|right; left; reflexivity]).
  rewrite Forall_forall in Fl, Fr. specialize (Fl w W). apply in_app_or in I. destruct I as [I|I].
  - apply D; auto. apply NoDup_remove_1 in ND. clear -ND. induction l; [constructor|]. inversion ND; subst. constructor; auto. intros H. apply H1. apply in_or_app. auto.
  - change (le w u). destruct I as [->|I]; [assumption|]. eapply (le_trans o LAW); [exact Fl|]. apply Fr. assumption.
Qed.

Lemma perm_two {A} (l rest : list A) x a b : Permutation (l ++ x :: a :: b :: rest) (a :: b :: l ++ x :: rest).
Proof.
  assert (O : forall a rest, Permutation (l ++ x :: a :: rest) (a :: l ++ x :: rest)).
  { intros c k. rewrite (perm_swap c x k). symmetry. apply Permutation_middle. }
  rewrite O. apply perm_skip. apply O.
Qed.

Lemma over_right value x (l r r' : list T) : sorted o (l ++ x :: r) -> lt_ o x value = true -> overwritten o value r r' ->
  overwritten o value (l ++ x :: r) (l ++ x :: r').
Proof.
  intros S X (w & rest & A & B & C & D). apply (sorted_app o LAW) in S. destruct S as (Sl & Sr & Fl & Fr).
  exists w, (l ++ x :: rest). split; [assumption|]. split; [|split].
  - rewrite B. apply perm_two.
  - rewrite C. apply perm_two.
  - intros ND u I L. apply in_app_or in I. rewrite Forall_forall in Fl, Fr. destruct I as [I|[->|I]].
    + specialize (Fl u I). exfalso. pose proof (lt_trans o LAW _ _ _ X L) as Z. unfold AvlProofs.le in Fl. congruence.
    + exfalso. pose proof (lt_trans o LAW _ _ _ X L) as Z. rewrite (lt_irrefl o LAW) in Z. discriminate.
    + apply D; auto. apply NoDup_remove_1 in ND. clear -ND. induction l; [assumption|]. inversion ND; auto.
Qed.

Lemma over_length value l l' : overwritten o value l l' -> length l' = length l.
Proof. intros (w & rest & _ & A & B & _). apply Permutation_length in A, B. cbn in *. congruence. Qed.
Lemma over_forall value (P : T -> Prop) l l' : overwritten o value l l' -> Forall P l -> Forall P l'.
Proof.
  intros (w & rest & _ & A & B & _) F. eapply Forall_perm; [exact B|]. apply Forall_perm with (l' := value :: w :: rest) in F; [|symmetry; exact A].
  inversion F as [|? ? F1 F2]; subst. inversion F2; subst. auto.
Qed.

Lemma tremove_threw t : forall value fs t', wf false t -> sorted o (in_order t) ->
  tremove_node o risk value t fs = Threw t' -> threw_ok value t t'.
Proof.
  induction t as [|j p h x l IHl r IHr]; intros value fs t' W S H; [discriminate|].
  assert (SAME : threw_ok value (Node j p h x l r) (Node j p h x l r)).
  { split; [assumption|]. split; [reflexivity|]. split; [discriminate|]. split; [reflexivity|]. split; [assumption|]. left. reflexivity. }
  cbn [tremove_node] in H. pth H fs1; [injection H as <-; exact SAME|].
  pose proof S as S0. cbn [in_order] in S. apply (sorted_app o LAW) in S. destruct S as (Sl & Sr & Fl & Fr).
  pose proof W as (Wh & _ & Wl & Wr & Hl & Hr). rewrite size_node in Wh.
  assert (HP : forall c c' v, haspar c -> threw_ok v c c' -> haspar c').
  { intros c c' v HC (_ & A & B & C & _). destruct c'; [congruence|]. destruct c; [exfalso; rewrite size_node in C; discriminate|].
    cbn in *. rewrite A. assumption. }
  destruct (lt_ o value x) eqn:LT.
  - destruct (tremove_node o risk value l fs1) as [[l' b] ?|l'|] eqn:R; [exfalso; eapply trebalance_threw; exact H| |discriminate].
    injection H as <-. pose proof (IHl value fs1 l' Wl Sl R) as TH. pose proof (HP _ _ _ Hl TH) as HL. destruct TH as (A1 & A2 & A3 & A4 & A5 & A6).
    split; [cbn [wf]; rewrite size_node; split; [lia|]; split; [discriminate|]; tauto|]. split; [reflexivity|]. split; [discriminate|].
    split; [rewrite !size_node; lia|]. destruct A6 as [->|A6]; [split; [assumption|left; reflexivity]|].
    cbn [in_order]. split; [|right; apply over_left; assumption]. apply (sorted_app o LAW). split; [assumption|]. split; [assumption|]. split; [|assumption].
    eapply over_forall; eassumption.
  - pth H fs2; [injection H as <-; exact SAME|]. destruct (gt_ o value x) eqn:GT.
    + rewrite (gt_is_lt o LAW) in GT. destruct (tremove_node o risk value r fs2) as [[r' b] ?|r'|] eqn:R; [exfalso; eapply trebalance_threw; exact H| |discriminate].
      injection H as <-. pose proof (IHr value fs2 r' Wr Sr R) as TH. pose proof (HP _ _ _ Hr TH) as HL. destruct TH as (A1 & A2 & A3 & A4 & A5 & A6).
      split; [cbn [wf]; rewrite size_node; split; [lia|]; split; [discriminate|]; tauto|]. split; [reflexivity|]. split; [discriminate|].
      split; [rewrite !size_node; lia|]. destruct A6 as [->|A6]; [split; [assumption|left; reflexivity]|].
      cbn [in_order]. split; [|right; apply over_right; assumption]. apply (sorted_app o LAW). split; [assumption|]. split; [assumption|]. split; [assumption|].
      eapply over_forall; eassumption.
    + assert (value = x) by (apply (not_lt_gt o LAW); assumption). subst value.
      destruct l as [|k q g y ll lr]; [exfalso; eapply trebalance_threw; exact H|].
      destruct r as [|k' q' g' y' rl rr]; [exfalso; eapply trebalance_threw; exact H|].
      pth H fs3; [injection H as <-; exact SAME|]. pth H fs4; [injection H as <-; exact SAME|].
      set (l := Node k q g y ll lr) in *. set (r := Node k' q' g' y' rl rr) in *.
      destruct (leftmost_hd k' q' g' y' rl rr) as (tl & HD). fold r in HD. set (m := leftmost y' rl) in *.
      assert (LM : le x m) by (rewrite HD in Fr; inversion Fr; assumption).
      assert (FM : Forall (fun b => le m b) (in_order r)).
      { rewrite HD in *. unfold sorted in Sr. inversion Sr; subst. constructor; [apply (lt_irrefl o LAW)|assumption]. }
      assert (STEP : forall r', threw_ok m r r' -> (NoDup (in_order r) -> r' = r) -> threw_ok x (Node j p h x l r) (Node j p h m l r')).
      { intros r' TH ND. pose proof (HP _ _ _ Hr TH) as HL. destruct TH as (A1 & A2 & A3 & A4 & A5 & A6).
        split; [cbn [wf]; rewrite size_node; split; [lia|]; split; [discriminate|]; tauto|]. split; [reflexivity|]. split; [discriminate|].
        split; [rewrite !size_node; lia|]. split.
        - cbn [in_order]. apply (sorted_app o LAW). split; [assumption|]. split; [assumption|]. split.
          + eapply Forall_impl; [|exact Fl]. intros a Ha. exact (le_trans o LAW a x m Ha LM).
          + destruct A6 as [->|A6]; [assumption|]. eapply over_forall; eassumption.
        - destruct (lt_total o LAW x m) as [L|[E|L]]; [| |unfold AvlProofs.le in LM; congruence].
          + right. destruct A6 as [->|A6].
            * exists m, (in_order l ++ tl). split; [assumption|]. cbn [in_order]. rewrite HD. split; [|split].
              -- rewrite <- (Permutation_middle (in_order l) (m :: tl) x). apply perm_skip. symmetry. apply Permutation_middle.
              -- rewrite <- (Permutation_middle (in_order l) (m :: tl) m). apply perm_skip. symmetry. apply Permutation_middle.
              -- intros _ u I L2. apply in_app_or in I. rewrite HD in FM. rewrite Forall_forall in Fl, FM. destruct I as [I|[->|I]].
                 ++ specialize (Fl u I). unfold AvlProofs.le in Fl. congruence.
                 ++ rewrite (lt_irrefl o LAW) in L2. discriminate.
                 ++ apply FM. assumption.
            * destruct A6 as (w & rest & B1 & B2 & B3 & B4). exists w, (m :: in_order l ++ rest).
              split; [exact (lt_trans o LAW _ _ _ L B1)|]. cbn [in_order]. split; [|split].
              -- rewrite B2. rewrite <- (Permutation_middle (in_order l) _ x). apply perm_skip.
                 rewrite (perm_swap w m rest). rewrite <- (Permutation_middle (in_order l) _ w). apply perm_skip. symmetry. apply Permutation_middle.
              -- rewrite B3. rewrite <- (Permutation_middle (in_order l) _ m).
                 rewrite <- (Permutation_middle (in_order l) _ w). rewrite <- (Permutation_middle (in_order l) _ w).
                 rewrite (perm_swap w m). rewrite (perm_swap w m). reflexivity.
              -- intros NDD. exfalso. assert (N2 : NoDup (in_order r)).
                 { clear -NDD. apply NoDup_remove_1 in NDD. induction (in_order l); [exact NDD|]. inversion NDD; auto. }
                 specialize (ND N2). subst r'. apply (Permutation_NoDup B3) in N2. inversion N2 as [|? ? NI]; subst. apply NI. left. reflexivity.
          + rewrite <- E. destruct A6 as [->|A6]; [left; reflexivity|]. right. rewrite <- E in A6. cbn [in_order].
            destruct A6 as (w & rest & B1 & B2 & B3 & B4). exists w, (in_order l ++ x :: rest). split; [assumption|].
            split; [rewrite B2; apply perm_two|]. split; [rewrite B3; apply perm_two|].
            intros NDD. exfalso. apply NoDup_remove_2 in NDD. apply NDD. apply in_or_app. right. rewrite HD, E. left. reflexivity. }
      pth H fs5.
      * injection H as <-. apply STEP; [|reflexivity]. split; [assumption|]. split; [reflexivity|]. split; [discriminate|]. split; [reflexivity|]. split; [assumption|]. left. reflexivity.
      * destruct (tremove_node o risk m r fs5) as [[r' b] ?|r'|] eqn:R; [exfalso; eapply trebalance_threw; exact H| |discriminate].
        injection H as <-. apply STEP; [eapply (IHr m fs5); eassumption|]. intros ND. eapply (tremove_least m r fs5 tl); eauto.
        rewrite HD in ND. inversion ND; assumption.
Qed.

(** ** contains, copies *)
Lemma tcontains_sim value t : forall fs,
  match tcontains_node o risk value t fs with
  | Done b _ => contains_node o value t = b | Threw _ => True | Undef => False
  end.
Proof.
  induction t as [|j p h x l IHl r IHr]; intros fs; [reflexivity|]. cbn [tcontains_node contains_node].
  pt; [exact Logic.I|]. destruct (lt_ o value x); [apply IHl|]. pt; [exact Logic.I|]. destruct (gt_ o value x); [apply IHr|].
  pt; [exact Logic.I|]. reflexivity.
Qed.

Lemma tcopy_sim t : forall i fs,
  match tcopy_into dflt risk i t fs with
  | Done (t', n) _ => (exists v l r, t' = Node i None 1 v l r) /\ forall p, copy_node i p t = (set_parent t' p, n)
  | Threw (t', n) => exists l r, t' = Node i None 1 dflt l r /\ incl (in_order t') (dflt :: in_order t) /\ size t' <= size t
  | Undef => t = Leaf
  end.
Proof.
  induction t as [|j p h v l IHl r IHr]; intros i fs; [reflexivity|]. cbn [tcopy_into copy_node].
  assert (L : forall (l' r' : tree), incl (in_order l') (dflt :: in_order l) -> incl (in_order r') (dflt :: in_order r) ->
     size l' <= size l -> size r' <= size r -> 
     exists l0 r0, Node i None 1 dflt l' r' = Node i None 1 dflt l0 r0 /\ incl (in_order (Node i None 1 dflt l' r')) (dflt :: in_order (Node j p h v l r)) /\
     size (Node i None 1 dflt l' r') <= size (Node j p h v l r)).
  { intros l' r' A B C D. exists l', r'. split; [reflexivity|]. split.
    - cbn [in_order]. intros z Hz. apply in_app_or in Hz. cbn [In]. rewrite in_app_iff. cbn [In].
      destruct Hz as [Hz|[Hz|Hz]]; [apply A in Hz|auto|apply B in Hz]; destruct Hz as [Hz|Hz]; auto.
    - rewrite !size_node. lia. }
  assert (NIL : forall q, incl (in_order (@Leaf T)) q) by (intros q z []).
  assert (SUB : forall c c' : tree, incl (in_order c') (in_order c) -> incl (in_order c') (dflt :: in_order c)) by (intros c c' H z Hz; right; auto).
  assert (R : forall l' n fs, incl (in_order l') (in_order l) -> size l' <= size l ->
    (forall c, copy_node (S i) (Some i) l = c -> c = (l', n)) ->
    match (match r with
      | Leaf => (fun r' next fs => point risk Copy fs (Node i None 1 dflt l' r', next) (fun fs => Done (Node i None 1 v l' r', next) fs)) Leaf n fs
      | Node _ _ _ _ _ _ =>
            point risk Copy fs (Node i None 1 dflt l' Leaf, n) (fun fs =>
            match tcopy_into dflt risk n r fs with
            | Done (c', next) fs => (fun r' next fs => point risk Copy fs (Node i None 1 dflt l' r', next) (fun fs => Done (Node i None 1 v l' r', next) fs)) (set_parent c' (Some i)) next fs
            | Threw (c', next) => Threw (Node i None 1 dflt l' c', next)
            | Undef => Undef
            end) end) with
    | Done (t', n) _ => (exists v l r, t' = Node i None 1 v l r) /\ forall q, (let (l', i1) := copy_node (S i) (Some i) l in let (r', i2) := copy_node i1 (Some i) r in (Node i q 1 v l' r', i2)) = (set_parent t' q, n)
    | Threw (t', n) => exists l0 r0, t' = Node i None 1 dflt l0 r0 /\ incl (in_order t') (dflt :: in_order (Node j p h v l r)) /\ size t' <= size (Node j p h v l r)
    | Undef => Node j p h v l r = Leaf
    end).
  { intros l' n fs0 A B C. destruct r as [|rj rp rh rv rl rr].
    - pt; [apply L; auto|]. split; [eauto|]. intros q. rewrite (C _ eq_refl). reflexivity.
    - set (r := Node rj rp rh rv rl rr) in *. pt; [apply L; auto; unfold size; cbn; lia|].
      specialize (IHr n fs1). destruct (tcopy_into dflt risk n r fs1) as [[c' nx] fs2|[c' nx]|]; [| |discriminate].
      + destruct IHr as [NL IHr]. pose proof (copy_ok r n (Some i)) as (I1 & _). specialize (IHr (Some i)). rewrite IHr in I1. cbn [fst] in I1.
        pt.
        * apply L; auto; [apply SUB; rewrite I1; apply incl_refl|]. unfold size. rewrite I1. lia.
        * split; [eauto|]. intros q. rewrite (C _ eq_refl), IHr. reflexivity.
      + destruct IHr as (a & b & _ & I1 & I2). apply L; auto. }
  destruct l as [|lj lp lh lv ll lr].
  - apply R; [apply incl_refl|lia|]. intros c <-. reflexivity.
  - set (l := Node lj lp lh lv ll lr) in *. pt; [apply L; auto; unfold size; cbn; lia|].
    specialize (IHl (S i) fs0). destruct (tcopy_into dflt risk (S i) l fs0) as [[c' nx] fs2|[c' nx]|]; [| |discriminate].
    + destruct IHl as [NL IHl]. pose proof (copy_ok l (S i) (Some i)) as (I1 & _). specialize (IHl (Some i)). rewrite IHl in I1. cbn [fst] in I1.
      apply (R (set_parent c' (Some i)) nx fs2); [rewrite I1; apply incl_refl|unfold size; rewrite I1; lia|]. intros c <-. exact IHl.
    + destruct IHl as (a & b & _ & I1 & I2). apply (L c' Leaf); auto. unfold size; cbn; lia.
Qed.

(** ** States and histories *)
Notation c s := (in_order (root s)).

Lemma inv_weaken s m : inv o false s (S m) -> inv o false s m.
Proof. intros (A & B & C & D & E). split; [assumption|]. split; [assumption|]. split; [assumption|]. split; [assumption|lia]. Qed.

Lemma tinsert_state s v m fs : inv o false s (S m) ->
  match tinsert o risk s v fs with
  | Done (s', b) _ => inv o false s' m /\ dup s' = dup s /\ effect o (dup s) (c s) (AInsert v) (Some (ABool b)) (c s')
  | Threw s' => inv o false s' m /\ dup s' = dup s /\ effect o (dup s) (c s) (AInsert v) None (c s')
  | Undef => False
  end.
Proof.
  intros I. pose proof I as (W & S & P & C & B). unfold tinsert.
  pose proof (tinsert_ok (dup s) (fresh s) v (root s) fs W S ltac:(lia)) as H.
  assert (MADE : forall t', made_ok (dup s) v (root s) t' -> (root s = Leaf -> ppar t' = None) ->
    inv o false (mkAvl t' (dup s) (wadd (count s) 1) (Datatypes.S (fresh s))) m /\
    (dup s = true \/ ~ In v (c s)) /\ Permutation (in_order t') (v :: c s)).
  { intros t' (M1 & M2 & M3 & M4 & M5 & M6) L. pose proof (perm_size _ _ _ M2) as SZ. split; [|split].
    - split; [assumption|]. split; [assumption|]. cbn [root count]. split; [|split].
      + destruct (root s) eqn:R; [auto|]. rewrite M6 by discriminate. exact P.
      + rewrite C, SZ. apply wadd1. lia.
      + rewrite SZ. lia.
    - destruct (dup s); auto.
    - assumption. }
  assert (SAME : inv o false (mkAvl (root s) (dup s) (count s) (Datatypes.S (fresh s))) m).
  { split; [assumption|]. split; [assumption|]. split; [assumption|]. split; [assumption|]. cbn [root]. lia. }
  destruct (tinsert_node o risk (dup s) (fresh s) v (root s) fs) as [[t' b] fs'|[t' b]|]; [| |exact H]; destruct b; cbn in H.
  - destruct H as [M L]. destruct (MADE t' M L) as (A & A2 & A3). split; [assumption|]. split; [reflexivity|]. cbn. auto.
  - destruct H as (-> & D & IN). split; [assumption|]. split; [reflexivity|]. cbn. auto.
  - destruct H as [M L]. destruct (MADE t' M L) as (A & A2 & A3). split; [assumption|]. split; [reflexivity|]. cbn. auto.
  - subst t'. split; [assumption|]. split; [reflexivity|]. cbn. auto.
Qed.

Lemma tremove_state s v m fs : inv o false s m ->
  match tremove o risk s v fs with
  | Done (s', b) _ => remove o s v = Val (s', b) /\ inv o false s' m /\ dup s' = dup s /\ effect o (dup s) (c s) (ARemove v) (Some (ABool b)) (c s')
  | Threw s' => inv o false s' m /\ dup s' = dup s /\ effect o (dup s) (c s) (ARemove v) None (c s')
  | Undef => False
  end.
Proof.
  intros I. pose proof I as (W & S & P & C & B). unfold tremove.
  pose proof (tremove_sim (root s) v fs) as H.
  destruct (remove_state o LAW false s v m I) as (s1 & b1 & E & I1 & D1 & Hb & P1 & P2).
  destruct (tremove_node o risk v (root s) fs) as [[t' b] fs'|t'|] eqn:R.
  - assert (X : remove o s v = Val (mkAvl t' (dup s) (if b then wsub (count s) 1 else count s) (fresh s), b)) by (unfold remove; rewrite H; reflexivity).
    rewrite X in E. injection E as <- <-. split; [exact X|]. split; [assumption|]. split; [reflexivity|]. cbn.
    destruct b; [auto|]. split; [|auto]. intros IN. apply Hb in IN. discriminate.
  - destruct (tremove_threw (root s) v fs t' W S R) as (A1 & A2 & A3 & A4 & A5 & A6).
    split; [|split; [reflexivity|]].
    + split; [assumption|]. split; [assumption|]. split; [cbn; congruence|]. cbn [root count]. rewrite A4. auto.
    + cbn. destruct A6 as [->|A6]; auto.
  - unfold remove in E. destruct (remove_node o v (root s)) as [q| | |]; cbn in E; try discriminate. exact (H q eq_refl).
Qed.

Lemma tremove_all_ok v m : forall fuel s k fs, inv o false s m -> occ o v (c s) < fuel ->
  (N.of_nat (k + occ o v (c s)) < big)%N ->
  match tremove_all_loop o risk fuel s v (N.of_nat k) fs with
  | Done (s', n) _ => inv o false s' m /\ dup s' = dup s /\
      exists j, n = N.of_nat (k + j) /\ ~ In v (c s') /\ Permutation (c s) (repeat v j ++ c s')
  | Threw s' => inv o false s' m /\ dup s' = dup s /\
      exists j rest, Permutation (c s) (repeat v j ++ rest) /\ (c s' = rest \/ overwritten o v rest (c s'))
  | Undef => False
  end.
Proof.
  induction fuel as [|fuel IH]; intros s k fs I F B; [lia|]. cbn [tremove_all_loop].
  pose proof (tremove_state s v m fs I) as H. destruct (tremove o risk s v fs) as [[s' b] fs'|s'|]; [| |exact H].
  - destruct H as (_ & I1 & D & E). destruct b; cbn in E.
    + assert (O : occ o v (c s) = S (occ o v (c s'))) by (rewrite (occ_perm o v _ _ E); apply (occ_self o LAW)).
      rewrite O in *. rewrite wadd1 by lia.
      pose proof (IH s' (S k) fs' I1 ltac:(lia) ltac:(replace (S k + occ o v (c s')) with (k + S (occ o v (c s'))) by lia; exact B)) as G.
      destruct (tremove_all_loop o risk fuel s' v (N.of_nat (S k)) fs') as [[s2 n] fs2|s2|]; [| |exact G].
      * destruct G as (G1 & G2 & j & G3 & G4 & G5). split; [assumption|]. split; [congruence|]. exists (S j).
        split; [rewrite G3; f_equal; lia|]. split; [assumption|]. cbn. rewrite E, G5. reflexivity.
      * destruct G as (G1 & G2 & j & rest & G3 & G4). split; [assumption|]. split; [congruence|]. exists (S j), rest.
        split; [cbn; rewrite E, G3; reflexivity|assumption].
    + destruct E as [NI E]. split; [assumption|]. split; [assumption|]. exists 0. rewrite Nat.add_0_r. rewrite E.
      split; [reflexivity|]. split; [assumption|]. reflexivity.
  - destruct H as (I1 & D & E). split; [assumption|]. split; [assumption|]. exists 0, (c s). split; [reflexivity|]. exact E.
Qed.

Lemma tstep_ok s op fs m : inv o false s (S m) ->
  match tstep o dflt risk s op fs with
  | Done (s', r) _ => inv o false s' m /\ dup s' = dup_after (dup s) [op] /\ effect o (dup s) (c s) op (Some r) (c s')
  | Threw s' => inv o false s' m /\ dup s' = dup_after (dup s) [op] /\ effect o (dup s) (c s) op None (c s')
  | Undef => False
  end.
Proof.
  intros I. pose proof (inv_weaken s m I) as I'. pose proof I as (W & S & P & C & B).
  destruct op as [v|v|v|v| | | |b| |]; cbn [tstep dup_after].
  - pose proof (tinsert_state s v m fs I) as H. destruct (tinsert o risk s v fs) as [[s' b] ?|s'|]; assumption.
  - pose proof (tremove_state s v m fs I') as H. destruct (tremove o risk s v fs) as [[s' b] ?|s'|]; tauto.
  - pose proof (occ_le_length o v (c s)) as L. fold (size (root s)) in L. unfold tremove_all. rewrite visited_size.
    pose proof (tremove_all_ok v m (Datatypes.S (size (root s))) s 0 fs I' ltac:(lia) ltac:(lia)) as H. cbn [N.of_nat] in H.
    destruct (tremove_all_loop o risk (Datatypes.S (size (root s))) s v 0 fs) as [[s' n] ?|s'|]; exact H.
  - pose proof (tcontains_sim v (root s) fs) as H. destruct (tcontains_node o risk v (root s) fs) as [b ?|?|]; [| |exact H];
      (split; [assumption|]; split; [reflexivity|]); cbn; [|reflexivity]. split; [|reflexivity]. rewrite <- H. apply (contains_ok o LAW). assumption.
  - cbn. split; [assumption|]. split; [reflexivity|]. split; [exact C|reflexivity].
  - cbn. split; [assumption|]. split; [reflexivity|]. split; [reflexivity|]. rewrite visited_size. split; reflexivity.
  - cbn. split; [|split; reflexivity]. unfold inv, size. cbn in *. repeat split; auto; [constructor|]. unfold size in B. lia.
  - cbn. split; [assumption|]. split; reflexivity.
  - unfold tcopy_assign. cbn [fresh root dup count]. destruct (root s) as [|j q h v l r] eqn:R.
    + cbn. split; [|split; reflexivity]. destruct s as [rt du co fr]. cbn in R. subst rt.
      unfold inv, size in *. cbn in *. tauto.
    + pt; [cbn [fresh root]; split; [|split; reflexivity]; unfold inv; cbn [root count]; rewrite <- R; auto|].
      pose proof (tcopy_sim (Node j q h v l r) (fresh s) fs0) as H.
      destruct (tcopy_into dflt risk (fresh s) (Node j q h v l r) fs0) as [[t' n] ?|[t' n]|]; [| |discriminate].
      * destruct H as [(v' & l' & r' & E) H]. pose proof (copy_ok (Node j q h v l r) (fresh s) None) as (A1 & A2 & A3 & _).
        rewrite (H None) in A1, A2, A3. rewrite E in *. cbn [fst set_parent] in A1, A2, A3. split; [|split; [reflexivity|exact A1]].
        split; [exact A2|]. cbn [root count]. unfold size in *. rewrite A1. split; [assumption|]. split; [reflexivity|]. split; [assumption|lia].
      * cbn [fresh root]. split; [|split; reflexivity]. unfold inv. cbn [root count]. rewrite <- R. auto.
  - cbn. split; [assumption|]. split; reflexivity.
Qed.

Lemma trun_ok ops : forall s m, inv o false s (length ops + m) ->
  exists s' rs, trun o dflt risk s ops = Val (s', rs) /\ inv o false s' m /\ dup s' = dup_after (dup s) (map fst ops) /\
    conforms o (dup s) (c s) (map fst ops) rs (c s').
Proof.
  induction ops as [|[op fs] ops IH]; intros s m I.
  - exists s, []. split; [reflexivity|]. split; [assumption|]. split; reflexivity.
  - cbn [trun map fst length Nat.add] in *. pose proof (tstep_ok s op fs (length ops + m) I) as H.
    destruct (tstep o dflt risk s op fs) as [[s1 r] ?|s1|]; [| |contradiction]; destruct H as (I1 & D1 & E1);
      destruct (IH s1 m I1) as (s' & rs & E2 & I2 & D2 & C2); rewrite E2; cbn [bind];
      (eexists s', _; split; [reflexivity|]; split; [assumption|]);
      rewrite dup_after_cons, <- D1; (split; [assumption|]); cbn [conforms]; exists (c s1);
      (split; [apply I1|]); (split; [exact E1|]); rewrite <- D1; exact C2.
Qed.

Lemma histories ops : (N.of_nat (length ops) < big)%N ->
  exists s rs, trun o dflt risk avl_new ops = Val (s, rs) /\ conforms o false [] (map fst ops) rs (c s).
Proof.
  intros B. destruct (trun_ok ops avl_new 0) as (s & rs & E & _ & _ & C).
  - apply new_inv. rewrite Nat.add_0_r. assumption.
  - exists s, rs. auto.
Qed.
End P.

(** ** What holds in every state *)
Section Q.
Context {T : Type} (o : order T) (dflt : T) (risk : kind -> bool).
Notation tree := (tree T).
Notation avl := (avl T).
Local Ltac pt :=
  match goal with |- context [point risk ?k ?fs ?th ?go] =>
    let E := fresh "E" in let g := fresh "fs" in
    destruct (point_cases risk k fs th go) as [E|[g E]]; rewrite E; clear E; cbv beta
  end.

Lemma tinsert_sim dup i value t : forall fs,
  match tinsert_node o risk dup i value t fs with
  | Done r _ => insert_node o dup i value t = Val r
  | Undef => forall r, insert_node o dup i value t <> Val r
  | Threw _ => True
  end.
Proof.
  assert (RB : forall (t : tree) (b : bool) fs,
    match finish_insert o risk t value b fs with
    | Done r _ => (if b then let* t := rotate_if_needed o t value in Val (t, true) else Val (t, false)) = Val r
    | Undef => forall r, (if b then let* t := rotate_if_needed o t value in Val (t, true) else Val (t, false)) <> Val r
    | Threw _ => True
    end).
  { intros t0 b fs. unfold finish_insert. destruct b; [|reflexivity].
    destruct t0 as [|j p h x l r]; [discriminate|]. cbn [trotate_if_needed rotate_if_needed].
    destruct (diff (ht l) (ht r) 2).
    - destruct l; [discriminate|]. pt; [exact Logic.I|]. destruct (lt_ o value v); reflexivity.
    - destruct (diff (ht r) (ht l) 2); [|reflexivity].
      destruct r; [discriminate|]. pt; [exact Logic.I|]. destruct (gt_ o value v); reflexivity. }
  induction t as [|j p h x l IHl r IHr]; intros fs; cbn [tinsert_node insert_node].
  - pt; [exact Logic.I|]. apply RB.
  - assert (BL : forall cc, (forall fs, match tinsert_node o risk dup i value cc fs with
        | Done r _ => insert_node o dup i value cc = Val r
        | Undef => forall r, insert_node o dup i value cc <> Val r | Threw _ => True end) ->
      forall fs, match (match cc with
          | Leaf => point risk Copy fs (Leaf, false) (fun fs => Done (Node i (Some j) 1 value Leaf Leaf, true) fs)
          | Node _ _ _ _ _ _ => tinsert_node o risk dup i value cc fs end) with
        | Done r _ => match cc with Leaf => Val (Node i (Some j) 1 value Leaf Leaf, true) | _ => insert_node o dup i value cc end = Val r
        | Undef => forall r, match cc with Leaf => Val (Node i (Some j) 1 value Leaf Leaf, true) | _ => insert_node o dup i value cc end <> Val r
        | Threw _ => True end).
    { intros cc H f. destruct cc; [pt; [exact Logic.I|reflexivity]|]. apply H. }
    pose proof (BL l IHl) as BL1. pose proof (BL r IHr) as BL2. clear BL IHl IHr.
    pt; [exact Logic.I|]. destruct (lt_ o value x).
    + specialize (BL1 fs0). set (e := match l with Leaf => point _ _ _ _ _ | Node _ _ _ _ _ _ => tinsert_node _ _ _ _ _ l _ end) in *.
      set (e' := match l with Leaf => Val _ | Node _ _ _ _ _ _ => _ end) in *.
      clearbody e e'. destruct e as [[l' b] fs1|[l' b]|]; [|exact Logic.I|].
      * rewrite BL1. cbn [bind]. apply RB.
      * intros r0. destruct e' as [q| | |]; cbn; try discriminate. exfalso. apply (BL1 q). reflexivity.
    + pt; [exact Logic.I|]. destruct (gt_ o value x || dup); [|reflexivity].
      specialize (BL2 fs1). set (e := match r with Leaf => point _ _ _ _ _ | Node _ _ _ _ _ _ => tinsert_node _ _ _ _ _ r _ end) in *.
      set (e' := match r with Leaf => Val _ | Node _ _ _ _ _ _ => _ end) in *.
      clearbody e e'. destruct e as [[r' b] fs2|[r' b]|]; [|exact Logic.I|].
      * rewrite BL2. cbn [bind]. apply RB.
      * intros r0. destruct e' as [q| | |]; cbn; try discriminate. exfalso. apply (BL2 q). reflexivity.
Qed.

Lemma remove_all_sim v : forall fuel s k fs,
  match tremove_all_loop o risk fuel s v k fs with
  | Done r _ => remove_all_loop o fuel s v k = Val r
  | Undef => forall r, remove_all_loop o fuel s v k <> Val r
  | Threw _ => True
  end.
Proof.
  induction fuel as [|fuel IH]; intros s k fs; [discriminate|]. cbn [tremove_all_loop remove_all_loop].
  unfold tremove, remove. pose proof (tremove_sim o risk (root s) v fs) as H.
  destruct (tremove_node o risk v (root s) fs) as [[t b] fs1|t|]; [|exact Logic.I|].
  - rewrite H. cbn [bind]. destruct b; [apply IH|reflexivity].
  - intros r. destruct (remove_node o v (root s)) as [q| | |]; cbn; try discriminate. exfalso. apply (H q). reflexivity.
Qed.

Lemma copy_assign_sim (target s : avl) fs :
  match tcopy_assign dflt risk target s fs with
  | Done r _ => copy_assign target s = r
  | Undef => False
  | Threw s' => s' = target \/
      dup s' = dup target /\ count s' = count target /\
      (exists i l r, root s' = Node i None 1 dflt l r) /\
      incl (in_order (root s')) (dflt :: in_order (root s)) /\
      length (in_order (root s')) <= length (in_order (root s))
  end.
Proof.
  unfold tcopy_assign, copy_assign. destruct (root s) as [|j p h v l r]; [reflexivity|].
  pt; [left; reflexivity|]. pose proof (tcopy_sim dflt risk (Node j p h v l r) (fresh target) fs0) as H.
  destruct (tcopy_into dflt risk (fresh target) (Node j p h v l r) fs0) as [[t n] ?|[t n]|]; [| |discriminate].
  - destruct H as [(v' & l' & r' & E) H]. rewrite (H None), E. reflexivity.
  - right. destruct H as (l' & r' & E & A & B). cbn [dup count root]. split; [reflexivity|]. split; [reflexivity|].
    split; [eauto|]. split; assumption.
Qed.

(** A call that returns does what it does without exceptions. *)
Lemma returns s op fs :
  match tstep o dflt risk s op fs with
  | Done r _ => astep o s op = Val r
  | Undef => forall r, astep o s op <> Val r
  | Threw _ => True
  end.
Proof.
  destruct op as [v|v|v|v| | | |b| |]; cbn [tstep astep]; try reflexivity.
  - unfold tinsert, insert. pose proof (tinsert_sim (dup s) (fresh s) v (root s) fs) as H.
    destruct (tinsert_node o risk (dup s) (fresh s) v (root s) fs) as [[t b] fs1|[t b]|]; [rewrite H; reflexivity|exact Logic.I|].
    intros r. destruct (insert_node o (dup s) (fresh s) v (root s)) as [q| | |]; cbn; try discriminate. exfalso. apply (H q). reflexivity.
  - unfold tremove, remove. pose proof (tremove_sim o risk (root s) v fs) as H.
    destruct (tremove_node o risk v (root s) fs) as [[t b] fs1|t|]; [rewrite H; reflexivity|exact Logic.I|].
    intros r. destruct (remove_node o v (root s)) as [q| | |]; cbn; try discriminate. exfalso. apply (H q). reflexivity.
  - unfold tremove_all, remove_all. pose proof (remove_all_sim v (S (visited (root s))) s 0%N fs) as H.
    destruct (tremove_all_loop o risk (S (visited (root s))) s v 0 fs) as [[s' n] ?|s'|]; [rewrite H; reflexivity|exact Logic.I|].
    intros r. destruct (remove_all_loop o (S (visited (root s))) s v 0) as [q| | |]; cbn; try discriminate. exfalso. apply (H q). reflexivity.
  - pose proof (tcontains_sim o risk v (root s) fs) as H. destruct (tcontains_node o risk v (root s) fs) as [b ?|?|]; [|exact Logic.I|contradiction].
    unfold contains. rewrite H. reflexivity.
  - pose proof (copy_assign_sim (mkAvl Leaf false 0 (fresh s)) s fs) as H.
    destruct (tcopy_assign dflt risk (mkAvl Leaf false 0 (fresh s)) s fs) as [r ?|s'|]; [|exact Logic.I|contradiction].
    unfold copy_construct. rewrite H. reflexivity.
Qed.

(** ** Points that do not throw *)
Lemma point_safe {S A} k fs (thrown : S) (go : list bool -> ending S A) : risk k = false -> exists fs', point risk k fs thrown go = go fs'.
Proof. intros R. unfold point. destruct fs as [|f fs]; [eauto|]. rewrite R, andb_false_r. eauto. Qed.

Local Ltac ps R :=
  match goal with |- context [point risk Compare ?fs ?th ?go] =>
    let E := fresh "E" in let g := fresh "fs" in
    destruct (point_safe Compare fs th go R) as [g E]; rewrite E; clear E; cbv beta
  end.

Lemma tinsert_strong dup i value t : risk Compare = false -> forall fs,
  match tinsert_node o risk dup i value t fs with Threw (t', made) => t' = t /\ made = false | _ => True end.
Proof.
  intros R.
  assert (F : forall (t : tree) b fs, match finish_insert o risk t value b fs with Threw _ => False | _ => True end).
  { intros t0 b fs. unfold finish_insert. destruct b; [|exact Logic.I]. destruct t0 as [|j p h x l r]; [exact Logic.I|].
    cbn [trotate_if_needed]. destruct (diff (ht l) (ht r) 2).
    - destruct l; [exact Logic.I|]. ps R. destruct (lt_ o value v); exact Logic.I.
    - destruct (diff (ht r) (ht l) 2); [|exact Logic.I].
      destruct r; [exact Logic.I|]. ps R. destruct (gt_ o value v); exact Logic.I. }
  assert (F2 : forall t t0 b fs, match finish_insert o risk t value b fs with Threw (t', made) => t' = t0 /\ made = false | _ => True end).
  { intros t1 t0 b fs. specialize (F t1 b fs). destruct (finish_insert o risk t1 value b fs); auto. contradiction. }
  induction t as [|j p h x l IHl r IHr]; intros fs; cbn [tinsert_node].
  - pt; [split; reflexivity|]. apply F2.
  - assert (BL : forall cc, (forall fs, match tinsert_node o risk dup i value cc fs with Threw (t', made) => t' = cc /\ made = false | _ => True end) ->
      forall fs, match (match cc with
          | Leaf => point risk Copy fs (Leaf, false) (fun fs => Done (Node i (Some j) 1 value Leaf Leaf, true) fs)
          | Node _ _ _ _ _ _ => tinsert_node o risk dup i value cc fs end) with
        Threw (t', made) => t' = cc /\ made = false | _ => True end).
    { intros cc H f. destruct cc; [pt; [split; reflexivity|exact Logic.I]|]. apply H. }
    pose proof (BL l IHl) as BL1. pose proof (BL r IHr) as BL2. clear BL IHl IHr.
    ps R. destruct (lt_ o value x).
    + specialize (BL1 fs0). destruct (match l with Leaf => point _ _ _ _ _ | Node _ _ _ _ _ _ => tinsert_node _ _ _ _ _ l _ end) as [[l' b] fs1|[l' b]|];
        [apply F2| |exact Logic.I]. destruct BL1 as [-> ->]. split; reflexivity.
    + ps R. destruct (gt_ o value x || dup); [|exact Logic.I].
      specialize (BL2 fs1). destruct (match r with Leaf => point _ _ _ _ _ | Node _ _ _ _ _ _ => tinsert_node _ _ _ _ _ r _ end) as [[r' b] fs2|[r' b]|];
        [apply F2| |exact Logic.I]. destruct BL2 as [-> ->]. split; reflexivity.
Qed.

Lemma insert_strong s v fs s' : risk Compare = false -> tinsert o risk s v fs = Threw s' ->
  root s' = root s /\ dup s' = dup s /\ count s' = count s.
Proof.
  intros R H. unfold tinsert in H. pose proof (tinsert_strong (dup s) (fresh s) v (root s) R fs) as S.
  destruct (tinsert_node o risk (dup s) (fresh s) v (root s) fs) as [[t b] ?|[t b]|]; try discriminate.
  destruct S as [-> ->]. injection H as <-. repeat split.
Qed.

(** No point of the call throws. *)
Definition quiet (fs : list bool) : Prop := forall k, In true fs -> risk k = false.

Lemma point_quiet {S A} k fs (thrown : S) (go : list bool -> ending S A) : quiet fs -> exists fs', quiet fs' /\ point risk k fs thrown go = go fs'.
Proof.
  intros Q. unfold point. destruct fs as [|f fs]; [eauto|]. exists fs. split; [intros k' H; apply Q; right; exact H|].
  destruct f; [|reflexivity]. rewrite Q by (left; reflexivity). reflexivity.
Qed.
Local Ltac pq Q :=
  match goal with |- context [point risk ?k ?fs ?th ?go] =>
    let E := fresh "E" in let g := fresh "fs" in let Q' := fresh "Q" in
    destruct (point_quiet k fs th go Q) as (g & Q' & E); rewrite E; clear E Q; rename Q' into Q; cbv beta
  end.
Definition silent {S A} (e : ending S A) : Prop := match e with Done _ rest => quiet rest | Threw _ => False | Undef => True end.

Lemma tinsert_quiet dup i value t : forall fs, quiet fs -> silent (tinsert_node o risk dup i value t fs).
Proof.
  assert (F : forall (t : tree) b fs, quiet fs -> silent (finish_insert o risk t value b fs)).
  { intros t0 b fs Q. unfold finish_insert. destruct b; [|exact Q]. destruct t0 as [|j p h x l r]; [exact Logic.I|].
    cbn [trotate_if_needed]. destruct (diff (ht l) (ht r) 2).
    - destruct l; [exact Logic.I|]. pq Q. destruct (lt_ o value v); exact Q.
    - destruct (diff (ht r) (ht l) 2); [|exact Q].
      destruct r; [exact Logic.I|]. pq Q. destruct (gt_ o value v); exact Q. }
  induction t as [|j p h x l IHl r IHr]; intros fs Q; cbn [tinsert_node].
  - pq Q. apply F, Q.
  - assert (BL : forall cc, (forall fs, quiet fs -> silent (tinsert_node o risk dup i value cc fs)) ->
      forall fs, quiet fs -> silent (match cc with
          | Leaf => point risk Copy fs (Leaf, false) (fun fs => Done (Node i (Some j) 1 value Leaf Leaf, true) fs)
          | Node _ _ _ _ _ _ => tinsert_node o risk dup i value cc fs end)).
    { intros cc H f Qf. destruct cc; [pq Qf; exact Qf|]. apply H, Qf. }
    pose proof (BL l IHl) as BL1. pose proof (BL r IHr) as BL2. clear BL IHl IHr.
    pq Q. destruct (lt_ o value x).
    + specialize (BL1 fs0 Q). destruct (match l with Leaf => point _ _ _ _ _ | Node _ _ _ _ _ _ => tinsert_node _ _ _ _ _ l _ end) as [[l' b] fs1|[l' b]|];
        [apply F, BL1|exact BL1|exact Logic.I].
    + pq Q. destruct (gt_ o value x || dup); [|exact Q].
      specialize (BL2 fs1 Q). destruct (match r with Leaf => point _ _ _ _ _ | Node _ _ _ _ _ _ => tinsert_node _ _ _ _ _ r _ end) as [[r' b] fs2|[r' b]|];
        [apply F, BL2|exact BL2|exact Logic.I].
Qed.

Lemma tremove_quiet t : forall value fs, quiet fs -> silent (tremove_node o risk value t fs).
Proof.
  assert (F : forall S (t : tree) b fs, quiet fs -> silent (@trebalance T S t b fs)).
  { intros S t0 b fs Q. unfold trebalance. destruct (rebalance t0); try exact Logic.I. exact Q. }
  induction t as [|j p h x l IHl r IHr]; intros value fs Q; cbn [tremove_node]; [exact Q|].
  pq Q. destruct (lt_ o value x).
  - specialize (IHl value fs0 Q). destruct (tremove_node o risk value l fs0) as [[l' b] fs1|l'|]; [apply F, IHl|exact IHl|exact Logic.I].
  - pq Q. destruct (gt_ o value x).
    + specialize (IHr value fs1 Q). destruct (tremove_node o risk value r fs1) as [[r' b] fs2|r'|]; [apply F, IHr|exact IHr|exact Logic.I].
    + destruct l as [|k q g y ll lr]; [apply F, Q|]. destruct r as [|k' q' g' y' rl rr]; [apply F, Q|].
      pq Q. pq Q. pq Q. specialize (IHr (leftmost y' rl) fs4 Q).
      destruct (tremove_node o risk (leftmost y' rl) (Node k' q' g' y' rl rr) fs4) as [[r' b] fs5|r'|]; [apply F, IHr|exact IHr|exact Logic.I].
Qed.

Lemma tremove_all_quiet v : forall fuel s k fs, quiet fs -> silent (tremove_all_loop o risk fuel s v k fs).
Proof.
  induction fuel as [|fuel IH]; intros s k fs Q; [exact Logic.I|]. cbn [tremove_all_loop]. unfold tremove.
  pose proof (tremove_quiet (root s) v fs Q) as H. destruct (tremove_node o risk v (root s) fs) as [[t b] fs1|t|]; [|exact H|exact Logic.I].
  destruct b; [apply IH, H|exact H].
Qed.

Lemma tcontains_quiet v t : forall fs, quiet fs -> silent (tcontains_node o risk v t fs).
Proof.
  induction t as [|j p h x l IHl r IHr]; intros fs Q; [exact Q|]. cbn [tcontains_node].
  pq Q. destruct (lt_ o v x); [apply IHl, Q|]. pq Q. destruct (gt_ o v x); [apply IHr, Q|]. pq Q. exact Q.
Qed.

Lemma tcopy_quiet t : forall i fs, quiet fs -> silent (tcopy_into dflt risk i t fs).
Proof.
  induction t as [|j p h v l IHl r IHr]; intros i fs Q; [exact Logic.I|]. cbn [tcopy_into].
  assert (R : forall l' n fs, quiet fs -> silent
     (match r with
      | Leaf => point risk Copy fs (Node i None 1 dflt l' Leaf, n) (fun fs => Done (Node i None 1 v l' Leaf, n) fs)
      | Node _ _ _ _ _ _ =>
            point risk Copy fs (Node i None 1 dflt l' Leaf, n) (fun fs =>
            match tcopy_into dflt risk n r fs with
            | Done (c', next) fs => point risk Copy fs (Node i None 1 dflt l' (set_parent c' (Some i)), next) (fun fs => Done (Node i None 1 v l' (set_parent c' (Some i)), next) fs)
            | Threw (c', next) => Threw (Node i None 1 dflt l' c', next)
            | Undef => Undef
            end) end)).
  { intros l' n fs0 Q0. destruct r as [|rj rp rh rv rl rr]; [pq Q0; exact Q0|].
    pq Q0. specialize (IHr n fs1 Q0). destruct (tcopy_into dflt risk n (Node rj rp rh rv rl rr) fs1) as [[c' nx] fs2|[c' nx]|]; [|exact IHr|exact Logic.I].
    cbn in IHr. pq IHr. exact IHr. }
  destruct l as [|lj lp lh lv ll lr]; [apply R, Q|]. pq Q. specialize (IHl (S i) fs0 Q).
  destruct (tcopy_into dflt risk (S i) (Node lj lp lh lv ll lr) fs0) as [[c' nx] fs2|[c' nx]|]; [|exact IHl|exact Logic.I].
  apply R, IHl.
Qed.

Lemma copy_assign_quiet (target s : avl) fs : quiet fs -> silent (tcopy_assign dflt risk target s fs).
Proof.
  intros Q. unfold tcopy_assign. destruct (root s) as [|j p h v l r]; [exact Q|]. pq Q.
  pose proof (tcopy_quiet (Node j p h v l r) (fresh target) fs0 Q) as H.
  destruct (tcopy_into dflt risk (fresh target) (Node j p h v l r) fs0) as [[t n] ?|[t n]|]; exact H.
Qed.

Lemma nothing_thrown s op fs s' : quiet fs -> tstep o dflt risk s op fs <> Threw s'.
Proof.
  intros Q H. destruct op as [v|v|v|v| | | |b| |]; cbn [tstep astep] in H; try discriminate.
  - unfold tinsert in H. pose proof (tinsert_quiet (dup s) (fresh s) v (root s) fs Q) as N.
    destruct (tinsert_node o risk (dup s) (fresh s) v (root s) fs) as [[t b] fs1|[t b]|]; [discriminate|exact N|discriminate].
  - unfold tremove in H. pose proof (tremove_quiet (root s) v fs Q) as N.
    destruct (tremove_node o risk v (root s) fs) as [[t b] fs1|t|]; [discriminate|exact N|discriminate].
  - unfold tremove_all in H. pose proof (tremove_all_quiet v (S (visited (root s))) s 0%N fs Q) as N.
    destruct (tremove_all_loop o risk (S (visited (root s))) s v 0 fs) as [[s1 n] ?|s1|]; [discriminate|exact N|discriminate].
  - pose proof (tcontains_quiet v (root s) fs Q) as N. destruct (tcontains_node o risk v (root s) fs) as [b ?|?|]; [discriminate|exact N|discriminate].
  - pose proof (copy_assign_quiet (mkAvl Leaf false 0 (fresh s)) s fs Q) as N.
    destruct (tcopy_assign dflt risk (mkAvl Leaf false 0 (fresh s)) s fs) as [r ?|s1|]; [discriminate|exact N|discriminate].
Qed.
End Q.

(** ** Comparisons that throw while rebalancing *)
Section R.
Variable dflt : nat.
Notation risky := (fun k => match k with Compare => true | Copy => false end).

(** What is left after the values j, j+1, ... were added to the right of each other. *)
Fixpoint chain (j : nat) (p : option nat) (n : nat) : tree nat :=
  match n with 0 => Leaf | S n => Node j p (Nat.min 3 (S n)) j Leaf (chain (S j) (Some j) n) end.

Lemma chain_in_order n : forall j p, in_order (chain j p n) = seq j n.
Proof. induction n as [|n IH]; intros j p; [reflexivity|]. cbn. rewrite IH. reflexivity. Qed.
Lemma chain_depth n : forall j p, depth (chain j p n) = n.
Proof. induction n as [|n IH]; intros j p; [reflexivity|]. cbn [chain depth]. rewrite IH. reflexivity. Qed.

Lemma chain_insert n : forall j p, tinsert_node natord risky false (j + S (S n)) (j + S (S n)) (chain j p (S (S n)))
  (repeat false (2 * n + 5) ++ [true]) = Threw (chain j p (S (S (S n))), true).
Proof.
  induction n as [|n IH]; intros j p.
  - assert (L : forall a b, a <= b -> (b <? a) = false) by (intros; apply Nat.ltb_ge; lia).
    assert (G : forall a b, a < b -> (a <? b) = true) by (intros; apply Nat.ltb_lt; lia).
    cbn [chain Nat.mul Nat.add repeat app tinsert_node point andb lt_ gt_ natord].
    rewrite !L, !G by lia. cbn. replace (j + 2) with (S (S j)) by lia.
    replace (S (S j) <=? j) with false by (symmetry; apply Nat.leb_gt; lia). rewrite Nat.leb_refl. reflexivity.
  - assert (L : (j + S (S (S n)) <? j) = false) by (apply Nat.ltb_ge; lia).
    assert (G : (j <? j + S (S (S n))) = true) by (apply Nat.ltb_lt; lia).
    specialize (IH (S j) (Some j)). replace (S j + S (S n)) with (j + S (S (S n))) in IH by lia.
    replace (2 * S n + 5) with (S (S (2 * n + 5))) by lia. remember (repeat false (2 * n + 5) ++ [true]) as fs.
    cbn [repeat app]. rewrite <- Heqfs.
    change (chain j p (S (S (S n)))) with (Node j p 3 j Leaf (chain (S j) (Some j) (S (S n)))).
    change (chain j p (S (S (S (S n))))) with (Node j p 3 j Leaf (chain (S j) (Some j) (S (S (S n))))).
    remember (chain (S j) (Some j) (S (S n))) as t eqn:E. remember (chain (S j) (Some j) (S (S (S n)))) as t' eqn:E'.
    cbn [tinsert_node point andb lt_ gt_ natord]. rewrite L, G. cbn [orb].
    destruct t as [|a b d e f g]; [discriminate|]. rewrite IH. reflexivity.
Qed.

Lemma spoiled_S n : spoiled (S n) = spoiled n ++ [(AInsert n, if n <=? 1 then [] else repeat false (2 * n + 1) ++ [true])].
Proof. unfold spoiled. rewrite seq_S, map_app. reflexivity. Qed.

Lemma trun_app {T} (o : order T) d risk (ops1 ops2 : list (aop T * list bool)) : forall s s1 rs1, trun o d risk s ops1 = Val (s1, rs1) ->
  trun o d risk s (ops1 ++ ops2) = (let* (s2, rs2) := trun o d risk s1 ops2 in Val (s2, rs1 ++ rs2)).
Proof.
  induction ops1 as [|[op fs] ops1 IH]; intros s s1 rs1 H.
  - injection H as <- <-. cbn [app]. destruct (trun o d risk s ops2) as [[? ?]| | |]; reflexivity.
  - cbn [trun app] in *. destruct (tstep o d risk s op fs) as [[s' r] ?|s'|]; [| |discriminate];
      (destruct (trun o d risk s' ops1) as [[s2 rs2]| | |] eqn:E; cbn [bind] in H; try discriminate; injection H as <- <-;
       rewrite (IH _ _ _ E); destruct (trun o d risk s2 ops2) as [[? ?]| | |]; reflexivity).
Qed.

Lemma spoiled_run n : (N.of_nat (n + 2) < two64)%N -> exists rs,
  trun natord dflt risky avl_new (spoiled (n + 2)) = Val (mkAvl (chain 0 None (n + 2)) false (N.of_nat (n + 2)) (n + 2), rs).
Proof.
  induction n as [|n IH]; intros B.
  - eexists. cbn. reflexivity.
  - destruct IH as [rs IH]; [lia|]. cbn [Nat.add]. rewrite spoiled_S.
    rewrite (trun_app _ _ _ _ _ _ _ _ IH). cbn [trun tstep]. unfold tinsert. cbn [dup fresh root count].
    replace (n + 2 <=? 1) with false by (symmetry; apply Nat.leb_gt; lia).
    pose proof (chain_insert n 0 None) as C. cbn [Nat.add] in C.
    replace (n + 2) with (S (S n)) by lia. replace (2 * S (S n) + 1) with (2 * n + 5) by lia. rewrite C.
    eexists. cbn [bind]. do 3 f_equal. unfold wadd. rewrite N.mod_small; lia.
Qed.

Lemma becomes_list n : 3 <= n -> (N.of_nat n < two64)%N -> exists s rs,
  trun natord dflt risky avl_new (spoiled n) = Val (s, rs) /\ in_order (root s) = seq 0 n /\ depth (root s) = n /\ height s = 3.
Proof.
  intros L B. destruct (spoiled_run (n - 2)) as [rs E]; replace (n - 2 + 2) with n in * by lia; [assumption|].
  eexists _, rs. split; [exact E|]. cbn [root]. split; [apply chain_in_order|]. split; [apply chain_depth|].
  unfold height. cbn [root]. destruct n as [|[|[|n]]]; [lia..|]. reflexivity.
Qed.
End R.
