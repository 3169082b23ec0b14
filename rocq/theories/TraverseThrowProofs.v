(** Proofs for TraverseThrowProps.v *)
Require Import List NArith Bool Arith Lia Permutation.
Require Import Verif.Base Verif.TraverseModel Verif.TraverseSpec Verif.TraverseProofs.
Require Import Verif.TraverseThrowModel Verif.TraverseThrowSpec.
Import ListNotations.

Section Cut.
Context {A : Type}.
Variable cb : list A -> A -> option bool.
Definition cut_from (past order : list A) (n : nat) : list A * option nat :=
  let (calls, thrown) := up_to_throw cb past order in (calls, if thrown then None else Some n).
Lemma up_to_throw_app : forall a past b, up_to_throw cb past (a ++ b) =
  if snd (up_to_throw cb past a) then up_to_throw cb past a else up_to_throw cb (past ++ a) b.
Proof.
  induction a as [|x a IH]; intros past b; cbn [up_to_throw app snd]; [now rewrite app_nil_r|].
  destruct (cb past x); [|reflexivity]. rewrite IH, <- app_assoc. reflexivity.
Qed.
Lemma up_to_throw_ok : forall a past, snd (up_to_throw cb past a) = false -> up_to_throw cb past a = (past ++ a, false).
Proof.
  induction a as [|x a IH]; intros past H; cbn [up_to_throw] in *; [now rewrite app_nil_r|].
  destruct (cb past x); [|discriminate]. rewrite IH, <- app_assoc by trivial. reflexivity.
Qed.
(** One part after the other. *)
Lemma cut_app : forall a b past n m, cut_from past (a ++ b) n =
  match cut_from past a m with (l, None) => (l, None) | (l, Some _) => cut_from l b n end.
Proof.
  intros a b past n m. unfold cut_from. rewrite up_to_throw_app. destruct (snd (up_to_throw cb past a)) eqn:E.
  - destruct (up_to_throw cb past a) as (l & t). cbn in E. subst t. reflexivity.
  - rewrite (up_to_throw_ok _ _ E). reflexivity.
Qed.
Lemma cut_one : forall past x n, cut_from past [x] n = (past ++ [x], match cb past x with None => None | Some _ => Some n end).
Proof. intros past x n. unfold cut_from. cbn. destruct (cb past x); reflexivity. Qed.
Lemma cut_nil : forall past n, cut_from past [] n = (past, Some n).
Proof. reflexivity. Qed.
Lemma cut_count : forall past tr k m, cut_from past tr (k + m) = match cut_from past tr m with (l, None) => (l, None) | (l, Some m) => (l, Some (k + m)) end.
Proof. intros past tr k m. unfold cut_from. destruct (up_to_throw cb past tr) as (l & [|]); reflexivity. Qed.
End Cut.

(** ** Binary nodes *)
Section B.
Context {V : Type}.
Variable cb : list (btree V) -> btree V -> option bool.
Variable f : list (btree V) -> btree V -> bool.
Hypothesis SAME : same_answers cb f.
Lemma in_cut : forall t past, exists tr n, in_order f t past = (past ++ tr, n) /\ t_in_order cb t past = cut_from cb past tr n.
Proof.
  induction t as [|v l IHl r IHr]; intros past; [exists [], 0; now rewrite app_nil_r|]. cbn [in_order t_in_order]. set (t := BNode v l r).
  destruct (IHl past) as (a & n & Ea & Ta). rewrite Ea, Ta.
  destruct (f (past ++ a) t) eqn:F.
  - exists (a ++ [t]), (1 + n). split; [now rewrite <- app_assoc|]. rewrite (cut_app cb a [t] past (1 + n) n). unfold cut_from at 1 2.
    destruct (snd (up_to_throw cb past a)) eqn:E; [destruct (up_to_throw cb past a) as (p & q); cbn in E; subst q; reflexivity|].
    rewrite (up_to_throw_ok _ _ _ E). rewrite cut_one. specialize (SAME (past ++ a) t). destruct (cb (past ++ a) t) as [b|]; [|reflexivity]. specialize (SAME b eq_refl). rewrite F in SAME. now subst b.
  - destruct (IHr ((past ++ a) ++ [t])) as (c & m & Ec & Tc). rewrite Ec. exists (a ++ [t] ++ c), (1 + n + m). split; [now rewrite !app_assoc|].
    rewrite (cut_app cb a ([t] ++ c) past _ n). unfold cut_from at 1 2.
    destruct (snd (up_to_throw cb past a)) eqn:E; [destruct (up_to_throw cb past a) as (p & q); cbn in E; subst q; reflexivity|].
    rewrite (up_to_throw_ok _ _ _ E). rewrite (cut_app cb [t] c _ _ 0), cut_one. specialize (SAME (past ++ a) t). destruct (cb (past ++ a) t) as [b|]; [|reflexivity].
    specialize (SAME b eq_refl). rewrite F in SAME. subst b. rewrite Tc. symmetry. apply cut_count.
Qed.
Lemma pre_cut : forall t past, exists tr n, pre_order f t past = (past ++ tr, n) /\ t_pre_order cb t past = cut_from cb past tr n.
Proof.
  induction t as [|v l IHl r IHr]; intros past; [exists [], 0; now rewrite app_nil_r|]. cbn [pre_order t_pre_order]. set (t := BNode v l r).
  pose proof (SAME past t) as S. destruct (f past t) eqn:F.
  - exists [t], 1. split; [reflexivity|]. rewrite cut_one. destruct (cb past t) as [b|]; [|reflexivity]. now rewrite <- (S b eq_refl).
  - destruct (IHl (past ++ [t])) as (a & n & Ea & Ta). rewrite Ea. destruct (IHr ((past ++ [t]) ++ a)) as (c & m & Ec & Tc). rewrite Ec.
    exists ([t] ++ a ++ c), (1 + n + m). split; [now rewrite !app_assoc|]. rewrite (cut_app cb [t] (a ++ c) _ _ 0), cut_one.
    destruct (cb past t) as [b|]; [|reflexivity]. rewrite <- (S b eq_refl). rewrite Ta. rewrite (cut_app cb a c _ _ n). unfold cut_from at 1 2.
    destruct (snd (up_to_throw cb (past ++ [t]) a)) eqn:E; [destruct (up_to_throw cb (past ++ [t]) a) as (p & q); cbn in E; subst q; reflexivity|].
    rewrite (up_to_throw_ok _ _ _ E). rewrite Tc. symmetry. apply cut_count.
Qed.
Lemma pos_cut : forall t past, exists tr n, pos_order f t past = (past ++ tr, n) /\ t_pos_order cb t past = cut_from cb past tr n.
Proof.
  induction t as [|v l IHl r IHr]; intros past; [exists [], 0; now rewrite app_nil_r|]. cbn [pos_order t_pos_order]. set (t := BNode v l r).
  destruct (IHl past) as (a & n & Ea & Ta). rewrite Ea, Ta. destruct (IHr (past ++ a)) as (c & m & Ec & Tc). rewrite Ec.
  exists (a ++ c ++ [t]), (1 + n + m). split; [now rewrite <- !app_assoc|]. rewrite (cut_app cb a (c ++ [t]) past _ n). unfold cut_from at 1 2.
  destruct (snd (up_to_throw cb past a)) eqn:E; [destruct (up_to_throw cb past a) as (p & q); cbn in E; subst q; reflexivity|].
  rewrite (up_to_throw_ok _ _ _ E). rewrite Tc. rewrite (cut_app cb c [t] _ _ m). unfold cut_from at 1 2.
  destruct (snd (up_to_throw cb (past ++ a) c)) eqn:E2; [destruct (up_to_throw cb (past ++ a) c) as (p & q); cbn in E2; subst q; reflexivity|].
  rewrite (up_to_throw_ok _ _ _ E2). now rewrite cut_one.
Qed.
End B.

(** ** k-ary nodes *)
Section K.
Context {V : Type}.
Notation ktree := (ktree V).
Variable cb : list ktree -> ktree -> option bool.
Fixpoint t_loop (g : ktree -> list ktree -> list ktree * option nat) (s : list (option ktree)) (past : list ktree) (visited : nat) : list ktree * option nat :=
  match s with
  | [] => (past, Some visited)
  | None :: s => t_loop g s past visited
  | Some c :: s => match g c past with (past, None) => (past, None) | (past, Some n) => t_loop g s past (visited + n) end
  end.
Lemma t_kpre_eq : forall v s past, t_kpre_order cb (KNode v s) past =
  match cb past (KNode v s) with
  | None => (past ++ [KNode v s], None)
  | Some true => (past ++ [KNode v s], Some 1)
  | Some false => t_loop (t_kpre_order cb) s (past ++ [KNode v s]) 1
  end.
Proof.
  intros v s past. cbn [t_kpre_order]. destruct (cb past (KNode v s)) as [[|]|]; trivial. generalize (past ++ [KNode v s]) as q. generalize 1 as n.
  induction s as [|[c|] s IH]; intros n q; cbn; auto. destruct (t_kpre_order cb c q) as (p & [m|]); auto.
Qed.
Lemma t_kpos_eq : forall v s past, t_kpos_order cb (KNode v s) past =
  match t_loop (t_kpos_order cb) s past 1 with
  | (past, None) => (past, None)
  | (past, Some n) => (past ++ [KNode v s], match cb past (KNode v s) with None => None | Some _ => Some n end)
  end.
Proof.
  intros v s past. cbn [t_kpos_order]. generalize (KNode v s) as t. intros t.
  match goal with |- match ?x with _ => _ end = match ?y with _ => _ end => assert (E : x = y); [|now rewrite E] end.
  revert past. generalize 1 as n. induction s as [|[c|] s IH]; intros n q; cbn; auto. destruct (t_kpos_order cb c q) as (p & [m|]); auto.
Qed.
Variable f : list ktree -> ktree -> bool.
Hypothesis SAME : same_answers cb f.
Lemma loop_cut : forall (g : ktree -> list ktree -> list ktree * nat) (h : ktree -> list ktree -> list ktree * option nat) s,
  Forall (fun c => match c with Some c => forall past, exists tr n, g c past = (past ++ tr, n) /\ h c past = cut_from cb past tr n | None => True end) s ->
  forall past n, exists tr m, pre_loop g s past n = (past ++ tr, m) /\ t_loop h s past n = cut_from cb past tr m.
Proof.
  intros g h s H. induction H as [|[c|] s Hc Hs IH]; intros past n; cbn [pre_loop t_loop].
  - exists [], n. now rewrite app_nil_r.
  - destruct (Hc past) as (a & k & Ea & Ta). rewrite Ea, Ta. destruct (IH (past ++ a) (n + k)) as (b & m & Eb & Tb). rewrite Eb.
    exists (a ++ b), m. split; [now rewrite app_assoc|]. rewrite (cut_app cb a b past m k). unfold cut_from at 1 2.
    destruct (snd (up_to_throw cb past a)) eqn:E; [destruct (up_to_throw cb past a) as (p & q); cbn in E; subst q; reflexivity|].
    rewrite (up_to_throw_ok _ _ _ E). exact Tb.
  - apply IH.
Qed.
Lemma kpre_cut : forall t past, exists tr n, kpre_order f t past = (past ++ tr, n) /\ t_kpre_order cb t past = cut_from cb past tr n.
Proof.
  induction t as [v s IH] using ktree_ind'. intros past. rewrite kpre_eq, t_kpre_eq. set (t := KNode v s). pose proof (SAME past t) as S. destruct (f past t) eqn:F.
  - exists [t], 1. split; [reflexivity|]. rewrite cut_one. destruct (cb past t) as [b|]; [|reflexivity]. now rewrite <- (S b eq_refl).
  - destruct (loop_cut _ _ s IH (past ++ [t]) 1) as (a & m & Ea & Ta). rewrite Ea. exists ([t] ++ a), m. split; [now rewrite app_assoc|].
    rewrite (cut_app cb [t] a past m 0), cut_one. destruct (cb past t) as [b|]; [|reflexivity]. rewrite <- (S b eq_refl). exact Ta.
Qed.
Lemma kpos_cut : forall t past, exists tr n, kpos_order f t past = (past ++ tr, n) /\ t_kpos_order cb t past = cut_from cb past tr n.
Proof.
  induction t as [v s IH] using ktree_ind'. intros past. rewrite kpos_eq, t_kpos_eq. set (t := KNode v s).
  destruct (loop_cut _ _ s IH past 1) as (a & m & Ea & Ta). rewrite Ea, Ta. exists (a ++ [t]), m. split; [now rewrite app_assoc|].
  rewrite (cut_app cb a [t] past m m). unfold cut_from at 1 2.
  destruct (snd (up_to_throw cb past a)) eqn:E; [destruct (up_to_throw cb past a) as (p & q); cbn in E; subst q; reflexivity|].
  rewrite (up_to_throw_ok _ _ _ E). now rewrite cut_one.
Qed.
Lemma bfs_cut : forall fuel q past v l n, bfs_loop f fuel q past v = Val (l, n) -> exists tr, l = past ++ tr /\ t_bfs_loop cb fuel q past v = Val (cut_from cb past tr n).
Proof.
  induction fuel as [|fuel IH]; intros [|t q] past v l n H; cbn [bfs_loop t_bfs_loop] in *; try discriminate; try (injection H as <- <-; exists []; now rewrite app_nil_r).
  pose proof (SAME past t) as S. destruct (f past t) eqn:F.
  - injection H as <- <-. exists [t]. split; [trivial|]. rewrite cut_one. destruct (cb past t) as [b|]; [|reflexivity]. now rewrite <- (S b eq_refl).
  - apply IH in H as (tr & -> & E). exists ([t] ++ tr). split; [now rewrite app_assoc|]. rewrite (cut_app cb [t] tr past n 0), cut_one.
    destruct (cb past t) as [b|]; [|reflexivity]. rewrite <- (S b eq_refl). exact E.
Qed.
Lemma dfs_cut : forall fuel q past v l n, dfs_loop f fuel q past v = Val (l, n) -> exists tr, l = past ++ tr /\ t_dfs_loop cb fuel q past v = Val (cut_from cb past tr n).
Proof.
  induction fuel as [|fuel IH]; intros [|t q] past v l n H; cbn [dfs_loop t_dfs_loop] in *; try discriminate; try (injection H as <- <-; exists []; now rewrite app_nil_r).
  pose proof (SAME past t) as S. destruct (f past t) eqn:F.
  - injection H as <- <-. exists [t]. split; [trivial|]. rewrite cut_one. destruct (cb past t) as [b|]; [|reflexivity]. now rewrite <- (S b eq_refl).
  - apply IH in H as (tr & -> & E). exists ([t] ++ tr). split; [now rewrite app_assoc|]. rewrite (cut_app cb [t] tr past n 0), cut_one.
    destruct (cb past t) as [b|]; [|reflexivity]. rewrite <- (S b eq_refl). exact E.
Qed.
(** *** in_order *)
Fixpoint t_kin_loop (t : ktree) (s : list (option ktree)) (calls : N) (past : list ktree) (visited : nat) (flag : bool) : list ktree * option nat * bool :=
  match s with
  | [] => (past, Some visited, flag)
  | c :: s =>
      let own (past : list ktree) (visited : nat) (flag : bool) :=
        if (calls =? 0)%N then t_kin_loop t s (wsub calls 1) past visited flag
        else
          match cb past t with
          | None => (past ++ [t], None, flag)
          | Some true => (past ++ [t], Some visited, true)
          | Some false => t_kin_loop t s (wsub calls 1) (past ++ [t]) visited false
          end in
      match c with
      | None => own past visited flag
      | Some c =>
          match t_kin_order cb c past flag with
          | (past, None, flag) => (past, None, flag)
          | (past, Some n, flag) => if flag then (past, Some (visited + n), flag) else own past (visited + n) flag
          end
      end
  end.
Lemma t_kin_eq : forall v s past flag, s <> [] -> t_kin_order cb (KNode v s) past flag = t_kin_loop (KNode v s) s (N.max (wsub (sizeN s) 1) 1) past 1 false.
Proof.
  intros v s past flag NE. destruct s as [|c0 s0]; [congruence|]. set (t := KNode v (c0 :: s0)).
  assert (E : forall z k p n b,
    (fix loop (s : list (option ktree)) (calls : N) (past : list ktree) (visited : nat) (flag : bool) : list ktree * option nat * bool :=
       match s with
       | [] => (past, Some visited, flag)
       | c :: s =>
           let own (past : list ktree) (visited : nat) (flag : bool) :=
             if (calls =? 0)%N then loop s (wsub calls 1) past visited flag
             else match cb past t with
                  | None => (past ++ [t], None, flag)
                  | Some true => (past ++ [t], Some visited, true)
                  | Some false => loop s (wsub calls 1) (past ++ [t]) visited false
                  end in
           match c with
           | None => own past visited flag
           | Some c =>
               match t_kin_order cb c past flag with
               | (past, None, flag) => (past, None, flag)
               | (past, Some n, flag) => if flag then (past, Some (visited + n), flag) else own past (visited + n) flag
               end
           end
       end) z k p n b = t_kin_loop t z k p n b).
  { induction z as [|c z IH]; intros k p n b; [reflexivity|]. cbn [t_kin_loop]. cbv zeta.
    destruct c as [c|].
    - destruct (t_kin_order cb c p b) as [[p1 [m|]] b1]; [|reflexivity]. destruct b1; [reflexivity|]. rewrite !IH. destruct (k =? 0)%N; [reflexivity|]. destruct (cb p1 t) as [[|]|]; rewrite ?IH; reflexivity.
    - rewrite !IH. destruct (k =? 0)%N; [reflexivity|]. destruct (cb p t) as [[|]|]; rewrite ?IH; reflexivity. }
  exact (E (c0 :: s0) _ past 1 false).
Qed.
(** The calls are cut where the callback throws; if it does not, the static variable tells whether
    it answered true. *)
Definition kin_same (x : list ktree * nat * bool) (past : list ktree) (y : list ktree * option nat * bool) : Prop :=
  exists tr n b fl, x = (past ++ tr, n, b) /\ y = (cut_from cb past tr n, fl) /\ (snd (cut_from cb past tr n) <> None -> fl = b).
Lemma kin_same_cons : forall t past n b fl, fl = b \/ cb past t = None ->
  kin_same (past ++ [t], n, b) past (past ++ [t], match cb past t with None => None | Some _ => Some n end, fl).
Proof. intros t past n b fl H. exists [t], n, b, fl. rewrite cut_one. split; [trivial|]. split; [trivial|]. cbn. intros Q. destruct H as [H|H]; [trivial|]. rewrite H in Q. congruence. Qed.
Lemma kin_same_then : forall past a k x y, kin_same x (past ++ a) y ->
  kin_same x past (match cut_from cb past a k with (l, None) => (l, None, false) | (_, Some _) => y end).
Proof.
  intros past a k x y (tr & n & b & fl & -> & -> & S). exists (a ++ tr), n, b.
  pose proof (cut_app cb a tr past n k) as C. unfold cut_from at 2 in C. unfold cut_from at 1. destruct (snd (up_to_throw cb past a)) eqn:E.
  - destruct (up_to_throw cb past a) as (p & q). cbn in E. subst q. exists false. rewrite C. split; [now rewrite app_assoc|]. split; [trivial|]. cbn. congruence.
  - rewrite (up_to_throw_ok _ _ _ E) in *. rewrite C. exists fl. split; [now rewrite app_assoc|]. split; trivial.
Qed.
Lemma kin_cut : forall t past flag, kin_same (kin_order f t past) past (t_kin_order cb t past flag).
Proof.
  induction t as [v s IH] using ktree_ind'. intros past flag. assert (NE : s = [] \/ s <> []) by (destruct s; [now left|right; discriminate]).
  destruct NE as [->|NE]; [apply (kin_same_cons (KNode v []) past 1 false false); now left|].
  rewrite kin_eq, t_kin_eq by trivial. set (t := KNode v s).
  generalize (N.max (wsub (sizeN s) 1) 1) as k. generalize 1 as n. revert past. clear NE.
  enough (G : forall past n k, kin_same (kin_loop f t s k past n) past (t_kin_loop t s k past n false)) by (intros; apply G).
  generalize t. clear t. intros t. induction IH as [|c s Hc Hs IHs]; intros past n k; cbn [kin_loop t_kin_loop].
  - exists [], n, false, false. rewrite app_nil_r. auto.
  - assert (OWN : forall past n,
      kin_same (if (k =? 0)%N then kin_loop f t s (wsub k 1) past n else if f past t then (past ++ [t], n, true) else kin_loop f t s (wsub k 1) (past ++ [t]) n) past
        (if (k =? 0)%N then t_kin_loop t s (wsub k 1) past n false
         else match cb past t with None => (past ++ [t], None, false) | Some true => (past ++ [t], Some n, true) | Some false => t_kin_loop t s (wsub k 1) (past ++ [t]) n false end)).
    { intros p m. destruct (k =? 0)%N; [apply IHs|]. pose proof (SAME p t) as S. destruct (f p t) eqn:F.
      - pose proof (kin_same_cons t p m true) as Q. destruct (cb p t) as [b|].
        + rewrite <- (S b eq_refl). apply Q. now left.
        + apply (Q false). now right.
      - pose proof (kin_same_then p [t] 0 _ _ (IHs (p ++ [t]) m (wsub k 1))) as Q. rewrite cut_one in Q. destruct (cb p t) as [b|]; [|exact Q]. rewrite <- (S b eq_refl). exact Q. }
    destruct c as [c|]; [|apply OWN]. destruct (Hc past false) as (tr & m & b & fl & E & T & S). rewrite E, T.
    destruct (snd (up_to_throw cb past tr)) eqn:TH.
    + assert (C : forall j, cut_from cb past tr j = (fst (up_to_throw cb past tr), None)) by (intros j; unfold cut_from; destruct (up_to_throw cb past tr) as (p & q); cbn in *; now subst q).
      rewrite C. set (rest := if b then _ else _). assert (R : exists tr2 m2 b2, rest = ((past ++ tr) ++ tr2, m2, b2)).
      { unfold rest. destruct b; [exists [], (n + m), true; now rewrite app_nil_r|]. destruct (OWN (past ++ tr) (n + m)) as (tr2 & m2 & b2 & _ & -> & _). eauto. }
      destruct R as (tr2 & m2 & b2 & ->). exists (tr ++ tr2), m2, b2, fl. split; [now rewrite app_assoc|]. rewrite (cut_app cb tr tr2 past m2 0), C. split; [trivial|]. cbn. congruence.
    + assert (C : forall j, cut_from cb past tr j = (past ++ tr, Some j)) by (intros j; unfold cut_from; now rewrite (up_to_throw_ok _ _ _ TH)).
      rewrite C in *. cbn [snd] in S. specialize (S ltac:(discriminate)). subst fl. destruct b.
      * exists tr, (n + m), true, true. rewrite C. auto.
      * pose proof (kin_same_then past tr 0 _ _ (OWN (past ++ tr) (n + m))) as Q. rewrite C in Q. exact Q.
Qed.
Lemma kin_flag : forall t past b1 b2, t_kin_order cb t past b1 = t_kin_order cb t past b2.
Proof. intros [v s] past b1 b2. reflexivity. Qed.
End K.

(** ** Whole traversals *)
Lemma cut_start : forall A (cb : list A -> A -> option bool) tr n, cut_from cb [] tr n = cut cb tr n.
Proof. reflexivity. Qed.
Lemma binary_cut : forall V (cb : list (btree V) -> btree V -> option bool) f, same_answers cb f -> forall t,
  (let (l, n) := in_order f t [] in t_in_order cb t [] = cut cb l n) /\
  (let (l, n) := pre_order f t [] in t_pre_order cb t [] = cut cb l n) /\
  (let (l, n) := pos_order f t [] in t_pos_order cb t [] = cut cb l n).
Proof.
  intros V cb f S t. destruct (in_cut cb f S t []) as (a & n & -> & ->). destruct (pre_cut cb f S t []) as (a2 & n2 & -> & ->). destruct (pos_cut cb f t []) as (a3 & n3 & -> & ->). auto.
Qed.
Lemma kary_cut : forall V (cb : list (ktree V) -> ktree V -> option bool) f, same_answers cb f -> forall t flag,
  (let '(l, n, _) := kin_order f t [] in fst (t_kin_order cb t [] flag) = cut cb l n) /\
  (let (l, n) := kpre_order f t [] in t_kpre_order cb t [] = cut cb l n) /\
  (let (l, n) := kpos_order f t [] in t_kpos_order cb t [] = cut cb l n).
Proof.
  intros V cb f S t flag. destruct (kin_cut cb f S t [] flag) as (a & n & b & fl & -> & -> & _). destruct (kpre_cut cb f S t []) as (a2 & n2 & -> & ->). destruct (kpos_cut cb f t []) as (a3 & n3 & -> & ->). auto.
Qed.
Lemma levels_cut : forall V (cb : list (ktree V) -> ktree V -> option bool) f, same_answers cb f -> forall t,
  (let* (l, n) := bfs f (Some t) in Val (cut cb l n)) = t_bfs cb (Some t) /\
  (let* (l, n) := dfs f (Some t) in Val (cut cb l n)) = t_dfs cb (Some t).
Proof.
  intros V cb f S t. destruct (bfs_level_order f t) as (l1 & E1 & _). destruct (dfs_pre_order f t) as (l2 & E2 & _). cbn [bfs dfs t_bfs t_dfs] in *. rewrite E1, E2. cbn [bind].
  destruct (bfs_cut cb f S _ _ _ _ _ _ E1) as (r1 & -> & ->). destruct (dfs_cut cb f S _ _ _ _ _ _ E2) as (r2 & -> & ->). auto.
Qed.

(** ** Stopping with an exception *)
Lemma throw_at_never : forall A (p : A -> bool), same_answers (throw_at p) never.
Proof. intros A p past x b H. unfold throw_at in H. destruct (p x); [discriminate|]. now injection H as <-. Qed.
Lemma cut_throw_at : forall A (p : A -> bool) order n, cut (throw_at p) order n = stops p order n.
Proof.
  intros A p order n. unfold cut, stops.
  assert (G : forall past, up_to_throw (throw_at p) past order = (past ++ up_to p order, existsb p order)).
  { induction order as [|x order IH]; intros past; cbn [up_to_throw up_to existsb]; [now rewrite app_nil_r|]. unfold throw_at at 1. destruct (p x); [reflexivity|]. rewrite IH, <- app_assoc. reflexivity. }
  rewrite G. reflexivity.
Qed.
Lemma until_never : forall A (order past : list A), until_true never past order = past ++ order.
Proof. induction order as [|x order IH]; intros past; cbn; [now rewrite app_nil_r|]. now rewrite IH, <- app_assoc. Qed.
Lemma binary_stops : forall V (p : btree V -> bool) t,
  t_in_order (throw_at p) t [] = stops p (inorder t) (bcount t) /\
  t_pre_order (throw_at p) t [] = stops p (preorder t) (bcount t) /\
  t_pos_order (throw_at p) t [] = stops p (postorder t) (bcount t).
Proof.
  intros V p t. pose proof (binary_cut V _ _ (throw_at_never _ p) t) as H. destruct (binary_traversals t) as (E1 & E2 & E3 & _). rewrite E1, E2, E3, !cut_throw_at in H. exact H.
Qed.
Lemma kary_stops : forall V (p : ktree V -> bool) t flag,
  (fits t -> fst (t_kin_order (throw_at p) t [] flag) = stops p (kin t) (kcount t)) /\
  t_kpre_order (throw_at p) t [] = stops p (kpre t) (kcount t) /\
  t_kpos_order (throw_at p) t [] = stops p (kpost t) (kcount t) /\
  t_bfs (throw_at p) (Some t) = Val (stops p (level_order t) (kcount t)) /\
  t_dfs (throw_at p) (Some t) = Val (stops p (kpre t) (kcount t)).
Proof.
  intros V p t flag. pose proof (kary_cut V _ _ (throw_at_never _ p) t flag) as (H1 & H2 & H3). destruct (levels_cut V _ _ (throw_at_never _ p) t) as (H4 & H5).
  destruct (kary_traversals t) as (E1 & E2 & L1 & _ & E3). rewrite E1, cut_throw_at in H2. rewrite E2, cut_throw_at in H3.
  destruct (bfs_level_order never t) as (l1 & B1 & U1). destruct (dfs_pre_order never t) as (l2 & B2 & U2). rewrite until_never in U1, U2. cbn [app] in U1, U2. subst l1 l2.
  rewrite B1 in H4. rewrite B2 in H5. cbn [bind] in H4, H5. rewrite cut_throw_at in H4, H5. rewrite <- H4, <- H5.
  rewrite (Permutation_length (level_order_perm t)), L1.
  split; [intros F; rewrite (E3 F), cut_throw_at in H1; exact H1|]. auto.
Qed.
