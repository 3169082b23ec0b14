(** Union-find: refinement of the parent/rank arrays to label arrays, and of
    label arrays to the generated equivalence. *)
Require Import List NArith Bool Arith Lia.
Require Import Verif.Base Verif.UnionModel Verif.UnionSpec.
Import ListNotations.
Local Open Scope outcome_scope.

(** ** Arrays with a default *)
Definition lab (L : list nat) (x : nat) : nat := nth x L 0.
Definition par (u : uset) (x : nat) : nat := nth x (parents u) 0.
Definition rk (u : uset) (x : nat) : N := nth x (ranks u) 0%N.

Lemma nth_set {A} (l : list A) i j x d :
  nth j (set_nth l i x) d = if (i =? j) && (i <? length l) then x else nth j l d.
Proof.
  revert i j. induction l as [|h t IH]; intros i j; cbn.
  - rewrite andb_false_r. destruct j; reflexivity.
  - destruct i, j; cbn; try reflexivity. rewrite IH. reflexivity.
Qed.

Lemma nth_error_lab L x : x < length L -> nth_error L x = Some (lab L x).
Proof. intros H. apply nth_error_nth'. assumption. Qed.

Lemma get_parent_ok u x : x < length (parents u) -> get_parent u x = Val (par u x).
Proof.
  intros H. unfold get_parent, par. rewrite (nth_error_nth' _ 0 H). reflexivity.
Qed.
Lemma get_rank_ok u x : x < length (ranks u) -> get_rank u x = Val (rk u x).
Proof.
  intros H. unfold get_rank, rk. rewrite (nth_error_nth' _ 0%N H). reflexivity.
Qed.

Lemma par_set_rank u i r x : par (set_rank u i r) x = par u x.
Proof. reflexivity. Qed.
Lemma rk_set_parent u i p x : rk (set_parent u i p) x = rk u x.
Proof. reflexivity. Qed.
Lemma par_set_parent u i p x : i < length (parents u) ->
  par (set_parent u i p) x = if i =? x then p else par u x.
Proof.
  intros H. unfold par, set_parent; cbn. rewrite nth_set.
  apply Nat.ltb_lt in H. rewrite H, andb_true_r. reflexivity.
Qed.
Lemma rk_set_rank u i r x : i < length (ranks u) ->
  rk (set_rank u i r) x = if i =? x then r else rk u x.
Proof.
  intros H. unfold rk, set_rank; cbn. rewrite nth_set.
  apply Nat.ltb_lt in H. rewrite H, andb_true_r. reflexivity.
Qed.

(** ** Label arrays: shape *)
Definition lwf (L : list nat) : Prop :=
  forall x, x < length L -> lab L x < length L /\ lab L (lab L x) = lab L x.

Lemma weight_le L r : weight L r <= length L.
Proof. apply count_occ_bound. Qed.

Lemma weight_pos L x : x < length L -> 1 <= weight L (lab L x).
Proof.
  intros H. unfold weight. apply count_occ_In. apply nth_In. assumption.
Qed.

Lemma relabel_length a b L : length (relabel a b L) = length L.
Proof. apply map_length. Qed.

Lemma lab_relabel a b L x : x < length L ->
  lab (relabel a b L) x = if lab L x =? a then b else lab L x.
Proof.
  intros H. unfold lab, relabel.
  rewrite nth_indep with (d' := (fun l => if l =? a then b else l) 0) by (rewrite map_length; assumption).
  rewrite (map_nth (fun l => if l =? a then b else l)). reflexivity.
Qed.

Lemma weight_relabel_to a b L : a <> b -> weight (relabel a b L) b = weight L a + weight L b.
Proof.
  intros N. unfold weight, relabel. induction L as [|l L IH]; [reflexivity|]. cbn [map count_occ].
  destruct (Nat.eqb_spec l a) as [->|Na].
  - destruct (Nat.eq_dec b b); [|congruence]. destruct (Nat.eq_dec a a); [|congruence].
    destruct (Nat.eq_dec a b); [congruence|]. lia.
  - destruct (Nat.eq_dec l b); destruct (Nat.eq_dec l a); try congruence; lia.
Qed.

Lemma weight_relabel_other a b c L : c <> a -> c <> b -> weight (relabel a b L) c = weight L c.
Proof.
  intros N M. unfold weight, relabel. induction L as [|l L IH]; [reflexivity|]. cbn [map count_occ].
  destruct (Nat.eqb_spec l a) as [->|Na].
  - destruct (Nat.eq_dec b c); [congruence|]. destruct (Nat.eq_dec a c); [congruence|]. assumption.
  - destruct (Nat.eq_dec l c); lia.
Qed.

Lemma relabel_wf a b L : lwf L -> a < length L -> b < length L -> lab L a = a -> lab L b = b ->
  a <> b -> lwf (relabel a b L).
Proof.
  intros W Ha Hb Ea Eb N x Hx. rewrite relabel_length in *. destruct (W x Hx) as [Wx Wl].
  rewrite (lab_relabel a b L x Hx). destruct (Nat.eqb_spec (lab L x) a) as [E|E].
  - split; [assumption|]. rewrite lab_relabel by assumption. rewrite Eb.
    destruct (Nat.eqb_spec b a); congruence.
  - split; [assumption|]. rewrite lab_relabel, Wl by assumption.
    destruct (Nat.eqb_spec (lab L x) a); congruence.
Qed.

Lemma own_label_lab L x : x < length L -> own_label L x = (lab L x =? x).
Proof. intros H. unfold own_label. rewrite nth_error_lab by assumption. reflexivity. Qed.

Lemma filter_ext_in' {A} (f g : A -> bool) l :
  (forall x, In x l -> f x = g x) -> filter f l = filter g l.
Proof. apply filter_ext_in. Qed.

Lemma filter_drop_one (f : nat -> bool) a l : NoDup l -> In a l -> f a = true ->
  S (length (filter (fun x => f x && negb (x =? a)) l)) = length (filter f l).
Proof.
  induction 1 as [|x l NI ND IH]; intros HI Fa; [contradiction|]. cbn [filter].
  destruct (Nat.eqb_spec x a) as [->|Nx]; cbn [negb].
  - rewrite andb_false_r, Fa. cbn [length]. f_equal. f_equal. apply filter_ext_in.
    intros y Hy. destruct (Nat.eqb_spec y a); [congruence|]. cbn. apply andb_true_r.
  - rewrite andb_true_r. destruct HI; [congruence|]. destruct (f x); cbn [length]; [f_equal|]; apply IH; assumption.
Qed.

Lemma classes_relabel a b L : lwf L -> a < length L -> b < length L -> lab L a = a -> lab L b = b ->
  a <> b -> S (classes (relabel a b L)) = classes L.
Proof.
  intros W Ha Hb Ea Eb N. unfold classes. rewrite relabel_length.
  rewrite <- (filter_drop_one (own_label L) a (seq 0 (length L))).
  - f_equal. f_equal. apply filter_ext_in. intros x Hx. apply in_seq in Hx.
    rewrite !own_label_lab by (rewrite ?relabel_length; lia). rewrite lab_relabel by lia.
    destruct (Nat.eqb_spec (lab L x) a) as [E|E].
    + destruct (Nat.eqb_spec x a) as [->|Nx]; cbn [negb].
      * rewrite andb_false_r. apply Nat.eqb_neq. congruence.
      * rewrite andb_true_r. rewrite E. destruct (Nat.eqb_spec b x) as [->|]; destruct (Nat.eqb_spec a x); congruence.
    + destruct (Nat.eqb_spec x a) as [->|Nx]; cbn [negb]; [congruence|]. rewrite andb_true_r. reflexivity.
  - apply seq_NoDup.
  - apply in_seq. lia.
  - rewrite own_label_lab by assumption. apply Nat.eqb_eq. assumption.
Qed.

Lemma classes_le L : classes L <= length L.
Proof.
  unfold classes. rewrite <- (seq_length (length L) 0) at 2.
  induction (seq 0 (length L)) as [|x l IH]; cbn; [lia|]. destruct (own_label L x); cbn; lia.
Qed.

(** ** The refinement relation.  [h] is a ghost height. *)
Record rel (u : uset) (L : list nat) (h : nat -> nat) : Prop := {
  rel_par_len : length (parents u) = length L;
  rel_rk_len  : length (ranks u) = length L;
  rel_bound   : (N.of_nat (length L) < two64)%N;
  rel_wf      : lwf L;
  rel_par     : forall x, x < length L ->
                  par u x < length L /\ lab L (par u x) = lab L x /\
                  (par u x = x <-> lab L x = x) /\
                  (par u x <> x -> h x < h (par u x)) /\ h x <= h (lab L x);
  rel_root    : forall r, r < length L -> lab L r = r ->
                  rk u r = N.of_nat (weight L r) /\ 2 ^ h r <= weight L r;
  rel_disj    : disjoint u = N.of_nat (classes L);
  rel_acorn   : acorn u = N.of_nat (length L)
}.

Lemma wadd_small a b : (a + b < two64)%N -> wadd a b = (a + b)%N.
Proof. intros H. unfold wadd. apply N.mod_small. assumption. Qed.
Lemma wsub_small a b : (b <= a)%N -> (a < two64)%N -> wsub a b = (a - b)%N.
Proof.
  intros H H'. unfold wsub. replace (a + two64 - b)%N with ((a - b) + 1 * two64)%N by lia.
  rewrite N.mod_add by (unfold two64; lia). apply N.mod_small. lia.
Qed.

(** Path compression step: any element may be hung directly below its root,
    with any rank. *)
Lemma rel_compress u L h e k : rel u L h -> e < length L -> lab L e <> e ->
  rel (set_rank (set_parent u e (lab L e)) e k) L h.
Proof.
  intros R He Ne. destruct R as [R1 R2 R3 R4 R5 R6 R7 R8].
  destruct (R4 e He) as [Wl Wll].
  split; cbn [parents ranks disjoint acorn set_rank set_parent];
    rewrite ?set_nth_length; try assumption.
  - intros x Hx. rewrite par_set_rank, par_set_parent by lia.
    destruct (Nat.eqb_spec e x) as [<-|N]; [|apply R5; assumption].
    split; [assumption|]. split; [assumption|]. split; [tauto|].
    assert (HH : h e < h (lab L e)).
    { destruct (R5 e He) as (P1 & P2 & P3 & P4 & P5).
      assert (par u e <> e) by tauto. specialize (P4 H).
      destruct (R5 _ P1) as (_ & _ & _ & _ & P6). rewrite P2 in P6. lia. }
    split; [intros _; exact HH|lia].
  - intros r Hr Er. rewrite rk_set_rank by (cbn; lia). destruct (Nat.eqb_spec e r); [congruence|].
    rewrite rk_set_parent. apply R6; assumption.
Qed.

Lemma rel_h_strict u L h x : rel u L h -> x < length L -> par u x <> x ->
  h x < h (par u x) /\ h (par u x) <= h (lab L x).
Proof.
  intros R Hx N. destruct (rel_par _ _ _ R x Hx) as (P1 & P2 & P3 & P4 & P5).
  split; [auto|]. destruct (rel_par _ _ _ R _ P1) as (_ & _ & _ & _ & P6). congruence.
Qed.

Lemma set_rank_twice u e a b : set_rank (set_rank u e a) e b = set_rank u e b.
Proof.
  unfold set_rank; cbn. f_equal. apply list_eq_nth_error. intros i.
  rewrite !nth_error_set_nth, set_nth_length. destruct (e =? i); reflexivity.
Qed.

Lemma set_rank_same u e : e < length (ranks u) -> set_rank u e (rk u e) = u.
Proof.
  intros H. destruct u as [p r d a c]. unfold set_rank, rk in *; cbn in *. f_equal.
  apply list_eq_nth_error. intros i. rewrite nth_error_set_nth.
  destruct (Nat.eqb_spec e i) as [<-|]; [|reflexivity].
  pose proof H as H'. apply Nat.ltb_lt in H'. rewrite H'. symmetry. apply nth_error_nth'. assumption.
Qed.

Lemma set_rank_comm u e f a b : e <> f ->
  set_rank (set_rank u e a) f b = set_rank (set_rank u f b) e a.
Proof.
  intros N. unfold set_rank; cbn. f_equal. apply list_eq_nth_error. intros i.
  rewrite !nth_error_set_nth, !set_nth_length.
  destruct (Nat.eqb_spec e i); destruct (Nat.eqb_spec f i); try congruence; reflexivity.
Qed.

Lemma find_ok fuel : forall u L h x, rel u L h -> x < length L -> h (lab L x) - h x < fuel ->
  exists u', find_ fuel u x = Val (u', lab L x) /\ rel u' L h /\ compress u' = compress u /\
    (forall y, h y < h x -> par u' y = par u y) /\
    (compress u = true -> lab L x <> x -> rk u' x = 1%N).
Proof.
  induction fuel as [|fuel IH]; intros u L h x R Hx F; [lia|]. cbn [find_].
  pose proof R as [R1 R2 R3 R4 R5 R6 R7 R8].
  destruct (R5 x Hx) as (P1 & P2 & P3 & P4 & P5).
  rewrite get_parent_ok by lia. cbn [bind].
  rewrite !get_rank_ok by lia. cbn [bind].
  destruct (Nat.eqb_spec x (par u x)) as [E|E].
  - assert (LX : lab L x = x) by (apply P3; congruence).
    exists u. rewrite LX. split; [reflexivity|]. split; [assumption|]. split; [reflexivity|].
    split; [reflexivity|]. congruence.
  - assert (NE : par u x <> x) by congruence. specialize (P4 NE).
    assert (LX : lab L x <> x) by tauto.
    destruct (rel_h_strict _ _ _ _ R Hx NE) as [H1 H2].
    destruct (IH u L h (par u x) R P1) as (u1 & F1 & Q1 & Q2 & Q3 & Q4).
    { rewrite P2. lia. }
    rewrite P2 in F1, Q4. rewrite F1. cbn [bind].
    destruct (compress u) eqn:C.
    + pose proof Q1 as [S1 S2 S3 S4 S5 S6 S7 S8].
      rewrite get_parent_ok by lia. cbn [bind]. rewrite (Q3 x H1).
      destruct (R4 x Hx) as [Wl Wll].
      destruct (Nat.eqb_spec (lab L x) (par u x)) as [E2|E2].
      * cbn [bind]. rewrite get_rank_ok by lia. cbn [bind].
        eexists. split; [reflexivity|].
        assert (X : set_rank u1 x 1%N = set_rank (set_parent u1 x (lab L x)) x 1%N).
        { unfold set_rank, set_parent; cbn. f_equal. apply list_eq_nth_error. intros i.
          rewrite nth_error_set_nth. destruct (Nat.eqb_spec x i) as [<-|]; [|reflexivity].
          assert (x <? length (parents u1) = true) by (apply Nat.ltb_lt; lia).
          rewrite H. rewrite (nth_error_nth' _ 0) by lia. f_equal. rewrite E2. apply Q3. assumption. }
        split; [rewrite X; apply rel_compress; assumption|].
        split; [exact Q2|]. split.
        -- intros y Hy. rewrite par_set_rank. apply Q3. lia.
        -- intros _ _. rewrite rk_set_rank by lia. rewrite Nat.eqb_refl. reflexivity.
      * rewrite !get_rank_ok by lia. cbn [bind].
        assert (PR : rk u1 (par u x) = 1%N).
        { apply Q4; [reflexivity|]. destruct (R5 _ P1) as (_ & _ & PP & _ & _).
          rewrite P2 in PP. congruence. }
        rewrite PR. cbn [N.ltb N.compare Pos.compare Pos.compare_cont].
        unfold join_set.
        rewrite get_rank_ok by (cbn; rewrite set_nth_length; lia). cbn [bind].
        rewrite get_rank_ok by (cbn; rewrite set_nth_length; lia). cbn [bind].
        rewrite get_parent_ok by (cbn; lia). cbn [bind].
        rewrite get_rank_ok by (cbn; rewrite set_nth_length; lia). cbn [bind].
        rewrite get_rank_ok by (cbn; rewrite set_nth_length; lia). cbn [bind].
        rewrite !rk_set_parent. rewrite !rk_set_rank by lia. rewrite Nat.eqb_refl.
        destruct (Nat.eqb_spec x (lab L x)) as [|_]; [congruence|].
        destruct (S6 (lab L x) Wl Wll) as [K1 K2].
        assert (WA : wadd (rk u1 (lab L x)) 0 = rk u1 (lab L x)).
        { rewrite wadd_small; [apply N.add_0_r|]. rewrite K1. pose proof (weight_le L (lab L x)). lia. }
        rewrite WA. rewrite get_rank_ok by (cbn; rewrite !set_nth_length; lia). cbn [bind].
        assert (X : set_rank (set_rank (set_parent (set_rank u1 x 0%N) x (lab L x)) (lab L x)
                        (rk u1 (lab L x))) x 1%N
                    = set_rank (set_parent u1 x (lab L x)) x 1%N).
        { change (set_parent (set_rank u1 x 0%N) x (lab L x))
            with (set_rank (set_parent u1 x (lab L x)) x 0%N).
          rewrite (set_rank_comm _ (lab L x) x) by congruence.
          rewrite set_rank_twice. rewrite (set_rank_comm _ x (lab L x)) by congruence.
          rewrite <- (rk_set_parent u1 x (lab L x) (lab L x)).
          rewrite set_rank_same by (cbn; lia). reflexivity. }
        rewrite X. eexists. split; [reflexivity|].
        split; [apply rel_compress; assumption|]. split; [exact Q2|]. split.
        -- intros y Hy. rewrite par_set_rank, par_set_parent by lia.
           destruct (Nat.eqb_spec x y); [subst; lia|]. apply Q3. lia.
        -- intros _ _. rewrite rk_set_rank by (cbn; lia). rewrite Nat.eqb_refl. reflexivity.
    + exists u1. split; [reflexivity|]. split; [assumption|]. split; [assumption|]. split.
      * intros y Hy. apply Q3. lia.
      * discriminate.
Qed.

Lemma pow2_gt n : n < 2 ^ n.
Proof. induction n; cbn; lia. Qed.

Lemma rel_h_bound u L h x : rel u L h -> x < length L -> h (lab L x) < weight L (lab L x).
Proof.
  intros R Hx. destruct (rel_wf _ _ _ R x Hx) as [W1 W2].
  destruct (rel_root _ _ _ R _ W1 W2) as [_ W3]. pose proof (pow2_gt (h (lab L x))). lia.
Qed.

Lemma find_root_ok u L h x : rel u L h -> x < length L ->
  exists u', find_root u x = Val (u', lab L x) /\ rel u' L h /\ compress u' = compress u.
Proof.
  intros R Hx. unfold find_root. rewrite (rel_par_len _ _ _ R).
  destruct (find_ok (length L) u L h x R Hx) as (u' & F & R' & C & _).
  - pose proof (rel_h_bound _ _ _ _ R Hx). pose proof (weight_le L (lab L x)). lia.
  - eauto.
Qed.

(** Recursion depth: logarithmic in the class size. *)
Lemma find_depth u L h x : rel u L h -> x < length L ->
  exists u', find_ (S (Nat.log2 (weight L (lab L x)))) u x = Val (u', lab L x).
Proof.
  intros R Hx. destruct (rel_wf _ _ _ R x Hx) as [W1 W2].
  destruct (rel_root _ _ _ R _ W1 W2) as [_ W3].
  destruct (find_ok (S (Nat.log2 (weight L (lab L x)))) u L h x R Hx) as (u' & F & _).
  - assert (h (lab L x) <= Nat.log2 (weight L (lab L x))); [|lia].
    apply Nat.log2_le_pow2; [|assumption]. pose proof (weight_pos L x Hx). lia.
  - eauto.
Qed.

Lemma find_two_ok ord u L h a b : rel u L h -> a < length L -> b < length L ->
  exists u', find_two ord u a b = Val (u', lab L a, lab L b) /\ rel u' L h /\ compress u' = compress u.
Proof.
  intros R Ha Hb. unfold find_two. destruct ord.
  - destruct (find_root_ok u L h a R Ha) as (u1 & F1 & R1 & C1). rewrite F1. cbn [bind].
    destruct (find_root_ok u1 L h b R1 Hb) as (u2 & F2 & R2 & C2). rewrite F2. cbn [bind].
    exists u2. split; [reflexivity|]. split; [assumption|congruence].
  - destruct (find_root_ok u L h b R Hb) as (u1 & F1 & R1 & C1). rewrite F1. cbn [bind].
    destruct (find_root_ok u1 L h a R1 Ha) as (u2 & F2 & R2 & C2). rewrite F2. cbn [bind].
    exists u2. split; [reflexivity|]. split; [assumption|congruence].
Qed.

Lemma same_set_ok ord u L h a b : rel u L h -> a < length L -> b < length L ->
  exists u', same_set ord u a b = Val (u', lab L a =? lab L b) /\ rel u' L h /\ compress u' = compress u.
Proof.
  intros R Ha Hb. unfold same_set. destruct (Nat.eqb_spec a b) as [->|N].
  - exists u. rewrite Nat.eqb_refl. auto.
  - destruct (find_two_ok ord u L h a b R Ha Hb) as (u' & F & R' & C). rewrite F. cbn [bind]. eauto.
Qed.

Definition bump (h : nat -> nat) (a b : nat) : nat -> nat :=
  fun x => if x =? b then Nat.max (h b) (S (h a)) else h x.

(** hanging root [a] below root [b] *)
Lemma hang_ok u L h a b : rel u L h -> a < length L -> b < length L ->
  lab L a = a -> lab L b = b -> a <> b -> weight L a <= weight L b ->
  exists u', join_set u a b = Val u' /\ compress u' = compress u /\
    rk u' a <> 0%N /\ rk u' b <> 0%N /\
    rel (mkU (parents u') (ranks u') (wsub (disjoint u') 1) (acorn u') (compress u'))
        (relabel a b L) (bump h a b).
Proof.
  intros R Ha Hb Ea Eb N LE. pose proof R as [R1 R2 R3 R4 R5 R6 R7 R8].
  destruct (R6 a Ha Ea) as [Ka Ha2]. destruct (R6 b Hb Eb) as [Kb Hb2].
  pose proof (weight_pos L a Ha) as Pa. rewrite Ea in Pa.
  pose proof (weight_pos L b Hb) as Pb. rewrite Eb in Pb.
  assert (WB : weight L a + weight L b <= length L).
  { rewrite <- weight_relabel_to by assumption. rewrite <- (relabel_length a b L). apply weight_le. }
  unfold join_set. rewrite !get_rank_ok by lia. cbn [bind]. rewrite get_parent_ok by lia. cbn [bind].
  rewrite !get_rank_ok by (cbn; lia). cbn [bind]. rewrite !rk_set_parent.
  rewrite Ka, Kb, wadd_small by lia.
  eexists. split; [reflexivity|]. split; [reflexivity|].
  set (u' := set_rank (set_parent u a b) b (N.of_nat (weight L b) + N.of_nat (weight L a))).
  assert (RK : forall x, rk u' x = if b =? x then (N.of_nat (weight L b) + N.of_nat (weight L a))%N else rk u x).
  { intros x. unfold u'. rewrite rk_set_rank by (cbn; lia). reflexivity. }
  assert (PA : forall x, par u' x = if a =? x then b else par u x).
  { intros x. unfold u'. rewrite par_set_rank, par_set_parent by lia. reflexivity. }
  split; [rewrite RK; destruct (Nat.eqb_spec b a); [congruence|lia]|].
  split; [rewrite RK, Nat.eqb_refl; lia|].
  assert (HL : forall x, x < length L -> lab (relabel a b L) x = if lab L x =? a then b else lab L x)
    by (intros; apply lab_relabel; assumption).
  pose proof (classes_relabel a b L R4 Ha Hb Ea Eb N) as CL. pose proof (classes_le L) as CL2.
  split; cbn [parents ranks disjoint acorn]; rewrite ?relabel_length.
  - unfold u'; cbn. rewrite set_nth_length. assumption.
  - unfold u'; cbn. rewrite set_nth_length. assumption.
  - assumption.
  - apply relabel_wf; assumption.
  - intros x Hx. change (par (mkU (parents u') (ranks u') (wsub (disjoint u') 1) (acorn u') (compress u')) x)
      with (par u' x). rewrite PA.
    destruct (R5 x Hx) as (P1 & P2 & P3 & P4 & P5). destruct (R4 x Hx) as [W1 W2].
    destruct (Nat.eqb_spec a x) as [<-|Nx].
    + split; [assumption|]. rewrite !HL by assumption. rewrite Ea, Eb, Nat.eqb_refl.
      destruct (Nat.eqb_spec b a); [congruence|].
      split; [reflexivity|]. split; [split; congruence|].
      unfold bump. destruct (Nat.eqb_spec a b); [congruence|]. rewrite Nat.eqb_refl. split; lia.
    + split; [assumption|]. rewrite !HL by assumption. rewrite P2.
      split; [reflexivity|].
      assert (NBX : forall y, h y <= bump h a b y).
      { intros y. unfold bump. destruct (Nat.eqb_spec y b) as [->|]; lia. }
      split.
      { destruct (Nat.eqb_spec (lab L x) a) as [E|E]; [|exact P3].
        split; intros Q.
        - exfalso. apply P3 in Q. congruence.
        - subst x. congruence. }
      split.
      { intros NP. specialize (P4 NP). pose proof (NBX (par u x)).
        assert (bump h a b x = h x); [|lia].
        unfold bump. destruct (Nat.eqb_spec x b) as [->|]; [|reflexivity].
        exfalso. apply NP. apply P3. assumption. }
      { unfold bump at 1. destruct (Nat.eqb_spec x b) as [->|Nb].
        - rewrite Eb. destruct (Nat.eqb_spec b a); [congruence|]. unfold bump. rewrite Nat.eqb_refl. lia.
        - destruct (Nat.eqb_spec (lab L x) a) as [E|E].
          + unfold bump. rewrite Nat.eqb_refl. rewrite E in P5. lia.
          + pose proof (NBX (lab L x)). lia. }
  - intros r Hr Er. rewrite HL in Er by assumption.
    change (rk (mkU (parents u') (ranks u') (wsub (disjoint u') 1) (acorn u') (compress u')) r)
      with (rk u' r). rewrite RK.
    destruct (Nat.eqb_spec b r) as [<-|Nb].
    + rewrite weight_relabel_to by assumption. split; [lia|].
      unfold bump. rewrite Nat.eqb_refl.
      destruct (Nat.max_spec (h b) (S (h a))) as [[_ ->]|[_ ->]]; cbn [Nat.pow]; lia.
    + assert (lab L r = r /\ r <> a).
      { destruct (Nat.eqb_spec (lab L r) a); [congruence|]. split; [assumption|congruence]. }
      destruct H as [H H']. rewrite weight_relabel_other by congruence.
      unfold bump. destruct (Nat.eqb_spec r b); [congruence|]. apply R6; assumption.
  - unfold u'. cbn [set_rank set_parent disjoint]. rewrite R7, wsub_small by lia. lia.
  - unfold u'. cbn [set_rank set_parent acorn]. assumption.
Qed.

Lemma join_roots_ok byref ord u L h a b : rel u L h -> a < length L -> b < length L ->
  lab L a = a -> lab L b = b ->
  exists u' h', join_roots byref ord u a b = Val (u', snd (ljoin L a b)) /\
    rel u' (fst (ljoin L a b)) h' /\ compress u' = compress u.
Proof.
  intros R Ha Hb Ea Eb. unfold join_roots, ljoin.
  pose proof (rel_rk_len _ _ _ R) as RL.
  rewrite !get_rank_ok by lia. cbn [bind]. rewrite !nth_error_lab, Ea, Eb by assumption.
  destruct (same_set_ok ord u L h a b R Ha Hb) as (u1 & S1 & R1 & C1). rewrite S1, Ea, Eb. cbn [bind].
  destruct (Nat.eqb_spec a b) as [E|N].
  - exists u1, h. auto.
  - pose proof (rel_rk_len _ _ _ R1) as RL1.
    assert (K : forall v, rel v L h -> rk v a = N.of_nat (weight L a) /\ rk v b = N.of_nat (weight L b)).
    { intros v Rv. split; [apply (rel_root _ _ _ Rv a Ha Ea)|apply (rel_root _ _ _ Rv b Hb Eb)]. }
    destruct (K u R) as [Ka Kb]. destruct (K u1 R1) as [Ka1 Kb1].
    assert (RA : (if byref then get_rank u1 a else Val (rk u a)) = Val (N.of_nat (weight L a))).
    { destruct byref; [rewrite get_rank_ok by lia|]; congruence. }
    assert (RB : (if byref then get_rank u1 b else Val (rk u b)) = Val (N.of_nat (weight L b))).
    { destruct byref; [rewrite get_rank_ok by lia|]; congruence. }
    rewrite RA, RB. cbn [bind].
    pose proof (weight_pos L a Ha) as Pa. rewrite Ea in Pa.
    pose proof (weight_pos L b Hb) as Pb. rewrite Eb in Pb.
    assert (FIN : forall u2 L2 h2, length L2 = length L -> compress u2 = compress u1 ->
      rk u2 a <> 0%N -> rk u2 b <> 0%N ->
      rel (mkU (parents u2) (ranks u2) (wsub (disjoint u2) 1) (acorn u2) (compress u2)) L2 h2 ->
      exists u' h', (let* ra2 := (if byref then get_rank u2 a else Val (rk u a)) in
                     let* rb2 := (if byref then get_rank u2 b else Val (rk u b)) in
                     Val (mkU (parents u2) (ranks u2) (wsub (disjoint u2) 1)
                       (wsub (acorn u2) (wadd (not_bit ra2) (not_bit rb2))) (compress u2), negb false))
                    = Val (u', true) /\ rel u' L2 h' /\ compress u' = compress u).
    { intros u2 L2 h2 LL CC N1 N2 Rv. pose proof (rel_rk_len _ _ _ Rv) as RLv. cbn [ranks] in RLv.
      pose proof (rel_acorn _ _ _ Rv) as RAv. cbn [acorn] in RAv. pose proof (rel_bound _ _ _ Rv) as RBv.
      assert (X : exists ra2 rb2, (if byref then get_rank u2 a else Val (rk u a)) = Val ra2 /\
                (if byref then get_rank u2 b else Val (rk u b)) = Val rb2 /\ ra2 <> 0%N /\ rb2 <> 0%N).
      { destruct byref.
        - exists (rk u2 a), (rk u2 b). rewrite !get_rank_ok by lia. auto.
        - exists (rk u a), (rk u b). split; [reflexivity|]. split; [reflexivity|]. split; lia. }
      destruct X as (ra2 & rb2 & -> & -> & Na & Nb). cbn [bind].
      exists (mkU (parents u2) (ranks u2) (wsub (disjoint u2) 1) (acorn u2) (compress u2)), h2.
      split; [|split; [assumption|cbn; congruence]].
      unfold not_bit. destruct (N.eqb_spec ra2 0); [congruence|]. destruct (N.eqb_spec rb2 0); [congruence|].
      rewrite wadd_small by (unfold two64; lia). rewrite (wsub_small (acorn u2)) by lia.
      change (0 + 0)%N with 0%N. rewrite N.sub_0_r. reflexivity. }
    destruct (Nat.leb_spec (weight L a) (weight L b)) as [LE|LT].
    + destruct (N.leb_spec (N.of_nat (weight L a)) (N.of_nat (weight L b))); [|lia].
      destruct (hang_ok u1 L h a b R1 Ha Hb Ea Eb N LE) as (u2 & J & C2 & Z1 & Z2 & R2).
      rewrite J. cbn [bind].
      destruct (FIN u2 (relabel a b L) (bump h a b)) as (u' & h' & E' & R' & C');
        [apply relabel_length|assumption|assumption|assumption|assumption|].
      exists u', h'. split; [exact E'|]. split; assumption.
    + destruct (N.leb_spec (N.of_nat (weight L a)) (N.of_nat (weight L b))); [lia|].
      destruct (hang_ok u1 L h b a R1 Hb Ha Eb Ea) as (u2 & J & C2 & Z1 & Z2 & R2); [congruence|lia|].
      rewrite J. cbn [bind].
      destruct (FIN u2 (relabel b a L) (bump h b a)) as (u' & h' & E' & R' & C');
        [apply relabel_length|assumption|assumption|assumption|assumption|].
      exists u', h'. split; [exact E'|]. split; assumption.
Qed.

Lemma ljoin_lab L a b : lwf L -> a < length L -> b < length L ->
  ljoin L (lab L a) (lab L b) = ljoin L a b.
Proof.
  intros W Ha Hb. destruct (W a Ha) as [A1 A2]. destruct (W b Hb) as [B1 B2].
  unfold ljoin. rewrite !nth_error_lab, A2, B2 by assumption. reflexivity.
Qed.

(** two finds followed by [_join] *)
Lemma find_join_ok byref o1 o2 u L h a b : rel u L h -> a < length L -> b < length L ->
  exists u' h', (let* (v, ra, rb) := find_two o1 u a b in join_roots byref o2 v ra rb)
                = Val (u', snd (ljoin L a b)) /\
    rel u' (fst (ljoin L a b)) h' /\ compress u' = compress u.
Proof.
  intros R Ha Hb. destruct (find_two_ok o1 u L h a b R Ha Hb) as (v & F & Rv & C). rewrite F. cbn [bind].
  pose proof (rel_wf _ _ _ R) as W. destruct (W a Ha) as [A1 A2]. destruct (W b Hb) as [B1 B2].
  destruct (join_roots_ok byref o2 v L h _ _ Rv A1 B1 A2 B2) as (u' & h' & J & R' & C').
  rewrite ljoin_lab in J, R' by assumption. exists u', h'. split; [assumption|]. split; [assumption|congruence].
Qed.

(** growing by one fresh singleton *)
Lemma lab_app1 L x : lab (L ++ [length L]) x = if x =? length L then length L else lab L x.
Proof.
  unfold lab. destruct (Nat.eqb_spec x (length L)) as [->|N].
  - rewrite app_nth2, Nat.sub_diag by lia. reflexivity.
  - destruct (Nat.lt_ge_cases x (length L)).
    + apply app_nth1; assumption.
    + rewrite !nth_overflow; rewrite ?app_length; cbn; lia.
Qed.

Lemma classes_app1 L : lwf L -> classes (L ++ [length L]) = S (classes L).
Proof.
  intros W. unfold classes. rewrite app_length. cbn [length]. rewrite Nat.add_1_r, seq_S, filter_app, app_length.
  cbn [plus filter]. rewrite own_label_lab by (rewrite app_length; cbn; lia).
  rewrite lab_app1, Nat.eqb_refl, Nat.eqb_refl. cbn [length]. rewrite Nat.add_1_r. f_equal. f_equal.
  apply filter_ext_in. intros x Hx. apply in_seq in Hx.
  rewrite !own_label_lab by (rewrite ?app_length; cbn; lia). rewrite lab_app1.
  destruct (Nat.eqb_spec x (length L)); [lia|reflexivity].
Qed.

Lemma weight_app1 L r : lwf L -> weight (L ++ [length L]) r = weight L r + (if length L =? r then 1 else 0).
Proof.
  intros W. unfold weight. rewrite count_occ_app. cbn.
  destruct (Nat.eq_dec (length L) r) as [->|N].
  - rewrite Nat.eqb_refl. reflexivity.
  - destruct (Nat.eqb_spec (length L) r); [congruence|reflexivity].
Qed.

Lemma weight_new L : lwf L -> weight L (length L) = 0.
Proof.
  intros W. unfold weight. apply count_occ_not_In. intros H. apply (In_nth _ _ 0) in H.
  destruct H as (x & Hx & E). destruct (W x Hx) as [Wx _]. unfold lab in Wx. lia.
Qed.

Lemma grow1 u L h p r : rel u L h -> (N.of_nat (S (length L)) < two64)%N ->
  p = parents u ++ [length L] -> r = ranks u ++ [1%N] ->
  rel (mkU p r (wadd (disjoint u) 1) (wadd (acorn u) 1) (compress u))
      (L ++ [length L]) (fun x => if x =? length L then 0 else h x).
Proof.
  intros R B -> ->. destruct R as [R1 R2 R3 R4 R5 R6 R7 R8].
  pose proof (classes_le L) as CL.
  assert (PAR : forall x, par (mkU (parents u ++ [length L]) (ranks u ++ [1%N]) (wadd (disjoint u) 1) (wadd (acorn u) 1) (compress u)) x
     = if x =? length L then length L else par u x).
  { intros x. unfold par; cbn. rewrite <- R1. pose proof (lab_app1 (parents u) x) as X. unfold lab in X.
    exact X. }
  assert (RK : forall x, rk (mkU (parents u ++ [length L]) (ranks u ++ [1%N]) (wadd (disjoint u) 1) (wadd (acorn u) 1) (compress u)) x
     = if x =? length L then 1%N else rk u x).
  { intros x. unfold rk; cbn. destruct (Nat.eqb_spec x (length L)) as [->|N].
    - rewrite app_nth2, R2, Nat.sub_diag by lia. reflexivity.
    - destruct (Nat.lt_ge_cases x (length L)).
      + apply app_nth1; lia.
      + rewrite !nth_overflow; rewrite ?app_length; cbn; lia. }
  split; try (cbn; rewrite !app_length; cbn; lia).
  - rewrite app_length; cbn. rewrite Nat.add_1_r. assumption.
  - intros x Hx. rewrite app_length in *. cbn in *. rewrite !lab_app1.
    destruct (Nat.eqb_spec x (length L)) as [->|N].
    + rewrite Nat.eqb_refl. split; lia.
    + destruct (R4 x) as [W1 W2]; [lia|]. destruct (Nat.eqb_spec (lab L x) (length L)); [lia|]. split; [lia|assumption].
  - intros x Hx. rewrite app_length in *. cbn [length] in *. rewrite PAR, !lab_app1.
    destruct (Nat.eqb_spec x (length L)) as [->|N].
    + rewrite Nat.eqb_refl. repeat split; try lia; congruence.
    + assert (Hx' : x < length L) by lia. destruct (R5 x Hx') as (P1 & P2 & P3 & P4 & P5).
      destruct (R4 x Hx') as [W1 W2].
      destruct (Nat.eqb_spec (par u x) (length L)); [lia|].
      destruct (Nat.eqb_spec (lab L x) (length L)); [lia|].
      split; [lia|]. split; [assumption|]. split; [assumption|]. split; assumption.
  - intros x Hx. rewrite app_length in Hx. cbn [length] in Hx. rewrite lab_app1, RK, weight_app1 by assumption.
    destruct (Nat.eqb_spec x (length L)) as [->|N]; intros E.
    + rewrite weight_new, Nat.eqb_refl by assumption. split; [reflexivity|cbn; lia].
    + destruct (Nat.eqb_spec (length L) x); [congruence|]. rewrite Nat.add_0_r. apply R6; [lia|assumption].
  - cbn. rewrite classes_app1, R7, wadd_small by (try assumption; lia). lia.
  - cbn [acorn]. rewrite app_length, R8, wadd_small by lia. cbn [length]. lia.
Qed.

(** resize *)
Lemma set_nth_app {A} (l m : list A) i x : set_nth (l ++ m) (length l + i) x = l ++ set_nth m i x.
Proof. induction l; cbn; [reflexivity|]. f_equal. assumption. Qed.

Lemma insert_fresh u (L : list nat) pp pr :
  length (parents u) = length L -> length (ranks u) = length L ->
  fst (insert (mkU (parents u ++ 0 :: pp) (ranks u ++ 0%N :: pr) (disjoint u) (acorn u) (compress u)) (length L))
  = mkU ((parents u ++ [length L]) ++ pp) ((ranks u ++ [1%N]) ++ pr)
        (wadd (disjoint u) 1) (wadd (acorn u) 1) (compress u).
Proof.
  intros E1 E2. unfold insert, exists_. cbn [parents ranks disjoint acorn compress fst].
  assert (X : length L <? length (parents u ++ 0 :: pp) = true).
  { apply Nat.ltb_lt. rewrite app_length. cbn. lia. }
  rewrite X.
  assert (Y : forall i, set_nth (parents u ++ 0 :: pp) (length L) i = parents u ++ i :: pp).
  { intros i. rewrite <- E1, <- (Nat.add_0_r (length (parents u))). rewrite set_nth_app. reflexivity. }
  assert (Z : forall i, set_nth (ranks u ++ 0%N :: pr) (length L) i = ranks u ++ i :: pr).
  { intros i. rewrite <- E2, <- (Nat.add_0_r (length (ranks u))). rewrite set_nth_app. reflexivity. }
  rewrite Y, Z, <- !app_assoc. reflexivity.
Qed.

Lemma resize_loop : forall k u L h, rel u L h -> (N.of_nat (length L + k) < two64)%N ->
  exists h', rel (fold_left (fun u ii => fst (insert u ii)) (seq (length L) k)
       (mkU (parents u ++ repeat 0 k) (ranks u ++ repeat 0%N k) (disjoint u) (acorn u) (compress u)))
     (L ++ seq (length L) k) h' /\
   compress (fold_left (fun u ii => fst (insert u ii)) (seq (length L) k)
       (mkU (parents u ++ repeat 0 k) (ranks u ++ repeat 0%N k) (disjoint u) (acorn u) (compress u))) = compress u.
Proof.
  induction k as [|k IH]; intros u L h R B.
  - cbn. rewrite !app_nil_r. exists h. destruct u; cbn. auto.
  - cbn [seq fold_left repeat].
    rewrite (insert_fresh u L) by apply R.
    pose proof (grow1 u L h _ _ R ltac:(lia) eq_refl eq_refl) as R'.
    specialize (IH _ _ _ R'). cbn [parents ranks disjoint acorn compress] in IH.
    rewrite app_length in IH. cbn [length] in IH. rewrite Nat.add_1_r in IH.
    rewrite <- (app_assoc L) in IH. cbn [app] in IH.
    apply IH. lia.
Qed.

Lemma resize_ok u L h n : rel u L h -> (N.of_nat n < two64)%N ->
  exists h', rel (fst (resize u n)) (lgrow L n) h' /\ snd (resize u n) = (length L <? n) /\
    compress (fst (resize u n)) = compress u.
Proof.
  intros R B. unfold resize, lgrow. rewrite (rel_par_len _ _ _ R).
  destruct (Nat.ltb_spec (length L) n) as [LT|GE].
  - rewrite (rel_rk_len _ _ _ R), firstn_all2 by (rewrite (rel_rk_len _ _ _ R); lia).
    destruct (resize_loop (n - length L) u L h R) as [h' [R' C']]; [replace (length L + (n - length L)) with n by lia; assumption|].
    exists h'. auto.
  - replace (n - length L) with 0 by lia. cbn. rewrite app_nil_r. exists h. auto.
Qed.

Lemma exists_ok u L h x : rel u L h -> exists_ u x = (x <? length L).
Proof. intros R. unfold exists_. rewrite (rel_par_len _ _ _ R). reflexivity. Qed.

Lemma nth_error_none L x : length L <= x -> @nth_error nat L x = None.
Proof. apply nth_error_None. Qed.

Lemma find_ok' u L h x : rel u L h ->
  exists u', find u x = Val (u', nth_error L x) /\ rel u' L h /\ compress u' = compress u.
Proof.
  intros R. unfold find. rewrite (exists_ok _ _ _ _ R). destruct (Nat.ltb_spec x (length L)) as [H|H]; cbn [negb].
  - destruct (find_root_ok u L h x R H) as (u' & F & R' & C). rewrite F. cbn [bind].
    rewrite nth_error_lab by assumption. eauto.
  - rewrite nth_error_none by assumption. eauto.
Qed.

Theorem ustep_ok u L h o : rel u L h -> uop_ok o ->
  exists u' h', ustep u o = Val (u', snd (lstep L o)) /\ rel u' (fst (lstep L o)) h' /\
    compress u' = compress u.
Proof.
  intros R OK. destruct o as [o1 o2 a b|o a b|x|x|n|x| |]; cbn [ustep lstep].
  - unfold join. rewrite !(exists_ok _ _ _ _ R).
    destruct (Nat.ltb_spec a (length L)) as [Ha|Ha]; cbn [andb];
      [destruct (Nat.ltb_spec b (length L)) as [Hb|Hb]|].
    + destruct (find_join_ok false o1 o2 u L h a b R Ha Hb) as (u' & h' & J & R' & C).
      rewrite J. cbn [bind]. destruct (ljoin L a b) as [L' r]. exists u', h'. auto.
    + unfold ljoin. rewrite (nth_error_none L b) by assumption.
      destruct (nth_error L a); exists u, h; auto.
    + unfold ljoin. rewrite (nth_error_none L a) by assumption. exists u, h; auto.
  - unfold same, lsame. rewrite !(exists_ok _ _ _ _ R).
    destruct (Nat.ltb_spec a (length L)) as [Ha|Ha]; cbn [andb];
      [destruct (Nat.ltb_spec b (length L)) as [Hb|Hb]|].
    + destruct (same_set_ok o u L h a b R Ha Hb) as (u' & S & R' & C). rewrite S. cbn [bind].
      rewrite !nth_error_lab by assumption. exists u', h. auto.
    + rewrite (nth_error_none L b) by assumption. destruct (nth_error L a); exists u, h; auto.
    + rewrite (nth_error_none L a) by assumption. exists u, h; auto.
  - destruct (find_ok' u L h x R) as (u' & F & R' & C). rewrite F. cbn [bind]. exists u', h. auto.
  - unfold size_of. destruct (find_ok' u L h x R) as (u' & F & R' & C). rewrite F. cbn [bind]. unfold lsize.
    destruct (nth_error L x) as [r|] eqn:E; cbn [bind]; [|exists u', h; auto].
    assert (Hx : x < length L) by (apply nth_error_Some; congruence).
    rewrite nth_error_lab in E by assumption. injection E as <-.
    destruct (rel_wf _ _ _ R x Hx) as [W1 W2].
    rewrite get_rank_ok by (rewrite (rel_rk_len _ _ _ R'); assumption). cbn [bind].
    destruct (rel_root _ _ _ R' _ W1 W2) as [-> _]. exists u', h. auto.
  - destruct (resize_ok u L h n R OK) as [h' (R' & S & C)]. destruct (resize u n) as [u' r].
    cbn [fst snd] in *. subst r. exists u', h'. auto.
  - rewrite (exists_ok _ _ _ _ R). exists u, h. auto.
  - rewrite (rel_disj _ _ _ R). exists u, h. auto.
  - rewrite (rel_acorn _ _ _ R). exists u, h. auto.
Qed.

Theorem urun_ok ops : forall u L h, rel u L h -> Forall uop_ok ops ->
  exists u' h', urun u ops = Val (u', snd (lrun L ops)) /\ rel u' (fst (lrun L ops)) h'.
Proof.
  induction ops as [|o ops IH]; intros u L h R OK; cbn [urun lrun]; [exists u, h; auto|].
  inversion OK; subst. destruct (ustep_ok u L h o R) as (u1 & h1 & S & R1 & _); [assumption|].
  rewrite S. cbn [bind]. destruct (lstep L o) as [L1 r]. cbn [fst snd] in *.
  destruct (IH u1 L1 h1 R1) as (u2 & h2 & S2 & R2); [assumption|]. rewrite S2. cbn [bind].
  destruct (lrun L1 ops) as [L2 rs]. cbn [fst snd] in *. exists u2, h2. auto.
Qed.

Lemma rel_nil c : rel (mkU [] [] 0 0 c) [] (fun _ => 0).
Proof.
  split; cbn; try lia; try reflexivity.
  - intros x Hx. cbn in Hx. lia.
Qed.

Lemma uset_of_ok n c : (N.of_nat n < two64)%N ->
  exists h, rel (uset_of n c) (seq 0 n) h /\ compress (uset_of n c) = c.
Proof.
  intros B. unfold uset_of. destruct (resize_ok _ _ _ n (rel_nil c) B) as [h (R & _ & C)].
  exists h. unfold lgrow in R. cbn in R. rewrite Nat.sub_0_r in R. auto.
Qed.

(** ** Label arrays and the generated equivalence *)
Lemma linked_mono {A} (P Q : list (A * A)) x y :
  (forall p, In p P -> In p Q) -> linked P x y -> linked Q x y.
Proof.
  intros I H. induction H as [x|a b H|a b H IH|a b c H1 IH1 H2 IH2].
  - apply linked_refl. - apply linked_pair; auto. - apply linked_sym; auto.
  - eapply linked_trans; eauto.
Qed.

Lemma linked_redundant {A} (P : list (A * A)) a b x y :
  linked P a b -> linked ((a, b) :: P) x y -> linked P x y.
Proof.
  intros AB H. induction H as [z|a' b' H|a' b' H IH|a' b' c' H1 IH1 H2 IH2].
  - apply linked_refl.
  - destruct H as [E|H]; [injection E as <- <-; assumption|apply linked_pair; assumption].
  - apply linked_sym; assumption.
  - eapply linked_trans; eassumption.
Qed.

Section Linv.
Context {T : Type}.

Record linv (M : list T) (L : list nat) (P : list (T * T)) : Prop := {
  linv_len : length L = length M;
  linv_nodup : NoDup M;
  linv_wf : lwf L;
  linv_pairs : forall a b, In (a, b) P -> In a M /\ In b M;
  linv_iff : forall i j x y, nth_error M i = Some x -> nth_error M j = Some y ->
               (lab L i = lab L j <-> linked P x y)
}.

Lemma nth_error_inj (M : list T) i j x : NoDup M -> nth_error M i = Some x -> nth_error M j = Some x -> i = j.
Proof.
  intros ND Hi Hj. rewrite NoDup_nth_error in ND. apply ND; [|congruence].
  apply nth_error_Some. congruence.
Qed.

Lemma linv_lt M L P i x : linv M L P -> nth_error M i = Some x -> i < length L.
Proof. intros I H. rewrite (linv_len _ _ _ I). apply nth_error_Some. congruence. Qed.

(** To check one direction it is enough to look at the pairs. *)
Lemma linked_labels (M : list T) (L : list nat) (P : list (T * T)) : NoDup M ->
  (forall a b, In (a, b) P -> exists i j, nth_error M i = Some a /\ nth_error M j = Some b /\ lab L i = lab L j) ->
  forall x y, linked P x y ->
    x = y \/ exists i j, nth_error M i = Some x /\ nth_error M j = Some y /\ lab L i = lab L j.
Proof.
  intros ND HP x y H. induction H as [x|a b H|a b H IH|a b c H1 IH1 H2 IH2].
  - auto.
  - right. apply HP; assumption.
  - destruct IH as [->|(i & j & A & B & C)]; [auto|]. right. exists j, i. auto.
  - destruct IH1 as [->|(i & j & A & B & C)]; [assumption|].
    destruct IH2 as [<-|(j' & k & A' & B' & C')]; [right; eauto 10|].
    right. exists i, k. rewrite (nth_error_inj M j j' b) in C by assumption. split; [assumption|]. split; [assumption|congruence].
Qed.

Lemma linv_join M L P i j a b : linv M L P -> nth_error M i = Some a -> nth_error M j = Some b ->
  linv M (fst (ljoin L i j)) ((a, b) :: P).
Proof.
  intros I Hi Hj. pose proof I as [I1 I2 I3 I4 I5].
  pose proof (linv_lt _ _ _ _ _ I Hi) as Li. pose proof (linv_lt _ _ _ _ _ I Hj) as Lj.
  assert (AM : In a M) by (eapply nth_error_In; eauto).
  assert (BM : In b M) by (eapply nth_error_In; eauto).
  destruct (I3 i Li) as [Wi Wii]. destruct (I3 j Lj) as [Wj Wjj].
  assert (CHG : forall p q, (p = lab L i /\ q = lab L j) \/ (p = lab L j /\ q = lab L i) -> p <> q ->
    linv M (relabel p q L) ((a, b) :: P)).
  { intros p q PQ NPQ.
    assert (HL : forall x, x < length L -> lab (relabel p q L) x = if lab L x =? p then q else lab L x)
      by (intros; apply lab_relabel; assumption).
    split.
    - rewrite relabel_length; assumption.
    - assumption.
    - apply relabel_wf; try assumption; destruct PQ as [[-> ->]|[-> ->]]; assumption.
    - intros a' b' [E|H]; [injection E as <- <-; auto|apply I4; assumption].
    - intros k l x y Hk Hl.
      pose proof (linv_lt _ _ _ _ _ I Hk) as Lk. pose proof (linv_lt _ _ _ _ _ I Hl) as Ll.
      rewrite !HL by assumption. split.
      + intros E.
        assert (MONO : forall x y, linked P x y -> linked ((a, b) :: P) x y).
        { intros x' y'. apply linked_mono. intros ? ?; right; assumption. }
        assert (AB : linked ((a, b) :: P) a b) by (apply linked_pair; left; reflexivity).
        assert (CK : forall x k, nth_error M k = Some x -> lab L k = lab L i -> linked ((a,b)::P) x a).
        { intros x0 k0 H0 E0. apply MONO. apply (I5 k0 i x0 a H0 Hi). assumption. }
        assert (CJ : forall x k, nth_error M k = Some x -> lab L k = lab L j -> linked ((a,b)::P) x a).
        { intros x0 k0 H0 E0. eapply linked_trans; [|apply linked_sym; exact AB].
          apply MONO. apply (I5 k0 j x0 b H0 Hj). assumption. }
        destruct (Nat.eqb_spec (lab L k) p) as [Ek|Ek]; destruct (Nat.eqb_spec (lab L l) p) as [El|El].
        * apply MONO. apply (I5 k l x y Hk Hl). congruence.
        * eapply linked_trans; [|apply linked_sym].
          { destruct PQ as [[-> ->]|[-> ->]]; [apply (CK x k)|apply (CJ x k)]; assumption. }
          { destruct PQ as [[-> ->]|[-> ->]]; [apply (CJ y l)|apply (CK y l)]; congruence. }
        * eapply linked_trans; [|apply linked_sym].
          { destruct PQ as [[-> ->]|[-> ->]]; [apply (CJ x k)|apply (CK x k)]; congruence. }
          { destruct PQ as [[-> ->]|[-> ->]]; [apply (CK y l)|apply (CJ y l)]; assumption. }
        * apply MONO. apply (I5 k l x y Hk Hl). assumption.
      + intros LK.
        destruct (linked_labels M (relabel p q L) ((a, b) :: P) I2) with (x := x) (y := y)
          as [->|(k' & l' & Hk' & Hl' & E)]; [|assumption| |].
        * intros a' b' [E|H].
          -- injection E as <- <-. exists i, j. split; [assumption|]. split; [assumption|].
             rewrite !HL by assumption.
             destruct PQ as [[-> ->]|[-> ->]]; rewrite Nat.eqb_refl.
             ++ destruct (Nat.eqb_spec (lab L j) (lab L i)); congruence.
             ++ destruct (Nat.eqb_spec (lab L i) (lab L j)); congruence.
          -- destruct (I4 _ _ H) as [Ha' Hb']. apply In_nth_error in Ha'. apply In_nth_error in Hb'.
             destruct Ha' as [k' Hk']. destruct Hb' as [l' Hl']. exists k', l'.
             split; [assumption|]. split; [assumption|].
             pose proof (linv_lt _ _ _ _ _ I Hk'). pose proof (linv_lt _ _ _ _ _ I Hl').
             rewrite !HL by assumption.
             assert (E : lab L k' = lab L l'); [|rewrite E; reflexivity].
             apply (I5 k' l' a' b' Hk' Hl'). apply linked_pair. assumption.
        * rewrite (nth_error_inj M k l y) by assumption. reflexivity.
        * rewrite (nth_error_inj M k' k x) in E by assumption.
          rewrite (nth_error_inj M l' l y) in E by assumption.
          rewrite !HL in E by assumption. exact E. }
  unfold ljoin. rewrite !nth_error_lab by assumption.
  destruct (Nat.eqb_spec (lab L i) (lab L j)) as [E|E]; cbn [fst].
  - split; try assumption.
    + intros a' b' [E'|H]; [injection E' as <- <-; auto|apply I4; assumption].
    + intros k l x y Hk Hl. rewrite (I5 k l x y Hk Hl). split.
      * apply linked_mono. intros ? ?; right; assumption.
      * apply linked_redundant. apply (I5 i j a b Hi Hj). assumption.
  - destruct (weight L (lab L i) <=? weight L (lab L j)); cbn [fst]; apply CHG; auto.
Qed.

Lemma linv_grow M L P e : linv M L P -> ~ In e M -> linv (M ++ [e]) (L ++ [length L]) P.
Proof.
  intros [I1 I2 I3 I4 I5] NI.
  assert (NP : forall x y, linked P x y -> x = y \/ (In x M /\ In y M)).
  { intros x y H. induction H as [z|a b H|a b H IH|a b c H1 IH1 H2 IH2]; auto.
    - destruct IH as [->|[? ?]]; auto.
    - destruct IH1 as [->|[? ?]]; [assumption|]. destruct IH2 as [<-|[? ?]]; auto. }
  split.
  - rewrite !app_length. cbn. lia.
  - apply NoDup_rev in I2. rewrite <- (rev_involutive (M ++ [e])). apply NoDup_rev.
    rewrite rev_app_distr. cbn. constructor; [|assumption]. rewrite <- in_rev. assumption.
  - intros x Hx. rewrite app_length in *. cbn in *. rewrite !lab_app1.
    destruct (Nat.eqb_spec x (length L)) as [->|N].
    + rewrite Nat.eqb_refl. split; lia.
    + destruct (I3 x) as [W1 W2]; [lia|]. destruct (Nat.eqb_spec (lab L x) (length L)); [lia|]. split; [lia|assumption].
  - intros a b H. destruct (I4 a b H). split; apply in_or_app; auto.
  - intros i j x y Hi Hj. rewrite !lab_app1, I1.
    assert (SPLIT : forall k z, nth_error (M ++ [e]) k = Some z ->
       (k < length M /\ nth_error M k = Some z) \/ (k = length M /\ z = e)).
    { intros k z H. destruct (Nat.lt_ge_cases k (length M)) as [LT|GE].
      - left. rewrite nth_error_app1 in H by assumption. auto.
      - right. rewrite nth_error_app2 in H by assumption.
        destruct (k - length M) as [|d] eqn:D; cbn in H; [|destruct d; discriminate].
        injection H as ->. split; [lia|reflexivity]. }
    destruct (SPLIT i x Hi) as [[Li Ei]|[-> ->]]; destruct (SPLIT j y Hj) as [[Lj Ej]|[-> ->]].
    + destruct (Nat.eqb_spec i (length M)); [lia|]. destruct (Nat.eqb_spec j (length M)); [lia|].
      apply I5; assumption.
    + rewrite Nat.eqb_refl. destruct (Nat.eqb_spec i (length M)); [lia|].
      destruct (I3 i) as [W1 _]; [lia|]. split; [lia|]. intros H. exfalso.
      apply NP in H. destruct H as [->|[_ H]]; [|tauto]. apply NI. eapply nth_error_In; eauto.
    + rewrite Nat.eqb_refl. destruct (Nat.eqb_spec j (length M)); [lia|].
      destruct (I3 j) as [W1 _]; [lia|]. split; [lia|]. intros H. exfalso.
      apply NP in H. destruct H as [<-|[H _]]; [|tauto]. apply NI. eapply nth_error_In; eauto.
    + split; [intros _; apply linked_refl|reflexivity].
Qed.

Lemma linv_perm M L P Q : (forall p, In p P <-> In p Q) -> linv M L P -> linv M L Q.
Proof.
  intros E [I1 I2 I3 I4 I5]. split; try assumption.
  - intros a b H. apply I4. apply E. assumption.
  - intros i j x y Hi Hj. rewrite (I5 i j x y Hi Hj).
    split; apply linked_mono; intros p; apply E.
Qed.

Lemma linv_nil : linv [] [] [].
Proof.
  split.
  - reflexivity.
  - constructor.
  - intros k Hk; cbn in Hk; lia.
  - intros a b [].
  - intros i j p q Hi; destruct i; discriminate.
Qed.

Lemma linv_same M L P i j x y : linv M L P -> nth_error M i = Some x -> nth_error M j = Some y ->
  lsame L i j = true <-> linked P x y.
Proof.
  intros I Hi Hj. unfold lsame. rewrite !nth_error_lab by (eapply linv_lt; eauto).
  rewrite Nat.eqb_eq. apply (linv_iff _ _ _ I); assumption.
Qed.

Lemma ljoin_result M L P i j x y : linv M L P -> nth_error M i = Some x -> nth_error M j = Some y ->
  snd (ljoin L i j) = true <-> ~ linked P x y.
Proof.
  intros I Hi Hj. rewrite <- (linv_iff _ _ _ I i j x y Hi Hj). unfold ljoin.
  rewrite !nth_error_lab by (eapply linv_lt; eauto).
  destruct (Nat.eqb_spec (lab L i) (lab L j)) as [E|E]; cbn [snd].
  - split; [discriminate|congruence].
  - destruct (weight L (lab L i) <=? weight L (lab L j)); split; auto.
Qed.

(** the members of a class, and one representative per class *)
Lemma weight_filter L r :
  weight L r = length (filter (fun y => lab L y =? r) (seq 0 (length L))).
Proof.
  unfold weight, lab. induction L as [|l L IH] using rev_ind; [reflexivity|].
  rewrite count_occ_app, app_length. cbn [length]. rewrite Nat.add_1_r, seq_S, filter_app, app_length. cbn [plus].
  rewrite IH. f_equal.
  - f_equal. apply filter_ext_in. intros y Hy. apply in_seq in Hy. rewrite app_nth1 by lia. reflexivity.
  - cbn [filter count_occ]. rewrite app_nth2, Nat.sub_diag by lia. cbn [nth].
    destruct (Nat.eq_dec l r) as [->|N].
    + rewrite Nat.eqb_refl. reflexivity.
    + apply Nat.eqb_neq in N. rewrite N. reflexivity.
Qed.

Lemma class_list M L P i x : linv M L P -> nth_error M i = Some x ->
  exists l, NoDup l /\ length l = weight L (lab L i) /\
    forall y, In y l <-> In y M /\ linked P x y.
Proof.
  intros I Hi. rewrite weight_filter.
  set (idx := filter (fun k => lab L k =? lab L i) (seq 0 (length L))).
  pose proof (linv_len _ _ _ I) as LEN.
  assert (GET : forall k, In k idx -> exists y, nth_error M k = Some y).
  { intros k H. apply filter_In in H. destruct H as [H _]. apply in_seq in H.
    destruct (nth_error M k) as [y|] eqn:E; [eauto|]. apply nth_error_None in E. lia. }
  exists (map (fun k => nth k M x) idx). split; [|split].
  - assert (ND : NoDup idx) by (apply NoDup_filter; apply seq_NoDup).
    clearbody idx. induction ND as [|k idx NI ND IH]; cbn; constructor.
    + intros H. apply in_map_iff in H. destruct H as (k' & E & H').
      destruct (GET k) as [y Hy]; [left; reflexivity|]. destruct (GET k') as [y' Hy']; [right; assumption|].
      rewrite (nth_error_nth _ _ _ Hy), (nth_error_nth _ _ _ Hy') in E. subst y'.
      rewrite (nth_error_inj M k' k y (linv_nodup _ _ _ I)) in H' by assumption. contradiction.
    + apply IH. intros; apply GET; right; assumption.
  - apply map_length.
  - intros y. rewrite in_map_iff. split.
    + intros (k & E & H). destruct (GET k H) as [y' Hy]. rewrite (nth_error_nth _ _ _ Hy) in E. subst y'.
      split; [eapply nth_error_In; eauto|]. apply filter_In in H. destruct H as [_ H].
      apply Nat.eqb_eq in H. apply (linv_iff _ _ _ I i k x y Hi Hy). congruence.
    + intros [HM HL]. apply In_nth_error in HM. destruct HM as [k Hk]. exists k.
      split; [apply nth_error_nth; assumption|]. apply filter_In. split.
      * apply in_seq. pose proof (linv_lt _ _ _ _ _ I Hk). lia.
      * apply Nat.eqb_eq. symmetry. apply (linv_iff _ _ _ I i k x y Hi Hk). assumption.
Qed.

Lemma class_reps M L P : linv M L P ->
  exists reps, NoDup reps /\ length reps = classes L /\ (forall r, In r reps -> In r M) /\
    forall x, In x M -> exists r, In r reps /\ linked P x r /\
      forall r', In r' reps -> linked P x r' -> r' = r.
Proof.
  intros I. pose proof (linv_len _ _ _ I) as LEN. pose proof (linv_wf _ _ _ I) as W.
  destruct M as [|d M0] eqn:EM.
  { exists []. destruct L; [|discriminate]. repeat split; try constructor; intros ? []. }
  rewrite <- EM in *. clear EM.
  set (idx := filter (own_label L) (seq 0 (length L))).
  assert (GET : forall k, In k idx -> k < length L /\ lab L k = k /\ exists y, nth_error M k = Some y /\ nth k M d = y).
  { intros k H. apply filter_In in H. destruct H as [H O]. apply in_seq in H.
    split; [lia|]. split.
    - rewrite own_label_lab in O by lia. apply Nat.eqb_eq. assumption.
    - destruct (nth_error M k) as [y|] eqn:E; [|apply nth_error_None in E; lia].
      exists y. split; [reflexivity|]. apply nth_error_nth. assumption. }
  exists (map (fun k => nth k M d) idx). split; [|split; [|split]].
  - assert (ND : NoDup idx) by (apply NoDup_filter; apply seq_NoDup).
    clearbody idx. induction ND as [|k idx NI ND IH]; cbn; constructor.
    + intros H. apply in_map_iff in H. destruct H as (k' & E & H').
      destruct (GET k) as (_ & _ & y & Hy & Ny); [left; reflexivity|].
      destruct (GET k') as (_ & _ & y' & Hy' & Ny'); [right; assumption|].
      rewrite Ny, Ny' in E. subst y'.
      rewrite (nth_error_inj M k' k y (linv_nodup _ _ _ I)) in H' by assumption. contradiction.
    + apply IH. intros; apply GET; right; assumption.
  - rewrite map_length. reflexivity.
  - intros r H. apply in_map_iff in H. destruct H as (k & E & H). destruct (GET k H) as (_ & _ & y & Hy & Ny).
    rewrite Ny in E. subst r. eapply nth_error_In; eauto.
  - intros x HM. apply In_nth_error in HM. destruct HM as [i Hi].
    pose proof (linv_lt _ _ _ _ _ I Hi) as Li. destruct (W i Li) as [W1 W2].
    assert (HR : In (lab L i) idx).
    { apply filter_In. split; [apply in_seq; lia|]. rewrite own_label_lab by assumption. apply Nat.eqb_eq. assumption. }
    destruct (GET _ HR) as (_ & _ & y & Hy & Ny).
    exists y. split; [apply in_map_iff; exists (lab L i); auto|]. split.
    + apply (linv_iff _ _ _ I i (lab L i) x y Hi Hy). congruence.
    + intros r' H HL. apply in_map_iff in H. destruct H as (k & E & H).
      destruct (GET k H) as (_ & Ek & y' & Hy' & Ny'). rewrite Ny' in E. subst y'.
      apply (linv_iff _ _ _ I i k x r' Hi Hy') in HL.
      rewrite Ek in HL. rewrite HL in Hy. congruence.
Qed.

End Linv.

(** ** Histories of union_set *)
Lemma linv_lgrow n m L P : linv (seq 0 n) L P -> n <= m -> linv (seq 0 m) (lgrow L m) P.
Proof.
  intros I LE. pose proof (linv_len _ _ _ I) as LEN. rewrite seq_length in LEN.
  unfold lgrow. rewrite LEN. replace m with (n + (m - n)) at 1 by lia.
  generalize (m - n). intros k. induction k as [|k IH].
  - rewrite Nat.add_0_r, app_nil_r. assumption.
  - rewrite Nat.add_succ_r, !seq_S, app_assoc. cbn [plus].
    pose proof (linv_len _ _ _ IH) as L2. rewrite seq_length in L2.
    assert (E : n + k = length (L ++ seq n k)) by lia.
    rewrite E at 3. apply linv_grow; [assumption|]. rewrite in_seq. lia.
Qed.

Lemma nth_error_seq0 n i : i < n -> nth_error (seq 0 n) i = Some i.
Proof.
  intros H. rewrite (nth_error_nth' _ 0) by (rewrite seq_length; assumption).
  rewrite seq_nth by assumption. reflexivity.
Qed.

Lemma linv_lstep n L P o : linv (seq 0 n) L P ->
  linv (seq 0 (universe n [o])) (fst (lstep L o)) (joined n [o] ++ P).
Proof.
  intros I. pose proof (linv_len _ _ _ I) as LEN. rewrite seq_length in LEN.
  destruct o as [o1 o2 a b|o a b|x|x|m|x| |]; cbn [universe joined lstep fst app]; try assumption.
  - destruct (ljoin L a b) as [L' r] eqn:E.
    replace L' with (fst (ljoin L a b)) by (rewrite E; reflexivity). cbn [fst].
    destruct (Nat.ltb_spec a n) as [Ha|Ha]; cbn [andb]; [destruct (Nat.ltb_spec b n) as [Hb|Hb]|].
    + cbn [app]. apply linv_join; [assumption| |]; apply nth_error_seq0; assumption.
    + cbn [app]. unfold ljoin. rewrite (nth_error_none L b) by lia. destruct (nth_error L a); assumption.
    + cbn [app]. unfold ljoin. rewrite (nth_error_none L a) by lia. assumption.
  - destruct (Nat.le_ge_cases n m).
    + rewrite Nat.max_r by assumption. apply (linv_lgrow n); assumption.
    + rewrite Nat.max_l by assumption. unfold lgrow. rewrite LEN. replace (m - n) with 0 by lia.
      cbn. rewrite app_nil_r. assumption.
Qed.

Lemma universe_cons n o ops : universe n (o :: ops) = universe (universe n [o]) ops.
Proof. destruct o; reflexivity. Qed.
Lemma joined_cons n o ops : joined n (o :: ops) = joined n [o] ++ joined (universe n [o]) ops.
Proof. destruct o; cbn [joined universe app]; try reflexivity. destruct ((a <? n) && (b <? n)); reflexivity. Qed.

Lemma linv_lrun ops : forall n L P, linv (seq 0 n) L P ->
  linv (seq 0 (universe n ops)) (fst (lrun L ops)) (joined n ops ++ P).
Proof.
  induction ops as [|o ops IH]; intros n L P I; [assumption|].
  rewrite universe_cons, joined_cons. cbn [lrun].
  pose proof (linv_lstep n L P o I) as S. destruct (lstep L o) as [L1 r]. cbn [fst] in S.
  specialize (IH _ _ _ S). destruct (lrun L1 ops) as [L2 rs]. cbn [fst] in *.
  eapply linv_perm; [|exact IH]. intros p. rewrite !in_app_iff. tauto.
Qed.

Lemma linv_seq n : linv (seq 0 n) (seq 0 n) [].
Proof.
  pose proof (linv_lgrow 0 n [] [] linv_nil ltac:(lia)) as I. unfold lgrow in I. cbn in I.
  rewrite Nat.sub_0_r in I. assumption.
Qed.

(** Everything known about a state after a history. *)
Lemma history_ok n c ops : (N.of_nat n < two64)%N -> Forall uop_ok ops ->
  exists u rs h, urun (uset_of n c) ops = Val (u, rs) /\
    rs = snd (lrun (seq 0 n) ops) /\
    rel u (fst (lrun (seq 0 n) ops)) h /\
    linv (seq 0 (universe n ops)) (fst (lrun (seq 0 n) ops)) (joined n ops).
Proof.
  intros B OK. destruct (uset_of_ok n c B) as [h0 [R0 _]].
  destruct (urun_ok ops _ _ _ R0 OK) as (u & h & E & R).
  exists u, (snd (lrun (seq 0 n) ops)), h. split; [assumption|]. split; [reflexivity|]. split; [assumption|].
  pose proof (linv_lrun ops n _ _ (linv_seq n)) as I. rewrite app_nil_r in I. assumption.
Qed.

Section AfterHistory.
Context (n : nat) (c : bool) (ops : list uop).
Hypothesis B : (N.of_nat n < two64)%N.
Hypothesis OK : Forall uop_ok ops.

Lemma hist_step o : uop_ok o ->
  exists u rs L h u' h', urun (uset_of n c) ops = Val (u, rs) /\
    linv (seq 0 (universe n ops)) L (joined n ops) /\ length L = universe n ops /\ rel u L h /\
    ustep u o = Val (u', snd (lstep L o)) /\ rel u' (fst (lstep L o)) h'.
Proof.
  intros HO. destruct (history_ok n c ops B OK) as (u & rs & h & E & _ & R & I).
  destruct (ustep_ok u _ h o R HO) as (u' & h' & S & R' & _).
  exists u, rs, (fst (lrun (seq 0 n) ops)), h, u', h'. split; [assumption|]. split; [assumption|].
  split; [|auto]. rewrite (linv_len _ _ _ I), seq_length. reflexivity.
Qed.

Lemma bind_val {A C} (m : outcome (uset * A)) (f : A -> C) u' v :
  (let* (u1, r) := m in Val (u1, f r)) = Val (u', v) -> exists r, m = Val (u', r) /\ f r = v.
Proof. destruct m as [[u1 r]| | |]; cbn; try discriminate. intros E. injection E as <- <-. eauto. Qed.

Theorem same_is_linked ord a b : exists u rs u' r,
  urun (uset_of n c) ops = Val (u, rs) /\ same ord u a b = Val (u', r) /\
  (r = true <-> a < universe n ops /\ b < universe n ops /\ linked (joined n ops) a b).
Proof.
  destruct (hist_step (USame ord a b) I) as (u & rs & L & h & u' & h' & E & IL & LEN & R & S & R').
  cbn [ustep lstep snd] in S. apply bind_val in S. destruct S as (r & S & E'). injection E' as E'.
  exists u, rs, u', r. split; [assumption|]. split; [assumption|]. subst r.
  destruct (Nat.lt_ge_cases a (universe n ops)) as [Ha|Ha].
  - destruct (Nat.lt_ge_cases b (universe n ops)) as [Hb|Hb].
    + rewrite (linv_same _ _ _ a b a b IL) by (apply nth_error_seq0; assumption). tauto.
    + unfold lsame. rewrite (nth_error_none L b) by lia. destruct (nth_error L a); split; try discriminate; lia.
  - unfold lsame. rewrite (nth_error_none L a) by lia. split; try discriminate; lia.
Qed.

Theorem join_reports o1 o2 a b : exists u rs u' r,
  urun (uset_of n c) ops = Val (u, rs) /\ join o1 o2 u a b = Val (u', r) /\
  (r = true <-> a < universe n ops /\ b < universe n ops /\ ~ linked (joined n ops) a b).
Proof.
  destruct (hist_step (UJoin o1 o2 a b) I) as (u & rs & L & h & u' & h' & E & IL & LEN & R & S & R').
  cbn [ustep lstep snd] in S. apply bind_val in S. destruct S as (r & S & E').
  exists u, rs, u', r. split; [assumption|]. split; [assumption|].
  assert (E2 : r = snd (ljoin L a b)) by (destruct (ljoin L a b); cbn in *; congruence). subst r.
  destruct (Nat.lt_ge_cases a (universe n ops)) as [Ha|Ha].
  - destruct (Nat.lt_ge_cases b (universe n ops)) as [Hb|Hb].
    + rewrite (ljoin_result _ _ _ a b a b IL) by (apply nth_error_seq0; assumption). tauto.
    + unfold ljoin. rewrite (nth_error_none L b) by lia. destruct (nth_error L a); cbn; split; try discriminate; lia.
  - unfold ljoin. rewrite (nth_error_none L a) by lia. cbn. split; try discriminate; lia.
Qed.

Theorem size_of_is_class_size x : exists u rs u' k,
  urun (uset_of n c) ops = Val (u, rs) /\ size_of u x = Val (u', k) /\
  exists l, NoDup l /\ k = N.of_nat (length l) /\
    forall y, In y l <-> x < universe n ops /\ y < universe n ops /\ linked (joined n ops) x y.
Proof.
  destruct (hist_step (USizeOf x) I) as (u & rs & L & h & u' & h' & E & IL & LEN & R & S & R').
  cbn [ustep lstep snd] in S. apply bind_val in S. destruct S as (r & S & E'). injection E' as E'.
  exists u, rs, u', r. split; [assumption|]. split; [assumption|]. subst r. unfold lsize.
  destruct (Nat.lt_ge_cases x (universe n ops)) as [Hx|Hx].
  - rewrite nth_error_lab by lia.
    destruct (class_list _ _ _ x x IL) as (l & ND & LL & M); [apply nth_error_seq0; assumption|].
    exists l. split; [assumption|]. split; [congruence|]. intros y. rewrite M, in_seq. intuition lia.
  - rewrite nth_error_none by lia. exists []. split; [constructor|]. split; [reflexivity|].
    intros y. cbn. intuition lia.
Qed.

Theorem disjoint_counts_classes : exists u rs,
  urun (uset_of n c) ops = Val (u, rs) /\
  exists reps, NoDup reps /\ disjoint u = N.of_nat (length reps) /\
    (forall r, In r reps -> r < universe n ops) /\
    forall x, x < universe n ops -> exists r, In r reps /\ linked (joined n ops) x r /\
      forall r', In r' reps -> linked (joined n ops) x r' -> r' = r.
Proof.
  destruct (hist_step UDisjoint I) as (u & rs & L & h & u' & h' & E & IL & LEN & R & S & R').
  exists u, rs. split; [assumption|].
  destruct (class_reps _ _ _ IL) as (reps & ND & LR & IN & COV). exists reps.
  split; [assumption|]. split; [rewrite (rel_disj _ _ _ R); congruence|].
  split; [intros r Hr; specialize (IN r Hr); rewrite in_seq in IN; lia|].
  intros x Hx. apply COV. apply in_seq. lia.
Qed.

(** What find returns. *)
Theorem find_canonical : exists u rs, urun (uset_of n c) ops = Val (u, rs) /\
  forall x, exists u' r, find u x = Val (u', r) /\
    (r = None <-> universe n ops <= x) /\
    (forall i, r = Some i -> i < universe n ops /\ linked (joined n ops) x i) /\
    (forall y, x < universe n ops -> y < universe n ops -> exists v ry, find u y = Val (v, ry) /\
       (r = ry <-> linked (joined n ops) x y)) /\
    (forall later, Forall uop_ok later -> exists answers v v',
       urun u later = Val (v, answers) /\ urun u' later = Val (v', answers)).
Proof.
  destruct (history_ok n c ops B OK) as (u & rs & h & E & _ & R & IL).
  set (L := fst (lrun (seq 0 n) ops)) in *.
  assert (LEN : length L = universe n ops) by (rewrite (linv_len _ _ _ IL), seq_length; reflexivity).
  exists u, rs. split; [assumption|]. intros x.
  destruct (find_ok' u L h x R) as (u' & F & R' & _). exists u', (nth_error L x).
  split; [assumption|]. split; [rewrite nth_error_None; lia|]. split; [|split].
  - intros i Ei. assert (Hx : x < length L) by (apply nth_error_Some; congruence).
    rewrite nth_error_lab in Ei by assumption. injection Ei as <-.
    destruct (linv_wf _ _ _ IL x Hx) as [W1 W2]. split; [lia|].
    apply (linv_iff _ _ _ IL x (lab L x)); [apply nth_error_seq0; lia|apply nth_error_seq0; lia|congruence].
  - intros y Hx Hy. destruct (find_ok' u L h y R) as (v & Fy & _ & _). exists v, (nth_error L y).
    split; [assumption|]. rewrite !nth_error_lab by lia.
    rewrite <- (linv_iff _ _ _ IL x y x y) by (apply nth_error_seq0; lia).
    split; congruence.
  - intros later OK'. destruct (urun_ok later u L h R OK') as (v & hv & E1 & _).
    destruct (urun_ok later u' L h R' OK') as (v' & hv' & E2 & _).
    exists (snd (lrun L later)), v, v'. auto.
Qed.

(** Links followed: [find_ k] gives up when more than [k - 1] links are followed. *)
Theorem depth_logarithmic x : x < universe n ops -> exists u rs u' r k,
  urun (uset_of n c) ops = Val (u, rs) /\ find_ (S (Nat.log2 k)) u x = Val (u', r) /\
  exists l, NoDup l /\ k = length l /\
    forall y, In y l <-> y < universe n ops /\ linked (joined n ops) x y.
Proof.
  intros Hx. destruct (history_ok n c ops B OK) as (u & rs & h & E & _ & R & IL).
  set (L := fst (lrun (seq 0 n) ops)) in *.
  assert (LEN : length L = universe n ops) by (rewrite (linv_len _ _ _ IL), seq_length; reflexivity).
  destruct (find_depth u L h x R) as [u' F]; [lia|].
  exists u, rs, u', (lab L x), (weight L (lab L x)). split; [assumption|]. split; [assumption|].
  destruct (class_list _ _ _ x x IL) as (l & ND & LL & M); [apply nth_error_seq0; assumption|].
  exists l. split; [assumption|]. split; [congruence|]. intros y. rewrite M, in_seq. intuition lia.
Qed.

Lemma lgrow_small L m : m <= length L -> lgrow L m = L.
Proof. intros H. unfold lgrow. replace (m - length L) with 0 by lia. apply app_nil_r. Qed.

Lemma classes_lgrow L m : lwf L -> classes (lgrow L m) = classes L + (m - length L).
Proof.
  intros W. unfold lgrow. generalize (m - length L). intros k. 
  assert (G : lwf (L ++ seq (length L) k) /\ classes (L ++ seq (length L) k) = classes L + k).
  { induction k as [|k [IHw IHc]]; [rewrite app_nil_r; split; [assumption|lia]|].
    assert (E : L ++ seq (length L) (S k) = (L ++ seq (length L) k) ++ [length (L ++ seq (length L) k)]).
    { rewrite seq_S, app_assoc, app_length, seq_length. reflexivity. }
    rewrite E. split; [|rewrite classes_app1 by assumption; lia].
    generalize dependent (L ++ seq (length L) k). clear. intros K W _ _ x Hx.
    rewrite app_length in *. cbn in *. rewrite !lab_app1.
    destruct (Nat.eqb_spec x (length K)) as [->|N].
    - rewrite Nat.eqb_refl. split; lia.
    - destruct (W x) as [W1 W2]; [lia|]. destruct (Nat.eqb_spec (lab K x) (length K)); [lia|]. split; [lia|assumption]. }
  apply G.
Qed.

Theorem resize_adds_singletons m : (N.of_nat m < two64)%N -> exists u rs,
  urun (uset_of n c) ops = Val (u, rs) /\
  snd (resize u m) = (universe n ops <? m) /\
  disjoint (fst (resize u m)) = (disjoint u + N.of_nat (m - universe n ops))%N /\
  length (parents (fst (resize u m))) = Nat.max (universe n ops) m /\
  (m <= universe n ops -> fst (resize u m) = u) /\
  forall ord a b, exists u' r, same ord (fst (resize u m)) a b = Val (u', r) /\
    (r = true <-> (a < Nat.max (universe n ops) m /\ b < Nat.max (universe n ops) m /\
                   (a = b \/ (a < universe n ops /\ b < universe n ops /\ linked (joined n ops) a b)))).
Proof.
  intros Bm. destruct (history_ok n c ops B OK) as (u & rs & h & E & _ & R & IL).
  set (L := fst (lrun (seq 0 n) ops)) in *.
  assert (LEN : length L = universe n ops) by (rewrite (linv_len _ _ _ IL), seq_length; reflexivity).
  exists u, rs. split; [assumption|].
  destruct (resize_ok u L h m R Bm) as (h' & R' & S & C).
  split; [rewrite S, LEN; reflexivity|]. split; [|split; [|split]].
  - rewrite (rel_disj _ _ _ R'), (rel_disj _ _ _ R), classes_lgrow, LEN by apply (linv_wf _ _ _ IL). lia.
  - rewrite (rel_par_len _ _ _ R'). unfold lgrow. rewrite app_length, seq_length. lia.
  - intros Le. unfold resize. rewrite (rel_par_len _ _ _ R), LEN.
    destruct (Nat.ltb_spec (universe n ops) m); [lia|reflexivity].
  - intros ord a b. set (N' := Nat.max (universe n ops) m).
    assert (IL' : linv (seq 0 N') (lgrow L m) (joined n ops)).
    { unfold N'. destruct (Nat.le_ge_cases (universe n ops) m).
      - rewrite Nat.max_r by assumption. apply (linv_lgrow (universe n ops)); assumption.
      - rewrite Nat.max_l by assumption. rewrite lgrow_small by lia. assumption. }
    assert (LEN' : length (lgrow L m) = N') by (rewrite (linv_len _ _ _ IL'), seq_length; reflexivity).
    destruct (ustep_ok _ _ _ (USame ord a b) R' I) as (u' & h2 & S2 & _ & _).
    cbn [ustep lstep snd] in S2. apply bind_val in S2. destruct S2 as (r & S2 & E2). injection E2 as E2.
    exists u', r. split; [assumption|]. subst r.
    assert (OLD : forall x y, linked (joined n ops) x y -> x = y \/ (x < universe n ops /\ y < universe n ops)).
    { assert (HP : forall p q, In (p, q) (joined n ops) -> p < universe n ops /\ q < universe n ops).
      { intros p q H. destruct (linv_pairs _ _ _ IL p q H) as [H1 H2]. apply in_seq in H1. apply in_seq in H2. lia. }
      intros x y H. induction H as [z|p q H|p q H IH|p q s H1 IH1 H2 IH2]; auto.
      - destruct IH as [->|[? ?]]; auto.
      - destruct IH1 as [->|[? ?]]; [assumption|]. destruct IH2 as [<-|[? ?]]; auto. }
    destruct (Nat.lt_ge_cases a N') as [Ha|Ha].
    + destruct (Nat.lt_ge_cases b N') as [Hb|Hb].
      * rewrite (linv_same _ _ _ a b a b IL') by (apply nth_error_seq0; assumption).
        split.
        -- intros H. split; [assumption|]. split; [assumption|]. destruct (OLD a b H); tauto.
        -- intros (_ & _ & [->|(_ & _ & H)]); [apply linked_refl|assumption].
      * unfold lsame. rewrite (nth_error_none _ b) by lia. destruct (nth_error _ a); split; try discriminate; lia.
    + unfold lsame. rewrite (nth_error_none _ a) by lia. split; try discriminate; lia.
Qed.

Theorem acorn_is_length : exists u rs, urun (uset_of n c) ops = Val (u, rs) /\
  acorn u = N.of_nat (universe n ops).
Proof.
  destruct (hist_step UAcorn I) as (u & rs & L & h & u' & h' & E & IL & LEN & R & S & R').
  exists u, rs. split; [assumption|]. rewrite (rel_acorn _ _ _ R). congruence.
Qed.

End AfterHistory.

Lemma lrun_same_call ops1 ops2 : Forall2 same_call ops1 ops2 -> forall L, lrun L ops1 = lrun L ops2.
Proof.
  induction 1 as [|o o' ops1 ops2 H HS IH]; intros L; [reflexivity|]. cbn [lrun].
  replace (lstep L o') with (lstep L o); [destruct (lstep L o) as [L' r]; rewrite IH; reflexivity|].
  destruct o, o'; cbn in H; try discriminate H; try congruence; destruct H as [-> ->]; reflexivity.
Qed.

Theorem compression_unobservable n ops1 ops2 c1 c2 : (N.of_nat n < two64)%N -> Forall uop_ok ops1 ->
  Forall2 same_call ops1 ops2 -> exists answers u1 u2,
    urun (uset_of n c1) ops1 = Val (u1, answers) /\ urun (uset_of n c2) ops2 = Val (u2, answers).
Proof.
  intros B OK S.
  assert (OK2 : Forall uop_ok ops2).
  { clear B. induction S as [|o o' ops1 ops2 H HS IH]; [constructor|]. inversion OK; subst. constructor; [|auto].
    destruct o, o'; cbn in *; try exact I; try discriminate H. congruence. }
  destruct (history_ok n c1 ops1 B OK) as (u1 & rs1 & h1 & E1 & A1 & _).
  destruct (history_ok n c2 ops2 B OK2) as (u2 & rs2 & h2 & E2 & A2 & _).
  exists rs1, u1, u2. split; [assumption|]. rewrite E2, A2, A1, (lrun_same_call _ _ S). reflexivity.
Qed.

(** ** Elements *)
Section ElementProofs.
Context {T : Type} (teq : forall a b : T, {a = b} + {a <> b}).

Lemma tin_spec e (l : list T) : tin teq e l = true <-> In e l.
Proof. unfold tin. destruct (in_dec teq e l); split; auto; discriminate. Qed.

Lemma position_spec e (l : list T) :
  match position teq e l with Some i => nth_error l i = Some e | None => ~ In e l end.
Proof.
  induction l as [|d l IH]; cbn; [tauto|]. destruct (teq e d) as [->|N]; [reflexivity|].
  destruct (position teq e l); cbn; [assumption|]. intros [H|H]; [congruence|tauto].
Qed.

Lemma position_tin e (l : list T) : tin teq e l = match position teq e l with Some _ => true | None => false end.
Proof.
  pose proof (position_spec e l) as H. destruct (position teq e l).
  - apply tin_spec. eapply nth_error_In; eauto.
  - destruct (tin teq e l) eqn:E; [|reflexivity]. apply tin_spec in E. contradiction.
Qed.

Lemma position_app e d (l : list T) : position teq e (l ++ [d]) =
  match position teq e l with Some i => Some i | None => if teq e d then Some (length l) else None end.
Proof.
  induction l as [|a l IH]; cbn.
  - destruct (teq e d); reflexivity.
  - destruct (teq e a); [reflexivity|]. rewrite IH. destruct (position teq e l); cbn; [reflexivity|].
    destruct (teq e d); reflexivity.
Qed.

Record erel (f : ufind T) (s : list T * list nat) (h : nat -> nat) : Prop := {
  erel_elems : elems f = fst s;
  erel_len : length (snd s) = length (fst s);
  erel_ids : forall e, id_of teq (ids f) e = position teq e (fst s);
  erel_core : rel (core f) (snd s) h
}.

Lemma position_lt f s h e i : erel f s h -> position teq e (fst s) = Some i -> i < length (snd s).
Proof.
  intros R H. pose proof (position_spec e (fst s)) as P. rewrite H in P.
  rewrite (erel_len _ _ _ R). apply nth_error_Some. congruence.
Qed.

Lemma erel_with f s h u L h' : erel f s h -> rel u L h' -> length L = length (snd s) ->
  erel (with_core f u) (fst s, L) h'.
Proof. intros [A B C D] R E. split; cbn [fst snd with_core elems ids core]; try assumption. congruence. Qed.

Lemma ljoin_length L i j : length (fst (ljoin L i j)) = length L.
Proof.
  unfold ljoin. destruct (nth_error L i); [|reflexivity]. destruct (nth_error L j); [|reflexivity].
  destruct (_ =? _); [reflexivity|]. destruct (_ <=? _); apply relabel_length.
Qed.

Theorem estep_ok f s h o : erel f s h -> (N.of_nat (S (length (fst s))) < two64)%N ->
  exists f' h', estep teq f o = Val (f', snd (elstep teq s o)) /\ erel f' (fst (elstep teq s o)) h'.
Proof.
  intros R B. pose proof R as [E1 E2 E3 E4]. destruct s as [M L]. cbn [fst snd] in *.
  assert (HAS : forall e, has teq f e = tin teq e M).
  { intros e. unfold has. rewrite E3, position_tin. reflexivity. }
  destruct o as [e|o1 o2 a b|o a b|e|e|e|i| |]; cbn [estep elstep].
  - unfold uf_insert. rewrite HAS. destruct (tin teq e M) eqn:TE; [exists f, h; auto|].
    cbn [fst snd]. rewrite E1.
    destruct f as [u el id]. cbn [elems ids core] in *. subst el.
    eexists _, _. split; [reflexivity|]. split; cbn [fst snd elems ids core].
    + reflexivity.
    + rewrite !app_length, E2. reflexivity.
    + intros d. cbn [id_of]. rewrite position_app, E3. rewrite position_tin in TE.
      destruct (teq d e) as [->|N].
      * destruct (position teq e M); [discriminate|reflexivity].
      * destruct (position teq d M); reflexivity.
    + apply (grow1 u L h); [assumption|rewrite E2; assumption|rewrite E2; reflexivity|reflexivity].
  - unfold uf_join. rewrite !E3.
    destruct (position teq a M) as [i|] eqn:PA; [|exists f, h; auto].
    destruct (position teq b M) as [j|] eqn:PB; [|exists f, h; auto].
    destruct (find_join_ok true o1 o2 _ _ _ i j E4 (position_lt _ _ _ _ _ R PA) (position_lt _ _ _ _ _ R PB)) as (u' & h' & J & R' & _).
    destruct (find_two o1 (core f) i j) as [[[v ri] rj]| | |]; try discriminate J. cbn [bind] in *. rewrite J. cbn [bind].
    pose proof (ljoin_length L i j) as LL.
    destruct (ljoin L i j) as [L' r]. cbn [fst snd] in *. exists (with_core f u'), h'. split; [reflexivity|].
    apply (erel_with f (M, L) h); assumption.
  - unfold uf_same. rewrite !E3.
    destruct (position teq a M) as [i|] eqn:PA; [|exists f, h; auto].
    destruct (position teq b M) as [j|] eqn:PB; [|exists f, h; auto].
    pose proof (position_lt _ _ _ _ _ R PA) as LA. pose proof (position_lt _ _ _ _ _ R PB) as LB. cbn [snd] in *.
    destruct (same_set_ok o _ _ _ i j E4 LA LB) as (u' & S & R' & _). rewrite S. cbn [bind].
    unfold lsame. rewrite !nth_error_lab by assumption. exists (with_core f u'), h. split; [reflexivity|].
    apply (erel_with f (M, L) h); auto.
  - unfold uf_find. rewrite E3. destruct (position teq e M) as [i|] eqn:PE; [|exists f, h; auto].
    pose proof (position_lt _ _ _ _ _ R PE) as LE. cbn [snd] in *.
    destruct (find_root_ok _ _ _ i E4 LE) as (u' & F & R' & _). rewrite F. cbn [bind].
    rewrite nth_error_lab by assumption. exists (with_core f u'), h. split; [reflexivity|].
    apply (erel_with f (M, L) h); auto.
  - unfold uf_size_of, uf_find. rewrite E3. destruct (position teq e M) as [i|] eqn:PE; [|exists f, h; auto].
    pose proof (position_lt _ _ _ _ _ R PE) as LE. cbn [snd] in *.
    destruct (find_root_ok _ _ _ i E4 LE) as (u' & F & R' & _). rewrite F. cbn [bind with_core core].
    destruct (rel_wf _ _ _ R' i LE) as [W1 W2].
    rewrite get_rank_ok by (rewrite (rel_rk_len _ _ _ R'); assumption). cbn [bind].
    unfold lsize. rewrite nth_error_lab by assumption.
    destruct (rel_root _ _ _ R' _ W1 W2) as [-> _]. exists (with_core f u'), h. split; [reflexivity|].
    apply (erel_with f (M, L) h); auto.
  - rewrite HAS. exists f, h; auto.
  - rewrite E1. exists f, h; auto.
  - rewrite (rel_disj _ _ _ E4). exists f, h; auto.
  - rewrite (rel_acorn _ _ _ E4), E2. exists f, h; auto.
Qed.

Lemma elstep_length s o : length (fst (fst (elstep teq s o))) <= S (length (fst s)).
Proof.
  destruct s as [M L]. destruct o as [e|o1 o2 a b|o a b|e|e|e|i| |]; cbn [elstep fst snd]; try lia.
  - destruct (tin teq e M); cbn [fst]; [lia|]. rewrite app_length. cbn. lia.
  - destruct (position teq a M); [|cbn; lia]. destruct (position teq b M); [|cbn; lia].
    destruct (ljoin L n n0). cbn. lia.
  - destruct (position teq a M); [|cbn; lia]. destruct (position teq b M); cbn; lia.
Qed.

Theorem erun_ok ops : forall f s h, erel f s h -> (N.of_nat (length (fst s) + length ops) < two64)%N ->
  exists f' h', erun teq f ops = Val (f', snd (elrun teq s ops)) /\ erel f' (fst (elrun teq s ops)) h'.
Proof.
  induction ops as [|o ops IH]; intros f s h R B; cbn [erun elrun]; [exists f, h; auto|].
  cbn [length] in B. destruct (estep_ok f s h o R ltac:(lia)) as (f1 & h1 & S & R1).
  pose proof (elstep_length s o) as LL.
  rewrite S. cbn [bind]. destruct (elstep teq s o) as [s1 r]. cbn [fst snd] in *.
  destruct (IH f1 s1 h1 R1 ltac:(lia)) as (f2 & h2 & S2 & R2). rewrite S2. cbn [bind].
  destruct (elrun teq s1 ops) as [s2 rs]. cbn [fst snd] in *. exists f2, h2. auto.
Qed.

Lemma erel_new c : erel (ufind_new c) ([], []) (fun _ => 0).
Proof. split; cbn; try reflexivity. apply rel_nil. Qed.

Lemma members_cons l o ops : members teq l (o :: ops) = members teq (members teq l [o]) ops.
Proof. destruct o; reflexivity. Qed.
Lemma ejoined_cons l o ops : ejoined teq l (o :: ops) = ejoined teq l [o] ++ ejoined teq (members teq l [o]) ops.
Proof. destruct o; cbn [ejoined members app]; try reflexivity. destruct (tin teq a l && tin teq b l); reflexivity. Qed.

Lemma linv_elstep M L P o : linv M L P ->
  fst (fst (elstep teq (M, L) o)) = members teq M [o] /\
  linv (members teq M [o]) (snd (fst (elstep teq (M, L) o))) (ejoined teq M [o] ++ P).
Proof.
  intros I. destruct o as [e|o1 o2 a b|o a b|e|e|e|i| |]; cbn [elstep members ejoined app fst snd]; auto.
  - destruct (tin teq e M) eqn:TE; cbn [fst snd]; [auto|]. split; [reflexivity|].
    apply linv_grow; [assumption|]. intros H. apply tin_spec in H. congruence.
  - rewrite !position_tin. pose proof (position_spec a M) as PA. pose proof (position_spec b M) as PB.
    destruct (position teq a M) as [i|]; cbn [andb]; [|cbn; auto].
    destruct (position teq b M) as [j|]; cbn [andb]; [|cbn; auto].
    pose proof (linv_join M L P i j a b I PA PB) as J.
    destruct (ljoin L i j) as [L' r]. cbn [fst snd app] in *. auto.
  - destruct (position teq a M); [|auto]. destruct (position teq b M); auto.
Qed.

Lemma linv_elrun ops : forall M L P, linv M L P ->
  fst (fst (elrun teq (M, L) ops)) = members teq M ops /\
  linv (members teq M ops) (snd (fst (elrun teq (M, L) ops))) (ejoined teq M ops ++ P).
Proof.
  induction ops as [|o ops IH]; intros M L P I; [auto|].
  rewrite members_cons, ejoined_cons. cbn [elrun].
  destruct (linv_elstep M L P o I) as [S1 S2]. destruct (elstep teq (M, L) o) as [[M1 L1] r]. cbn [fst snd] in *.
  subst M1. destruct (IH _ _ _ S2) as [S3 S4]. destruct (elrun teq _ ops) as [[M2 L2] rs]. cbn [fst snd] in *.
  split; [assumption|]. eapply linv_perm; [|exact S4]. intros p. rewrite !in_app_iff. tauto.
Qed.

Lemma ehistory_ok c ops : (N.of_nat (length ops) < two64)%N ->
  exists f rs L h, erun teq (ufind_new c) ops = Val (f, rs) /\
    rs = snd (elrun teq ([], []) ops) /\
    erel f (members teq [] ops, L) h /\
    linv (members teq [] ops) L (ejoined teq [] ops).
Proof.
  intros B. destruct (erun_ok ops _ _ _ (erel_new c)) as (f & h & E & R); [exact B|].
  destruct (linv_elrun ops [] [] [] linv_nil) as [S I]. rewrite app_nil_r in I.
  exists f, (snd (elrun teq ([], []) ops)), (snd (fst (elrun teq ([], []) ops))), h.
  split; [assumption|]. split; [reflexivity|]. split; [|assumption].
  rewrite <- S. destruct (fst (elrun teq ([], []) ops)). assumption.
Qed.

End ElementProofs.

Section ElementResults.
Context {T : Type} (teq : forall a b : T, {a = b} + {a <> b}).

Lemma members_spec e ops : forall l, In e (members teq l ops) <-> In e l \/ In (EInsert e) ops.
Proof.
  induction ops as [|o ops IH]; intros l; [cbn; tauto|].
  destruct o as [d|o1 o2 a b|o a b|d|d|d|i| |]; cbn [members]; rewrite IH; cbn [In];
    try (split; [intros [H|H]; auto|intros [H|[H|H]]; auto; discriminate H]).
  destruct (tin teq d l) eqn:TD.
  - apply tin_spec in TD. split; [tauto|]. intros [H|[H|H]]; auto. injection H as ->. auto.
  - rewrite in_app_iff. cbn. split.
    + intros [[H|[H|[]]]|H]; auto. subst. auto.
    + intros [H|[H|H]]; auto. injection H as ->. auto.
Qed.

Section AfterEHistory.
Context (c : bool) (ops : list (eop T)).
Hypothesis B : (N.of_nat (S (length ops)) < two64)%N.
Notation M := (members teq [] ops).
Notation P := (ejoined teq [] ops).

Lemma members_length ops' : forall l, length (members teq l ops') <= length l + length ops'.
Proof.
  induction ops' as [|o ops' IH]; intros l; [cbn; lia|]. rewrite members_cons.
  specialize (IH (members teq l [o])). cbn [length].
  assert (length (members teq l [o]) <= S (length l)); [|lia].
  destruct o; cbn [members]; try lia. destruct (tin teq e l); [lia|]. rewrite app_length. cbn. lia.
Qed.

Lemma ehist_step : exists f rs L h, erun teq (ufind_new c) ops = Val (f, rs) /\
  linv M L P /\ erel teq f (M, L) h /\
  forall o, exists f' h', estep teq f o = Val (f', snd (elstep teq (M, L) o)) /\
    erel teq f' (fst (elstep teq (M, L) o)) h'.
Proof.
  destruct (ehistory_ok teq c ops) as (f & rs & L & h & E & _ & R & I); [lia|].
  exists f, rs, L, h. split; [assumption|]. split; [assumption|]. split; [assumption|].
  intros o. apply (estep_ok teq f (M, L) h o R). cbn [fst]. pose proof (members_length ops []). cbn [length] in *. lia.
Qed.

Lemma ebind_val {A C} (m : outcome (ufind T * A)) (g : A -> C) f' v :
  (let* (u1, r) := m in Val (u1, g r)) = Val (f', v) -> exists r, m = Val (f', r) /\ g r = v.
Proof. destruct m as [[u1 r]| | |]; cbn; try discriminate. intros E. injection E as <- <-. eauto. Qed.

Lemma in_position e : In e M <-> exists i, position teq e M = Some i.
Proof.
  pose proof (position_spec teq e M) as H. destruct (position teq e M) as [i|].
  - split; [eauto|]. intros _. eapply nth_error_In; eauto.
  - split; [contradiction|]. intros [i E]. discriminate.
Qed.

Theorem elements_same ord a b : exists f rs f' r,
  erun teq (ufind_new c) ops = Val (f, rs) /\ uf_same teq ord f a b = Val (f', r) /\
  (r = true <-> In a M /\ In b M /\ linked P a b).
Proof.
  destruct ehist_step as (f & rs & L & h & E & I & R & ST).
  destruct (ST (ESame ord a b)) as (f' & h' & S & _). cbn [estep] in S. apply ebind_val in S.
  destruct S as (r & S & E'). exists f, rs, f', r. split; [assumption|]. split; [assumption|].
  cbn [elstep snd] in E'.
  pose proof (position_spec teq a M) as PA. pose proof (position_spec teq b M) as PB.
  pose proof (in_position a) as IA. pose proof (in_position b) as IB.
  destruct (position teq a M) as [i|]; [destruct (position teq b M) as [j|]|].
  - cbn [snd] in E'. injection E' as ->. rewrite (linv_same _ _ _ i j a b I) by assumption.
    split; [|tauto]. intros H. split; [apply IA; eauto|]. split; [apply IB; eauto|assumption].
  - cbn [snd] in E'. injection E' as ->. split; [discriminate|tauto].
  - cbn [snd] in E'. injection E' as ->. split; [discriminate|tauto].
Qed.

Theorem elements_join o1 o2 a b : exists f rs f' r,
  erun teq (ufind_new c) ops = Val (f, rs) /\ uf_join teq o1 o2 f a b = Val (f', r) /\
  (r = true <-> In a M /\ In b M /\ ~ linked P a b).
Proof.
  destruct ehist_step as (f & rs & L & h & E & I & R & ST).
  destruct (ST (EJoin o1 o2 a b)) as (f' & h' & S & _). cbn [estep] in S. apply ebind_val in S.
  destruct S as (r & S & E'). exists f, rs, f', r. split; [assumption|]. split; [assumption|].
  cbn [elstep snd] in E'.
  pose proof (position_spec teq a M) as PA. pose proof (position_spec teq b M) as PB.
  pose proof (in_position a) as IA. pose proof (in_position b) as IB.
  destruct (position teq a M) as [i|]; [destruct (position teq b M) as [j|]|].
  - assert (E2 : r = snd (ljoin L i j)) by (destruct (ljoin L i j); cbn in *; congruence). subst r.
    rewrite (ljoin_result _ _ _ i j a b I) by assumption.
    split; [|tauto]. intros H. split; [apply IA; eauto|]. split; [apply IB; eauto|assumption].
  - cbn [snd] in E'. injection E' as ->. split; [discriminate|tauto].
  - cbn [snd] in E'. injection E' as ->. split; [discriminate|tauto].
Qed.

Theorem elements_find : exists f rs, erun teq (ufind_new c) ops = Val (f, rs) /\
  forall a, exists f' r, uf_find teq f a = Val (f', r) /\
    (r = None <-> ~ In a M) /\
    (forall i, r = Some i -> exists e, nth_error (elems f) i = Some e /\ linked P a e) /\
    forall b, In a M -> In b M -> exists g rb, uf_find teq f b = Val (g, rb) /\
      (r = rb <-> linked P a b).
Proof.
  destruct ehist_step as (f & rs & L & h & E & I & R & ST).
  exists f, rs. split; [assumption|]. intros a.
  destruct (ST (EFind a)) as (f' & h' & S & _). cbn [estep] in S. apply ebind_val in S.
  destruct S as (r & S & E'). exists f', r. split; [assumption|]. cbn [elstep snd] in E'. injection E' as ->.
  pose proof (position_spec teq a M) as PA. pose proof (in_position a) as IA.
  split; [|split].
  - destruct (position teq a M) as [i|].
    + rewrite nth_error_None. pose proof (linv_lt _ _ _ _ _ I PA) as LT.
      split; [lia|]. intros H. exfalso. apply H. apply IA. eauto.
    + tauto.
  - intros i Hi. destruct (position teq a M) as [k|]; [|discriminate].
    pose proof (linv_lt _ _ _ _ _ I PA) as LT. rewrite nth_error_lab in Hi by assumption. injection Hi as <-.
    destruct (linv_wf _ _ _ I k LT) as [W1 W2]. rewrite (erel_elems _ _ _ _ R). cbn [fst].
    destruct (nth_error M (lab L k)) as [e|] eqn:EE; [|apply nth_error_None in EE; rewrite <- (linv_len _ _ _ I) in EE; lia].
    exists e. split; [reflexivity|]. apply (linv_iff _ _ _ I k (lab L k) a e PA EE). congruence.
  - intros b Ha Hb. destruct (ST (EFind b)) as (g & hb & Sb & _). cbn [estep] in Sb. apply ebind_val in Sb.
    destruct Sb as (rb & Sb & Eb). exists g, rb. split; [assumption|]. cbn [elstep snd] in Eb. injection Eb as ->.
    apply IA in Ha. apply in_position in Hb. destruct Ha as [i Hi]. destruct Hb as [j Hj].
    pose proof (position_spec teq b M) as PB. rewrite Hj in *. rewrite Hi in *.
    pose proof (linv_lt _ _ _ _ _ I PA). pose proof (linv_lt _ _ _ _ _ I PB).
    rewrite !nth_error_lab by assumption. rewrite <- (linv_iff _ _ _ I i j a b PA PB). split; congruence.
Qed.

Theorem elements_size x : exists f rs f' k,
  erun teq (ufind_new c) ops = Val (f, rs) /\ uf_size_of teq f x = Val (f', k) /\
  exists l, NoDup l /\ k = N.of_nat (length l) /\
    forall y, In y l <-> In x M /\ In y M /\ linked P x y.
Proof.
  destruct ehist_step as (f & rs & L & h & E & I & R & ST).
  destruct (ST (ESizeOf x)) as (f' & h' & S & _). cbn [estep] in S. apply ebind_val in S.
  destruct S as (k & S & E'). exists f, rs, f', k. split; [assumption|]. split; [assumption|].
  cbn [elstep snd] in E'. injection E' as ->.
  pose proof (position_spec teq x M) as PX. pose proof (in_position x) as IX.
  destruct (position teq x M) as [i|].
  - destruct (class_list _ _ _ i x I PX) as (l & ND & LL & HM). exists l. split; [assumption|].
    unfold lsize. rewrite nth_error_lab by (eapply linv_lt; eauto). split; [congruence|].
    intros y. rewrite HM. assert (In x M) by (apply IX; eauto). tauto.
  - exists []. split; [constructor|]. split; [reflexivity|]. intros y. cbn. tauto.
Qed.

Theorem elements_counts : exists f rs, erun teq (ufind_new c) ops = Val (f, rs) /\
  elems f = M /\ acorn (core f) = N.of_nat (length M) /\
  exists reps, NoDup reps /\ disjoint (core f) = N.of_nat (length reps) /\
    (forall r, In r reps -> In r M) /\
    forall x, In x M -> exists r, In r reps /\ linked P x r /\
      forall r', In r' reps -> linked P x r' -> r' = r.
Proof.
  destruct ehist_step as (f & rs & L & h & E & I & R & ST).
  exists f, rs. split; [assumption|]. split; [apply (erel_elems _ _ _ _ R)|].
  pose proof (erel_core _ _ _ _ R) as RC. cbn [snd] in RC.
  split; [rewrite (rel_acorn _ _ _ RC), (linv_len _ _ _ I); reflexivity|].
  destruct (class_reps _ _ _ I) as (reps & ND & LR & IN & COV). exists reps.
  split; [assumption|]. split; [rewrite (rel_disj _ _ _ RC); congruence|]. auto.
Qed.

Theorem elements_insert e : exists f rs, erun teq (ufind_new c) ops = Val (f, rs) /\
  has teq f e = tin teq e M /\ snd (uf_insert teq f e) = negb (tin teq e M) /\
  (In e M -> fst (uf_insert teq f e) = f).
Proof.
  destruct ehist_step as (f & rs & L & h & E & I & R & ST).
  exists f, rs. split; [assumption|].
  assert (H : has teq f e = tin teq e M) by (unfold has; rewrite (erel_ids _ _ _ _ R), position_tin; reflexivity).
  split; [assumption|]. unfold uf_insert. rewrite H. split.
  - destruct (tin teq e M); reflexivity.
  - intros HI. apply (tin_spec teq) in HI. rewrite HI. reflexivity.
Qed.

(** ids: the id of an element is its position in the order of insertion *)
Theorem ids_are_positions (conv : nat -> T) :
  exists f rs, erun teq (ufind_new c) ops = Val (f, rs) /\
  (forall i, uf_find_id teq conv f i = UB <-> In (conv i) M /\ length M <= i) /\
  ((forall i, In (conv i) M <-> i < length M) ->
   (forall i e, nth_error M i = Some e ->
      uf_find_id teq conv f i = uf_find teq f e /\ uf_size_of_id teq conv f i = uf_size_of teq f e) /\
   (forall i, length M <= i ->
      uf_find_id teq conv f i = Val (f, None) /\ uf_size_of_id teq conv f i = Val (f, 0%N)) /\
   (forall o1 o2 i j a b, nth_error M i = Some a -> nth_error M j = Some b ->
      uf_same_id teq conv o1 f i j = uf_same teq o1 f a b /\
      uf_join_id teq conv o1 o2 f i j = uf_join teq o1 o2 f a b) /\
   (forall o1 o2 i j, length M <= i \/ length M <= j ->
      uf_same_id teq conv o1 f i j = Val (f, false) /\ uf_join_id teq conv o1 o2 f i j = Val (f, false))).
Proof.
  destruct ehist_step as (f & rs & L & h & E & I & R & ST).
  exists f, rs. split; [assumption|].
  assert (HAS : forall e, has teq f e = tin teq e M).
  { intros e. unfold has. rewrite (erel_ids _ _ _ _ R), position_tin. reflexivity. }
  pose proof (erel_core _ _ _ _ R) as RC. cbn [snd] in RC. pose proof (linv_len _ _ _ I) as LEN.
  split.
  - intros i. unfold uf_find_id. rewrite HAS. destruct (tin teq (conv i) M) eqn:TI; cbn [negb].
    + apply tin_spec in TI. destruct (Nat.lt_ge_cases i (length M)) as [LT|GE].
      * destruct (find_root_ok _ _ _ i RC) as (u' & F & _); [lia|]. rewrite F. cbn [bind].
        split; [discriminate|lia].
      * split; [auto|]. intros _. unfold find_root. rewrite (rel_par_len _ _ _ RC), LEN.
        destruct (length M) as [|n] eqn:EN; [destruct M; [destruct TI|discriminate]|].
        cbn [find_]. unfold get_parent. rewrite nth_error_none by (rewrite (rel_par_len _ _ _ RC); lia).
        reflexivity.
    + split; [discriminate|]. intros [H _]. apply (tin_spec teq) in H. congruence.
  - intros HC.
    assert (HT : forall i, i < length M -> has teq f (conv i) = true).
    { intros i Hi. rewrite HAS. apply tin_spec. apply HC. assumption. }
    assert (HF : forall i, length M <= i -> has teq f (conv i) = false).
    { intros i Hi. rewrite HAS. destruct (tin teq (conv i) M) eqn:TI; [|reflexivity].
      apply tin_spec in TI. apply HC in TI. lia. }
    assert (ID : forall i e, nth_error M i = Some e -> i < length M /\ id_of teq (ids f) e = Some i).
    { intros i e H. split; [apply nth_error_Some; congruence|]. rewrite (erel_ids _ _ _ _ R). cbn [fst].
      pose proof (position_spec teq e M) as PE. destruct (position teq e M) as [k|].
      - f_equal. eapply nth_error_inj; eauto. apply (linv_nodup _ _ _ I).
      - exfalso. apply PE. eapply nth_error_In; eauto. }
    split; [|split; [|split]].
    + intros i e H. destruct (ID i e H) as [Hi Hid].
      unfold uf_size_of_id, uf_size_of, uf_find_id, uf_find. rewrite HT, Hid by assumption. auto.
    + intros i H. unfold uf_size_of_id, uf_find_id. rewrite HF by assumption. auto.
    + intros o1 o2 i j a b Ha Hb. destruct (ID i a Ha) as [Hi Hid]. destruct (ID j b Hb) as [Hj Hjd].
      unfold uf_same_id, uf_join_id, uf_same, uf_join. rewrite !HT, Hid, Hjd by assumption. auto.
    + intros o1 o2 i j [H|H]; unfold uf_same_id, uf_join_id; rewrite (HF _ H); rewrite ?andb_false_r; auto.
Qed.

End AfterEHistory.

Lemma elrun_same_call ops1 ops2 : Forall2 same_ecall ops1 ops2 ->
  forall s, elrun teq s ops1 = elrun teq s ops2.
Proof.
  induction 1 as [|o o' ops1 ops2 H HS IH]; intros s; [reflexivity|]. cbn [elrun].
  replace (elstep teq s o') with (elstep teq s o); [destruct (elstep teq s o) as [s' r]; rewrite IH; reflexivity|].
  destruct o, o'; cbn in H; try discriminate H; try congruence; destruct H as [-> ->]; reflexivity.
Qed.

Theorem ecompression_unobservable ops1 ops2 c1 c2 : (N.of_nat (length ops1) < two64)%N ->
  Forall2 same_ecall ops1 ops2 -> exists answers f1 f2,
    erun teq (ufind_new c1) ops1 = Val (f1, answers) /\ erun teq (ufind_new c2) ops2 = Val (f2, answers).
Proof.
  intros B S. assert (LE : length ops1 = length ops2) by (clear B; induction S; cbn; congruence).
  destruct (ehistory_ok teq c1 ops1 B) as (f1 & rs1 & L1 & h1 & E1 & A1 & _).
  destruct (ehistory_ok teq c2 ops2) as (f2 & rs2 & L2 & h2 & E2 & A2 & _); [rewrite <- LE; assumption|].
  exists rs1, f1, f2. split; [assumption|]. rewrite E2, A2, A1, (elrun_same_call _ _ S). reflexivity.
Qed.

End ElementResults.
