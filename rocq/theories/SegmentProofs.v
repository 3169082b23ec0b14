(** Proofs about the segment tree. *)
Require Import List Arith NArith ZArith Lia Bool.
Require Import Verif.Base Verif.HeapModel Verif.HeapProofs Verif.SegmentModel Verif.SegmentSpec.
Import ListNotations.
Local Open Scope N_scope.

(** ** Lists *)
Section Lists.
Context {R : Type}.
Implicit Types xs ys : list R.

Lemma sizeN_app : forall xs ys, sizeN (xs ++ ys) = sizeN xs + sizeN ys.
Proof. intros. unfold sizeN. rewrite app_length. lia. Qed.
Lemma sizeN_cons : forall x xs, sizeN (x :: xs) = sizeN xs + 1.
Proof. intros. unfold sizeN. cbn [length]. lia. Qed.
Lemma sizeN_nil_inv : forall xs, sizeN xs = 0 -> xs = [].
Proof. intros [|x xs] H; [trivial|]. rewrite sizeN_cons in H. lia. Qed.

Lemma sub_app : forall xs ys s a b, sub s a b (xs ++ ys) = sub s a b xs ++ sub (s + sizeN xs) a b ys.
Proof.
  induction xs as [|x xs IH]; intros ys s a b; cbn [app sub].
  - now rewrite N.add_0_r.
  - rewrite IH, sizeN_cons. replace (s + 1 + sizeN xs) with (s + (sizeN xs + 1)) by lia.
    destruct ((a <=? s) && (s <=? b)); reflexivity.
Qed.
Lemma change_app : forall f xs ys s a b,
  change_range f s a b (xs ++ ys) = change_range f s a b xs ++ change_range f (s + sizeN xs) a b ys.
Proof.
  induction xs as [|x xs IH]; intros ys s a b; cbn [app change_range].
  - now rewrite N.add_0_r.
  - rewrite IH, sizeN_cons. replace (s + 1 + sizeN xs) with (s + (sizeN xs + 1)) by lia. reflexivity.
Qed.
Lemma change_size : forall f xs s a b, sizeN (change_range f s a b xs) = sizeN xs.
Proof.
  induction xs as [|x xs IH]; intros s a b; cbn [change_range]; [trivial|]. rewrite !sizeN_cons, IH. reflexivity.
Qed.
Lemma within_ext : forall a b c d i, (a <= i <= b <-> c <= i <= d) ->
  (a <=? i) && (i <=? b) = (c <=? i) && (i <=? d).
Proof.
  intros a b c d i H.
  destruct (N.leb_spec a i), (N.leb_spec i b), (N.leb_spec c i), (N.leb_spec i d); cbn; trivial; lia.
Qed.
Lemma sub_ext : forall xs s a b c d,
  (forall i, s <= i < s + sizeN xs -> (a <= i <= b <-> c <= i <= d)) -> sub s a b xs = sub s c d xs.
Proof.
  induction xs as [|x xs IH]; intros s a b c d H; cbn [sub]; [trivial|].
  rewrite sizeN_cons in H. rewrite (within_ext a b c d s) by (apply H; lia).
  rewrite (IH (s + 1) a b c d); [trivial|]. intros i Hi. apply H. lia.
Qed.
Lemma change_ext : forall f g xs s a b c d,
  (forall i, s <= i < s + sizeN xs -> (a <= i <= b <-> c <= i <= d)) ->
  (forall i x, s <= i < s + sizeN xs -> f i x = g i x) ->
  change_range f s a b xs = change_range g s c d xs.
Proof.
  induction xs as [|x xs IH]; intros s a b c d H K; cbn [change_range]; [trivial|].
  rewrite sizeN_cons in H, K. rewrite (within_ext a b c d s) by (apply H; lia). rewrite K by lia.
  f_equal. apply IH; intros; [apply H|apply K]; lia.
Qed.
Lemma sub_none : forall xs s a b, b < s \/ s + sizeN xs <= a -> sub s a b xs = [].
Proof.
  induction xs as [|x xs IH]; intros s a b H; cbn [sub]; [trivial|].
  rewrite sizeN_cons in H. rewrite IH by lia.
  destruct (N.leb_spec a s), (N.leb_spec s b); cbn; trivial; lia.
Qed.
Lemma change_none : forall f xs s a b, b < s \/ s + sizeN xs <= a -> change_range f s a b xs = xs.
Proof.
  induction xs as [|x xs IH]; intros s a b H; cbn [change_range]; [trivial|].
  rewrite sizeN_cons in H. rewrite IH by lia.
  destruct (N.leb_spec a s), (N.leb_spec s b); cbn; trivial; lia.
Qed.
Lemma sub_all : forall xs s a b, a <= s -> s + sizeN xs <= b + 1 -> sub s a b xs = xs.
Proof.
  induction xs as [|x xs IH]; intros s a b A B; cbn [sub]; [trivial|].
  rewrite sizeN_cons in B. rewrite IH by lia.
  destruct (N.leb_spec a s), (N.leb_spec s b); cbn; trivial; lia.
Qed.
Lemma change_id : forall f xs s a b, (forall i x, f i x = x) -> change_range f s a b xs = xs.
Proof.
  induction xs as [|x xs IH]; intros s a b H; cbn [change_range]; [trivial|].
  rewrite IH, H by trivial. now destruct ((a <=? s) && (s <=? b)).
Qed.
Lemma change_change : forall f g h xs s a b, (forall i x, a <= i <= b -> h i x = f i (g i x)) ->
  change_range f s a b (change_range g s a b xs) = change_range h s a b xs.
Proof.
  induction xs as [|x xs IH]; intros s a b H; cbn [change_range]; [trivial|].
  rewrite IH by trivial. f_equal.
  destruct (N.leb_spec a s), (N.leb_spec s b); cbn; trivial. now rewrite H by lia.
Qed.
Lemma sub_split : forall xs s a c b, a <= c -> c < b -> sub s a b xs = sub s a c xs ++ sub s (c + 1) b xs.
Proof.
  induction xs as [|x xs IH]; intros s a c b H K; cbn [sub]; [trivial|].
  rewrite (IH (s + 1) a c b H K).
  destruct (N.leb_spec a s), (N.leb_spec s b), (N.leb_spec s c), (N.leb_spec (c + 1) s); cbn; trivial; try lia.
  rewrite (sub_none xs (s + 1) a c) by lia. reflexivity.
Qed.
Lemma sub_one : forall xs s i x, s <= i -> cell xs (i - s) = Some x -> sub s i i xs = [x].
Proof.
  induction xs as [|y xs IH]; intros s i x H E; cbn [sub].
  - unfold cell in E. destruct (N.to_nat (i - s)); discriminate.
  - destruct (N.leb_spec i s), (N.leb_spec s i); cbn; try lia.
    + replace s with i in * by lia. rewrite N.sub_diag in E. injection E as ->.
      rewrite sub_none by lia. reflexivity.
    + apply IH; [lia|]. unfold cell in *.
      replace (N.to_nat (i - s)) with (S (N.to_nat (i - (s + 1)))) in E by lia. exact E.
Qed.
Lemma sub_size : forall xs s a b, s <= a -> a <= b + 1 -> b < s + sizeN xs ->
  sizeN (sub s a b xs) = b + 1 - a.
Proof.
  induction xs as [|x xs IH]; intros s a b A B C; cbn [sub].
  - cbn in *. lia.
  - rewrite sizeN_cons in C. destruct (N.leb_spec a s), (N.leb_spec s b); cbn [andb].
    + rewrite sizeN_cons. rewrite (sub_ext xs (s + 1) a b (s + 1) b) by (intros; lia).
      rewrite IH by lia. lia.
    + rewrite sub_none by lia. cbn. lia.
    + apply IH; lia.
    + apply IH; lia.
Qed.

Section Total.
Variable join : R -> R -> R.
Variable d : R.
Hypothesis ASSOC : forall x y z, join x (join y z) = join (join x y) z.
Lemma fold_join : forall xs x y, fold_left join xs (join x y) = join x (fold_left join xs y).
Proof. induction xs as [|z xs IH]; intros x y; cbn; [trivial|]. rewrite <- ASSOC. apply IH. Qed.
Lemma total_app : forall xs ys, xs <> [] -> ys <> [] ->
  total join d (xs ++ ys) = join (total join d xs) (total join d ys).
Proof.
  intros [|x xs] [|y ys] H K; try congruence. cbn. rewrite fold_left_app. cbn. apply fold_join.
Qed.
End Total.
End Lists.

(** ** Positions below a position *)
Inductive under : N -> N -> Prop :=
| under_refl p : under p p
| under_left p q : under (2 * p + 1) q -> under p q
| under_right p q : under (2 * p + 2) q -> under p q.

Lemma under_bounds : forall p q, under p q -> exists d, (p + 1) * 2 ^ d <= q + 1 < (p + 2) * 2 ^ d.
Proof.
  induction 1 as [p|p q H (d & IH)|p q H (d & IH)].
  - exists 0. cbn. lia.
  - exists (N.succ d). rewrite N.pow_succ_r'. nia.
  - exists (N.succ d). rewrite N.pow_succ_r'. nia.
Qed.
Lemma under_disjoint : forall p q, under (2 * p + 1) q -> ~ under (2 * p + 2) q.
Proof.
  intros p q H K. destruct (under_bounds _ _ H) as (d & D). destruct (under_bounds _ _ K) as (k & E).
  destruct (N.lt_trichotomy d k) as [L|[<-|L]].
  - assert (2 * 2 ^ d <= 2 ^ k) by (rewrite <- N.pow_succ_r'; apply N.pow_le_mono_r; lia). nia.
  - nia.
  - assert (2 * 2 ^ k <= 2 ^ d) by (rewrite <- N.pow_succ_r'; apply N.pow_le_mono_r; lia). nia.
Qed.
Lemma under_le : forall p q, under p q -> p <= q.
Proof. intros p q H. induction H; lia. Qed.

Section Proofs.
Context {T R U : Type}.
Variable tr : transform T R U.
Variable den : U -> N -> R -> R.
Hypothesis LAW : lawful tr den.
Local Notation node := (node R U).
Local Notation total := (total (join tr) (no_value tr)).
Implicit Types h : list node.

Lemma get_ok : forall h pos n, cell h pos = Some n -> get h pos = Val n.
Proof. intros h pos n H. unfold get. now rewrite H. Qed.
Lemma put_ok : forall h pos n m, cell h pos = Some n -> put h pos m = Val (set_nth h (N.to_nat pos) m).
Proof. intros h pos n m H. unfold put. now rewrite (get_ok _ _ _ H). Qed.
Lemma cell_put_eq : forall h pos n m, cell h pos = Some n -> cell (set_nth h (N.to_nat pos) m) pos = Some m.
Proof. intros h pos n m H. apply cell_set_eq. now apply cell_some in H. Qed.
Lemma cell_put_neq : forall h pos m q, q <> pos -> cell (set_nth h (N.to_nat pos) m) q = cell h q.
Proof. intros h pos m q H. apply cell_set_neq. congruence. Qed.

(** The subtree at [pos] stands for the elements [xs] of the positions s..e. *)
Inductive repr h : N -> N -> N -> list R -> Prop :=
| repr_leaf pos s n :
    cell h pos = Some n -> start n = s -> end_ n = s -> index n = pos -> s < 2 ^ 62 ->
    repr h pos s s [value n]
| repr_node pos s e n xl xr xs :
    cell h pos = Some n -> start n = s -> end_ n = e -> index n = pos ->
    s < e -> pos < 2 ^ 62 -> e < 2 ^ 62 ->
    repr h (2 * pos + 1) s ((s + e) / 2) xl -> repr h (2 * pos + 2) ((s + e) / 2 + 1) e xr ->
    xs = change_range (den (lazy_update n)) s s e (xl ++ xr) -> value n = total xs ->
    repr h pos s e xs.

Lemma center_between : forall s e, s < e -> s <= (s + e) / 2 < e.
Proof.
  intros s e H. split; [apply N.div_le_lower_bound; lia|apply N.div_lt_upper_bound; lia].
Qed.

Lemma repr_size : forall h pos s e xs, repr h pos s e xs -> s <= e /\ sizeN xs = e - s + 1.
Proof.
  induction 1 as [pos s n C S E I B|pos s e n xl xr xs C S E I L P B Hl IHl Hr IHr X V].
  - split; [lia|]. cbn. lia.
  - pose proof (center_between s e L). split; [lia|]. subst xs. rewrite change_size, sizeN_app. lia.
Qed.
Lemma repr_nonempty : forall h pos s e xs, repr h pos s e xs -> xs <> [].
Proof. intros h pos s e xs H K. apply repr_size in H. subst xs. cbn in H. lia. Qed.
Lemma repr_cell : forall h pos s e xs, repr h pos s e xs ->
  exists n, cell h pos = Some n /\ start n = s /\ end_ n = e /\ index n = pos /\ value n = total xs /\ e < 2 ^ 62.
Proof.
  intros h pos s e xs H. inversion H; subst.
  - exists n. repeat (split; [trivial|]). trivial.
  - exists n. repeat (split; [trivial|]). trivial.
Qed.
Lemma repr_inner : forall h pos s e xs n, repr h pos s e xs -> s < e -> cell h pos = Some n ->
  exists xl xr, pos < 2 ^ 62 /\
    repr h (2 * pos + 1) s ((s + e) / 2) xl /\ repr h (2 * pos + 2) ((s + e) / 2 + 1) e xr /\
    xs = change_range (den (lazy_update n)) s s e (xl ++ xr).
Proof.
  intros h pos s e xs n H L C. inversion H; subst; [lia|].
  match goal with K : cell h _ = Some ?m |- _ => rewrite C in K; injection K as <- end.
  exists xl, xr. auto.
Qed.
Lemma repr_frame : forall h h' pos s e xs, repr h pos s e xs ->
  (forall q, under pos q -> cell h' q = cell h q) -> repr h' pos s e xs.
Proof.
  induction 1 as [pos s n C S E I B|pos s e n xl xr xs C S E I L P B Hl IHl Hr IHr X V]; intros F.
  - apply repr_leaf; trivial. rewrite F by constructor. trivial.
  - apply repr_node with n xl xr; trivial.
    + rewrite F by constructor. trivial.
    + apply IHl. intros q Q. apply F. now apply under_left.
    + apply IHr. intros q Q. apply F. now apply under_right.
Qed.

Lemma leaf_eq : forall (n : node) s e, start n = s -> end_ n = e -> s <= e -> e < 2 ^ 62 -> leaf n = (s =? e).
Proof.
  intros n s e <- <- L B. unfold leaf, wsub, two64. change (2 ^ 64) with (4 * 2 ^ 62).
  destruct (N.eqb_spec (start n) (end_ n)) as [E|E].
  - rewrite <- E. replace (start n + 4 * 2 ^ 62 - start n) with (1 * (4 * 2 ^ 62)) by lia.
    rewrite N.mod_mul by discriminate. reflexivity.
  - replace (end_ n + 4 * 2 ^ 62 - start n) with (end_ n - start n + 1 * (4 * 2 ^ 62)) by lia.
    rewrite N.mod_add by discriminate. rewrite N.mod_small by lia. apply N.eqb_neq. lia.
Qed.
Lemma center_eq : forall (n : node) s e, start n = s -> end_ n = e -> s <= e -> e < 2 ^ 62 ->
  center n = (s + e) / 2.
Proof.
  intros n s e <- <- L B. unfold center, wadd, two64. change (2 ^ 64) with (4 * 2 ^ 62).
  rewrite N.mod_small by lia. reflexivity.
Qed.
Lemma wadd1 : forall c, c < 2 ^ 62 -> wadd c 1 = c + 1.
Proof. intros c H. unfold wadd, two64. change (2 ^ 64) with (4 * 2 ^ 62). apply N.mod_small. lia. Qed.

(** Taking a change into the root of a subtree. *)
Lemma absorb_ok : forall h pos s e xs n f c', repr h pos s e xs -> cell h pos = Some n ->
  absorbs tr den f s e (content n) c' ->
  repr (set_nth h (N.to_nat pos) (with_content n c')) pos s e (change_range f s s e xs).
Proof.
  intros h pos s e xs n f c' H C A. destruct A as (A1 & A2).
  inversion H as [p s0 n0 C0 S0 E0 I0 B0|p s0 e0 n0 xl xr xs0 C0 S0 E0 I0 L P B Hl Hr X V]; subst.
  - rewrite C in C0. injection C0 as <-.
    assert (X : change_range f (start n) (start n) (start n) [value n] = [f (start n) (value n)]).
    { cbn. now rewrite N.leb_refl. }
    rewrite X. unfold value. rewrite <- A1 by trivial.
    change (fst c') with (value (with_content n c')).
    apply repr_leaf; trivial. eapply cell_put_eq; eassumption.
  - rewrite C in C0. injection C0 as <-.
    pose proof (repr_size _ _ _ _ _ H) as (_ & SZ).
    destruct (A2 L _ SZ V) as (V' & D').
    pose proof (repr_size _ _ _ _ _ Hl) as (SL & _). pose proof (repr_size _ _ _ _ _ Hr) as (SR & _).
    apply repr_node with (with_content n c') xl xr; trivial.
    + eapply cell_put_eq; eassumption.
    + apply repr_frame with h; [trivial|]. intros q Q. apply cell_put_neq. apply under_le in Q. lia.
    + apply repr_frame with h; [trivial|]. intros q Q. apply cell_put_neq. apply under_le in Q. lia.
    + apply change_change. intros i x Hi. apply D'. trivial.
Qed.

Lemma push_down_ok : forall h pos s e n xl xr, cell h pos = Some n -> start n = s -> end_ n = e ->
  s < e -> repr h (2 * pos + 1) s ((s + e) / 2) xl -> repr h (2 * pos + 2) ((s + e) / 2 + 1) e xr ->
  exists h' n' xl' xr', push_down tr h pos (2 * pos + 1) (2 * pos + 2) = Val h' /\ sizeN h' = sizeN h /\
    (forall q, ~ under pos q -> cell h' q = cell h q) /\
    cell h' pos = Some n' /\ start n' = s /\ end_ n' = e /\ index n' = index n /\ active tr (lazy_update n') = false /\
    repr h' (2 * pos + 1) s ((s + e) / 2) xl' /\ repr h' (2 * pos + 2) ((s + e) / 2 + 1) e xr' /\
    xl' ++ xr' = change_range (den (lazy_update n)) s s e (xl ++ xr).
Proof.
  intros h pos s e n xl xr C S E L Hl Hr. unfold push_down.
  destruct (repr_cell _ _ _ _ _ Hl) as (nl & Cl & Sl & El & Il & Vl & Bl).
  destruct (repr_cell _ _ _ _ _ Hr) as (nr & Cr & Sr & Er & Ir & Vr & Br).
  rewrite (get_ok _ _ _ C). cbn [bind]. rewrite (get_ok _ _ _ Cl). cbn [bind]. rewrite (get_ok _ _ _ Cr). cbn [bind].
  pose proof (center_between s e L) as CB.
  pose proof (repr_size _ _ _ _ _ Hl) as (_ & SL). pose proof (repr_size _ _ _ _ _ Hr) as (_ & SR).
  unfold has_lazy_updates. destruct (active tr (lazy_update n)) eqn:A.
  - destruct (propagate tr (start n) (end_ n) (content n) (content nl) (content nr)) as [[cn cl] cr] eqn:P.
    rewrite S, E in P.
    destruct (law_propagate _ _ _ LAW _ _ _ _ _ _ _ _ L A P) as (An & Al & Ar).
    rewrite (put_ok _ _ _ _ C). cbn [bind].
    set (h1 := set_nth h (N.to_nat pos) (with_content n cn)).
    assert (Cl1 : cell h1 (2 * pos + 1) = Some nl) by (unfold h1; rewrite cell_put_neq by lia; trivial).
    assert (Cr1 : cell h1 (2 * pos + 2) = Some nr) by (unfold h1; rewrite cell_put_neq by lia; trivial).
    assert (Hl1 : repr h1 (2 * pos + 1) s ((s + e) / 2) xl).
    { apply repr_frame with h; [trivial|]. intros q Q. apply cell_put_neq. apply under_le in Q. lia. }
    assert (Hr1 : repr h1 (2 * pos + 2) ((s + e) / 2 + 1) e xr).
    { apply repr_frame with h; [trivial|]. intros q Q. apply cell_put_neq. apply under_le in Q. lia. }
    rewrite (put_ok _ _ _ _ Cl1). cbn [bind].
    pose proof (absorb_ok _ _ _ _ _ _ _ _ Hl1 Cl1 Al) as Hl2.
    set (h2 := set_nth h1 (N.to_nat (2 * pos + 1)) (with_content nl cl)) in *.
    assert (Cr2 : cell h2 (2 * pos + 2) = Some nr) by (unfold h2; rewrite cell_put_neq by lia; trivial).
    assert (Hr2 : repr h2 (2 * pos + 2) ((s + e) / 2 + 1) e xr).
    { apply repr_frame with h1; [trivial|]. intros q Q. apply cell_put_neq. apply under_le in Q. lia. }
    rewrite (put_ok _ _ _ _ Cr2).
    pose proof (absorb_ok _ _ _ _ _ _ _ _ Hr2 Cr2 Ar) as Hr3.
    set (h3 := set_nth h2 (N.to_nat (2 * pos + 2)) (with_content nr cr)) in *.
    assert (Hl3 : repr h3 (2 * pos + 1) s ((s + e) / 2) (change_range (den (snd (content n))) s s ((s + e) / 2) xl)).
    { apply repr_frame with h2; [exact Hl2|]. intros q Q. apply cell_put_neq. intros ->.
      apply (under_disjoint pos (2 * pos + 2) Q). constructor. }
    exists h3, (with_content n cn). do 2 eexists. split; [reflexivity|].
    split; [unfold h3, h2, h1; now rewrite !sizeN_set|]. split.
    { intros q Q. unfold h3, h2, h1. rewrite !cell_put_neq; trivial; intros ->; apply Q;
      [constructor|apply under_left; constructor|apply under_right; constructor]. }
    split.
    { unfold h3, h2. rewrite !cell_put_neq by lia. eapply cell_put_eq; eassumption. }
    split; [trivial|]. split; [trivial|]. split; [reflexivity|]. split; [exact An|].
    split; [exact Hl3|]. split; [exact Hr3|].
    rewrite change_app. unfold lazy_update. f_equal.
    + apply change_ext; trivial. intros i Hi. lia.
    + replace (s + sizeN xl) with ((s + e) / 2 + 1) by lia. apply change_ext; trivial. intros i Hi. lia.
  - exists h, n, xl, xr. split; [trivial|]. split; [trivial|]. split; [trivial|]. split; [trivial|].
    split; [trivial|]. split; [trivial|]. split; [trivial|]. split; [trivial|]. split; [trivial|]. split; [trivial|].
    symmetry. apply change_id. now apply (law_inactive _ _ _ LAW).
Qed.

Lemma pull_up_ok : forall h pos s e n xl xr, cell h pos = Some n -> start n = s -> end_ n = e -> index n = pos ->
  s < e -> pos < 2 ^ 62 -> e < 2 ^ 62 -> active tr (lazy_update n) = false ->
  repr h (2 * pos + 1) s ((s + e) / 2) xl -> repr h (2 * pos + 2) ((s + e) / 2 + 1) e xr ->
  exists h', pull_up tr h pos (2 * pos + 1) (2 * pos + 2) = Val h' /\ sizeN h' = sizeN h /\
    (forall q, q <> pos -> cell h' q = cell h q) /\ repr h' pos s e (xl ++ xr).
Proof.
  intros h pos s e n xl xr C S E I L P B A Hl Hr. unfold pull_up.
  destruct (repr_cell _ _ _ _ _ Hl) as (nl & Cl & Sl & El & Il & Vl & Bl).
  destruct (repr_cell _ _ _ _ _ Hr) as (nr & Cr & Sr & Er & Ir & Vr & Br).
  rewrite (get_ok _ _ _ Cl). cbn [bind]. rewrite (get_ok _ _ _ Cr). cbn [bind]. rewrite (get_ok _ _ _ C). cbn [bind].
  rewrite (put_ok _ _ _ _ C). eexists. split; [reflexivity|]. split; [apply sizeN_set|].
  split; [intros; now apply cell_put_neq|].
  apply repr_node with (n := with_value n (join tr (value nl) (value nr))) (xl := xl) (xr := xr); trivial.
  - eapply cell_put_eq; eassumption.
  - apply repr_frame with h; [trivial|]. intros q Q. apply cell_put_neq. apply under_le in Q. lia.
  - apply repr_frame with h; [trivial|]. intros q Q. apply cell_put_neq. apply under_le in Q. lia.
  - symmetry. apply change_id. now apply (law_inactive _ _ _ LAW).
  - cbn. rewrite Vl, Vr. symmetry. apply total_app; [exact (law_assoc _ _ _ LAW)| |]; eapply repr_nonempty; eassumption.
Qed.

Lemma range_query_ok : forall fuel h pos s e xs a b v, repr h pos s e xs -> s <= a -> a <= b -> b <= e ->
  (N.to_nat (e - s) < fuel)%nat ->
  exists h', range_query tr fuel h a b pos v = Val (h', total (sub s a b xs)) /\ repr h' pos s e xs /\
    sizeN h' = sizeN h /\ forall q, ~ under pos q -> cell h' q = cell h q.
Proof.
  induction fuel as [|fuel IH]; intros h pos s e xs a b v H SA AB BE F; [lia|].
  cbn [range_query]. destruct (repr_cell _ _ _ _ _ H) as (n & C & S & E & I & V & B).
  pose proof (repr_size _ _ _ _ _ H) as (LE & SZ).
  rewrite (get_ok _ _ _ C). cbn [bind]. rewrite (leaf_eq n s e) by trivial. rewrite S, E.
  destruct ((s =? a) && (b =? e) && ((s =? e) || negb (has_lazy_updates tr n))) eqn:Q.
  { apply andb_prop in Q as (Q & _). apply andb_prop in Q as (Q1 & Q2).
    apply N.eqb_eq in Q1, Q2. subst a b. exists h. rewrite V, (sub_all xs) by lia. auto. }
  destruct (N.eqb_spec s e) as [SE|SE].
  { exfalso. assert (s = a) by lia. assert (b = e) by lia. subst a b. rewrite !N.eqb_refl in Q. discriminate. }
  assert (L : s < e) by lia. clear LE SE.
  destruct (repr_inner _ _ _ _ _ _ H L C) as (xl & xr & P & Hl & Hr & X).
  rewrite (center_eq n s e) by (trivial; lia).
  pose proof (center_between s e L) as CB. set (c := (s + e) / 2) in *.
  unfold lower_bound, upper_bound. rewrite I, left_small, right_small by trivial.
  destruct (push_down_ok h pos s e n xl xr C S E L Hl Hr)
    as (h1 & n1 & yl & yr & E1 & Z1 & K1 & C1 & S1 & N1 & I1 & A1 & Yl & Yr & Y).
  fold c in Yl, Yr. rewrite E1. cbn [bind]. rewrite <- X in Y.
  pose proof (repr_size _ _ _ _ _ Yl) as (_ & SL). pose proof (repr_size _ _ _ _ _ Yr) as (_ & SR).
  assert (SUB : sub s a b xs = sub s a b yl ++ sub (c + 1) a b yr).
  { rewrite <- Y, sub_app. do 2 f_equal. lia. }
  (* one step of the recursion, then the join *)
  assert (FIN : forall h2 h3 r,
     repr h2 (2 * pos + 1) s c yl -> repr h2 (2 * pos + 2) (c + 1) e yr -> cell h2 pos = Some n1 ->
     sizeN h2 = sizeN h -> (forall q, ~ under pos q -> cell h2 q = cell h q) ->
     r = total (sub s a b xs) -> h3 = h2 ->
     exists h', (let* h4 := pull_up tr h3 pos (2 * pos + 1) (2 * pos + 2) in Val (h4, r)) = Val (h', total (sub s a b xs)) /\
       repr h' pos s e xs /\ sizeN h' = sizeN h /\ forall q, ~ under pos q -> cell h' q = cell h q).
  { intros h2 h3 r Rl Rr C2 Z2 K2 -> ->. 
    destruct (pull_up_ok h2 pos s e n1 yl yr C2 S1 N1) as (h4 & E4 & Z4 & K4 & R4); trivial; [congruence|].
    rewrite E4. cbn [bind]. exists h4. split; [trivial|]. rewrite Y in R4. split; [trivial|].
    split; [congruence|]. intros q Hq. rewrite K4; [auto|]. intros ->. apply Hq. constructor. }
  assert (NL : forall q, under (2 * pos + 1) q -> q <> pos) by (intros q Hq; apply under_le in Hq; lia).
  assert (NR : forall q, under (2 * pos + 2) q -> q <> pos) by (intros q Hq; apply under_le in Hq; lia).
  destruct (N.leb_spec a c) as [ac|ac]; destruct (N.ltb_spec c b) as [cb|cb]; cbn [andb].
  - (* both sides *)
    destruct (IH h1 (2 * pos + 1) s c yl a (N.min b c) (no_value tr) Yl) as (h2 & E2 & R2 & Z2 & K2); [lia..|].
    rewrite E2. cbn [bind].
    assert (Yr2 : repr h2 (2 * pos + 2) (c + 1) e yr).
    { apply repr_frame with h1; [trivial|]. intros q Hq. apply K2. intro. now apply (under_disjoint pos q). }
    rewrite wadd1 by lia.
    destruct (IH h2 (2 * pos + 2) (c + 1) e yr (c + 1) b (no_value tr) Yr2) as (h3 & E3 & R3 & Z3 & K3); [lia..|].
    rewrite E3. cbn [bind].
    apply (FIN h3 h3); trivial.
    + apply repr_frame with h2; [trivial|]. intros q Hq. apply K3. intro. now apply (under_disjoint pos q).
    + rewrite K3, K2; trivial; intro Hq; [now apply (NL pos)|now apply (NR pos)].
    + congruence.
    + intros q Hq. rewrite K3, K2; [auto| |]; intro U1; apply Hq; [now apply under_left|now apply under_right].
    + rewrite SUB. rewrite (sub_ext yl s a b a (N.min b c)) by (intros; lia).
      rewrite (sub_ext yr (c + 1) a b (c + 1) b) by (intros; lia).
      symmetry. apply total_app; [exact (law_assoc _ _ _ LAW)| |]; intro Z;
        apply (f_equal sizeN) in Z; rewrite sub_size in Z; cbn in Z; lia.
  - destruct (IH h1 (2 * pos + 1) s c yl a b v Yl) as (h2 & E2 & R2 & Z2 & K2); [lia..|].
    rewrite E2. cbn [bind]. apply (FIN h2 h2); trivial.
    + apply repr_frame with h1; [trivial|]. intros q Hq. apply K2. intro. now apply (under_disjoint pos q).
    + rewrite K2; trivial. intro Hq. now apply (NL pos).
    + congruence.
    + intros q Hq. rewrite K2; [auto|]. intro. apply Hq. now apply under_left.
    + rewrite SUB, (sub_none yr) by lia. now rewrite app_nil_r.
  - destruct (IH h1 (2 * pos + 2) (c + 1) e yr a b v Yr) as (h2 & E2 & R2 & Z2 & K2); [lia..|].
    rewrite E2. cbn [bind]. apply (FIN h2 h2); trivial.
    + apply repr_frame with h1; [trivial|]. intros q Hq. apply K2. intro. now apply (under_disjoint pos q).
    + rewrite K2; trivial. intro Hq. now apply (NR pos).
    + congruence.
    + intros q Hq. rewrite K2; [auto|]. intro. apply Hq. now apply under_right.
    + rewrite SUB, (sub_none yl) by lia. reflexivity.
  - lia.
Qed.

Lemma apply_change_ok : forall h pos s e xs n u, repr h pos s e xs -> cell h pos = Some n ->
  s = e \/ active tr (lazy_update n) = false \/ criteria tr s e (content n) = true ->
  exists h', apply_change tr h pos u = Val h' /\ repr h' pos s e (change_range (den u) s s e xs) /\
    sizeN h' = sizeN h /\ forall q, q <> pos -> cell h' q = cell h q.
Proof.
  intros h pos s e xs n u H C A. unfold apply_change. rewrite (get_ok _ _ _ C). cbn [bind].
  destruct (repr_cell _ _ _ _ _ H) as (n1 & C1 & S & E & _). rewrite C in C1. injection C1 as <-.
  pose proof (repr_size _ _ _ _ _ H) as (LE & _).
  destruct (active tr u) eqn:AU.
  - rewrite (put_ok _ _ _ _ C), S, E. eexists. split; [reflexivity|]. split.
    + apply absorb_ok; trivial. apply (law_apply _ _ _ LAW); trivial.
    + split; [apply sizeN_set|]. intros; now apply cell_put_neq.
  - exists h. split; [trivial|]. rewrite change_id by now apply (law_inactive _ _ _ LAW). auto.
Qed.

Lemma range_update_ok : forall fuel h pos s e xs a b u v, repr h pos s e xs -> s <= a -> a <= b -> b <= e ->
  (N.to_nat (e - s) < fuel)%nat ->
  exists h', range_update tr fuel h a b pos u v = Val (h', total (sub s a b (change_range (den u) s a b xs))) /\
    repr h' pos s e (change_range (den u) s a b xs) /\
    sizeN h' = sizeN h /\ forall q, ~ under pos q -> cell h' q = cell h q.
Proof.
  induction fuel as [|fuel IH]; intros h pos s e xs a b u v H SA AB BE F; [lia|].
  cbn [range_update]. destruct (repr_cell _ _ _ _ _ H) as (n & C & S & E & I & V & B).
  pose proof (repr_size _ _ _ _ _ H) as (LE & SZ).
  rewrite (get_ok _ _ _ C). cbn [bind]. rewrite (leaf_eq n s e) by trivial. rewrite S, E.
  destruct ((s =? a) && (b =? e) && _) eqn:Q.
  { apply andb_prop in Q as (Q & Q3). apply andb_prop in Q as (Q1 & Q2).
    apply N.eqb_eq in Q1, Q2. subst a b.
    destruct (apply_change_ok h pos s e xs n u H C) as (h1 & E1 & R1 & Z1 & K1).
    { apply orb_prop in Q3 as [Q3|Q3]; [left; now apply N.eqb_eq|right].
      apply orb_prop in Q3 as [Q3|Q3]; [left|now right]. unfold has_lazy_updates in Q3. now destruct (active tr (lazy_update n)). }
    rewrite E1. cbn [bind]. destruct (repr_cell _ _ _ _ _ R1) as (n1 & C1 & _ & _ & _ & V1 & _).
    rewrite (get_ok _ _ _ C1). cbn [bind]. exists h1. rewrite V1.
    rewrite (sub_all (change_range _ _ _ _ _)) by (try rewrite change_size; lia).
    split; [trivial|]. split; [trivial|]. split; [trivial|].
    intros q Hq. apply K1. intros ->. apply Hq. constructor. }
  destruct (N.eqb_spec s e) as [SE|SE].
  { exfalso. assert (s = a) by lia. assert (b = e) by lia. subst a b. rewrite !N.eqb_refl in Q. discriminate. }
  assert (L : s < e) by lia. clear LE SE Q.
  destruct (repr_inner _ _ _ _ _ _ H L C) as (xl & xr & P & Hl & Hr & X).
  rewrite (center_eq n s e) by (trivial; lia).
  pose proof (center_between s e L) as CB. set (c := (s + e) / 2) in *.
  unfold lower_bound, upper_bound. rewrite I, left_small, right_small by trivial.
  destruct (push_down_ok h pos s e n xl xr C S E L Hl Hr)
    as (h1 & n1 & yl & yr & E1 & Z1 & K1 & C1 & S1 & N1 & I1 & A1 & Yl & Yr & Y).
  fold c in Yl, Yr. rewrite E1. cbn [bind]. rewrite <- X in Y.
  pose proof (repr_size _ _ _ _ _ Yl) as (_ & SL). pose proof (repr_size _ _ _ _ _ Yr) as (_ & SR).
  assert (CHG : change_range (den u) s a b xs = change_range (den u) s a b yl ++ change_range (den u) (c + 1) a b yr).
  { rewrite <- Y, change_app. do 2 f_equal. lia. }
  assert (SUB : sub s a b (change_range (den u) s a b xs) =
     sub s a b (change_range (den u) s a b yl) ++ sub (c + 1) a b (change_range (den u) (c + 1) a b yr)).
  { rewrite CHG, sub_app, change_size. do 2 f_equal. lia. }
  set (xs' := change_range (den u) s a b xs) in *.
  assert (FIN : forall h2 h3 r zl zr, zl = change_range (den u) s a b yl -> zr = change_range (den u) (c + 1) a b yr ->
     repr h2 (2 * pos + 1) s c zl -> repr h2 (2 * pos + 2) (c + 1) e zr -> cell h2 pos = Some n1 ->
     sizeN h2 = sizeN h -> (forall q, ~ under pos q -> cell h2 q = cell h q) ->
     r = total (sub s a b xs') -> h3 = h2 ->
     exists h', (let* h4 := pull_up tr h3 pos (2 * pos + 1) (2 * pos + 2) in Val (h4, r)) = Val (h', total (sub s a b xs')) /\
       repr h' pos s e xs' /\ sizeN h' = sizeN h /\ forall q, ~ under pos q -> cell h' q = cell h q).
  { intros h2 h3 r zl zr -> -> Rl Rr C2 Z2 K2 -> ->.
    destruct (pull_up_ok h2 pos s e n1 (change_range (den u) s a b yl) (change_range (den u) (c + 1) a b yr) C2 S1 N1)
      as (h4 & E4 & Z4 & K4 & R4); trivial; [congruence|].
    rewrite E4. cbn [bind]. exists h4. split; [trivial|]. rewrite <- CHG in R4. split; [trivial|].
    split; [congruence|]. intros q Hq. rewrite K4; [auto|]. intros ->. apply Hq. constructor. }
  assert (NL : forall q, under (2 * pos + 1) q -> q <> pos) by (intros q Hq; apply under_le in Hq; lia).
  assert (NR : forall q, under (2 * pos + 2) q -> q <> pos) by (intros q Hq; apply under_le in Hq; lia).
  destruct (N.leb_spec a c) as [ac|ac]; destruct (N.ltb_spec c b) as [cb|cb]; cbn [andb].
  - destruct (IH h1 (2 * pos + 1) s c yl a c u (no_value tr) Yl) as (h2 & E2 & R2 & Z2 & K2); [lia..|].
    rewrite E2. cbn [bind].
    assert (Yr2 : repr h2 (2 * pos + 2) (c + 1) e yr).
    { apply repr_frame with h1; [trivial|]. intros q Hq. apply K2. intro. now apply (under_disjoint pos q). }
    rewrite wadd1 by lia.
    destruct (IH h2 (2 * pos + 2) (c + 1) e yr (c + 1) b u (no_value tr) Yr2) as (h3 & E3 & R3 & Z3 & K3); [lia..|].
    rewrite E3. cbn [bind].
    assert (W1 : change_range (den u) s a c yl = change_range (den u) s a b yl)
      by (apply change_ext; trivial; intros; lia).
    assert (W2 : change_range (den u) (c + 1) (c + 1) b yr = change_range (den u) (c + 1) a b yr)
      by (apply change_ext; trivial; intros; lia).
    rewrite W1 in E2, R2 |- *. rewrite W2 in E3, R3 |- *.
    eapply (FIN h3 h3); [reflexivity|reflexivity| |exact R3| | | | |reflexivity].
    + apply repr_frame with h2; [exact R2|]. intros q Hq. apply K3. intro. now apply (under_disjoint pos q).
    + rewrite K3, K2; trivial; intro Hq; [now apply (NL pos)|now apply (NR pos)].
    + congruence.
    + intros q Hq. rewrite K3, K2; [auto| |]; intro U1; apply Hq; [now apply under_left|now apply under_right].
    + rewrite SUB. rewrite (sub_ext (change_range _ _ _ _ yl) s a b a c) by (intros i Hi; rewrite change_size in Hi; lia).
      rewrite (sub_ext (change_range _ _ _ _ yr) (c + 1) a b (c + 1) b) by (intros i Hi; rewrite change_size in Hi; lia).
      symmetry. apply total_app; [exact (law_assoc _ _ _ LAW)| |]; intro Z;
        apply (f_equal sizeN) in Z; rewrite sub_size in Z; try rewrite change_size; cbn in Z; lia.
  - destruct (IH h1 (2 * pos + 1) s c yl a b u v Yl) as (h2 & E2 & R2 & Z2 & K2); [lia..|].
    rewrite E2. cbn [bind].
    assert (W : change_range (den u) (c + 1) a b yr = yr) by (apply change_none; lia).
    eapply (FIN h2 h2); [reflexivity|symmetry; exact W|exact R2| | | | | |reflexivity].
    + apply repr_frame with h1; [trivial|]. intros q Hq. apply K2. intro. now apply (under_disjoint pos q).
    + rewrite K2; trivial. intro Hq. now apply (NL pos).
    + congruence.
    + intros q Hq. rewrite K2; [auto|]. intro. apply Hq. now apply under_left.
    + rewrite SUB, W, (sub_none yr) by lia. now rewrite app_nil_r.
  - destruct (IH h1 (2 * pos + 2) (c + 1) e yr a b u v Yr) as (h2 & E2 & R2 & Z2 & K2); [lia..|].
    rewrite E2. cbn [bind].
    assert (W : change_range (den u) s a b yl = yl) by (apply change_none; lia).
    eapply (FIN h2 h2); [symmetry; exact W|reflexivity| |exact R2| | | | |reflexivity].
    + apply repr_frame with h1; [trivial|]. intros q Hq. apply K2. intro. now apply (under_disjoint pos q).
    + rewrite K2; trivial. intro Hq. now apply (NR pos).
    + congruence.
    + intros q Hq. rewrite K2; [auto|]. intro. apply Hq. now apply under_right.
    + rewrite SUB, W, (sub_none yl) by lia. reflexivity.
  - lia.
Qed.

(** ** Building *)
Section Build.
Variable input : list T.
Variable A : list R.
Hypothesis LEAVES : forall i, i < sizeN A ->
  exists x, cell input i = Some x /\ cell A i = Some (build_leaf tr x i).

Lemma set_range_ok : forall h pos s e, pos < sizeN h ->
  exists n, set_range tr h pos s e = Val (set_nth h (N.to_nat pos) n) /\
    start n = s /\ end_ n = e /\ index n = pos /\ active tr (lazy_update n) = false.
Proof.
  intros h pos s e H. destruct (cell_lt h pos H) as (n & C). unfold set_range.
  rewrite (get_ok _ _ _ C). cbn [bind]. rewrite (put_ok _ _ _ _ C).
  eexists. split; [reflexivity|]. repeat (split; [reflexivity|]). exact (law_no_update _ _ _ LAW).
Qed.

Lemma halves : forall s e, s < e ->
  e - s + 1 - (e - s + 1) / 2 = (s + e) / 2 - s + 1 /\ (e - s + 1) / 2 = e - ((s + e) / 2 + 1) + 1.
Proof.
  intros s e L. pose proof (N.div_mod (s + e) 2 ltac:(discriminate)) as E1. pose proof (N.mod_lt (s + e) 2 ltac:(discriminate)) as E2.
  pose proof (N.div_mod (e - s + 1) 2 ltac:(discriminate)) as E3. pose proof (N.mod_lt (e - s + 1) 2 ltac:(discriminate)) as E4.
  set (a := (s + e) / 2) in *. set (b := (e - s + 1) / 2) in *. set (c := (s + e) mod 2) in *. set (d := (e - s + 1) mod 2) in *.
  clearbody a b c d. lia.
Qed.
Lemma build_range_ok : forall fuel h pos s e n k K, cell h pos = Some n ->
  start n = s -> end_ n = e -> index n = pos -> active tr (lazy_update n) = false ->
  s <= e -> e < sizeN A -> sizeN A < 2 ^ 60 ->
  K <= 61 -> k <= K -> pos + 1 < 2 ^ (k + 1) -> e - s + 1 <= 2 ^ (K - k) -> (forall q, takes pos (e - s + 1) q -> q < sizeN h) ->
  (N.to_nat (e - s) < fuel)%nat ->
  exists h', build_range tr fuel h input pos = Val h' /\ repr h' pos s e (sub 0 s e A) /\
    sizeN h' = sizeN h /\ forall q, ~ under pos q -> cell h' q = cell h q.
Proof.
  induction fuel as [|fuel IH]; intros h pos s e n k K C S E I Act LE EA AB K61 KK PK LK HK F; [lia|].
  assert (B60 : 2 ^ 62 = 4 * 2 ^ 60) by reflexivity.
  cbn [build_range]. rewrite (get_ok _ _ _ C). cbn [bind]. rewrite S, E.
  destruct (N.ltb_spec s e) as [L|L].
  - rewrite (center_eq n s e) by (trivial; lia).
    pose proof (center_between s e L) as CB.
    assert (C2 : 2 * ((s + e) / 2) <= s + e) by (apply N.mul_div_le; discriminate).
    assert (C3 : s + e < 2 * ((s + e) / 2) + 2).
    { pose proof (N.mul_succ_div_gt (s + e) 2 ltac:(discriminate)). lia. }
    set (c := (s + e) / 2) in *.
    assert (Kk : k < K).
    { destruct (N.eq_dec k K) as [->|]; [|lia]. rewrite N.sub_diag in LK. cbn in LK. lia. }
    assert (LK' : 2 ^ (K - k) = 2 * 2 ^ (K - (k + 1))).
    { rewrite <- N.pow_succ_r'. f_equal. lia. }
    assert (PK' : 2 ^ (k + 1 + 1) = 2 * 2 ^ (k + 1)).
    { rewrite <- N.pow_succ_r'. f_equal. lia. }
    assert (PKK : 2 ^ (k + 1 + 1) <= 2 ^ (K + 1)) by (apply N.pow_le_mono_r; lia).
    assert (PK1 : 2 ^ (k + 1) <= 2 ^ 61) by (apply N.pow_le_mono_r; lia).
    assert (B61 : 2 ^ 62 = 2 * 2 ^ 61) by reflexivity.
    destruct (halves s e L) as (HL & HR). fold c in HL, HR.
    assert (BL : forall q, takes (2 * pos + 1) (c - s + 1) q -> q < sizeN h) by (intros q Q; apply HK; apply takes_left; [lia|now rewrite HL]).
    assert (BR : forall q, takes (2 * pos + 2) (e - (c + 1) + 1) q -> q < sizeN h) by (intros q Q; apply HK; apply takes_right; [lia|now rewrite HR]).
    pose proof (BL _ (takes_one _ _)) as BL0. pose proof (BR _ (takes_one _ _)) as BR0.
    unfold lower_bound, upper_bound. rewrite I, left_small, right_small by lia.
    destruct (set_range_ok h (2 * pos + 1) s c) as (nl & E1 & Sl & El & Il & Al); [lia|].
    rewrite E1. cbn [bind]. set (h1 := set_nth h (N.to_nat (2 * pos + 1)) nl).
    assert (Z1 : sizeN h1 = sizeN h) by apply sizeN_set.
    rewrite wadd1 by lia.
    destruct (set_range_ok h1 (2 * pos + 2) (c + 1) e) as (nr & E2 & Sr & Er & Ir & Ar); [lia|].
    rewrite E2. cbn [bind]. set (h2 := set_nth h1 (N.to_nat (2 * pos + 2)) nr).
    assert (Z2 : sizeN h2 = sizeN h) by (unfold h2; now rewrite sizeN_set).
    assert (Cl2 : cell h2 (2 * pos + 1) = Some nl).
    { unfold h2. rewrite cell_put_neq by lia. unfold h1. apply cell_set_eq. lia. }
    assert (Cr2 : cell h2 (2 * pos + 2) = Some nr) by (unfold h2; apply cell_set_eq; lia).
    assert (Cp2 : cell h2 pos = Some n) by (unfold h2, h1; rewrite !cell_put_neq by lia; trivial).
    destruct (IH h2 (2 * pos + 1) s c nl (k + 1) K Cl2) as (h3 & E3 & R3 & Z3 & K3); trivial; try lia.
    { intros q Q. rewrite Z2. auto. }
    rewrite E3. cbn [bind].
    assert (Cr3 : cell h3 (2 * pos + 2) = Some nr).
    { rewrite K3; [trivial|]. intro Q. apply (under_disjoint pos (2 * pos + 2) Q). constructor. }
    assert (Cp3 : cell h3 pos = Some n).
    { rewrite K3; [trivial|]. intro Q. apply under_le in Q. lia. }
    destruct (IH h3 (2 * pos + 2) (c + 1) e nr (k + 1) K Cr3) as (h4 & E4 & R4 & Z4 & K4); trivial; try lia.
    { intros q Q. rewrite Z3, Z2. auto. }
    rewrite E4. cbn [bind].
    assert (R3' : repr h4 (2 * pos + 1) s c (sub 0 s c A)).
    { apply repr_frame with h3; [trivial|]. intros q Q. apply K4. intro. now apply (under_disjoint pos q). }
    assert (Cp4 : cell h4 pos = Some n).
    { rewrite K4; [trivial|]. intro Q. apply under_le in Q. lia. }
    destruct (pull_up_ok h4 pos s e n _ _ Cp4 S E I L ltac:(lia) ltac:(lia) Act R3' R4) as (h5 & E5 & Z5 & K5 & R5).
    exists h5. split; [trivial|]. split; [rewrite (sub_split A 0 s c e) by lia; exact R5|].
    split; [congruence|]. intros q Q.
    assert (q <> pos) by (intros ->; apply Q; constructor).
    assert (~ under (2 * pos + 1) q) by (intro; apply Q; now apply under_left).
    assert (~ under (2 * pos + 2) q) by (intro; apply Q; now apply under_right).
    rewrite K5, K4, K3 by trivial. unfold h2, h1. rewrite !cell_put_neq; trivial; intros ->.
    + apply Q. apply under_left. constructor.
    + apply Q. apply under_right. constructor.
  - assert (s = e) by lia. subst s. destruct (LEAVES e EA) as (x & Cx & Ca).
    replace (start n) with e by congruence. rewrite Cx. rewrite (put_ok _ _ _ _ C).
    eexists. split; [reflexivity|]. split; [|split; [apply sizeN_set|]].
    + rewrite (sub_one A 0 e (build_leaf tr x e)) by (try rewrite N.sub_0_r; trivial; lia).
      change (build_leaf tr x e) with (value (with_value n (build_leaf tr x e))) at 2.
      apply repr_leaf; cbn; trivial; try congruence; [|lia]. eapply cell_put_eq; eassumption.
    + intros q Q. apply cell_put_neq. intros ->. apply Q. constructor.
Qed.
Lemma takes_dec : forall k pos n size, n <= 2 ^ N.of_nat k ->
  (forall q, takes pos n q -> q < size) \/ (exists q, takes pos n q /\ size <= q).
Proof.
  induction k as [|k IH]; intros pos n size H.
  - cbn in H. destruct (N.lt_ge_cases pos size) as [L|L]; [left|right].
    + intros q Q. inversion Q; subst; [assumption|lia|lia].
    + exists pos. split; [constructor|assumption].
  - destruct (N.lt_ge_cases pos size) as [L|L]; [|right; exists pos; split; [constructor|assumption]].
    destruct (N.lt_ge_cases 1 n) as [G|G].
    + rewrite Nat2N.inj_succ, N.pow_succ_r' in H.
      pose proof (N.mul_div_le n 2 ltac:(discriminate)). pose proof (N.mul_succ_div_gt n 2 ltac:(discriminate)).
      destruct (IH (2 * pos + 1) (n - n / 2) size) as [A1|(q & Q & A1)]; [| |right; exists q; split; [now apply takes_left|assumption]].
      { assert (2 ^ N.of_nat k <> 0) by (apply N.pow_nonzero; discriminate). lia. }
      destruct (IH (2 * pos + 2) (n / 2) size) as [A2|(q & Q & A2)]; [lia| |right; exists q; split; [now apply takes_right|assumption]].
      left. intros q Q. inversion Q; subst; auto.
    + left. intros q Q. inversion Q; subst; [assumption|lia|lia].
Qed.
Lemma set_range_ub : forall h pos s e, sizeN h <= pos -> set_range tr h pos s e = UB.
Proof.
  intros h pos s e H. unfold set_range, get, cell. destruct (nth_error h (N.to_nat pos)) eqn:X; [|reflexivity].
  assert (N.to_nat pos < length h)%nat by (apply nth_error_Some; congruence). unfold sizeN in H. lia.
Qed.
Lemma build_range_ub : forall fuel h pos s e n k K, cell h pos = Some n ->
  start n = s -> end_ n = e -> index n = pos -> active tr (lazy_update n) = false ->
  s <= e -> e < sizeN A -> sizeN A < 2 ^ 60 ->
  K <= 61 -> k <= K -> pos + 1 < 2 ^ (k + 1) -> e - s + 1 <= 2 ^ (K - k) -> (exists q, takes pos (e - s + 1) q /\ sizeN h <= q) ->
  (N.to_nat (e - s) < fuel)%nat -> build_range tr fuel h input pos = UB.
Proof.
  induction fuel as [|fuel IH]; intros h pos s e n k K C S E I Act LE EA AB K61 KK PK LK (q & HQ & HS) F; [lia|].
  assert (B60 : 2 ^ 62 = 4 * 2 ^ 60) by reflexivity.
  cbn [build_range]. rewrite (get_ok _ _ _ C). cbn [bind]. rewrite S, E.
  destruct (N.ltb_spec s e) as [L|L].
  - rewrite (center_eq n s e) by (trivial; lia).
    pose proof (center_between s e L) as CB.
    assert (C2 : 2 * ((s + e) / 2) <= s + e) by (apply N.mul_div_le; discriminate).
    assert (C3 : s + e < 2 * ((s + e) / 2) + 2).
    { pose proof (N.mul_succ_div_gt (s + e) 2 ltac:(discriminate)). lia. }
    set (c := (s + e) / 2) in *.
    assert (Kk : k < K).
    { destruct (N.eq_dec k K) as [->|]; [|lia]. rewrite N.sub_diag in LK. cbn in LK. lia. }
    assert (LK' : 2 ^ (K - k) = 2 * 2 ^ (K - (k + 1))).
    { rewrite <- N.pow_succ_r'. f_equal. lia. }
    assert (PK' : 2 ^ (k + 1 + 1) = 2 * 2 ^ (k + 1)).
    { rewrite <- N.pow_succ_r'. f_equal. lia. }
    assert (PKK : 2 ^ (k + 1 + 1) <= 2 ^ (K + 1)) by (apply N.pow_le_mono_r; lia).
    assert (PK1 : 2 ^ (k + 1) <= 2 ^ 61) by (apply N.pow_le_mono_r; lia).
    assert (B61 : 2 ^ 62 = 2 * 2 ^ 61) by reflexivity.
    destruct (halves s e L) as (HL & HR). fold c in HL, HR.
    unfold lower_bound, upper_bound. rewrite I, left_small, right_small by lia.
    destruct (N.lt_ge_cases (2 * pos + 1) (sizeN h)) as [BL|BL]; [|now rewrite set_range_ub].
    destruct (set_range_ok h (2 * pos + 1) s c) as (nl & E1 & Sl & El & Il & Al); [lia|].
    rewrite E1. cbn [bind]. set (h1 := set_nth h (N.to_nat (2 * pos + 1)) nl).
    assert (Z1 : sizeN h1 = sizeN h) by apply sizeN_set.
    rewrite wadd1 by lia.
    destruct (N.lt_ge_cases (2 * pos + 2) (sizeN h)) as [BR|BR]; [|rewrite set_range_ub by lia; reflexivity].
    destruct (set_range_ok h1 (2 * pos + 2) (c + 1) e) as (nr & E2 & Sr & Er & Ir & Ar); [lia|].
    rewrite E2. cbn [bind]. set (h2 := set_nth h1 (N.to_nat (2 * pos + 2)) nr).
    assert (Z2 : sizeN h2 = sizeN h) by (unfold h2; now rewrite sizeN_set).
    assert (Cl2 : cell h2 (2 * pos + 1) = Some nl).
    { unfold h2. rewrite cell_put_neq by lia. unfold h1. apply cell_set_eq. lia. }
    assert (Cr2 : cell h2 (2 * pos + 2) = Some nr) by (unfold h2; apply cell_set_eq; lia).
    assert (Cp2 : cell h2 pos = Some n) by (unfold h2, h1; rewrite !cell_put_neq by lia; trivial).
    assert (DEC : (forall x, takes (2 * pos + 1) (c - s + 1) x -> x < sizeN h) \/ exists x, takes (2 * pos + 1) (c - s + 1) x /\ sizeN h <= x).
    { apply (takes_dec 61). change (2 ^ N.of_nat 61) with (2 * 2 ^ 60). lia. }
    destruct DEC as [DEC|DEC].
    + destruct (build_range_ok fuel h2 (2 * pos + 1) s c nl (k + 1) K Cl2) as (h3 & E3 & R3 & Z3 & K3); trivial; try lia.
      { intros x Q. rewrite Z2. auto. }
      rewrite E3. cbn [bind].
      assert (Cr3 : cell h3 (2 * pos + 2) = Some nr).
      { rewrite K3; [trivial|]. intro Q. apply (under_disjoint pos (2 * pos + 2) Q). constructor. }
      rewrite (IH h3 (2 * pos + 2) (c + 1) e nr (k + 1) K Cr3); trivial; try lia.
      rewrite Z3, Z2. rewrite <- HR. rewrite <- HL in DEC. inversion HQ as [p m|p m x X1 X2|p m x X1 X2]; subst p m; subst.
      * apply cell_some in C. lia.
      * apply DEC in X2. lia.
      * exists q. auto.
    + rewrite (IH h2 (2 * pos + 1) s c nl (k + 1) K Cl2); trivial; try lia. now rewrite Z2.
  - exfalso. replace (e - s + 1) with 1 in HQ by lia. inversion HQ as [p m|p m x X1 X2|p m x X1 X2]; subst; [|lia|lia]. apply cell_some in C. lia.
Qed.
End Build.

(** ** Histories *)
Variable required : N -> N.
Hypothesis ENOUGH : enough required.

Local Notation leaves := (leaves tr).
Lemma nth_combine_seq : forall (v : list T) a i,
  nth_error (combine v (seq a (length v))) i = option_map (fun x => (x, (a + i)%nat)) (nth_error v i).
Proof.
  induction v as [|x v IH]; intros a [|i]; cbn; trivial.
  - now rewrite Nat.add_0_r.
  - rewrite IH. destruct (nth_error v i); cbn; trivial. now rewrite Nat.add_succ_r.
Qed.
Lemma leaves_length : forall v, length (leaves v) = length v.
Proof. intros v. unfold leaves. rewrite map_length, combine_length, seq_length. lia. Qed.
Lemma leaves_cell : forall v i, cell (leaves v) i = option_map (fun x => build_leaf tr x i) (cell v i).
Proof.
  intros v i. unfold cell, leaves. rewrite nth_error_map, nth_combine_seq. cbn.
  destruct (nth_error v (N.to_nat i)); cbn; trivial. now rewrite N2Nat.id.
Qed.

Definition inv (fuel : nat) (t : tree R U) (a : array) : Prop :=
  match a with
  | None => built_heap t = false
  | Some xs => built_heap t = true /\ size t = sizeN xs /\ 0 < sizeN xs < 2 ^ 60 /\ (length xs <= fuel)%nat /\
      repr (heap t) 0 0 (sizeN xs - 1) xs
  end.

Lemma wsub1 : forall n, 0 < n < two64 -> wsub n 1 = n - 1.
Proof.
  intros n H. unfold wsub. replace (n + two64 - 1) with (n - 1 + 1 * two64) by lia.
  rewrite N.mod_add by discriminate. apply N.mod_small. lia.
Qed.

Lemma build_ok : forall fuel t v k, v <> [] -> 0 < k -> sizeN v < 2 ^ 60 -> (length v <= fuel)%nat ->
  exists t', build tr required fuel t v k = Val t' /\ inv fuel t' (Some (leaves (firstn (N.to_nat k) v))) /\
    sizeN (heap t') = N.max (sizeN (heap t)) (required (sizeN (firstn (N.to_nat k) v))).
Proof.
  intros fuel t v k V K0 B F. unfold build.
  set (w := firstn (N.to_nat k) v). set (A := leaves w).
  assert (Lw : length w = Nat.min (N.to_nat k) (length v)) by (unfold w; apply firstn_length).
  assert (Lv : length v <> O) by (intro Z; apply V; apply length_zero_iff_nil; exact Z).
  assert (NE : (if k <? sizeN v then k else sizeN v) = sizeN w).
  { unfold sizeN in *. destruct (N.ltb_spec k (N.of_nat (length v))); lia. }
  rewrite NE. assert (W0 : 0 < sizeN w) by (unfold sizeN; lia).
  assert (WB : sizeN w < 2 ^ 60) by (unfold sizeN in *; lia).
  destruct (N.eqb_spec (sizeN w) 0) as [|_]; [lia|].
  assert (SA : sizeN A = sizeN w) by (unfold sizeN, A; now rewrite leaves_length).
  pose proof (ENOUGH (sizeN w) (conj W0 WB)) as EN.
  set (h0 := if sizeN (heap t) <? required (sizeN w) then _ else _).
  assert (H0 : sizeN h0 = N.max (sizeN (heap t)) (required (sizeN w))).
  { unfold h0. destruct (N.ltb_spec (sizeN (heap t)) (required (sizeN w))); [rewrite resize_size|]; lia. }
  assert (H0' : 0 < sizeN h0) by (pose proof (EN 0 (takes_one _ _)); lia).
  unfold set_root. rewrite at_put_ok by lia. cbn [bind].
  assert (B64 : two64 = 16 * 2 ^ 60) by reflexivity.
  rewrite wsub1 by lia.
  set (nr := mkNode 0 (sizeN w - 1) 0 (no_value tr, no_update tr)). set (h1 := set_nth h0 (N.to_nat 0) nr).
  assert (Z1 : sizeN h1 = sizeN h0) by apply sizeN_set.
  assert (C1 : cell h1 0 = Some nr) by (apply cell_set_eq; lia).
  assert (LOG : N.log2 (sizeN w) < 60) by (apply N.log2_lt_pow2; lia).
  destruct (N.log2_spec (sizeN w) W0) as (_ & LG).
  destruct (build_range_ok v A) with (fuel := fuel) (h := h1) (pos := 0) (s := 0) (e := sizeN w - 1) (n := nr)
    (k := 0) (K := N.log2 (sizeN w) + 1) as (h2 & E2 & R2 & Z2 & _); trivial; try lia.
  - intros i Hi. unfold A. rewrite leaves_cell. rewrite SA in Hi.
    destruct (cell_lt w i Hi) as (x & Cx). rewrite Cx. exists x. split; [|reflexivity].
    unfold w, cell in Cx. rewrite nth_error_firstn_lt in Cx; [exact Cx|]. unfold sizeN in Hi. lia.
  - exact (law_no_update _ _ _ LAW).
  - replace (N.log2 (sizeN w) + 1 - 0) with (N.succ (N.log2 (sizeN w))) by lia. lia.
  - intros q Q. replace (sizeN w - 1 - 0 + 1) with (sizeN w) in Q by lia. apply EN in Q. lia.
  - unfold sizeN in *. lia.
  - rewrite E2. cbn [bind]. eexists. split; [reflexivity|]. cbn [inv built_heap size heap].
    split; [|congruence]. split; [trivial|]. fold A. split; [congruence|]. split; [lia|].
    split; [unfold sizeN in *; lia|]. rewrite SA.
    rewrite (sub_all A 0 0 (sizeN w - 1)) in R2 by lia. exact R2.
Qed.

(** Without room for all cells the build is undefined. *)
Lemma build_ub : forall fuel t v k, v <> [] -> 0 < k -> sizeN v < 2 ^ 60 -> (length v <= fuel)%nat ->
  0 < required (sizeN (firstn (N.to_nat k) v)) ->
  ~ room (sizeN (firstn (N.to_nat k) v)) (N.max (sizeN (heap t)) (required (sizeN (firstn (N.to_nat k) v)))) ->
  build tr required fuel t v k = UB.
Proof.
  clear ENOUGH. intros fuel t v k V K0 B F RQ NR. unfold build.
  set (w := firstn (N.to_nat k) v). set (A := leaves w).
  assert (Lw : length w = Nat.min (N.to_nat k) (length v)) by (unfold w; apply firstn_length).
  assert (Lv : length v <> O) by (intro Z; apply V; apply length_zero_iff_nil; exact Z).
  assert (NE : (if k <? sizeN v then k else sizeN v) = sizeN w).
  { unfold sizeN in *. destruct (N.ltb_spec k (N.of_nat (length v))); lia. }
  rewrite NE. assert (W0 : 0 < sizeN w) by (unfold sizeN; lia).
  assert (WB : sizeN w < 2 ^ 60) by (unfold sizeN in *; lia).
  destruct (N.eqb_spec (sizeN w) 0) as [|_]; [lia|].
  assert (SA : sizeN A = sizeN w) by (unfold sizeN, A; now rewrite leaves_length).
  fold w in RQ, NR.
  set (h0 := if sizeN (heap t) <? required (sizeN w) then _ else _).
  assert (H0 : sizeN h0 = N.max (sizeN (heap t)) (required (sizeN w))).
  { unfold h0. destruct (N.ltb_spec (sizeN (heap t)) (required (sizeN w))); [rewrite resize_size|]; lia. }
  assert (H0' : 0 < sizeN h0) by lia.
  unfold set_root. rewrite at_put_ok by lia. cbn [bind].
  assert (B64 : two64 = 16 * 2 ^ 60) by reflexivity.
  rewrite wsub1 by lia.
  set (nr := mkNode 0 (sizeN w - 1) 0 (no_value tr, no_update tr)). set (h1 := set_nth h0 (N.to_nat 0) nr).
  assert (Z1 : sizeN h1 = sizeN h0) by apply sizeN_set.
  assert (C1 : cell h1 0 = Some nr) by (apply cell_set_eq; lia).
  assert (LOG : N.log2 (sizeN w) < 60) by (apply N.log2_lt_pow2; lia).
  destruct (N.log2_spec (sizeN w) W0) as (_ & LG).
  rewrite (build_range_ub v A) with (fuel := fuel) (h := h1) (pos := 0) (s := 0) (e := sizeN w - 1) (n := nr)
    (k := 0) (K := N.log2 (sizeN w) + 1); trivial; try lia.
  - intros i Hi. unfold A. rewrite leaves_cell. rewrite SA in Hi.
    destruct (cell_lt w i Hi) as (x & Cx). rewrite Cx. exists x. split; [|reflexivity].
    unfold w, cell in Cx. rewrite nth_error_firstn_lt in Cx; [exact Cx|]. unfold sizeN in Hi. lia.
  - exact (law_no_update _ _ _ LAW).
  - replace (N.log2 (sizeN w) + 1 - 0) with (N.succ (N.log2 (sizeN w))) by lia. lia.
  - replace (sizeN w - 1 - 0 + 1) with (sizeN w) by lia. rewrite Z1, H0.
    destruct (takes_dec 60 0 (sizeN w) (N.max (sizeN (heap t)) (required (sizeN w)))) as [X|X]; [|contradiction|assumption].
    change (2 ^ N.of_nat 60) with (2 ^ 60). lia.
  - unfold sizeN in *. lia.
Qed.

Lemma step_ok : forall fuel t a o, fair fuel o -> inv fuel t a ->
  exists t', step tr required fuel t o = Val (t', snd (spec_step tr den a o)) /\
    inv fuel t' (fst (spec_step tr den a o)).
Proof.
  intros fuel t a o FA IN. destruct o as [s e|s e u|v k].
  - cbn [step spec_step]. unfold query. destruct a as [xs|]; cbn [inv] in IN; cbn [fst snd].
    + destruct IN as (BU & SZ & B & F & RE). rewrite BU. cbn [negb].
      destruct (repr_cell _ _ _ _ _ RE) as (n & C & _).
      unfold head. rewrite (at_ok _ _ _ C). cbn [bind].
      unfold fixed_start, fixed_end. rewrite SZ.
      assert (B64 : two64 = 16 * 2 ^ 60) by reflexivity. rewrite wsub1 by lia.
      destruct (range_query_ok fuel (heap t) 0 0 (sizeN xs - 1) xs (clamp (sizeN xs) (N.min s e))
        (clamp (sizeN xs) (N.max s e)) (no_value tr) RE) as (h' & E' & R' & Z' & _);
        [unfold clamp; lia..|unfold sizeN in *; lia|].
      unfold clamp in E' at 1 2. rewrite E'. cbn [bind]. eexists. split; [reflexivity|].
      cbn. auto.
    + rewrite IN. cbn. eauto.
  - cbn [step spec_step]. unfold query_update. destruct a as [xs|]; cbn [inv] in IN; cbn [fst snd].
    + destruct IN as (BU & SZ & B & F & RE). rewrite BU. cbn [negb].
      destruct (repr_cell _ _ _ _ _ RE) as (n & C & _).
      unfold head. rewrite (at_ok _ _ _ C). cbn [bind].
      unfold fixed_start, fixed_end. rewrite SZ.
      assert (B64 : two64 = 16 * 2 ^ 60) by reflexivity. rewrite wsub1 by lia.
      destruct (range_update_ok fuel (heap t) 0 0 (sizeN xs - 1) xs (clamp (sizeN xs) (N.min s e))
        (clamp (sizeN xs) (N.max s e)) u (no_value tr) RE) as (h' & E' & R' & Z' & _);
        [unfold clamp; lia..|unfold sizeN in *; lia|].
      unfold clamp in E' at 1 2. rewrite E'. cbn [bind]. eexists. split; [reflexivity|].
      cbn [inv built_heap size heap]. rewrite change_size.
      assert (LC : forall f a b, length (change_range f 0 a b xs) = length xs).
      { intros f a b. pose proof (change_size f xs 0 a b) as Q. unfold sizeN in Q. lia. }
      rewrite LC. auto.
    + rewrite IN. cbn. eauto.
  - cbn [step spec_step fst snd]. destruct FA as (V & K0 & B & F).
    destruct (build_ok fuel t v k V K0 B F) as (t' & E & I & _). rewrite E. cbn [bind].
    exists t'. split; [reflexivity|].
    destruct (firstn (N.to_nat k) v) as [|x w] eqn:W.
    + exfalso. apply (f_equal (@length T)) in W. rewrite firstn_length in W. destruct v; cbn in *; [congruence|lia].
    + exact I.
Qed.

Lemma run_ok : forall ops fuel t a, Forall (fair fuel) ops -> inv fuel t a ->
  exists t', run tr required fuel t ops = Val (t', snd (spec_run tr den a ops)) /\
    inv fuel t' (fst (spec_run tr den a ops)).
Proof.
  induction ops as [|o ops IH]; intros fuel t a F I; cbn [run spec_run].
  - exists t. auto.
  - inversion F as [|? ? Fo Fr]; subst.
    destruct (step_ok fuel t a o Fo I) as (t1 & E1 & I1). rewrite E1. cbn [bind].
    destruct (spec_step tr den a o) as (a1 & x). cbn [fst snd] in *.
    destruct (IH fuel t1 a1 Fr I1) as (t2 & E2 & I2). rewrite E2. cbn [bind].
    destruct (spec_run tr den a1 ops) as (a2 & l). cbn [fst snd] in *. eauto.
Qed.
Lemma run_start : forall ops fuel, Forall (fair fuel) ops ->
  exists t', run tr required fuel empty_tree ops = Val (t', snd (spec_run tr den None ops)).
Proof.
  intros ops fuel F. destruct (run_ok ops fuel empty_tree None F eq_refl) as (t' & E & _). eauto.
Qed.
End Proofs.

(** ** Without updates *)
Lemma read_only_lawful : forall T R U (tr : transform T R U),
  (forall x y z, join tr x (join tr y z) = join tr (join tr x y) z) -> (forall u, active tr u = false) ->
  lawful tr (fun _ _ x => x).
Proof.
  intros T R U tr A N. constructor; trivial; intros; rewrite N in *; congruence.
Qed.
Lemma operation_lawful : forall f, (forall x y z, f x (f y z) = f (f x y) z) ->
  lawful (range_operation f) (fun _ _ x => x).
Proof. intros f A. apply read_only_lawful; trivial. Qed.

Lemma wadd_assoc : forall x y z, wadd x (wadd y z) = wadd (wadd x y) z.
Proof.
  intros x y z. unfold wadd. rewrite N.add_mod_idemp_r, N.add_mod_idemp_l by discriminate. f_equal. lia.
Qed.
Lemma wmul_assoc : forall x y z, wmul x (wmul y z) = wmul (wmul x y) z.
Proof.
  intros x y z. unfold wmul. rewrite N.mul_mod_idemp_r, N.mul_mod_idemp_l by discriminate. f_equal. lia.
Qed.

Lemma fold_wadd : forall xs x, fold_left wadd xs (x mod two64) = (x + fold_right N.add 0 xs) mod two64.
Proof.
  induction xs as [|y xs IH]; intros x; cbn [fold_left fold_right]; [now rewrite N.add_0_r|].
  unfold wadd at 2. rewrite N.add_mod_idemp_l by discriminate. rewrite IH. f_equal. lia.
Qed.
Lemma fold_wmul : forall xs x, fold_left wmul xs (x mod two64) = (x * fold_right N.mul 1 xs) mod two64.
Proof.
  induction xs as [|y xs IH]; intros x; cbn [fold_left fold_right]; [now rewrite N.mul_1_r|].
  unfold wmul at 2. rewrite N.mul_mod_idemp_l by discriminate. rewrite IH. f_equal. lia.
Qed.
Lemma total_sum : forall d xs, xs <> [] -> Forall (fun x => x < two64) xs ->
  total wadd d xs = fold_right N.add 0 xs mod two64.
Proof.
  intros d [|x xs] H F; [congruence|]. cbn. inversion F; subst.
  rewrite <- (N.mod_small x two64) at 1 by trivial. apply fold_wadd.
Qed.
Lemma total_product : forall d xs, xs <> [] -> Forall (fun x => x < two64) xs ->
  total wmul d xs = fold_right N.mul 1 xs mod two64.
Proof.
  intros d [|x xs] H F; [congruence|]. cbn. inversion F; subst.
  rewrite <- (N.mod_small x two64) at 1 by trivial. apply fold_wmul.
Qed.
Lemma total_min : forall d xs, xs <> [] -> In (total N.min d xs) xs /\ forall x, In x xs -> total N.min d xs <= x.
Proof.
  intros d [|y xs] H; [congruence|]. cbn [total]. clear H. revert y.
  induction xs as [|z xs IH]; intros y; cbn [fold_left].
  - split; [now left|]. intros x [<-|[]]. lia.
  - destruct (IH (N.min y z)) as (I & L). split.
    + destruct I as [E|I]; [|right; now right]. rewrite <- E. destruct (N.min_spec y z) as [(_ & ->)|(_ & ->)]; cbn; auto.
    + intros x [<-|[<-|Hx]].
      * transitivity (N.min y z); [apply L; now left|lia].
      * transitivity (N.min y z); [apply L; now left|lia].
      * apply L. now right.
Qed.
Lemma total_max : forall d xs, xs <> [] -> In (total N.max d xs) xs /\ forall x, In x xs -> x <= total N.max d xs.
Proof.
  intros d [|y xs] H; [congruence|]. cbn [total]. clear H. revert y.
  induction xs as [|z xs IH]; intros y; cbn [fold_left].
  - split; [now left|]. intros x [<-|[]]. lia.
  - destruct (IH (N.max y z)) as (I & L). split.
    + destruct I as [E|I]; [|right; now right]. rewrite <- E. destruct (N.max_spec y z) as [(_ & ->)|(_ & ->)]; cbn; auto.
    + intros x [<-|[<-|Hx]].
      * transitivity (N.max y z); [lia|apply L; now left].
      * transitivity (N.max y z); [lia|apply L; now left].
      * apply L. now right.
Qed.

(** ** The example transforms *)
Lemma fold_zadd : forall xs x, fold_left Z.add xs x = (x + fold_right Z.add 0 xs)%Z.
Proof. induction xs as [|y xs IH]; intros x; cbn; [lia|]. rewrite IH. lia. Qed.
Lemma total_zadd : forall xs, total Z.add 0%Z xs = fold_right Z.add 0%Z xs.
Proof. intros [|x xs]; [reflexivity|]. cbn. apply fold_zadd. Qed.
Lemma add_to_absorbs : forall (tr : transform Z Z Z) s e c u, join tr = Z.add -> no_value tr = 0%Z -> s <= e ->
  absorbs tr den_add (den_add u) s e c (add_to s e c u).
Proof.
  intros tr s e c u J D L. split.
  - intros ->. unfold add_to, den_add. cbn. rewrite N.sub_diag. cbn. lia.
  - intros LT xs SZ V. rewrite J, D in *. rewrite total_zadd in *. cbn [add_to fst snd]. split.
    + rewrite V. clear V.
      assert (G : forall xs a b i, a <= i -> i + sizeN xs <= b + 1 ->
         fold_right Z.add 0%Z (change_range (den_add u) i a b xs) = (fold_right Z.add 0 xs + u * Z.of_N (sizeN xs))%Z).
      { clear. induction xs as [|x xs IH]; intros a b i A B; cbn [change_range fold_right]; [cbn; lia|].
        rewrite sizeN_cons in *. rewrite IH by lia.
        destruct (N.leb_spec a i), (N.leb_spec i b); cbn; try lia. unfold den_add. lia. }
      rewrite G by lia. rewrite SZ. lia.
    + intros i x _. unfold den_add. lia.
Qed.
Lemma range_add_lawful : lawful range_add den_add.
Proof.
  constructor; cbn.
  - intros; lia.
  - intros u H i x. unfold den_add. destruct (Z.eqb_spec u 0); [lia|discriminate].
  - reflexivity.
  - intros s e c u L _ _. now apply add_to_absorbs.
  - intros s e n l r n' l' r' L A P. injection P as <- <- <-. split; [reflexivity|].
    pose proof (center_between s e L). split; apply add_to_absorbs; trivial; lia.
Qed.
Lemma set_to_absorbs : forall s e c u, s <= e ->
  absorbs range_set den_set (den_set u) s e c (set_to c u).
Proof.
  intros s e c u L. destruct u as [z|]; (split; [intros _; reflexivity|]); intros LT xs SZ V; cbn [set_to fst snd].
  - split; [|reflexivity]. cbn [join no_value range_set].
    assert (G : forall xs a b i, a <= i -> i + sizeN xs <= b + 1 ->
       fold_left Z.min (change_range (den_set (Some z)) i a b xs) z = z).
    { clear. induction xs as [|x xs IH]; intros a b i A B; cbn [change_range fold_left]; [trivial|].
      rewrite sizeN_cons in *. destruct (N.leb_spec a i), (N.leb_spec i b); cbn [andb]; try lia.
      cbn [den_set]. rewrite Z.min_id. apply IH; lia. }
    destruct xs as [|x xs]; [cbn in SZ; lia|]. rewrite sizeN_cons in SZ.
    cbn [change_range total]. destruct (N.leb_spec s s), (N.leb_spec s e); cbn [andb]; try lia.
    cbn [den_set]. symmetry. apply G; lia.
  - split; [|reflexivity]. rewrite V. f_equal. symmetry. now apply change_id.
Qed.
Lemma range_set_lawful : lawful range_set den_set.
Proof.
  constructor; cbn.
  - intros. lia.
  - now intros [z|] H i x.
  - reflexivity.
  - intros s e c u L _ _. now apply set_to_absorbs.
  - intros s e n l r n' l' r' L A P. injection P as <- <- <-. split; [reflexivity|].
    pose proof (center_between s e L). split; apply set_to_absorbs; lia.
Qed.
Lemma leafwise_add_documented : lawful_as_documented leafwise_add den_add.
Proof.
  constructor; cbn.
  - intros; lia.
  - intros u H i x. unfold den_add. destruct (Z.eqb_spec u 0); [lia|discriminate].
  - reflexivity.
  - intros s e c u L _ [->|]; [|discriminate]. rewrite N.eqb_refl. split; [reflexivity|lia].
  - intros s e n l r n' l' r' L A P. injection P as <- <- <-. split; [reflexivity|].
    pose proof (center_between s e L). split; apply add_to_absorbs; trivial; lia.
Qed.

(** ** Corollaries *)
(** Which cells are taken: with the positions counted from one, the cell is
    [(pos + 1) 2^d + r] at depth [d]. *)
Lemma takes_where : forall pos n q, takes pos n q -> exists d r, q + 1 = (pos + 1) * 2 ^ d + r /\ r < 2 ^ d /\
  (d = 0 \/ r + 1 = 2 ^ d /\ 2 ^ d <= n \/
   exists j i, d = j + 1 + i /\ r + 1 + 2 ^ i <= 2 ^ d /\ 2 ^ (j + i) + 2 ^ j <= n).
Proof.
  induction 1 as [pos n|pos n q L _ (d & r & E & R & C)|pos n q L _ (d & r & E & R & C)].
  - exists 0, 0. cbn. split; [lia|]. split; [lia|now left].
  - exists (N.succ d), r. rewrite N.pow_succ_r'. split; [nia|]. split; [lia|]. right. right.
    pose proof (N.mul_div_le n 2 ltac:(discriminate)). pose proof (N.mul_succ_div_gt n 2 ltac:(discriminate)).
    exists 0, d. split; [lia|]. change (2 ^ 0) with 1. split; [lia|]. rewrite N.add_0_l.
    destruct C as [->|[(C1 & C2)|(j & i & C1 & C2 & C3)]].
    + cbn. lia.
    + lia.
    + subst d. replace (j + 1 + i) with (N.succ (j + i)) by lia. rewrite N.pow_succ_r'.
      assert (1 <= 2 ^ j) by (change 1 with (2 ^ 0); apply N.pow_le_mono_r; lia). lia.
  - exists (N.succ d), (2 ^ d + r). rewrite N.pow_succ_r'. split; [nia|]. split; [lia|]. right.
    pose proof (N.mul_div_le n 2 ltac:(discriminate)). pose proof (N.mul_succ_div_gt n 2 ltac:(discriminate)).
    destruct C as [->|[(C1 & C2)|(j & i & C1 & C2 & C3)]].
    + left. change (2 ^ 0) with 1 in *. lia.
    + left. clear E. lia.
    + right. exists (N.succ j), i. split; [lia|]. split; [lia|].
      replace (N.succ j + i) with (N.succ (j + i)) by lia. rewrite !N.pow_succ_r'. lia.
Qed.
Lemma square_le : forall a b : N, 4 * (a * b) <= (a + b) * (a + b).
Proof. intros a b. destruct (N.le_ge_cases a b); nia. Qed.
(** The cells taken stay below [4n] by more than twice the root of their number. *)
Lemma takes_below : forall n q, 0 < n -> takes 0 n q ->
  q + 1 <= 2 * n - 1 \/ exists D, q + 1 + D = 4 * n /\ 4 * (q + 1) < D * D.
Proof.
  intros n q Z H. destruct (takes_where _ _ _ H) as (d & r & E & R & C).
  destruct C as [->|[(C1 & C2)|(j & i & -> & C2 & C3)]].
  - left. change (2 ^ 0) with 1 in *. lia.
  - left. lia.
  - right. exists (4 * n - (q + 1)). replace (j + 1 + i) with (N.succ (j + i)) in * by lia. rewrite N.pow_succ_r' in *.
    rewrite N.pow_add_r in *. set (J := 2 ^ j) in *. set (I := 2 ^ i) in *.
    split; [lia|]. assert (X : 4 * J + I + 1 <= 4 * n - (q + 1)) by lia.
    apply N.lt_le_trans with ((4 * J + I) * (4 * J + I)).
    + pose proof (square_le (4 * J) I). lia.
    + apply N.mul_le_mono; lia.
Qed.
Lemma close_enough : forall required, close_to_4n required -> enough required.
Proof.
  intros required CL n H q Q. specialize (CL n H). destruct (takes_below n q (proj1 H) Q) as [L|(D & L1 & L2)].
  - change (2 ^ 31) with 2147483648 in CL. lia.
  - destruct (N.lt_ge_cases q (required n)) as [|G]; [assumption|exfalso].
    change (2 ^ 60) with 1152921504606846976 in H. change (2 ^ 31) with 2147483648 in CL.
    assert (X : D * 2147483647 <= q + 1) by lia.
    assert (Y : D * 2147483647 * D <= (q + 1) * D) by (apply N.mul_le_mono_r; assumption).
    assert (W : 4 * (q + 1) * 2147483647 < D * D * 2147483647) by (apply N.mul_lt_mono_pos_r; [reflexivity|assumption]).
    assert (V : 4 * 2147483647 < D).
    { apply (N.mul_lt_mono_pos_l (q + 1)); [lia|]. replace ((q + 1) * (4 * 2147483647)) with (4 * (q + 1) * 2147483647) by lia.
      eapply N.lt_le_trans; [exact W|]. replace (D * D * 2147483647) with (D * 2147483647 * D) by (rewrite <- !N.mul_assoc; f_equal; apply N.mul_comm). exact Y. }
    lia.
Qed.
Lemma enough_4n : enough (fun n => 4 * n).
Proof. apply close_enough. intros n H. change (2 ^ 31) with 2147483648. lia. Qed.
(** A computation that is monotone and right for powers of two. *)
Lemma enough_monotone : forall required, (forall k, k < 60 -> required (2 ^ k) = 2 ^ (k + 2)) ->
  (forall m n, m <= n -> required m <= required n) -> enough required.
Proof.
  intros required P M n H q Q. destruct (N.log2_spec n (proj1 H)) as (L1 & L2). set (k := N.log2 n) in *.
  assert (K : k < 60) by (apply N.log2_lt_pow2; lia). pose proof (M _ _ L1) as X. rewrite (P k K) in X.
  destruct (takes_where _ _ _ Q) as (d & r & E & R & C). 
  assert (Y : d <= k + 1).
  { destruct C as [->|[(C1 & C2)|(j & i & -> & C2 & C3)]]; [lia| |].
    - assert (d < N.succ k) by (apply (N.pow_lt_mono_r_iff 2); lia). lia.
    - assert (j + i < N.succ k); [|lia]. apply (N.pow_lt_mono_r_iff 2); [lia|]. lia. }
  assert (2 ^ (N.succ d) <= 2 ^ (k + 2)) by (apply N.pow_le_mono_r; lia). rewrite N.pow_succ_r' in H0. lia.
Qed.
(** Cells that are taken: some to the right, then to the left. *)
Lemma takes_lefts : forall i pos n, 2 ^ N.of_nat i + 1 <= n -> takes pos n ((pos + 1) * 2 ^ N.of_nat (S i) - 1).
Proof.
  induction i as [|i IH]; intros pos n H.
  - cbn in H. apply takes_left; [lia|]. replace ((pos + 1) * _ - 1) with (2 * pos + 1) by (change (2 ^ N.of_nat 1) with 2; lia). constructor.
  - rewrite Nat2N.inj_succ, N.pow_succ_r' in H.
    pose proof (N.mul_div_le n 2 ltac:(discriminate)). pose proof (N.mul_succ_div_gt n 2 ltac:(discriminate)).
    apply takes_left; [lia|]. specialize (IH (2 * pos + 1) (n - n / 2)).
    rewrite (Nat2N.inj_succ (S i)), N.pow_succ_r'. replace ((pos + 1) * (2 * 2 ^ N.of_nat (S i))) with ((2 * pos + 1 + 1) * 2 ^ N.of_nat (S i)) by lia.
    apply IH. lia.
Qed.
Lemma takes_rights : forall j i pos n, (2 ^ N.of_nat i + 1) * 2 ^ N.of_nat j <= n ->
  takes pos n (((pos + 2) * 2 ^ N.of_nat j - 1) * 2 ^ N.of_nat (S i) - 1).
Proof.
  induction j as [|j IH]; intros i pos n H.
  - change (2 ^ N.of_nat 0) with 1 in *. replace ((pos + 2) * 1 - 1) with (pos + 1) by lia. apply takes_lefts. lia.
  - rewrite Nat2N.inj_succ, N.pow_succ_r' in *.
    pose proof (N.mul_div_le n 2 ltac:(discriminate)). pose proof (N.mul_succ_div_gt n 2 ltac:(discriminate)).
    assert (1 <= 2 ^ N.of_nat j) by (change 1 with (2 ^ 0); apply N.pow_le_mono_r; lia).
    assert (1 <= 2 ^ N.of_nat i) by (change 1 with (2 ^ 0); apply N.pow_le_mono_r; lia).
    apply takes_right; [nia|]. replace ((pos + 2) * (2 * 2 ^ N.of_nat j)) with ((2 * pos + 2 + 2) * 2 ^ N.of_nat j) by lia.
    apply IH. lia.
Qed.
(** No factor below four is enough. *)
Lemma four_is_least : forall m, 0 < m -> exists n q, 0 < n /\ takes 0 n q /\ (4 * m - 1) * n <= m * q.
Proof.
  intros m H. set (i := N.to_nat (N.log2 m + 4)). set (I := 2 ^ N.of_nat i).
  assert (B : 8 * m <= I).
  { unfold I, i. rewrite N2Nat.id. destruct (N.log2_spec m H) as (_ & L). rewrite N.pow_succ_r' in L. rewrite N.pow_add_r. change (2 ^ 4) with 16. lia. }
  assert (T : takes 0 ((I + 1) * I) ((2 * I - 1) * (2 * I) - 1)).
  { pose proof (takes_rights i i 0 ((I + 1) * I) (N.le_refl _)) as X. fold I in X. rewrite Nat2N.inj_succ, N.pow_succ_r' in X. fold I in X.
    rewrite N.add_0_l in X. exact X. }
  assert (I1 : 1 <= I) by lia. clearbody I. assert (II : I <= I * I) by (rewrite <- (N.mul_1_l I) at 1; apply N.mul_le_mono_r; assumption).
  exists ((I + 1) * I), ((2 * I - 1) * (2 * I) - 1). split; [lia|]. split; [exact T|].
  rewrite N.mul_sub_distr_r. set (K := (I + 1) * I).
  assert (Q : 8 * m * I <= I * I) by (apply N.mul_le_mono_r; assumption).
  assert (M : m <= m * I) by (rewrite <- (N.mul_1_r m) at 1; apply N.mul_le_mono_l; assumption).
  rewrite N.mul_sub_distr_r, N.mul_sub_distr_l, N.mul_sub_distr_l. unfold K. lia.
Qed.

Section Corollaries.
Context {T R U : Type}.
Variable tr : transform T R U.
Variable den : U -> N -> R -> R.
Hypothesis LAW : lawful tr den.
Variable required : N -> N.
Hypothesis ENOUGH : enough required.

Lemma spec_run_app : forall o1 o2 a, spec_run tr den a (o1 ++ o2) =
  (fst (spec_run tr den (fst (spec_run tr den a o1)) o2),
   snd (spec_run tr den a o1) ++ snd (spec_run tr den (fst (spec_run tr den a o1)) o2)).
Proof.
  induction o1 as [|o o1 IH]; intros o2 a; cbn [app spec_run].
  - cbn. now destruct (spec_run tr den a o2).
  - destruct (spec_step tr den a o) as (a1 & x). rewrite IH.
    destruct (spec_run tr den a1 o1) as (a2 & l). cbn [fst snd app].
    now destruct (spec_run tr den a2 o2).
Qed.
Lemma spec_run_length : forall ops a, length (snd (spec_run tr den a ops)) = length ops.
Proof.
  induction ops as [|o ops IH]; intros a; cbn [spec_run]; [trivial|].
  destruct (spec_step tr den a o) as (a1 & x). specialize (IH a1).
  destruct (spec_run tr den a1 ops). cbn in *. now f_equal.
Qed.
Lemma rebuild_forgets : forall fuel o1 v k o2,
  Forall (fair fuel) o1 -> fair fuel (ORebuild v k : op T U) -> Forall (fair fuel) o2 ->
  exists t1 t2 l1 l2, run tr required fuel empty_tree (o1 ++ ORebuild v k :: o2) = Val (t1, l1 ++ l2) /\
    length l1 = length o1 /\
    run tr required fuel empty_tree (ORebuild v k :: o2) = Val (t2, l2).
Proof.
  intros fuel o1 v k o2 F1 F F2.
  destruct (run_start tr den LAW required ENOUGH (o1 ++ ORebuild v k :: o2) fuel) as (t1 & E1).
  { apply Forall_app. auto. }
  destruct (run_start tr den LAW required ENOUGH (ORebuild v k :: o2) fuel) as (t2 & E2).
  { auto. }
  exists t1, t2. do 2 eexists. split; [rewrite E1, spec_run_app; reflexivity|]. cbn [snd].
  split; [apply spec_run_length|]. rewrite E2. f_equal. f_equal. clear E1 E2.
  generalize (fst (spec_run tr den None o1)) as a. intros a.
  cbn [spec_run spec_step]. destruct F as (V & K0 & _).
  destruct (firstn (N.to_nat k) v) as [|x w] eqn:W; [|reflexivity].
  exfalso. apply (f_equal (@length T)) in W. rewrite firstn_length in W.
  destruct v; [congruence|]. cbn in W. lia.
Qed.

Lemma build_then_query : forall fuel v k s e, fair fuel (ORebuild v k : op T U) ->
  let xs := leaves tr (firstn (N.to_nat k) v) in
  exists t t', build tr required fuel empty_tree v k = Val t /\ query tr fuel t s e = Val (t', 
    total (join tr) (no_value tr)
      (sub 0 (N.min (N.min s e) (sizeN xs - 1)) (N.min (N.max s e) (sizeN xs - 1)) xs)).
Proof.
  intros fuel v k s e F xs. pose proof F as (V & K0 & B & L).
  destruct (build_ok tr den LAW required ENOUGH fuel empty_tree v k V K0 B L) as (t & E & I & _).
  destruct (step_ok tr den LAW required ENOUGH fuel t _ (OQuery s e) Logic.I I) as (t' & E' & _).
  exists t. cbn [step spec_step snd] in E'.
  destruct (query tr fuel t s e) as [[t1 r]|x| |] eqn:Q; try discriminate; injection E' as <- ->; eauto.
Qed.

Lemma query_symmetric : forall fuel (t : tree R U) s e u,
  query tr fuel t s e = query tr fuel t e s /\ query_update tr fuel t s e u = query_update tr fuel t e s u.
Proof.
  intros. unfold query, query_update, fixed_start, fixed_end.
  rewrite (N.min_comm s e), (N.max_comm s e). auto.
Qed.
Lemma query_clamps : forall fuel (t : tree R U) s e u, 0 < size t < two64 ->
  let s' := N.min s (size t - 1) in let e' := N.min e (size t - 1) in
  query tr fuel t s e = query tr fuel t s' e' /\ query_update tr fuel t s e u = query_update tr fuel t s' e' u.
Proof.
  intros fuel t s e u H s' e'. unfold query, query_update, fixed_start, fixed_end. rewrite wsub1 by trivial.
  assert (A : N.min (N.min s e) (size t - 1) = N.min (N.min s' e') (size t - 1)) by (unfold s', e'; lia).
  assert (B : N.min (N.max s e) (size t - 1) = N.min (N.max s' e') (size t - 1)) by (unfold s', e'; lia).
  rewrite <- A, <- B. auto.
Qed.

Lemma no_room : forall v k fuel, fair fuel (ORebuild v k : op T U) -> 0 < required (sizeN (firstn (N.to_nat k) v)) ->
  ~ room (sizeN (firstn (N.to_nat k) v)) (required (sizeN (firstn (N.to_nat k) v))) -> build tr required fuel empty_tree v k = UB.
Proof.
  clear ENOUGH. intros v k fuel (V & K0 & B & L) RQ NR. apply (build_ub tr den LAW); trivial.
  change (sizeN (heap empty_tree)) with 0. now rewrite N.max_0_l.
Qed.
(** The allocation never needs to be larger than what [required] gives. *)
Lemma in_bounds : forall fuel v k o, fair fuel (ORebuild v k : op T U) -> Forall (fair fuel) o ->
  exists t t' l, build tr required fuel empty_tree v k = Val t /\
    sizeN (heap t) = required (sizeN (firstn (N.to_nat k) v)) /\
    run tr required fuel t o = Val (t', l).
Proof.
  intros fuel v k o F G. pose proof F as (V & K0 & B & L).
  destruct (build_ok tr den LAW required ENOUGH fuel empty_tree v k V K0 B L) as (t & E & I & Z).
  destruct (run_ok tr den LAW required ENOUGH o fuel t _ G I) as (t' & E' & _).
  exists t, t'. eexists. split; [trivial|]. split; [rewrite Z; cbn; lia|exact E'].
Qed.

Lemma unbuilt_throws : forall fuel (t : tree R U) s e u, built_heap t = false ->
  query tr fuel t s e = Exn NotBuilt /\ query_update tr fuel t s e u = Exn NotBuilt.
Proof. intros fuel t s e u H. unfold query, query_update. now rewrite H. Qed.
Lemma unbuilt_after : forall fuel (ops : list (op T U)) t l,
  Forall (fun o => match o with ORebuild v k => v = [] \/ k = 0 | _ => True end) ops ->
  run tr required fuel empty_tree ops = Val (t, l) -> built_heap t = false /\ heap t = [].
Proof.
  intros fuel ops. assert (G : forall t0 t l, built_heap t0 = false /\ heap t0 = [] ->
    Forall (fun o => match o with ORebuild v k => v = [] \/ k = 0 | _ => True end) ops ->
    run tr required fuel t0 ops = Val (t, l) -> built_heap t = false /\ heap t = []).
  { induction ops as [|o ops IH]; intros t0 t l B F E; cbn [run] in E.
    - injection E as <- <-. trivial.
    - inversion F as [|? ? Fo Fr]; subst. destruct B as (B & H0).
      assert (X : exists t1 a, step tr required fuel t0 o = Val (t1, a) /\ built_heap t1 = false /\ heap t1 = []).
      { destruct o as [s e|s e u|v k]; cbn [step].
        - destruct (unbuilt_throws fuel t0 s e (no_update tr) B) as (-> & _). eauto.
        - destruct (unbuilt_throws fuel t0 s e u B) as (_ & ->). eauto.
        - unfold build. assert (Z : (if k <? sizeN v then k else sizeN v) = 0).
          { destruct Fo as [->| ->]; cbn; [now destruct (k <? 0) eqn:Q; [apply N.ltb_lt in Q; lia|]|].
            destruct (N.ltb_spec 0 (sizeN v)); lia. }
          rewrite Z. cbn. eauto. }
      destruct X as (t1 & a & E1 & B1). rewrite E1 in E. cbn [bind] in E.
      destruct (run tr required fuel t1 ops) as [[t2 l2]|x| |] eqn:Q; try discriminate.
      cbn [bind] in E. injection E as <- <-. eapply IH; eassumption. }
  intros t l F E. eapply (G empty_tree); [split; reflexivity|exact F|exact E].
Qed.
End Corollaries.

(** ** The aliases for sums, products, minima and maxima *)
Lemma leaves_operation : forall f v, leaves (range_operation f) v = v.
Proof.
  intros f v. unfold leaves. cbn. generalize (seq 0 (length v)) as l, (seq_length (length v) 0).
  induction v as [|x v IH]; intros [|i l] H; cbn in *; try discriminate; [trivial|].
  f_equal. apply IH. lia.
Qed.
Lemma sub_incl : forall (xs : list N) s a b, incl (sub s a b xs) xs.
Proof.
  induction xs as [|x xs IH]; intros s a b y H; cbn in *; [trivial|].
  destruct ((a <=? s) && (s <=? b)); [destruct H as [<-|H]; [now left|]|]; right; eapply IH; exact H.
Qed.
Lemma operation_query : forall f, (forall x y z, f x (f y z) = f (f x y) z) -> forall required, enough required ->
  forall fuel v s e, fair fuel (ORebuild v (sizeN v) : op N unit) -> s <= e -> e < sizeN v ->
  exists t t', build (range_operation f) required fuel empty_tree v (sizeN v) = Val t /\
    query (range_operation f) fuel t s e = Val (t', total f 0 (sub 0 s e v)) /\
    sub 0 s e v <> [] /\ incl (sub 0 s e v) v.
Proof.
  intros f A required EN fuel v s e F SE EV.
  destruct (build_then_query _ _ (operation_lawful f A) required EN fuel v (sizeN v) s e F) as (t & t' & E & Q).
  exists t, t'. split; [trivial|].
  assert (X : firstn (N.to_nat (sizeN v)) v = v) by (unfold sizeN; rewrite Nat2N.id; apply firstn_all).
  rewrite X, leaves_operation in Q. cbn [join no_value range_operation] in Q.
  rewrite N.min_l, N.max_r, N.min_l, N.min_l in Q by lia. split; [exact Q|]. split; [|apply sub_incl].
  intros Z. assert (S : sizeN (sub 0 s e v) = e + 1 - s) by (apply sub_size; lia). rewrite Z in S. cbn in S. lia.
Qed.
Lemma sum_query : forall required, enough required ->
  forall fuel v s e, fair fuel (ORebuild v (sizeN v) : op N unit) -> s <= e -> e < sizeN v ->
  Forall (fun x => x < two64) v ->
  exists t t', build range_sum required fuel empty_tree v (sizeN v) = Val t /\
    query range_sum fuel t s e = Val (t', fold_right N.add 0 (sub 0 s e v) mod two64).
Proof.
  intros required EN fuel v s e F SE EV B.
  destruct (operation_query wadd wadd_assoc required EN fuel v s e F SE EV) as (t & t' & E & Q & NE & I).
  exists t, t'. split; [trivial|]. rewrite total_sum in Q; trivial.
  apply (incl_Forall I B).
Qed.
Lemma product_query : forall required, enough required ->
  forall fuel v s e, fair fuel (ORebuild v (sizeN v) : op N unit) -> s <= e -> e < sizeN v ->
  Forall (fun x => x < two64) v ->
  exists t t', build range_multiplication required fuel empty_tree v (sizeN v) = Val t /\
    query range_multiplication fuel t s e = Val (t', fold_right N.mul 1 (sub 0 s e v) mod two64).
Proof.
  intros required EN fuel v s e F SE EV B.
  destruct (operation_query wmul wmul_assoc required EN fuel v s e F SE EV) as (t & t' & E & Q & NE & I).
  exists t, t'. split; [trivial|]. rewrite total_product in Q; trivial.
  apply (incl_Forall I B).
Qed.
Lemma min_query : forall required, enough required ->
  forall fuel v s e, fair fuel (ORebuild v (sizeN v) : op N unit) -> s <= e -> e < sizeN v ->
  exists t t' r, build range_min required fuel empty_tree v (sizeN v) = Val t /\
    query range_min fuel t s e = Val (t', r) /\
    In r (sub 0 s e v) /\ forall x, In x (sub 0 s e v) -> r <= x.
Proof.
  intros required EN fuel v s e F SE EV.
  destruct (operation_query N.min N.min_assoc required EN fuel v s e F SE EV) as (t & t' & E & Q & NE & _).
  exists t, t'. eexists. split; [trivial|]. split; [exact Q|]. now apply total_min.
Qed.
Lemma max_query : forall required, enough required ->
  forall fuel v s e, fair fuel (ORebuild v (sizeN v) : op N unit) -> s <= e -> e < sizeN v ->
  exists t t' r, build range_max required fuel empty_tree v (sizeN v) = Val t /\
    query range_max fuel t s e = Val (t', r) /\
    In r (sub 0 s e v) /\ forall x, In x (sub 0 s e v) -> x <= r.
Proof.
  intros required EN fuel v s e F SE EV.
  destruct (operation_query N.max N.max_assoc required EN fuel v s e F SE EV) as (t & t' & E & Q & NE & _).
  exists t, t'. eexists. split; [trivial|]. split; [exact Q|]. now apply total_max.
Qed.

Lemma unbuilt_calls : forall T R U (tr : transform T R U) required fuel (ops : list (op T U)) t l,
  Forall (fun o => match o with ORebuild v k => v = [] \/ k = 0 | _ => True end) ops ->
  run tr required fuel empty_tree ops = Val (t, l) ->
  forall s e u,
  query tr fuel t s e = Exn NotBuilt /\ query_update tr fuel t s e u = Exn NotBuilt /\
  tree_head t = Exn OutOfRange.
Proof.
  intros T R U tr required fuel ops t l F E s e u.
  destruct (unbuilt_after tr required fuel ops t l F E) as (B & H).
  destruct (unbuilt_throws tr fuel t s e u B) as (X & Y). split; [trivial|split; [trivial|]].
  unfold tree_head. rewrite H. reflexivity.
Qed.
Lemma const_head_unbuilt : exists t : tree N unit,
  t = empty_tree /\ tree_head t = Exn OutOfRange /\ tree_head_const t = UB.
Proof. exists empty_tree. auto. Qed.
Lemma criteria_ignored :
  lawful_as_documented leafwise_add den_add /\
  exists ops, Forall (fair 2) ops /\
  (let* (_, l) := run leafwise_add (fun n => 4 * n) 2 empty_tree ops in Val l)
  = Val [ADone; AValue 3; AValue 3]%Z /\
  snd (spec_run leafwise_add den_add None ops) = [ADone; AValue 13; AValue 13]%Z.
Proof.
  split; [exact leafwise_add_documented|].
  exists [ORebuild [1;2]%Z 2; OUpdate 0 1 5%Z; OQuery 0 1]. split; [|split; vm_compute; reflexivity].
  repeat constructor; discriminate.
Qed.
