(** Proofs about the array heap. *)
Require Import List Arith NArith Lia Bool.
Require Import Verif.Base Verif.HeapModel Verif.HeapSpec.
Import ListNotations.
Local Open Scope N_scope.

Lemma left_small : forall pos, pos < 2 ^ 62 -> left_child_of pos = 2 * pos + 1.
Proof.
  intros pos H. unfold left_child_of. destruct (N.eqb_spec pos 0) as [->|]; [reflexivity|].
  unfold wadd, wmul, two64. change (2 ^ 64) with (4 * 2 ^ 62). rewrite (N.mod_small (pos * 2)) by lia.
  rewrite N.mod_small by lia. lia.
Qed.
Lemma right_small : forall pos, pos < 2 ^ 62 -> right_child_of pos = 2 * pos + 2.
Proof.
  intros pos H. unfold right_child_of. destruct (N.eqb_spec pos 0) as [->|]; [reflexivity|].
  unfold wadd, wmul, two64. change (2 ^ 64) with (4 * 2 ^ 62). rewrite (N.mod_small (pos * 2)) by lia.
  rewrite N.mod_small by lia. lia.
Qed.
Lemma left_exact : forall pos, pos < 2 ^ 63 -> left_child_of pos = 2 * pos + 1.
Proof.
  intros pos H. unfold left_child_of. destruct (N.eqb_spec pos 0) as [->|]; [reflexivity|].
  unfold wadd, wmul, two64. change (2 ^ 64) with (2 * 2 ^ 63). rewrite (N.mod_small (pos * 2)) by lia.
  rewrite N.mod_small by lia. lia.
Qed.
Lemma right_exact : forall pos, pos < 2 ^ 63 - 1 -> right_child_of pos = 2 * pos + 2.
Proof.
  intros pos H. change (2 ^ 63 - 1) with (2 ^ 63 - 1) in H. unfold right_child_of.
  destruct (N.eqb_spec pos 0) as [->|]; [reflexivity|].
  assert (pos < 2 ^ 63) by lia.
  unfold wadd, wmul, two64. change (2 ^ 64) with (2 * 2 ^ 63). rewrite (N.mod_small (pos * 2)) by lia.
  rewrite N.mod_small by lia. lia.
Qed.
Lemma parent_exact : forall pos, pos < two64 -> parent_of pos = (pos - 1) / 2.
Proof.
  intros pos H. unfold parent_of. destruct (N.eqb_spec pos 0) as [->|N0]; [reflexivity|].
  unfold wsub. replace (pos + two64 - 1) with (pos - 1 + 1 * two64) by lia.
  rewrite N.mod_add, N.mod_small; [reflexivity|lia|discriminate].
Qed.

Lemma parent_left : forall pos, pos < 2 ^ 63 -> parent_of (left_child_of pos) = pos.
Proof.
  intros pos H. rewrite left_exact by trivial. rewrite parent_exact by (change two64 with (2 * 2 ^ 63); lia).
  replace (2 * pos + 1 - 1) with (pos * 2) by lia. apply N.div_mul. discriminate.
Qed.
Lemma parent_right : forall pos, pos < 2 ^ 63 - 1 -> parent_of (right_child_of pos) = pos.
Proof.
  intros pos H. rewrite right_exact by trivial.
  rewrite parent_exact by (change two64 with (2 * (2 ^ 63 - 1) + 2); lia).
  replace (2 * pos + 2 - 1) with (1 + pos * 2) by lia. rewrite N.div_add by discriminate. reflexivity.
Qed.
(** Every position but the root is the child of its parent. *)
Lemma child_of_parent : forall pos, 0 < pos < two64 ->
  parent_of pos < pos /\ (pos = left_child_of (parent_of pos) \/ pos = right_child_of (parent_of pos)).
Proof.
  intros pos (H0 & H). rewrite parent_exact by trivial.
  pose proof (N.div_mod (pos - 1) 2 ltac:(discriminate)) as D.
  pose proof (N.mod_lt (pos - 1) 2 ltac:(discriminate)) as M.
  assert (B : two64 = 2 * 2 ^ 63) by reflexivity.
  set (q := (pos - 1) / 2) in *. set (m := (pos - 1) mod 2) in *.
  split; [lia|].
  destruct (N.eq_dec m 0) as [m0|m0].
  - left. rewrite left_exact; lia.
  - right. rewrite right_exact; lia.
Qed.
Lemma children_distinct : forall p q, p < 2 ^ 63 - 1 -> q < 2 ^ 63 - 1 ->
  left_child_of p <> right_child_of q /\
  (left_child_of p = left_child_of q -> p = q) /\ (right_child_of p = right_child_of q -> p = q).
Proof. intros p q P Q. rewrite !left_exact, !right_exact by lia. lia. Qed.

(** Level order. *)
Lemma offset_app : forall p q acc, offset (p ++ q) acc = offset q (offset p acc).
Proof. induction p as [|b p IH]; intros q acc; cbn; auto. Qed.
Lemma offset_acc : forall p acc, offset p acc = acc * 2 ^ N.of_nat (length p) + offset p 0.
Proof.
  induction p as [|b p IH]; intros acc; cbn [offset length]; [cbn; lia|].
  rewrite IH, (IH (2 * 0 + _)), Nat2N.inj_succ, N.pow_succ_r'. destruct b; lia.
Qed.
Lemma offset_lt : forall p, offset p 0 < 2 ^ N.of_nat (length p).
Proof.
  induction p as [|b p IH]; cbn [offset length]; [reflexivity|].
  rewrite offset_acc, Nat2N.inj_succ, N.pow_succ_r'. destruct b; lia.
Qed.
Lemma level_order_snoc : forall p b,
  level_order (p ++ [b]) = 2 * level_order p + (if b then 2 else 1).
Proof.
  intros p b. unfold level_order. rewrite offset_app, app_length, Nat.add_1_r, Nat2N.inj_succ, N.pow_succ_r'.
  cbn [offset]. pose proof (N.pow_nonzero 2 (N.of_nat (length p)) ltac:(discriminate)).
  destruct b; lia.
Qed.
Lemma level_order_children : forall p, level_order p < 2 ^ 63 - 1 ->
  left_child_of (level_order p) = level_order (p ++ [false]) /\
  right_child_of (level_order p) = level_order (p ++ [true]) /\
  parent_of (level_order (p ++ [false])) = level_order p /\
  parent_of (level_order (p ++ [true])) = level_order p.
Proof.
  intros p H. rewrite !level_order_snoc.
  assert (L : left_child_of (level_order p) = 2 * level_order p + 1) by (apply left_exact; lia).
  assert (R : right_child_of (level_order p) = 2 * level_order p + 2) by (apply right_exact; lia).
  rewrite <- L, <- R. rewrite parent_left, parent_right by lia. auto.
Qed.
Lemma path_of_position : forall pos, exists p, level_order p = pos.
Proof.
  induction pos as [pos IH] using (well_founded_induction N.lt_wf_0).
  destruct (N.eq_dec pos 0) as [->|N0]; [now exists []|].
  pose proof (N.div_mod (pos - 1) 2 ltac:(discriminate)) as D.
  pose proof (N.mod_lt (pos - 1) 2 ltac:(discriminate)) as M.
  set (q := (pos - 1) / 2) in *. set (m := (pos - 1) mod 2) in *. clearbody q m.
  destruct (IH q) as (p & Hp); [lia|].
  exists (p ++ [N.eqb m 1]). rewrite level_order_snoc, Hp. destruct (N.eqb_spec m 1); lia.
Qed.
Lemma level_order_nil : forall p, level_order p = 0 -> p = [].
Proof.
  intros p H. destruct (List.rev p) as [|b r] eqn:E.
  - rewrite <- (rev_involutive p), E. reflexivity.
  - rewrite <- (rev_involutive p), E in H. cbn in H. rewrite level_order_snoc in H. destruct b; lia.
Qed.
Lemma path_unique : forall p q, level_order p = level_order q -> p = q.
Proof.
  induction p as [|b p IH] using rev_ind; intros q H.
  - symmetry. apply level_order_nil. now rewrite <- H.
  - destruct (List.rev q) as [|c r] eqn:E.
    + assert (q = []) as -> by (rewrite <- (rev_involutive q), E; reflexivity).
      rewrite level_order_snoc in H. unfold level_order at 2 in H. cbn in H. destruct b; lia.
    + assert (Q : q = List.rev r ++ [c]) by (rewrite <- (rev_involutive q), E; reflexivity).
      subst q. rewrite !level_order_snoc in H.
      assert (b = c) as -> by (destruct b, c; trivial; lia).
      f_equal. apply IH. lia.
Qed.

Section Ops.
Context {T : Type}.
Variable d : T.
Implicit Types h : list T.

Lemma cell_lt : forall h i, i < sizeN h -> exists x, cell h i = Some x.
Proof.
  intros h i H. unfold cell, sizeN in *. destruct (nth_error h (N.to_nat i)) eqn:E; [eauto|].
  apply nth_error_None in E. lia.
Qed.
Lemma cell_some : forall h i x, cell h i = Some x -> i < sizeN h.
Proof.
  intros h i x H. unfold cell, sizeN in *.
  assert (N.to_nat i < length h)%nat by (apply nth_error_Some; congruence). lia.
Qed.
Lemma cell_none : forall h i, sizeN h <= i -> cell h i = None.
Proof. intros h i H. unfold cell, sizeN in *. apply nth_error_None. lia. Qed.
Lemma cell_set_eq : forall h i x, i < sizeN h -> cell (set_nth h (N.to_nat i) x) i = Some x.
Proof. intros h i x H. unfold cell. apply nth_error_set_nth_eq. unfold sizeN in H. lia. Qed.
Lemma cell_set_neq : forall h i j x, i <> j -> cell (set_nth h (N.to_nat i) x) j = cell h j.
Proof. intros h i j x H. unfold cell. apply nth_error_set_nth_neq. lia. Qed.
Lemma at_ok : forall h i x, cell h i = Some x -> at_ h i = Val x.
Proof. intros h i x H. unfold at_. now rewrite H. Qed.
Lemma at_put_ok : forall h i x, i < sizeN h -> at_put h i x = Val (set_nth h (N.to_nat i) x).
Proof. intros h i x H. destruct (cell_lt h i H) as (y & E). unfold at_put. now rewrite (at_ok _ _ _ E). Qed.

Lemma sizeN_set : forall h i x, sizeN (set_nth h i x) = sizeN h.
Proof. intros. unfold sizeN. now rewrite set_nth_length. Qed.

Lemma swap_ok : forall h pos, 0 < pos < sizeN h -> sizeN h <= two64 ->
  exists h', swap h pos = Val h' /\ exchanged pos (parent_of pos) h h'.
Proof.
  intros h pos (H0 & H) S. destruct (child_of_parent pos) as (P & _); [lia|].
  unfold swap. destruct (N.eqb_spec pos (parent_of pos)); [lia|].
  destruct (cell_lt h pos H) as (x & Ex). destruct (cell_lt h (parent_of pos)) as (y & Ey); [lia|].
  rewrite (at_ok _ _ _ Ex). cbn [bind]. rewrite (at_ok _ _ _ Ey). cbn [bind].
  rewrite at_put_ok by trivial. cbn [bind]. rewrite at_put_ok by (rewrite sizeN_set; lia).
  eexists. split; [reflexivity|]. unfold exchanged. split; [now rewrite !set_nth_length|]. split.
  - rewrite cell_set_neq by congruence. rewrite cell_set_eq by trivial. now rewrite Ey.
  - split; [rewrite cell_set_eq by (rewrite sizeN_set; lia); now rewrite Ex|].
    intros k K1 K2. now rewrite !cell_set_neq by congruence.
Qed.
Lemma swap_root : forall h, swap h 0 = Val h.
Proof. reflexivity. Qed.
Lemma swap_out : forall h pos, 0 < pos < two64 -> sizeN h <= pos -> swap h pos = Exn OutOfRange.
Proof.
  intros h pos H S. destruct (child_of_parent pos H) as (P & _).
  unfold swap. destruct (N.eqb_spec pos (parent_of pos)); [lia|].
  unfold at_ at 1. now rewrite cell_none.
Qed.
Lemma swap_children : forall h pos, pos < sizeN h -> sizeN h < 2 ^ 63 ->
  (if (2 * pos + 1 <? sizeN h)%N
   then exists h', swap_with_left_child h pos = Val h' /\ exchanged (2 * pos + 1) pos h h'
   else swap_with_left_child h pos = Val h) /\
  (if (2 * pos + 2 <? sizeN h)%N
   then exists h', swap_with_right_child h pos = Val h' /\ exchanged (2 * pos + 2) pos h h'
   else swap_with_right_child h pos = Val h).
Proof.
  intros h pos H S. unfold swap_with_left_child, swap_with_right_child.
  assert (B : two64 = 2 * 2 ^ 63) by reflexivity.
  pose proof (parent_left pos ltac:(lia)) as PL. pose proof (parent_right pos ltac:(lia)) as PR.
  rewrite left_exact in * by lia. rewrite right_exact in * by lia. split.
  - destruct (N.ltb_spec (2 * pos + 1) (sizeN h)); [|trivial].
    destruct (swap_ok h (2 * pos + 1)) as (h' & E & X); [lia|lia|]. rewrite PL in X. eauto.
  - destruct (N.ltb_spec (2 * pos + 2) (sizeN h)); [|trivial].
    destruct (swap_ok h (2 * pos + 2)) as (h' & E & X); [lia|lia|]. rewrite PR in X. eauto.
Qed.

Lemma resize_size : forall h n, sizeN (resize d h n) = n.
Proof. intros h n. unfold sizeN, resize. rewrite app_length, firstn_length, repeat_length. lia. Qed.
Lemma nth_error_firstn_lt : forall A (l : list A) n i, (i < n)%nat -> nth_error (firstn n l) i = nth_error l i.
Proof.
  induction l as [|a l IH]; intros [|n] [|i] H; try lia; cbn; trivial. apply IH. lia.
Qed.
Lemma resize_old : forall h n i, i < sizeN h -> i < n -> cell (resize d h n) i = cell h i.
Proof.
  intros h n i H1 H2. unfold cell, resize, sizeN in *.
  rewrite nth_error_app1 by (rewrite firstn_length; lia). apply nth_error_firstn_lt. lia.
Qed.
Lemma resize_new : forall h n i, sizeN h <= i -> i < n -> cell (resize d h n) i = Some d.
Proof.
  intros h n i H1 H2. unfold cell, resize, sizeN in *.
  rewrite nth_error_app2 by (rewrite firstn_length; lia). rewrite firstn_length.
  apply nth_error_repeat. lia.
Qed.

Lemma put_grown : forall h i n x, i < n -> sizeN h < i ->
  exists h', at_put (resize d h n) i x = Val h' /\ stored d i x h h' /\ sizeN h' = n.
Proof.
  intros h i n x Hn Hi. rewrite at_put_ok by now rewrite resize_size.
  eexists. split; [reflexivity|]. rewrite sizeN_set, resize_size. split; [|trivial].
  unfold stored. rewrite sizeN_set, resize_size.
  split; [pose proof (resize_size h n) as R; unfold sizeN in *; rewrite set_nth_length; lia|].
  split; [apply cell_set_eq; now rewrite resize_size|]. split; intros k K1 K2.
  - rewrite cell_set_neq by congruence. apply resize_old; lia.
  - rewrite cell_set_neq by congruence. apply resize_new; lia.
Qed.
Lemma put_old : forall h i x, i < sizeN h ->
  exists h', at_put h i x = Val h' /\ stored d i x h h' /\ sizeN h' = sizeN h.
Proof.
  intros h i x H. rewrite at_put_ok by trivial. eexists. split; [reflexivity|].
  rewrite sizeN_set. split; [|trivial]. unfold stored. rewrite sizeN_set, set_nth_length.
  split; [lia|]. split; [now apply cell_set_eq|]. split; intros k K1 K2; [|lia].
  now rewrite cell_set_neq by congruence.
Qed.

Lemma set_left_ok : forall h pos x, pos < 2 ^ 61 -> sizeN h <> 2 * pos + 1 ->
  exists h', set_left d h pos x = Val h' /\ stored d (2 * pos + 1) x h h' /\
    sizeN h' = if 2 * pos + 1 <? sizeN h then sizeN h else 4 * pos + 4.
Proof.
  intros h pos x H N. assert (E : 2 ^ 62 = 2 * 2 ^ 61) by reflexivity. unfold set_left.
  rewrite left_small by lia. rewrite right_small by lia.
  destruct (N.ltb_spec (sizeN h) (2 * pos + 1)).
  - destruct (N.ltb_spec (2 * pos + 1) (sizeN h)); [lia|].
    replace (4 * pos + 4) with (2 * (2 * pos + 1) + 2) by lia. apply put_grown; lia.
  - destruct (N.ltb_spec (2 * pos + 1) (sizeN h)); [|lia]. apply put_old; lia.
Qed.
Lemma set_right_ok : forall h pos x, pos < 2 ^ 61 - 1 -> sizeN h <> 2 * pos + 2 ->
  exists h', set_right d h pos x = Val h' /\ stored d (2 * pos + 2) x h h' /\
    sizeN h' = if 2 * pos + 2 <? sizeN h then sizeN h else 4 * pos + 6.
Proof.
  intros h pos x H N. assert (E : 2 ^ 62 = 2 * 2 ^ 61) by reflexivity. unfold set_right.
  rewrite (right_small pos) by lia. rewrite right_small by lia.
  destruct (N.ltb_spec (sizeN h) (2 * pos + 2)).
  - destruct (N.ltb_spec (2 * pos + 2) (sizeN h)); [lia|].
    replace (4 * pos + 6) with (2 * (2 * pos + 2) + 2) by lia. apply put_grown; lia.
  - destruct (N.ltb_spec (2 * pos + 2) (sizeN h)); [|lia]. apply put_old; lia.
Qed.
(** At the boundary both always throw. *)
Lemma set_left_boundary : forall h pos x, pos < 2 ^ 61 -> sizeN h = 2 * pos + 1 ->
  set_left d h pos x = Exn OutOfRange.
Proof.
  intros h pos x H E. unfold set_left. assert (2 ^ 62 = 2 * 2 ^ 61) by reflexivity.
  rewrite left_small by lia. destruct (N.ltb_spec (sizeN h) (2 * pos + 1)); [lia|].
  unfold at_put, at_. rewrite cell_none by lia. reflexivity.
Qed.
Lemma set_right_boundary : forall h pos x, pos < 2 ^ 61 -> sizeN h = 2 * pos + 2 ->
  set_right d h pos x = Exn OutOfRange.
Proof.
  intros h pos x H E. unfold set_right. assert (2 ^ 62 = 2 * 2 ^ 61) by reflexivity.
  rewrite right_small by lia. destruct (N.ltb_spec (sizeN h) (2 * pos + 2)); [lia|].
  unfold at_put, at_. rewrite cell_none by lia. reflexivity.
Qed.
Lemma root_head_tail : forall h x,
  (h = [] -> set_root h x = Exn OutOfRange /\ head h = Exn OutOfRange /\ head_const h = UB /\ tail h = UB) /\
  (forall y r, h = y :: r ->
     set_root h x = Val (x :: r) /\ head h = Val y /\ head_const h = Val y) /\
  (forall r y, h = r ++ [y] -> tail h = Val y).
Proof.
  intros h x. split; [now intros ->|]. split; [now intros y r ->|].
  intros r y ->. destruct r as [|z r]; [reflexivity|]. cbn. f_equal.
  apply List.last_last.
Qed.
End Ops.

(** ** height_of *)
Lemma offset_bound path : forall acc, (acc * 2 ^ N.of_nat (length path) <= offset path acc <
  (acc + 1) * 2 ^ N.of_nat (length path))%N.
Proof.
  induction path as [|b r IH]; intros acc; cbn [offset length].
  - change (2 ^ N.of_nat 0)%N with 1%N. lia.
  - specialize (IH (2 * acc + (if b then 1 else 0))%N).
    rewrite Nat2N.inj_succ, N.pow_succ_r'. destruct b; nia.
Qed.

Lemma offset_left path : ~ In true path -> offset path 0 = 0%N.
Proof.
  induction path as [|b r IH]; intros H; [reflexivity|]. cbn [offset].
  destruct b; [destruct H; cbn; auto|]. apply IH. intros X. apply H. right. exact X.
Qed.

Lemma offset_pos path : forall acc, (0 < acc)%N -> (0 < offset path acc)%N.
Proof.
  intros acc A. pose proof (offset_bound path acc) as B.
  assert (2 ^ N.of_nat (length path) <> 0)%N by (apply N.pow_nonzero; lia). nia.
Qed.

Lemma offset_right path : In true path -> (0 < offset path 0)%N.
Proof.
  induction path as [|b r IH]; intros H; [destruct H|]. cbn [offset].
  destruct b; [apply offset_pos; lia|]. apply IH. destruct H as [E|H]; [discriminate|exact H].
Qed.

Theorem height_right lg path : exact_below_2_40 lg -> In true path -> (level_order path < 2 ^ 40)%N ->
  height_of lg (level_order path) = Val (N.of_nat (length path) + 1)%N.
Proof.
  intros X H L. pose proof (offset_right path H) as P. pose proof (offset_bound path 0) as B.
  unfold level_order in *. set (n := N.of_nat (length path)) in *.
  assert (NZ : (2 ^ n <> 0)%N) by (apply N.pow_nonzero; lia).
  unfold height_of. destruct (N.eqb_spec (2 ^ n - 1 + offset path 0) 0); [lia|].
  rewrite X by lia. f_equal. f_equal. apply N.log2_unique; [lia|]. rewrite N.pow_succ_r'. lia.
Qed.

Theorem height_left lg path : exact_below_2_40 lg -> ~ In true path -> path <> [] ->
  (level_order path < 2 ^ 40)%N ->
  height_of lg (level_order path) = Val (N.of_nat (length path)).
Proof.
  intros X H NE L. unfold level_order in *. rewrite (offset_left path H) in *.
  destruct path as [|b r]; [congruence|]. cbn [length] in *. rewrite Nat2N.inj_succ in *.
  set (n := N.of_nat (length r)) in *. rewrite N.pow_succ_r' in *.
  assert (NZ : (2 ^ n <> 0)%N) by (apply N.pow_nonzero; lia).
  unfold height_of. destruct (N.eqb_spec (2 * 2 ^ n - 1 + 0) 0); [lia|].
  rewrite X by lia. f_equal. rewrite (N.log2_unique (2 * 2 ^ n - 1 + 0) n); [lia|lia|].
  rewrite N.pow_succ_r'. lia.
Qed.
