(** Proofs about the Fenwick model. *)
Require Import List Arith NArith ZArith Lia Bool.
Require Import Verif.Base Verif.FenwickModel Verif.FenwickSpec.
Import ListNotations.

(** * Lowest set bit *)

Lemma lowbit_decomp (p : N) :
  (0 < p)%N -> exists a m, p = (2 ^ a * (2 * m + 1))%N /\ lowbit p = (2 ^ a)%N.
Proof.
  destruct p as [|p]; [lia|intros _].
  induction p as [p IH|p IH|].
  - exists 0%N, (Npos p). simpl lowbit. split; [lia|reflexivity].
  - destruct IH as (a & m & H1 & H2).
    exists (N.succ a), m. rewrite N.pow_succ_r'. split; [lia|].
    simpl lowbit in *. lia.
  - exists 0%N, 0%N. split; reflexivity.
Qed.

Lemma pow2_pos a : (0 < 2 ^ a)%N.
Proof. apply N.neq_0_lt_0, N.pow_nonzero; lia. Qed.

Lemma lowbit_unique p a m :
  p = (2 ^ a * (2 * m + 1))%N -> lowbit p = (2 ^ a)%N.
Proof.
  intros H.
  assert (Hp : (0 < p)%N) by (pose proof (pow2_pos a); nia).
  destruct (lowbit_decomp p Hp) as (b & k & E & L). rewrite L. f_equal.
  destruct (N.lt_trichotomy a b) as [C|[C|C]]; auto; exfalso.
  - replace b with (a + N.succ (b - a - 1))%N in E by lia.
    rewrite N.pow_add_r, N.pow_succ_r' in E.
    pose proof (pow2_pos a). pose proof (pow2_pos (b-a-1)).
    assert ((2 * m + 1) = 2 * (2 ^ (b - a - 1) * (2 * k + 1)))%N by nia. lia.
  - replace a with (b + N.succ (a - b - 1))%N in H by lia.
    rewrite N.pow_add_r, N.pow_succ_r' in H.
    pose proof (pow2_pos b). pose proof (pow2_pos (a-b-1)).
    assert ((2 * k + 1) = 2 * (2 ^ (a - b - 1) * (2 * m + 1)))%N by nia. lia.
Qed.

Lemma lowbit_le p : (lowbit p <= p)%N.
Proof.
  destruct (N.eq_dec p 0) as [->|H]; [simpl; lia|].
  destruct (lowbit_decomp p) as (a & m & E & L); [lia|].
  rewrite L, E. pose proof (pow2_pos a). nia.
Qed.

Lemma lowbit_pos_N p : (0 < p -> 0 < lowbit p)%N.
Proof.
  intros H. destruct (lowbit_decomp p H) as (a & m & E & L).
  rewrite L. apply pow2_pos.
Qed.

(** The code's [index & (-index)] is the lowest set bit. *)
Lemma lsb_lowbit p : (p < two64)%N -> lsb p = lowbit p.
Proof.
  intros Hlt. destruct (N.eq_dec p 0) as [->|Hp]; [reflexivity|].
  destruct (lowbit_decomp p) as (a & m & E & L); [lia|].
  rewrite L. unfold lsb, wneg.
  rewrite N.mod_small by lia.
  pose proof (pow2_pos a) as Ha.
  assert (Ha64 : (a < 64)%N).
  { destruct (N.lt_ge_cases a 64) as [|C]; auto. exfalso.
    assert (2 ^ 64 <= 2 ^ a)%N by (apply N.pow_le_mono_r; lia).
    unfold two64 in *. nia. }
  set (q := (2 ^ (63 - a))%N).
  assert (Hq : two64 = (2 ^ a * (2 * q))%N).
  { unfold two64, q. rewrite <- N.pow_succ_r', <- N.pow_add_r. f_equal. lia. }
  assert (Hm : (m < q)%N) by nia.
  assert (Hneg : (two64 - p = 2 ^ a * (2 * (q - 1 - m) + 1))%N) by nia.
  rewrite Hneg, E.
  rewrite !(N.mul_comm (2 ^ a)), <- !N.shiftl_mul_pow2, <- N.shiftl_land.
  rewrite N.shiftl_mul_pow2.
  replace (N.land (2 * m + 1) (2 * (q - 1 - m) + 1)) with 1%N; [lia|].
  assert (Hqm : (q - 1 - m)%N = N.ldiff (N.ones (63 - a)) m).
  { assert (HO : N.ones (63 - a) = (q - 1)%N).
    { unfold q. rewrite N.ones_equiv. lia. }
    rewrite <- N.sub_nocarry_ldiff.
    - rewrite HO. lia.
    - rewrite N.ldiff_ones_r, N.shiftr_div_pow2, N.div_small by exact Hm.
      apply N.shiftl_0_l. }
  symmetry. apply N.bits_inj. intros i.
  rewrite N.land_spec.
  destruct (N.eq_dec i 0) as [->|Hi].
  - rewrite !N.testbit_odd_0. reflexivity.
  - replace i with (N.succ (N.pred i)) by lia.
    change (N.testbit 1) with (N.testbit (2 * 0 + 1)).
    rewrite !N.testbit_odd_succ by lia.
    rewrite Hqm, N.ldiff_spec, N.bits_0.
    destruct (N.testbit m (N.pred i)); simpl; rewrite ?andb_false_r; reflexivity.
Qed.

(** * Blocks *)

(** Cell [q] covers element [p]. *)
Definition covers (q p : N) : bool :=
  ((q - lowbit q <? p) && (p <=? q))%N.

Lemma covers_true q p : covers q p = true <-> (q - lowbit q < p /\ p <= q)%N.
Proof. unfold covers. rewrite andb_true_iff, N.ltb_lt, N.leb_le. tauto. Qed.

Lemma covers_self p : (0 < p)%N -> covers p p = true.
Proof.
  intros H. apply covers_true. pose proof (lowbit_pos_N p H).
  pose proof (lowbit_le p). lia.
Qed.

Lemma covers_next q p :
  (0 < p)%N -> (0 < q)%N -> p <> q ->
  covers q p = covers q (p + lowbit p).
Proof.
  intros Hp Hq Hne. apply eq_true_iff_eq. rewrite !covers_true.
  destruct (lowbit_decomp p Hp) as (a & m & Ep & Lp).
  destruct (lowbit_decomp q Hq) as (b & k & Eq & Lq).
  rewrite Lp, Lq.
  pose proof (pow2_pos a) as Ha. pose proof (pow2_pos b) as Hb.
  assert (Hlow : (q - 2 ^ b = 2 ^ b * (2 * k))%N) by nia.
  rewrite Hlow.
  destruct (N.lt_ge_cases a b) as [C|C].
  - (* 2^a divides everything *)
    replace b with (a + N.succ (b - a - 1))%N in * by lia.
    rewrite N.pow_add_r, N.pow_succ_r' in *.
    set (c := (2 ^ (b - a - 1))%N) in *. set (A := (2 ^ a)%N) in *.
    assert (Eq' : (q = A * (2 * (c * (2 * k + 1))))%N) by nia.
    split; intros [H1 H2].
    + split; [nia|]. rewrite Eq', Ep in H2 |- *.
      assert (2 * m + 1 <= 2 * (c * (2 * k + 1)))%N by nia.
      assert (2 * m + 1 + 1 <= 2 * (c * (2 * k + 1)))%N by lia. nia.
    + split; [|lia]. rewrite Ep in H1, H2 |- *.
      assert (A * (2 * (c * (2 * k))) < A * (2 * m + 2))%N by nia.
      assert (2 * (c * (2 * k)) < 2 * m + 2)%N by nia.
      assert (2 * (c * (2 * k)) < 2 * m + 1)%N by lia.
      nia.
  - replace a with (b + (a - b))%N in * by lia.
    rewrite N.pow_add_r in *.
    set (c := (2 ^ (a - b))%N) in *. set (B := (2 ^ b)%N) in *.
    assert (Hc : c = 1%N \/ exists d, c = (2 * d)%N).
    { destruct (N.eq_dec (a - b) 0) as [e|e].
      - left. unfold c. now rewrite e.
      - right. exists (2 ^ (a - b - 1))%N. unfold c.
        rewrite <- N.pow_succ_r'. f_equal. lia. }
    split; intros [H1 H2]; exfalso.
    + rewrite Ep in H1, H2. rewrite Eq in H2.
      assert (2 * k < c * (2 * m + 1))%N by nia.
      assert (c * (2 * m + 1) <= 2 * k + 1)%N by nia.
      assert (Hx : (c * (2 * m + 1) = 2 * k + 1)%N) by lia.
      apply Hne. rewrite Ep, Eq. nia.
    + rewrite Ep in H1, H2. rewrite Eq in H2.
      assert (2 * k < c * (2 * m + 2))%N by nia.
      assert (c * (2 * m + 2) <= 2 * k + 1)%N by nia. 
      assert (c * (2 * (m + 1)) = 2 * k + 1)%N by lia. lia.
Qed.

Lemma covers_beyond q p : (q < p)%N -> covers q p = false.
Proof.
  intros H. destruct (covers q p) eqn:E; auto.
  apply covers_true in E. lia.
Qed.

Lemma covers_0_l p : (0 < p)%N -> covers 0 p = false.
Proof. intros; apply covers_beyond; lia. Qed.

(** * Slices *)

Lemma nth_error_firstn' {A} (l : list A) n i :
  nth_error (firstn n l) i = if i <? n then nth_error l i else None.
Proof.
  revert n i; induction l as [|x l IH]; intros n i.
  - rewrite firstn_nil. destruct i, (_ <? n); reflexivity.
  - destruct n; simpl.
    + destruct i; reflexivity.
    + destruct i; simpl; [reflexivity|]. rewrite IH. reflexivity.
Qed.

Lemma nth_error_skipn' {A} (l : list A) n i :
  nth_error (skipn n l) i = nth_error l (n + i).
Proof.
  revert n; induction l as [|x l IH]; intros n.
  - rewrite skipn_nil. destruct i, n; reflexivity.
  - destruct n; simpl; auto.
Qed.

Lemma nth_error_slice {A} (l : list A) lo hi i :
  nth_error (slice l lo hi) i =
  if i <? hi - lo then nth_error l (lo + i) else None.
Proof. unfold slice. now rewrite nth_error_firstn', nth_error_skipn'. Qed.

Lemma skipn_skipn' {A} (l : list A) a b : skipn a (skipn b l) = skipn (b + a) l.
Proof.
  revert b; induction l as [|x l IH]; intros b.
  - now rewrite !skipn_nil.
  - destruct b; simpl; auto.
Qed.

Lemma slice_app {A} (l : list A) lo mid hi :
  lo <= mid -> mid <= hi ->
  slice l lo hi = slice l lo mid ++ slice l mid hi.
Proof.
  intros H1 H2. unfold slice.
  replace (hi - lo) with ((mid - lo) + (hi - mid)) by lia.
  rewrite <- (firstn_skipn (mid - lo) (firstn _ (skipn lo l))).
  rewrite firstn_firstn, Nat.min_l by lia. f_equal.
  rewrite skipn_firstn_comm, skipn_skipn'. f_equal; [lia|]. f_equal. lia.
Qed.

Lemma slice_0 {A} (l : list A) hi : slice l 0 hi = firstn hi l.
Proof. unfold slice. now rewrite Nat.sub_0_r. Qed.

Lemma slice_empty {A} (l : list A) lo : slice l lo lo = [].
Proof. unfold slice. now rewrite Nat.sub_diag. Qed.

Lemma Forall_firstn' {A} (P : A -> Prop) n l : Forall P l -> Forall P (firstn n l).
Proof.
  revert n; induction l; intros [|n] H; simpl; auto. inversion H; auto.
Qed.

Lemma Forall_skipn' {A} (P : A -> Prop) n l : Forall P l -> Forall P (skipn n l).
Proof.
  revert n; induction l; intros [|n] H; simpl; auto. inversion H; auto.
Qed.

Lemma Forall_slice {A} (P : A -> Prop) l lo hi : Forall P l -> Forall P (slice l lo hi).
Proof. intros. now apply Forall_firstn', Forall_skipn'. Qed.

(** * [change] *)

Lemma nth_error_combine_seq {A} (l : list A) b i :
  nth_error (combine (seq b (length l)) l) i =
  option_map (fun x => (b + i, x)) (nth_error l i).
Proof.
  revert b i; induction l as [|x l IH]; intros b i; [destruct i; reflexivity|].
  destruct i; simpl.
  - now rewrite Nat.add_0_r.
  - rewrite IH. destruct (nth_error l i); simpl; auto. do 2 f_equal. lia.
Qed.

Lemma nth_error_change {A} (l : list A) p g i :
  nth_error (change l p g) i =
  option_map (fun x => if S i =? p then g x else x) (nth_error l i).
Proof.
  unfold change. rewrite nth_error_map, nth_error_combine_seq.
  destruct (nth_error l i); reflexivity.
Qed.

Lemma change_length {A} (l : list A) p g : length (change l p g) = length l.
Proof.
  unfold change. rewrite map_length, combine_length, seq_length. lia.
Qed.

Lemma change_0 {A} (l : list A) g : change l 0 g = l.
Proof.
  apply list_eq_nth_error; intros i. rewrite nth_error_change.
  destruct (nth_error l i); reflexivity.
Qed.

Lemma change_beyond {A} (l : list A) p g : length l < p -> change l p g = l.
Proof.
  intros H. apply list_eq_nth_error; intros i. rewrite nth_error_change.
  destruct (nth_error l i) eqn:E; cbn [option_map]; auto.
  assert (i < length l) by (apply nth_error_Some; congruence).
  destruct (Nat.eqb_spec (S i) p); [lia|reflexivity].
Qed.

Lemma change_cons_1 {A} (x : A) l g : change (x :: l) 1 g = g x :: l.
Proof.
  apply list_eq_nth_error; intros i. rewrite nth_error_change.
  destruct i; simpl; auto. destruct (nth_error l i); reflexivity.
Qed.

Lemma change_cons_S {A} (x : A) l p g :
  change (x :: l) (S (S p)) g = x :: change l (S p) g.
Proof.
  apply list_eq_nth_error; intros i.
  destruct i; simpl nth_error at 2.
  - rewrite nth_error_change. reflexivity.
  - rewrite !nth_error_change. simpl. reflexivity.
Qed.

Lemma slice_change_in {A} (l : list A) p g lo hi :
  lo < p -> slice (change l p g) lo hi = change (slice l lo hi) (p - lo) g.
Proof.
  intros H. apply list_eq_nth_error; intros i.
  rewrite nth_error_change, !nth_error_slice, nth_error_change.
  destruct (i <? hi - lo); cbn [option_map]; auto.
  destruct (nth_error l (lo + i)); cbn [option_map]; auto.
  destruct (Nat.eqb_spec (S (lo + i)) p), (Nat.eqb_spec (S i) (p - lo)); auto; lia.
Qed.

Lemma slice_change_before {A} (l : list A) p g lo hi :
  p <= lo -> slice (change l p g) lo hi = slice l lo hi.
Proof.
  intros H. apply list_eq_nth_error; intros i.
  rewrite !nth_error_slice, nth_error_change.
  destruct (i <? hi - lo); cbn [option_map]; auto.
  destruct (nth_error l (lo + i)); cbn [option_map]; auto.
  destruct (Nat.eqb_spec (S (lo + i)) p); auto; lia.
Qed.

Lemma slice_change_after {A} (l : list A) p g lo hi :
  hi < p -> slice (change l p g) lo hi = slice l lo hi.
Proof.
  intros H. apply list_eq_nth_error; intros i.
  rewrite !nth_error_slice, nth_error_change.
  destruct (Nat.ltb_spec i (hi - lo)); cbn [option_map]; auto.
  destruct (nth_error l (lo + i)); cbn [option_map]; auto.
  destruct (Nat.eqb_spec (S (lo + i)) p); auto; lia.
Qed.

Lemma Forall_change {A} (P : A -> Prop) l p g :
  Forall P l -> (forall x, P x -> P (g x)) -> Forall P (change l p g).
Proof.
  intros H Hg. rewrite Forall_forall in *. intros x Hx.
  apply In_nth_error in Hx. destruct Hx as [i Hi].
  rewrite nth_error_change in Hi. destruct (nth_error l i) eqn:E; [|discriminate].
  apply nth_error_In in E. cbn [option_map] in Hi. 
  specialize (H _ E). destruct (S i =? p); injection Hi as <-; auto.
Qed.

(** * The array hops *)

Lemma pow_divide_le a b : (a <= b)%N -> (2 ^ a | 2 ^ b)%N.
Proof.
  intros H. exists (2 ^ (b - a))%N. rewrite <- N.pow_add_r. f_equal. lia.
Qed.

Lemma pow_le_odd a b m :
  (2 ^ a | 2 ^ b * (2 * m + 1))%N -> (a <= b)%N.
Proof.
  intros [k Hk]. destruct (N.le_gt_cases a b) as [|C]; auto. exfalso.
  replace a with (b + N.succ (a - b - 1))%N in Hk by lia.
  rewrite N.pow_add_r, N.pow_succ_r' in Hk.
  pose proof (pow2_pos b).
  assert (2 * m + 1 = 2 * (k * 2 ^ (a - b - 1)))%N by nia. lia.
Qed.

(** One hop of [next_update]: the next position covers the same elements; the
    lowest bit at least doubles; the position past the last is 2^64 -> 0. *)
Lemma next_update_step p e :
  (0 < p)%N -> (p < two64)%N -> (2 ^ e | p)%N ->
  (next_update p = p + lowbit p /\ p + lowbit p < two64
   \/ next_update p = 0 /\ p + lowbit p = two64)%N
  /\ (2 ^ N.succ e | next_update p)%N.
Proof.
  intros Hp Hlt Hd. unfold next_update, wadd. rewrite lsb_lowbit by auto.
  destruct (lowbit_decomp p Hp) as (a & m & E & L).
  assert (Hae : (e <= a)%N) by (eapply pow_le_odd; rewrite <- E; eauto).
  assert (Hs : (p + lowbit p = 2 ^ N.succ a * (m + 1))%N).
  { rewrite L, N.pow_succ_r'. nia. }
  assert (Ha : (a < 64)%N).
  { destruct (N.lt_ge_cases a 64) as [|C]; auto. exfalso.
    assert (2 ^ 64 <= 2 ^ a)%N by (apply N.pow_le_mono_r; lia).
    unfold two64 in *. nia. }
  assert (H64 : (two64 = 2 ^ N.succ a * 2 ^ (63 - a))%N).
  { unfold two64. rewrite <- N.pow_add_r. f_equal. lia. }
  assert (Hle : (p + lowbit p <= two64)%N).
  { rewrite Hs, H64. pose proof (pow2_pos (N.succ a)). pose proof (pow2_pos a).
    rewrite N.pow_succ_r' in *.
    assert (m < 2 ^ (63 - a))%N by nia. nia. }
  assert (Hdiv : (2 ^ N.succ e | p + lowbit p)%N).
  { rewrite Hs. apply N.divide_mul_l, pow_divide_le. lia. }
  destruct (N.eq_dec (p + lowbit p) two64) as [C|C].
  - rewrite C, N.mod_same by (unfold two64; lia). split; [right; auto|].
    apply N.divide_0_r.
  - rewrite N.mod_small by lia. split; [left; split; [auto|lia]|auto].
Qed.

Lemma next_query_step p e :
  (0 < p)%N -> (p < two64)%N -> (2 ^ e | p)%N ->
  next_query p = (p - lowbit p)%N /\ (2 ^ N.succ e | next_query p)%N.
Proof.
  intros Hp Hlt Hd. unfold next_query, wsub. rewrite lsb_lowbit by auto.
  pose proof (lowbit_le p).
  replace (p + two64 - lowbit p)%N with ((p - lowbit p) + 1 * two64)%N by lia.
  rewrite N.mod_add by (unfold two64; lia).
  rewrite N.mod_small by lia. split; auto.
  destruct (lowbit_decomp p Hp) as (a & m & E & L).
  assert (Hae : (e <= a)%N) by (eapply pow_le_odd; rewrite <- E; eauto).
  replace (p - lowbit p)%N with (2 ^ N.succ a * m)%N.
  - apply N.divide_mul_l, pow_divide_le. lia.
  - rewrite L, N.pow_succ_r'. nia.
Qed.

Lemma divide_two64_lt p : (2 ^ 64 | p)%N -> (p < two64)%N -> p = 0%N.
Proof. intros [k ->] H. unfold two64 in H. nia. Qed.

Section Gen.
Context {T : Type} (tr : transform T).

Lemma update_cells_hits fuel : forall cells p v,
  (fuel <= 64) -> (sizeN cells < two64)%N -> (p < two64)%N ->
  (2 ^ N.of_nat (64 - fuel) | p)%N ->
  exists cells', update_cells tr fuel cells p v = Val cells' /\
    forall q, nth_error cells' q =
      option_map (fun c => if (negb (p =? 0)%N && covers (N.of_nat q) p)%bool
                           then f_op tr c v else c) (nth_error cells q).
Proof.
  induction fuel as [|fuel IH]; intros cells p v Hf Hs Hp Hd.
  - apply divide_two64_lt in Hd; auto. subst p. simpl.
    exists cells; split; auto. intros q. destruct (nth_error cells q); auto.
  - cbn [update_cells].
    destruct (N.eqb_spec p 0) as [E0|E0]; simpl negb; cbn [andb].
    { exists cells; split; auto. intros q. destruct (nth_error cells q); auto. }
    destruct (N.ltb_spec p (sizeN cells)) as [Hlt|Hge].
    + unfold cell. destruct (nth_error cells (N.to_nat p)) as [c|] eqn:Ec.
      2:{ exfalso. apply nth_error_None in Ec. unfold sizeN in *. lia. }
      destruct (next_update_step p (N.of_nat (64 - S fuel))) as [Hn Hd']; auto; [lia|].
      replace (N.succ (N.of_nat (64 - S fuel))) with (N.of_nat (64 - fuel)) in Hd' by lia.
      edestruct (IH (set_nth cells (N.to_nat p) (f_op tr c v)) (next_update p) v)
        as (cells' & Hrun & Hres); auto; try lia.
      { unfold sizeN in *. now rewrite set_nth_length. }
      rewrite Hrun. exists cells'; split; auto. intros q. rewrite Hres.
      destruct (Nat.eq_dec (N.to_nat p) q) as [<-|Hq].
      * rewrite nth_error_set_nth_eq by (apply nth_error_Some; congruence).
        rewrite Ec, N2Nat.id. simpl. rewrite covers_self by lia.
        destruct (N.eqb_spec (next_update p) 0) as [|Hnz]; simpl; auto.
        destruct Hn as [[Hn _]|[Hn _]]; [|congruence].
        rewrite covers_beyond; auto.
        pose proof (lowbit_pos_N p). lia.
      * rewrite nth_error_set_nth_neq by auto.
        destruct (nth_error cells q) as [cq|] eqn:Eq; simpl; auto.
        assert (Hqs : q < length cells) by (apply nth_error_Some; congruence).
        replace (negb (next_update p =? 0)%N && covers (N.of_nat q) (next_update p))%bool
          with (covers (N.of_nat q) p); auto.
        destruct (Nat.eq_dec q 0) as [->|Hq0].
        { rewrite covers_0_l by lia.
          destruct (N.eqb_spec (next_update p) 0); simpl; auto.
          rewrite covers_0_l; auto. lia. }
        rewrite covers_next by lia.
        destruct Hn as [[Hn Hb]|[Hn Hb]]; rewrite Hn.
        -- destruct (N.eqb_spec (p + lowbit p) 0); [lia|reflexivity].
        -- simpl. rewrite Hb. apply covers_beyond. unfold sizeN in Hs. lia.
    + exists cells; split; auto. intros q.
      destruct (nth_error cells q) as [cq|] eqn:Eq; simpl; auto.
      assert (Hqs : q < length cells) by (apply nth_error_Some; congruence).
      rewrite covers_beyond; auto. unfold sizeN in Hge. lia.
Qed.

(** ** Folding *)
Context (D : T -> Prop) (L : fenwick_laws tr D).
Local Notation op := (f_op tr).
Local Notation all := (combine_all tr).

Lemma all_D l : Forall D l -> D (all l).
Proof.
  unfold combine_all. induction 1; simpl; [apply (l_null _ _ L)|].
  apply (l_closed _ _ L); auto.
Qed.

Lemma unit_r a : D a -> op a (f_null tr) = a.
Proof.
  intros H. rewrite (l_comm _ _ L) by (auto; apply (l_null _ _ L)).
  apply (l_unit _ _ L); auto.
Qed.

Lemma all_app l1 l2 : Forall D l1 -> Forall D l2 -> all (l1 ++ l2) = op (all l1) (all l2).
Proof.
  intros H1 H2. unfold combine_all. induction H1; simpl.
  - symmetry. apply (l_unit _ _ L). apply all_D; auto.
  - rewrite IHForall. apply (l_assoc _ _ L); auto; apply all_D; auto.
Qed.

Lemma all_change l p v :
  Forall D l -> D v -> 1 <= p <= length l ->
  all (change l p (fun x => op x v)) = op (all l) v.
Proof.
  intros Hl Hv. revert p. induction Hl as [|x l Hx Hl IH]; intros p Hp; [simpl in Hp; lia|].
  pose proof (all_D l Hl) as Hall.
  destruct p as [|[|p]]; [lia| |].
  - rewrite change_cons_1. unfold combine_all in *. cbn [fold_right].
    rewrite <- (l_assoc _ _ L), (l_comm _ _ L v), (l_assoc _ _ L); auto.
  - rewrite change_cons_S. simpl in Hp. specialize (IH (S p)).
    unfold combine_all in *. cbn [fold_right]. rewrite IH by lia.
    apply (l_assoc _ _ L); auto.
Qed.

(** ** Representation *)
Definition rep (l : list T) : list T :=
  map (fun q => block_value tr l (N.of_nat q)) (seq 0 (S (length l))).

Lemma rep_length l : length (rep l) = S (length l).
Proof. unfold rep. now rewrite map_length, seq_length. Qed.

Lemma nth_error_seq b n i :
  nth_error (seq b n) i = if i <? n then Some (b + i) else None.
Proof.
  revert b i; induction n; intros b i; simpl; [destruct i; auto|].
  destruct i; simpl; [f_equal; lia|]. rewrite IHn.
  change (S i <? S n) with (i <? n). destruct (i <? n); auto. f_equal. lia.
Qed.

Lemma nth_error_rep l q :
  nth_error (rep l) q =
  if q <=? length l then Some (block_value tr l (N.of_nat q)) else None.
Proof.
  unfold rep. rewrite nth_error_map, nth_error_seq.
  change (q <? S (length l)) with (q <=? length l).
  destruct (q <=? length l); auto.
Qed.

Lemma cell_rep l p : (p <= sizeN l)%N -> cell (rep l) p = Some (block_value tr l p).
Proof.
  intros H. unfold cell. rewrite nth_error_rep.
  destruct (Nat.leb_spec (N.to_nat p) (length l)); [now rewrite N2Nat.id|].
  unfold sizeN in H. lia.
Qed.

Lemma block_change l p v q :
  Forall D l -> D v -> (q <= sizeN l)%N -> (0 < p)%N ->
  block_value tr (change l (N.to_nat p) (fun x => op x v)) q =
  if covers q p then op (block_value tr l q) v else block_value tr l q.
Proof.
  intros Hl Hv Hq Hp. unfold block_value.
  pose proof (lowbit_le q) as Hlq.
  destruct (covers q p) eqn:E.
  - apply covers_true in E. rewrite slice_change_in by lia.
    apply all_change; auto using Forall_slice. split; [lia|].
    unfold slice. rewrite firstn_length, skipn_length. unfold sizeN in Hq. lia.
  - destruct (N.le_gt_cases p (q - lowbit q)).
    + rewrite slice_change_before by lia. reflexivity.
    + destruct (N.le_gt_cases p q).
      * assert (covers q p = true) by (apply covers_true; lia). congruence.
      * rewrite slice_change_after by lia. reflexivity.
Qed.

Lemma update_rep l p v :
  Forall D l -> D v -> (sizeN l + 1 < two64)%N -> (p < two64)%N ->
  update_cells tr hops (rep l) p v =
  Val (rep (change l (N.to_nat p) (fun x => op x v))).
Proof.
  intros Hl Hv Hs Hp.
  destruct (update_cells_hits hops (rep l) p v) as (c & Hrun & Hres); auto.
  { unfold sizeN in *. rewrite rep_length. lia. }
  { exists p. change (2 ^ N.of_nat (64 - hops))%N with 1%N. lia. }
  rewrite Hrun. f_equal. apply list_eq_nth_error. intros q.
  rewrite Hres, !nth_error_rep, change_length.
  destruct (Nat.leb_spec q (length l)); simpl; auto. f_equal.
  destruct (N.eqb_spec p 0) as [->|Hp0]; simpl.
  - now rewrite change_0.
  - rewrite block_change by (auto; unfold sizeN; lia).
    reflexivity.
Qed.

Lemma query_loop_rep l stop : forall fuel index v,
  fuel <= 64 ->
  Forall D l -> (sizeN l + 1 < two64)%N ->
  (index <= stop)%N -> (stop <= sizeN l)%N ->
  (2 ^ N.of_nat (63 - fuel) | index)%N ->
  v = all (slice l (N.to_nat (index - lowbit index)) (N.to_nat stop)) ->
  query_loop tr fuel (rep l) index v = Val (all (firstn (N.to_nat stop) l)).
Proof.
  induction fuel as [|fuel IH]; intros index v Hf Hl Hs Hi Hst Hd Hv.
  - destruct (N.eq_dec index 0) as [->|H0].
    { cbn. rewrite Hv. simpl. now rewrite slice_0. }
    destruct (next_query_step index 63) as [Hn Hd']; auto; try lia.
    apply divide_two64_lt in Hd'; [|lia].
    cbn [query_loop]. rewrite Hd'. simpl. rewrite Hv.
    rewrite <- Hn, Hd'. simpl. now rewrite slice_0.
  - destruct (N.eq_dec index 0) as [->|H0].
    { cbn. rewrite Hv. simpl. now rewrite slice_0. }
    destruct (next_query_step index (N.of_nat (63 - S fuel))) as [Hn Hd']; auto; try lia.
    assert (Hd2 : (2 ^ N.of_nat (63 - fuel) | next_query index)%N).
    { eapply N.divide_trans; [|exact Hd']. apply pow_divide_le. lia. }
    cbn [query_loop].
    destruct (N.eqb_spec (next_query index) 0) as [E|E].
    { rewrite Hv, <- Hn, E. simpl. now rewrite slice_0. }
    rewrite cell_rep by lia. apply IH; auto; try lia.
    rewrite Hv, <- Hn. unfold block_value.
    set (i := next_query index) in *.
    rewrite <- all_app by auto using Forall_slice. f_equal.
    symmetry. apply slice_app; lia.
Qed.

Lemma prefix_query_rep l p :
  Forall D l -> (sizeN l + 1 < two64)%N -> (p <= sizeN l)%N ->
  prefix_query tr (rep l) p = Val (all (firstn (N.to_nat p) l)).
Proof.
  intros Hl Hs Hp. unfold prefix_query. rewrite cell_rep by auto.
  apply query_loop_rep; auto; try (unfold hops; lia).
  exists p. change (2 ^ N.of_nat (63 - hops))%N with 1%N. lia.
Qed.

Lemma range_query_rep l lo hi :
  Forall D l -> (sizeN l + 1 < two64)%N -> (lo <= hi)%N -> (hi <= sizeN l)%N ->
  range_query tr (rep l) lo hi =
  Val (all (slice l (N.to_nat (lo - 1)) (N.to_nat hi))).
Proof.
  intros Hl Hs Hlo Hhi. unfold range_query.
  destruct (N.leb_spec lo 1) as [C|C].
  - cbn [bind]. rewrite prefix_query_rep by auto. cbn [bind].
    rewrite (l_zero _ _ L). replace (N.to_nat (lo - 1)) with 0 by lia.
    now rewrite slice_0.
  - rewrite prefix_query_rep by (auto; lia). cbn [bind].
    rewrite prefix_query_rep by auto. cbn [bind].
    assert (E : all (firstn (N.to_nat hi) l) =
                op (all (firstn (N.to_nat (lo - 1)) l))
                   (all (slice l (N.to_nat (lo - 1)) (N.to_nat hi)))).
    { rewrite <- all_app by auto using Forall_slice, Forall_firstn'.
      rewrite <- !slice_0. f_equal. apply slice_app; lia. }
    rewrite E.
    assert (D1 : D (all (firstn (N.to_nat (lo - 1)) l))) by auto using all_D, Forall_firstn'.
    assert (D2 : D (all (slice l (N.to_nat (lo - 1)) (N.to_nat hi))))
      by auto using all_D, Forall_slice.
    destruct (f_truthy tr _) eqn:Et.
    + now rewrite (l_cancel _ _ L) by auto.
    + now rewrite (l_falsy _ _ L) by auto.
Qed.

Lemma all_repeat_null n : all (repeat (f_null tr) n) = f_null tr.
Proof.
  induction n; unfold combine_all in *; simpl; auto.
  rewrite IHn. apply (l_unit _ _ L). apply (l_null _ _ L).
Qed.

Lemma firstn_repeat {A} (x : A) n m : firstn n (repeat x m) = repeat x (min n m).
Proof. revert m; induction n; intros [|m]; simpl; auto. now rewrite IHn. Qed.

Lemma skipn_repeat {A} (x : A) n m : skipn n (repeat x m) = repeat x (m - n).
Proof. revert m; induction n; intros [|m]; simpl; auto. Qed.

Lemma rep_repeat_null n : rep (repeat (f_null tr) n) = repeat (f_null tr) (S n).
Proof.
  apply list_eq_nth_error. intros q. rewrite nth_error_rep, repeat_length.
  destruct (Nat.leb_spec q n).
  - unfold block_value, slice. rewrite skipn_repeat, firstn_repeat, all_repeat_null.
    symmetry. apply nth_error_repeat. lia.
  - symmetry. apply nth_error_None. rewrite repeat_length. lia.
Qed.

Lemma Forall_repeat' {A} (P : A -> Prop) x n : P x -> Forall P (repeat x n).
Proof. intros; induction n; simpl; auto. Qed.

Lemma change_mid {A} (l1 : list A) x l2 g :
  change (l1 ++ x :: l2) (S (length l1)) g = l1 ++ g x :: l2.
Proof.
  induction l1; simpl.
  - apply change_cons_1.
  - rewrite change_cons_S. now rewrite IHl1.
Qed.

Local Opaque update_cells query_loop.

Lemma build_loop_rep inp : forall done,
  Forall D done -> Forall D inp ->
  (sizeN done + sizeN inp + 1 < two64)%N ->
  build_loop tr hops (rep (done ++ repeat (f_null tr) (length inp)))
             (sizeN done + 1) inp = Val (rep (done ++ inp)).
Proof.
  induction inp as [|v inp IH]; intros done Hd Hi Hs.
  - reflexivity.
  - cbn [build_loop length repeat]. inversion Hi; subst.
    unfold sizeN in Hs. simpl in Hs.
    assert (Hlen : (sizeN (done ++ f_null tr :: repeat (f_null tr) (length inp)) + 1 < two64)%N).
    { unfold sizeN. rewrite app_length. simpl. rewrite repeat_length. lia. }
    rewrite update_rep; auto.
    2:{ apply Forall_app; split; auto. constructor; [apply (l_null _ _ L)|].
        apply Forall_repeat', (l_null _ _ L). }
    2:{ unfold sizeN in *. lia. }
    cbn [bind].
    replace (N.to_nat (sizeN done + 1)) with (S (length done)) by (unfold sizeN; lia).
    rewrite change_mid, (l_unit _ _ L) by auto.
    specialize (IH (done ++ [v])).
    rewrite <- !app_assoc in IH. simpl in IH.
    replace (sizeN done + 1 + 1)%N with (sizeN (done ++ [v]) + 1)%N
      by (unfold sizeN; rewrite app_length; simpl; lia).
    apply IH; auto.
    + apply Forall_app; auto.
    + unfold sizeN. rewrite app_length. simpl. lia.
Qed.

(** ** Refinement *)
Inductive Rel : fenwick T -> astate T -> Prop :=
| RelUnbuilt : Rel (mkF [] false) Unbuilt
| RelCollapsed : Rel (mkF [] true) Collapsed
| RelBuilt l : Forall D l -> (sizeN l + 1 < two64)%N -> Rel (mkF (rep l) true) (Built l).

Lemma take_Forall n l : Forall D l -> Forall D (take n l).
Proof. unfold take. destruct (_ <? _)%N; auto using Forall_firstn'. Qed.

Lemma take_size n (l : list T) : (sizeN (take n l) <= sizeN l)%N.
Proof.
  unfold take. destruct (N.ltb_spec n (sizeN l)); [|lia].
  unfold sizeN. rewrite firstn_length. lia.
Qed.

Lemma build_rel t a input n :
  Rel t a -> Forall D input -> (sizeN input + 1 < two64)%N ->
  build tr t input n = Val (mkF (rep (take n input)) true).
Proof.
  intros HR HD Hs. unfold build.
  set (size := if (n <? sizeN input)%N then (n + 1)%N else (sizeN input + 1)%N).
  assert (Hsz : (size = sizeN (take n input) + 1)%N).
  { unfold size, take. destruct (N.ltb_spec n (sizeN input)); [|reflexivity].
    unfold sizeN in *. rewrite firstn_length. lia. }
  assert (Htake : firstn (N.to_nat (size - 1)) input = take n input).
  { unfold size, take. destruct (N.ltb_spec n (sizeN input)).
    - f_equal. lia.
    - apply firstn_all2. unfold sizeN. lia. }
  replace (if (fsize t <? size)%N then repeat (f_null tr) (N.to_nat size)
           else if built t then refill tr (processed t) size else processed t)
    with (rep ([] ++ repeat (f_null tr) (length (take n input)))).
  2:{ simpl. rewrite rep_repeat_null.
      replace (S (length (take n input))) with (N.to_nat size)
        by (rewrite Hsz; unfold sizeN; lia).
      destruct HR; simpl.
      - destruct (N.ltb_spec (fsize (mkF (@nil T) false)) size); auto.
        unfold fsize, sizeN in *. simpl in *. lia.
      - destruct (N.ltb_spec (fsize (mkF (@nil T) true)) size); auto.
      - destruct (N.ltb_spec (fsize (mkF (rep l) true)) size); auto. }
  rewrite Htake.
  change 1%N with (sizeN (@nil T) + 1)%N.
  rewrite build_loop_rep; auto using take_Forall.
  unfold sizeN at 1. simpl. pose proof (take_size n input). lia.
Qed.

Lemma rep_firstn l m : m <= length l -> rep (firstn m l) = firstn (S m) (rep l).
Proof.
  intros H. apply list_eq_nth_error; intros q.
  rewrite nth_error_firstn', !nth_error_rep, firstn_length, Nat.min_l by auto.
  change (q <? S m) with (q <=? m).
  destruct (Nat.leb_spec q m); auto.
  destruct (Nat.leb_spec q (length l)); [|lia].
  unfold block_value. do 2 f_equal.
  apply list_eq_nth_error; intros i. rewrite !nth_error_slice.
  destruct (Nat.ltb_spec i (N.to_nat (N.of_nat q) - N.to_nat (N.of_nat q - lowbit (N.of_nat q)))); auto.
  rewrite nth_error_firstn'.
  destruct (Nat.ltb_spec (N.to_nat (N.of_nat q - lowbit (N.of_nat q)) + i) m); auto. lia.
Qed.

Lemma fsize_rep l b : fsize (mkF (rep l) b) = (sizeN l + 1)%N.
Proof. unfold fsize, sizeN. simpl processed. rewrite rep_length. lia. Qed.

Lemma query_rel l s e :
  Forall D l -> (sizeN l + 1 < two64)%N ->
  query tr (mkF (rep l) true) s e = Val (range_value tr l s e).
Proof.
  intros Hl Hs. unfold query, range_value. simpl negb. cbn iota. rewrite fsize_rep.
  replace (wsub (sizeN l + 1) 1) with (sizeN l).
  2:{ unfold wsub. replace (sizeN l + 1 + two64 - 1)%N with (sizeN l + 1 * two64)%N by lia.
      rewrite N.mod_add by (unfold two64; lia). rewrite N.mod_small; lia. }
  apply range_query_rep; auto; lia.
Qed.

Lemma step_rel t a o :
  Rel t a -> fop_ok tr D o ->
  match sstep tr a o with
  | None => fstep tr t o = UB
  | Some (a', r) => exists t', fstep tr t o = Val (t', r) /\ Rel t' a'
  end.
Proof.
  intros HR Hok. destruct o as [input n|p v|p v|s e|p|m| | |].
  - (* rebuild *) destruct Hok as [HD Hs]. cbn [sstep fstep].
    rewrite (build_rel t a) by auto. cbn [bind].
    eexists; split; [reflexivity|]. constructor; auto using take_Forall.
    pose proof (take_size n input). lia.
  - (* update *) simpl in Hok.
    destruct HR as [| |l Hl Hs]; cbn [sstep fstep].
    + eexists; split; [reflexivity|constructor].
    + unfold update. simpl. 
      destruct (N.ltb_spec p (fsize (mkF (@nil T) true))); [unfold fsize, sizeN in *; simpl in *; lia|].
      simpl. eexists; split; [reflexivity|constructor].
    + unfold update. simpl negb. cbn iota. rewrite fsize_rep.
      destruct (N.ltb_spec p (sizeN l + 1)).
      * cbn [andb]. destruct (f_truthy tr v) eqn:Et.
        -- cbn [processed]. rewrite update_rep by (auto; lia). cbn [bind].
           eexists; split; [reflexivity|]. constructor.
           ++ apply Forall_change; auto. intros; apply (l_closed _ _ L); auto.
           ++ unfold sizeN. rewrite change_length. exact Hs.
        -- eexists; split; [reflexivity|].
           replace (change l (N.to_nat p) (fun x => op x v)) with l; [constructor; auto|].
           apply list_eq_nth_error; intros i. rewrite nth_error_change.
           destruct (nth_error l i) as [x|] eqn:Ei; cbn [option_map]; auto.
           destruct (S i =? N.to_nat p); auto. f_equal.
           assert (D x). { rewrite Forall_forall in Hl. eapply Hl, nth_error_In; eauto. }
           rewrite (l_comm _ _ L) by auto. symmetry. apply (l_falsy _ _ L); auto.
      * cbn [andb]. eexists; split; [reflexivity|constructor; auto].
  - (* set_value *) destruct Hok as [Hv Hr].
    destruct HR as [| |l Hl Hs]; cbn [sstep fstep].
    + eexists; split; [reflexivity|constructor].
    + unfold set_value. simpl.
      destruct (N.ltb_spec p (fsize (mkF (@nil T) true))); [unfold fsize, sizeN in *; simpl in *; lia|].
      simpl. eexists; split; [reflexivity|constructor].
    + unfold set_value. simpl negb. cbn iota. rewrite fsize_rep.
      assert (Eb : ((p <? sizeN l + 1) && negb (p =? 0))%N = ((1 <=? p) && (p <=? sizeN l))%N).
      { apply eq_true_iff_eq. rewrite !andb_true_iff, negb_true_iff, N.ltb_lt, !N.leb_le, N.eqb_neq. lia. }
      rewrite Eb. destruct ((1 <=? p) && (p <=? sizeN l))%N eqn:E.
      2:{ eexists; split; [reflexivity|constructor; auto]. }
      rewrite andb_true_iff, !N.leb_le in E. destruct E as [E1 E2].
      cbn [processed built]. rewrite range_query_rep by (auto; lia). cbn [bind].
      destruct (nth_error l (N.to_nat (p - 1))) as [x|] eqn:Ex.
      2:{ apply nth_error_None in Ex. unfold sizeN in E2. lia. }
      assert (Dx : D x). { rewrite Forall_forall in Hl. eapply Hl, nth_error_In; eauto. }
      assert (Es : slice l (N.to_nat (p - 1)) (N.to_nat p) = [x]).
      { apply list_eq_nth_error; intros i. rewrite nth_error_slice.
        destruct (Nat.ltb_spec i (N.to_nat p - N.to_nat (p - 1))).
        - assert (i = 0) by lia. subst. rewrite Nat.add_0_r. rewrite Ex. reflexivity.
        - destruct i; [lia|]. destruct i; reflexivity. }
      rewrite Es. unfold combine_all at 1. cbn [fold_right].
      rewrite unit_r by auto.
      destruct (Hr x Dx) as (d & Hd & Dd & Hop). rewrite Hd.
      assert (Hch : change l (N.to_nat p) (fun x => op x d) = change l (N.to_nat p) (fun _ => v)).
      { apply list_eq_nth_error; intros i. rewrite !nth_error_change.
        destruct (nth_error l i) as [y|] eqn:Ei; cbn [option_map]; auto.
        destruct (Nat.eqb_spec (S i) (N.to_nat p)); auto.
        replace i with (N.to_nat (p - 1)) in Ei by lia. rewrite Ei in Ex. injection Ex as ->.
        now rewrite Hop. }
      assert (HF : Forall D (change l (N.to_nat p) (fun _ => v))).
      { apply Forall_change; auto. }
      assert (HS : (sizeN (change l (N.to_nat p) (fun _ => v)) + 1 < two64)%N).
      { unfold sizeN. now rewrite change_length. }
      destruct (f_truthy tr d) eqn:Et.
      * rewrite update_rep by (auto; lia). cbn [bind]. rewrite Hch.
        eexists; split; [reflexivity|]. constructor; auto.
      * replace (change l (N.to_nat p) (fun _ => v)) with l in *; [|].
        -- eexists; split; [reflexivity|constructor; auto].
        -- rewrite <- Hch. apply list_eq_nth_error; intros i. rewrite nth_error_change.
           destruct (nth_error l i) as [y|] eqn:Ei; cbn [option_map]; auto.
           destruct (S i =? N.to_nat p); auto. f_equal.
           assert (D y). { rewrite Forall_forall in Hl. eapply Hl, nth_error_In; eauto. }
           rewrite (l_comm _ _ L) by auto. symmetry. apply (l_falsy _ _ L); auto.
  - (* query *)
    destruct HR as [| |l Hl Hs]; cbn [sstep fstep].
    + eexists; split; [reflexivity|constructor].
    + unfold query. simpl negb. cbn iota. unfold range_query. simpl processed.
      assert (Hc : forall p, prefix_query tr [] p = UB).
      { intros p. unfold prefix_query, cell. destruct (N.to_nat p); reflexivity. }
      rewrite !Hc. destruct (_ <=? 1)%N; reflexivity.
    + rewrite query_rel by auto. eexists; split; [reflexivity|constructor; auto].
  - (* at *)
    destruct HR as [| |l Hl Hs]; cbn [sstep fstep].
    + unfold at_, cell. simpl. destruct (N.to_nat p); (eexists; split; [reflexivity|constructor]).
    + unfold at_, cell. simpl. destruct (N.to_nat p); (eexists; split; [reflexivity|constructor]).
    + unfold at_. cbn [processed]. destruct (N.leb_spec p (sizeN l)).
      * rewrite cell_rep by auto. eexists; split; [reflexivity|constructor; auto].
      * unfold cell. rewrite nth_error_rep.
        destruct (Nat.leb_spec (N.to_nat p) (length l)); [unfold sizeN in *; lia|].
        eexists; split; [reflexivity|constructor; auto].
  - (* resize *)
    destruct HR as [| |l Hl Hs]; cbn [sstep fstep].
    + unfold resize. destruct (N.ltb_spec m (fsize (mkF (@nil T) false))).
      * unfold fsize, sizeN in *; simpl in *; lia.
      * eexists; split; [reflexivity|constructor].
    + unfold resize. destruct (N.ltb_spec m (fsize (mkF (@nil T) true))).
      * unfold fsize, sizeN in *; simpl in *; lia.
      * eexists; split; [reflexivity|constructor].
    + unfold resize. rewrite fsize_rep. cbn [processed built].
      destruct (N.eqb_spec m 0) as [->|Hm].
      * destruct (N.ltb_spec 0 (sizeN l + 1)); [|lia]. simpl.
        eexists; split; [reflexivity|constructor].
      * eexists; split; [reflexivity|].
        unfold take. destruct (N.ltb_spec m (sizeN l + 1)).
        -- destruct (N.ltb_spec (m - 1) (sizeN l)); [|lia].
           replace (N.to_nat m) with (S (N.to_nat (m - 1))) by lia.
           rewrite <- rep_firstn by (unfold sizeN in *; lia).
           constructor; auto using Forall_firstn'.
           unfold sizeN in *. rewrite firstn_length. lia.
        -- destruct (N.ltb_spec (m - 1) (sizeN l)); [lia|]. constructor; auto.
  - destruct HR as [| |l Hl Hs]; cbn [sstep fstep].
    + eexists; split; [reflexivity|constructor].
    + eexists; split; [reflexivity|constructor].
    + rewrite fsize_rep. eexists; split; [reflexivity|constructor; auto].
  - destruct HR as [| |l Hl Hs]; cbn [sstep fstep];
      (eexists; split; [reflexivity|constructor; auto]).
  - destruct HR as [| |l Hl Hs]; cbn [sstep fstep];
      (eexists; split; [reflexivity|constructor; auto]).
Qed.

Lemma run_rel ops : forall t a,
  Rel t a -> Forall (fop_ok tr D) ops ->
  match srun tr a ops with
  | None => frun tr t ops = UB
  | Some (a', rs) => exists t', frun tr t ops = Val (t', rs) /\ Rel t' a'
  end.
Proof.
  induction ops as [|o ops IH]; intros t a HR Hok.
  - simpl. eauto.
  - inversion Hok; subst. cbn [srun frun].
    pose proof (step_rel t a o HR H1) as Hst.
    destruct (sstep tr a o) as [[a' r]|].
    + destruct Hst as (t' & E & HR'). rewrite E. cbn [bind].
      specialize (IH t' a' HR' H2).
      destruct (srun tr a' ops) as [[a'' rs]|].
      * destruct IH as (t'' & E' & HR''). rewrite E'. cbn [bind]. eauto.
      * rewrite IH. reflexivity.
    + rewrite Hst. reflexivity.
Qed.

End Gen.

(** * Consequences used by the property file *)

Lemma frun_app {T} (tr : transform T) ops1 ops2 t :
  frun tr t (ops1 ++ ops2) =
  (let* (t1, r1) := frun tr t ops1 in
   let* (t2, r2) := frun tr t1 ops2 in Val (t2, r1 ++ r2)).
Proof.
  revert t; induction ops1 as [|o ops1 IH]; intros t.
  - simpl. destruct (frun tr t ops2) as [[? ?]| | |]; reflexivity.
  - cbn [app frun]. destruct (fstep tr t o) as [[t' r]| | |]; cbn [bind]; auto.
    rewrite IH. destruct (frun tr t' ops1) as [[t1 r1]| | |]; cbn [bind]; auto.
    destruct (frun tr t1 ops2) as [[t2 r2]| | |]; reflexivity.
Qed.

Section Cons.
Context {T : Type} (tr : transform T) (D : T -> Prop) (L : fenwick_laws tr D).

Lemma refine ops :
  Forall (fop_ok tr D) ops ->
  match srun tr Unbuilt ops with
  | None => frun tr fenwick_default ops = UB
  | Some (a', rs) => exists t', frun tr fenwick_default ops = Val (t', rs) /\ Rel tr D t' a'
  end.
Proof. apply run_rel; auto. constructor. Qed.

Lemma srun_some_of_val ops t rs :
  Forall (fop_ok tr D) ops -> frun tr fenwick_default ops = Val (t, rs) ->
  exists a, srun tr Unbuilt ops = Some (a, rs) /\ Rel tr D t a.
Proof.
  intros Hok Hrun. pose proof (refine ops Hok) as H.
  destruct (srun tr Unbuilt ops) as [[a rs']|].
  - destruct H as (t' & E & R). rewrite Hrun in E. injection E as <- <-. eauto.
  - congruence.
Qed.

Lemma query_reach ops l rs s e :
  Forall (fop_ok tr D) ops -> srun tr Unbuilt ops = Some (Built l, rs) ->
  exists t, frun tr fenwick_default ops = Val (t, rs) /\
            query tr t s e = Val (range_value tr l s e).
Proof.
  intros Hok Hs. pose proof (refine ops Hok) as H. rewrite Hs in H.
  destruct H as (t & E & R). exists t; split; auto. inversion R; subst.
  now apply (query_rel tr D L).
Qed.

(** Built and not empty, reached by well-formed calls. *)
Definition live (t : fenwick T) : Prop :=
  exists ops rs, Forall (fop_ok tr D) ops /\ frun tr fenwick_default ops = Val (t, rs)
                 /\ built t = true /\ (0 < fsize t)%N.

Lemma live_rep t : live t ->
  exists l, t = mkF (rep tr l) true /\ Forall D l /\ (sizeN l + 1 < two64)%N.
Proof.
  intros (ops & rs & Hok & Hrun & Hb & Hs).
  destruct (srun_some_of_val ops t rs Hok Hrun) as (a & _ & R).
  destruct R; try discriminate.
  eauto.
Qed.

(** The positions a query covers, in terms of the visible size. *)
Definition covered (n s e p : N) : bool :=
  ((N.max 1 (N.min (N.min s e) (n - 1)) <=? p) && (p <=? N.min (N.max s e) (n - 1)))%N.

Lemma range_value_change l s e p v :
  Forall D l -> D v -> (1 <= p <= sizeN l)%N ->
  range_value tr (change l (N.to_nat p) (fun x => f_op tr x v)) s e =
  if covered (sizeN l + 1) s e p then f_op tr (range_value tr l s e) v
  else range_value tr l s e.
Proof.
  intros Hl Hv Hp. unfold range_value, covered.
  assert (Hn : sizeN (change l (N.to_nat p) (fun x => f_op tr x v)) = sizeN l).
  { unfold sizeN. now rewrite change_length. }
  rewrite Hn. replace (sizeN l + 1 - 1)%N with (sizeN l) by lia.
  set (lo := N.min (N.min s e) (sizeN l)). set (hi := N.min (N.max s e) (sizeN l)).
  destruct (N.leb_spec (N.max 1 lo) p); cbn [andb].
  - destruct (N.leb_spec p hi).
    + rewrite slice_change_in by lia. apply (all_change tr D L); auto using Forall_slice.
      split; [lia|]. unfold slice. rewrite firstn_length, skipn_length.
      unfold sizeN in *. lia.
    + rewrite slice_change_after by lia. reflexivity.
  - rewrite slice_change_before by lia. reflexivity.
Qed.

Lemma fwd_update t p v :
  live t -> D v ->
  exists t', update tr t p v = Val (t', (p <? fsize t)%N) /\
    fsize t' = fsize t /\
    forall s e, exists x, query tr t s e = Val x /\
      query tr t' s e =
        Val (if ((1 <=? p) && (p <? fsize t) && covered (fsize t) s e p)%N
             then f_op tr x v else x).
Proof.
  intros Hlive Hv. destruct (live_rep t Hlive) as (l & -> & Hl & Hs).
  pose proof (step_rel tr D L (mkF (rep tr l) true) (Built l) (OUpdate p v)
                (RelBuilt tr D l Hl Hs) Hv) as H.
  cbn [sstep fstep] in H. rewrite fsize_rep.
  destruct (N.ltb_spec p (sizeN l + 1)).
  - destruct H as (t' & E & R).
    destruct (update tr (mkF (rep tr l) true) p v) as [[t1 b]| | |]; try discriminate.
    injection E as -> ->. exists t'. split; [reflexivity|].
    inversion R as [| |l' Hl' Hs' E1 E2]; subst. split.
    + rewrite fsize_rep. unfold sizeN. now rewrite change_length.
    + intros s e. exists (range_value tr l s e). split; [now apply (query_rel tr D L)|].
      rewrite (query_rel tr D L) by auto. f_equal.
      destruct (N.leb_spec 1 p); cbn [andb].
      * apply range_value_change; auto; lia.
      * assert (p = 0%N) by lia. subst p. simpl N.to_nat. now rewrite change_0.
  - destruct H as (t' & E & R).
    destruct (update tr (mkF (rep tr l) true) p v) as [[t1 b]| | |]; try discriminate.
    injection E as -> ->. exists t'. split; [reflexivity|].
    inversion R as [| |l' Hl' Hs' E1 E2]; subst. rewrite fsize_rep. split; auto.
    intros s e. exists (range_value tr l s e). rewrite andb_false_r. cbn [andb].
    split; now apply (query_rel tr D L).
Qed.

Lemma slice_single (l : list T) p x :
  (1 <= p <= sizeN l)%N -> nth_error l (N.to_nat (p - 1)) = Some x ->
  slice l (N.to_nat (p - 1)) (N.to_nat p) = [x].
Proof.
  intros Hp Hx. apply list_eq_nth_error; intros i. rewrite nth_error_slice.
  destruct (Nat.ltb_spec i (N.to_nat p - N.to_nat (p - 1))).
  - assert (i = 0) by lia. subst. rewrite Nat.add_0_r. rewrite Hx. reflexivity.
  - destruct i; [lia|]. destruct i; reflexivity.
Qed.

Lemma range_value_single l p x :
  Forall D l -> (1 <= p <= sizeN l)%N -> nth_error l (N.to_nat (p - 1)) = Some x ->
  range_value tr l p p = x.
Proof.
  intros Hl Hp Hx. unfold range_value.
  rewrite N.min_id, N.max_id, N.min_l by lia.
  rewrite (slice_single l p x) by auto. unfold combine_all. simpl.
  apply (unit_r tr D L).
  rewrite Forall_forall in Hl. eapply Hl, nth_error_In; eauto.
Qed.

Lemma fwd_set t p v :
  live t -> D v -> reachable_value tr D v ->
  exists t', set_value tr t p v = Val (t', ((1 <=? p) && (p <? fsize t))%N) /\
    fsize t' = fsize t /\
    ((1 <= p < fsize t)%N -> query tr t' p p = Val v) /\
    (forall q, (q < fsize t)%N -> q <> p -> query tr t' q q = query tr t q q) /\
    (~ (1 <= p < fsize t)%N -> t' = t).
Proof.
  intros Hlive Hv Hr. destruct (live_rep t Hlive) as (l & -> & Hl & Hs).
  pose proof (step_rel tr D L (mkF (rep tr l) true) (Built l) (OSet p v)
                (RelBuilt tr D l Hl Hs) (conj Hv Hr)) as H.
  cbn [sstep fstep] in H. rewrite fsize_rep.
  assert (Eb : ((1 <=? p) && (p <? sizeN l + 1))%N = ((1 <=? p) && (p <=? sizeN l))%N).
  { apply eq_true_iff_eq. rewrite !andb_true_iff, N.ltb_lt, !N.leb_le. lia. }
  rewrite Eb. destruct ((1 <=? p) && (p <=? sizeN l))%N eqn:E.
  - rewrite andb_true_iff, !N.leb_le in E.
    destruct H as (t' & E' & R).
    destruct (set_value tr (mkF (rep tr l) true) p v) as [[t1 b]| | |]; try discriminate.
    injection E' as -> ->. exists t'. split; [reflexivity|].
    inversion R as [| |l' Hl' Hs' E1 E2]; subst.
    split; [|split; [|split]].
    + rewrite fsize_rep. unfold sizeN. now rewrite change_length.
    + intros _. rewrite (query_rel tr D L) by auto. f_equal.
      apply range_value_single; auto.
      * unfold sizeN in *. rewrite change_length. lia.
      * rewrite nth_error_change.
        destruct (nth_error l (N.to_nat (p - 1))) eqn:En.
        -- cbn [option_map]. destruct (Nat.eqb_spec (S (N.to_nat (p - 1))) (N.to_nat p)); auto; lia.
        -- apply nth_error_None in En. unfold sizeN in E. lia.
    + intros q Hq Hne. rewrite !(query_rel tr D L) by auto. f_equal.
      destruct (N.eq_dec q 0) as [->|Hq0].
      * unfold range_value. rewrite N.min_id, N.max_id, !N.min_0_l. reflexivity.
      * destruct (nth_error l (N.to_nat (q - 1))) as [x|] eqn:En.
        2:{ apply nth_error_None in En. unfold sizeN in *. lia. }
        rewrite (range_value_single l q x) by (auto; lia).
        apply range_value_single; auto.
        -- unfold sizeN in *. rewrite change_length. lia.
        -- rewrite nth_error_change, En. cbn [option_map].
           destruct (Nat.eqb_spec (S (N.to_nat (q - 1))) (N.to_nat p)); auto; lia.
    + intros C. exfalso. apply C. lia.
  - destruct H as (t' & E' & R).
    destruct (set_value tr (mkF (rep tr l) true) p v) as [[t1 b]| | |]; try discriminate.
    injection E' as -> ->. exists t'. split; [reflexivity|].
    inversion R as [| |l' Hl' Hs' E1 E2]; subst.
    rewrite andb_false_iff, !N.leb_gt in E. rewrite fsize_rep.
    split; [|split; [|split]]; auto.
    intros C. lia.
Qed.

Lemma fwd_clamp t s e :
  live t ->
  query tr t s e = query tr t e s /\
  query tr t s e = query tr t (N.min s (fsize t - 1)) (N.min e (fsize t - 1)).
Proof.
  intros Hlive. destruct (live_rep t Hlive) as (l & -> & Hl & Hs).
  rewrite !(query_rel tr D L) by auto. rewrite fsize_rep. unfold range_value.
  replace (sizeN l + 1 - 1)%N with (sizeN l) by lia.
  split; do 3 f_equal; lia.
Qed.

Lemma fwd_rebuild ops t rs input n :
  Forall (fop_ok tr D) ops -> frun tr fenwick_default ops = Val (t, rs) ->
  Forall D input -> (sizeN input + 1 < two64)%N ->
  exists t', build tr t input n = Val t' /\ fenwick_of tr input n = Val t'.
Proof.
  intros Hok Hrun HD Hs.
  destruct (srun_some_of_val ops t rs Hok Hrun) as (a & _ & R).
  exists (mkF (rep tr (take n input)) true). split.
  - eapply build_rel; eauto.
  - unfold fenwick_of. eapply (build_rel tr D L _ Unbuilt); eauto. constructor.
Qed.

Lemma fwd_rebuild_contents input n s e :
  Forall D input -> (sizeN input + 1 < two64)%N ->
  exists t, fenwick_of tr input n = Val t /\
            query tr t s e = Val (range_value tr (take n input) s e).
Proof.
  intros HD Hs. exists (mkF (rep tr (take n input)) true). split.
  - unfold fenwick_of. eapply (build_rel tr D L _ Unbuilt); eauto. constructor.
  - apply (query_rel tr D L); auto using take_Forall.
    pose proof (take_size n input). lia.
Qed.

Lemma fwd_resize t m :
  live t ->
  ((fsize t <= m)%N -> resize t m = t) /\
  ((1 <= m <= fsize t)%N ->
     live (resize t m) /\ fsize (resize t m) = m /\
     forall s e, (s < m)%N -> (e < m)%N ->
       query tr (resize t m) s e = query tr t s e).
Proof.
  intros Hlive. split.
  - intros H. unfold resize. destruct (N.ltb_spec m (fsize t)); auto; lia.
  - intros Hm. pose proof Hlive as (ops & rs & Hok & Hrun & Hb & Hsz).
    destruct (live_rep t Hlive) as (l & -> & Hl & Hs).
    rewrite fsize_rep in *.
    assert (E : resize (mkF (rep tr l) true) m = mkF (rep tr (firstn (N.to_nat (m - 1)) l)) true).
    { unfold resize. rewrite fsize_rep. cbn [processed built].
      destruct (N.ltb_spec m (sizeN l + 1)).
      - rewrite rep_firstn by (unfold sizeN in *; lia).
        do 2 f_equal. lia.
      - rewrite firstn_all2 by (unfold sizeN in *; lia). reflexivity. }
    assert (Hsize : sizeN (firstn (N.to_nat (m - 1)) l) = (m - 1)%N).
    { unfold sizeN in *. rewrite firstn_length. lia. }
    assert (Hfs : fsize (resize (mkF (rep tr l) true) m) = m).
    { rewrite E, fsize_rep, Hsize. lia. }
    split; [|split].
    + exists (ops ++ [OResize m]), (rs ++ [RUnit]). split; [|split; [|split]].
      * apply Forall_app; split; auto. repeat constructor.
      * rewrite frun_app, Hrun. cbn [bind]. reflexivity.
      * rewrite E. reflexivity.
      * rewrite Hfs. lia.
    + exact Hfs.
    + intros s e Hsm Hem. rewrite E.
      rewrite !(query_rel tr D L) by (auto using Forall_firstn'; lia). f_equal.
      unfold range_value. rewrite Hsize.
      replace (N.min (N.min s e) (m - 1)) with (N.min (N.min s e) (sizeN l)) by lia.
      replace (N.min (N.max s e) (m - 1)) with (N.min (N.max s e) (sizeN l)) by lia.
      f_equal. apply list_eq_nth_error; intros i. rewrite !nth_error_slice.
      match goal with |- (if ?c then _ else _) = _ => destruct c eqn:Ec end; auto.
      apply Nat.ltb_lt in Ec. rewrite nth_error_firstn'.
      match goal with |- (if ?c then _ else _) = _ => destruct c eqn:Ed end; auto.
      apply Nat.ltb_ge in Ed. lia.
Qed.

Lemma sstep_no_ub a o : a <> Collapsed -> o <> OResize 0 ->
  exists a' r, sstep tr a o = Some (a', r) /\ a' <> Collapsed.
Proof.
  intros Ha Ho. destruct o as [input n|p v|p v|s e|p|m| | |]; destruct a as [|l|];
    try congruence; cbn [sstep]; eauto;
    try (do 2 eexists; split; [reflexivity|congruence]).
  - destruct (_ <? _)%N; do 2 eexists; (split; [reflexivity|congruence]).
  - destruct (_ && _)%bool; do 2 eexists; (split; [reflexivity|congruence]).
  - destruct (_ <=? _)%N; do 2 eexists; (split; [reflexivity|congruence]).
  - destruct (N.eqb_spec m 0); [subst; congruence|].
    do 2 eexists; (split; [reflexivity|congruence]).
Qed.

Lemma fwd_safe ops :
  Forall (fop_ok tr D) ops -> Forall (fun o => o <> OResize 0) ops ->
  exists t rs, frun tr fenwick_default ops = Val (t, rs).
Proof.
  intros Hok Hr.
  assert (H : forall a, a <> Collapsed -> exists a' rs, srun tr a ops = Some (a', rs)).
  { clear Hok. induction Hr as [|o ops Ho Hr IH]; intros a Ha; [cbn; eauto|].
    destruct (sstep_no_ub a o Ha Ho) as (a' & r & E & Ha').
    cbn [srun]. rewrite E. destruct (IH a' Ha') as (a'' & rs & E'). rewrite E'. eauto. }
  destruct (H Unbuilt) as (a & rs & E); [congruence|].
  pose proof (refine ops Hok) as Href. rewrite E in Href.
  destruct Href as (t & Hrun & _). eauto.
Qed.

Lemma fwd_at ops t rs l p :
  Forall (fop_ok tr D) ops -> frun tr fenwick_default ops = Val (t, rs) ->
  srun tr Unbuilt ops = Some (Built l, rs) ->
  at_ t p = if (p <? fsize t)%N then Val (block_value tr l p) else Exn OutOfRange.
Proof.
  intros Hok Hrun Hs. pose proof (refine ops Hok) as H. rewrite Hs in H.
  destruct H as (t' & E & R). rewrite Hrun in E. injection E as <-.
  inversion R; subst. rewrite fsize_rep.
  unfold at_. cbn [processed]. destruct (N.ltb_spec p (sizeN l + 1)).
  - rewrite cell_rep by lia. reflexivity.
  - unfold cell. rewrite nth_error_rep.
    destruct (Nat.leb_spec (N.to_nat p) (length l)); auto. unfold sizeN in *. lia.
Qed.

End Cons.

(** ** Unbuilt trees *)
Definition is_rebuild {T} (o : fop T) : bool :=
  match o with ORebuild _ _ => true | _ => false end.

Lemma unbuilt_step {T} (tr : transform T) t o t' r :
  built t = false -> is_rebuild o = false -> fstep tr t o = Val (t', r) ->
  built t' = false.
Proof.
  intros Hb Ho. destruct o as [input n|p v|p v|s e|p|m| | |]; simpl in Ho; try discriminate;
    cbn [fstep]; unfold update, set_value, query; rewrite ?Hb; cbn [negb];
    try (injection 1; intros; subst; auto; fail).
  - destruct (at_ t p); intros; try discriminate;
      match goal with H : Val _ = Val _ |- _ => injection H as <- <- end; auto.
  - injection 1 as <- <-. unfold resize. destruct (_ <? _)%N; auto.
Qed.

Lemma unbuilt_run {T} (tr : transform T) ops : forall t t' rs,
  built t = false -> existsb is_rebuild ops = false -> frun tr t ops = Val (t', rs) ->
  built t' = false.
Proof.
  induction ops as [|o ops IH]; intros t t' rs Hb Ho Hrun.
  - simpl in Hrun. congruence.
  - cbn [frun] in Hrun. cbn [existsb] in Ho. apply orb_false_iff in Ho as [Ho1 Ho2].
    destruct (fstep tr t o) as [[t1 r]| | |] eqn:E; try discriminate. cbn [bind] in Hrun.
    destruct (frun tr t1 ops) as [[t2 rs2]| | |] eqn:E2; try discriminate. cbn [bind] in Hrun.
    injection Hrun as <- <-. eapply IH; [|eauto|eauto].
    eapply unbuilt_step; eauto.
Qed.

Lemma unbuilt_throws {T} (tr : transform T) t :
  built t = false ->
  (forall s e, query tr t s e = Exn NotBuilt) /\
  (forall p v, update tr t p v = Exn NotBuilt) /\
  (forall p v, set_value tr t p v = Exn NotBuilt).
Proof.
  intros Hb. unfold query, update, set_value. rewrite Hb. repeat split.
Qed.

Lemma frun_app_inv {T} (tr : transform T) ops1 ops2 t t2 rs :
  frun tr t (ops1 ++ ops2) = Val (t2, rs) ->
  exists t1 r1 r2, frun tr t ops1 = Val (t1, r1) /\ frun tr t1 ops2 = Val (t2, r2)
                   /\ rs = r1 ++ r2.
Proof.
  rewrite frun_app. destruct (frun tr t ops1) as [[t1 r1]| | |]; try discriminate.
  cbn [bind]. destruct (frun tr t1 ops2) as [[t2' r2]| | |] eqn:E; try discriminate.
  cbn [bind]. intros H. injection H as <- <-. exists t1, r1, r2. auto.
Qed.

Lemma unbuilt_histories {T} (tr : transform T) ops1 ops2 t rs :
  existsb is_rebuild ops2 = false ->
  (frun tr fenwick_default ops2 = Val (t, rs) \/
   frun tr fenwick_default (ops1 ++ OMoveOut :: ops2) = Val (t, rs)) ->
  (forall s e, query tr t s e = Exn NotBuilt) /\
  (forall p v, update tr t p v = Exn NotBuilt) /\
  (forall p v, set_value tr t p v = Exn NotBuilt).
Proof.
  intros Ho H. apply unbuilt_throws. destruct H as [H|H].
  - eapply unbuilt_run; [|eauto|eauto]. reflexivity.
  - apply frun_app_inv in H as (t1 & r1 & r2 & _ & H & _).
    cbn [frun fstep bind] in H.
    destruct (frun tr (snd (move_assign fenwick_default t1)) ops2) as [[t2 rs2]| | |] eqn:E;
      try discriminate.
    cbn [bind] in H. injection H as <- <-.
    eapply unbuilt_run; [|eauto|eauto]. reflexivity.
Qed.

(** ** Instances *)
Lemma sumZ_laws : fenwick_laws sumZ (fun _ => True).
Proof.
  constructor; cbn; intros; try (f_equal; lia); try lia; auto.
Qed.

Lemma sumZ_reachable v : reachable_value sumZ (fun _ => True) v.
Proof. intros x _. exists (v - x)%Z. cbn. repeat split; auto. lia. Qed.

Lemma sumW_laws w : (0 <= w)%Z ->
  fenwick_laws (sumW w) (fun x => (0 <= x < 2 ^ w)%Z).
Proof.
  intros Hw. assert (Hpos : (0 < 2 ^ w)%Z) by (apply Z.pow_pos_nonneg; lia).
  constructor; cbn; intros; auto.
  - lia.
  - apply Z.mod_pos_bound; auto.
  - f_equal; lia.
  - rewrite Zplus_mod_idemp_r, Zplus_mod_idemp_l. f_equal; lia.
  - apply Z.mod_small; auto.
  - f_equal. rewrite Zminus_mod_idemp_l.
    replace (a + b - a)%Z with b by lia. apply Z.mod_small; auto.
  - apply negb_false_iff, Z.eqb_eq in H1. subst. simpl. apply Z.mod_small; auto.
Qed.

Lemma sumW_reachable w v : (0 <= w)%Z -> (0 <= v < 2 ^ w)%Z ->
  reachable_value (sumW w) (fun x => (0 <= x < 2 ^ w)%Z) v.
Proof.
  intros Hw Hv x Hx. exists ((v - x) mod 2 ^ w)%Z. cbn. repeat split; auto.
  - apply Z.mod_pos_bound; lia.
  - apply Z.mod_pos_bound; lia.
  - rewrite Zplus_mod_idemp_r. replace (x + (v - x))%Z with v by lia.
    apply Z.mod_small; auto.
Qed.

Lemma mulZ_laws : fenwick_laws mulZ (fun x => x <> 0%Z).
Proof.
  constructor; cbn; auto; try (intros; lia).
  - now intros [].
  - intros a b Ha Hb. apply Z.eqb_neq in Ha as H'. rewrite H'. f_equal.
    rewrite Z.mul_comm. apply Z.quot_mul; auto.
Qed.

(** A reference to a cell that the update never writes is as good as a copy. *)
Lemma update_cells_alias_before {T} (tr : transform T) fuel : forall cells position src v,
  (sizeN cells < two64)%N -> (src < position \/ position = 0)%N -> cell cells src = Some v ->
  update_cells_alias tr fuel cells position src = update_cells tr fuel cells position v.
Proof.
  induction fuel as [|fuel IH]; intros cells position src v B H C; cbn [update_cells_alias update_cells];
    [reflexivity|].
  destruct (negb (position =? 0)%N && (position <? sizeN cells)%N) eqn:E; [|reflexivity].
  apply andb_true_iff in E. destruct E as [E1 E2]. apply negb_true_iff, N.eqb_neq in E1. apply N.ltb_lt in E2.
  destruct H as [H|H]; [|contradiction]. rewrite C.
  destruct (cell cells position) as [c|]; [|reflexivity].
  destruct (next_update_step position 0) as [N _]; [lia|lia|apply N.divide_1_l|].
  apply IH.
  - unfold sizeN in *. rewrite set_nth_length. assumption.
  - destruct N as [[-> _]|[-> _]]; [left; lia|right; reflexivity].
  - unfold cell in *. rewrite nth_error_set_nth_neq by lia. assumption.
Qed.

Theorem update_alias_before {T} (tr : transform T) t position src v :
  (fsize t < two64)%N -> (src < position)%N -> at_ t src = Val v ->
  update_alias tr t position src = update tr t position v.
Proof.
  intros B H A. unfold update_alias, update. rewrite A. cbn [bind].
  destruct (negb (built t)); [reflexivity|]. destruct (_ && _); [|reflexivity].
  rewrite (update_cells_alias_before tr hops (processed t) position src v); auto.
  unfold at_ in A. destruct (cell (processed t) src); [congruence|discriminate].
Qed.
