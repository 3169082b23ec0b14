(** Proofs for FenwickErrorProps.v *)
Require Import List Arith NArith ZArith Lia Bool.
Require Import Floats.SpecFloat.
Require Import Verif.Base Verif.DoubleModel Verif.DoubleSpec Verif.DoubleProofs Verif.DoubleSumProofs.
Require Import Verif.SegmentDoubleProofs.
Require Import Verif.FenwickModel Verif.FenwickSpec Verif.FenwickProofs Verif.FenwickSignedModel Verif.FenwickErrorSpec.
Import ListNotations.
Local Open Scope Z_scope.
Local Ltac lia0 := lia.
Local Ltac lia := try match goal with H : _ = 2 ^ 2096 |- _ => clear H end; lia0.

(** ** One number with its error *)
Definition near (d M z : Z) (c : double) : Prop := fin c /\ 2 ^ 52 * Z.abs (units c - z) <= d * M /\ Z.abs z <= M.
Lemma near_exact : forall c, fin c -> near 0 (magnitude c) (units c) c.
Proof. intros c F. split; [exact F|]. rewrite Z.sub_diag. unfold magnitude. cbn. lia. Qed.
Lemma near_mono : forall d d' M z c, near d M z c -> d <= d' -> near d' M z c.
Proof. intros d d' M z c (F & E & B) D. split; [exact F|]. split; [|exact B]. apply Z.le_trans with (1 := E). apply Z.mul_le_mono_nonneg_r; lia. Qed.
Lemma near_zero : near 0 0 0 (of_int 0).
Proof. split; [split; [reflexivity|exact Logic.I]|]. cbn. lia. Qed.
Lemma near_add : forall B, B = 2 ^ 2096 -> forall d M1 M2 z1 z2 a b, near d M1 z1 a -> near d M2 z2 b -> 0 <= d <= 2 ^ 52 -> M1 + M2 < B ->
  near (d + 1) (M1 + M2) (z1 + z2) (dadd a b).
Proof.
  intros B EB d M1 M2 z1 z2 a b (F1 & E1 & B1) (F2 & E2 & B2) D L.
  assert (D2 : d * (M1 + M2) <= 2 ^ 52 * (M1 + M2)) by (apply Z.mul_le_mono_nonneg_r; lia). rewrite Z.mul_add_distr_l in D2.
  assert (V : Z.abs (units a + units b) <= 2 * (M1 + M2)).
  { change (2 ^ 52) with 4503599627370496 in *. set (p := d * M1) in *. set (q := d * M2) in *. clearbody p q. lia. }
  assert (F : is_finite (dadd a b)).
  { apply (dadd_is_finite (4 * B)); trivial; [clear - EB; rewrite EB; change 2098 with (2 + 2096); rewrite Z.pow_add_r by lia; generalize (2 ^ 2096); reflexivity|].
    clear - V L. change (2 ^ 53) with 9007199254740992. lia. }
  split; [split; [now apply dadd_valid|exact F]|]. split; [|lia].
  pose proof (dadd_error a b F1 F2 F) as R. replace ((d + 1) * (M1 + M2)) with (d * M1 + d * M2 + (M1 + M2)) by ring.
  set (w := units (dadd a b)) in *. clearbody w. set (p := d * M1) in *. set (q := d * M2) in *. clearbody p q. clear - E1 E2 V R.
  change (2 ^ 53) with 9007199254740992 in *. change (2 ^ 52) with 4503599627370496 in *. lia.
Qed.
Lemma near_opp : forall d M z c, near d M z c -> near d M (- z) (SFopp c).
Proof.
  intros d M z c ((V & F) & E & B). split.
  - split; destruct c; try contradiction; trivial.
  - split; [|lia]. assert (U : units (SFopp c) = - units c) by (destruct c as [?|?| |[] m e]; try contradiction; cbn [SFopp negb units]; lia).
    rewrite U. replace (- units c - - z) with (- (units c - z)) by lia. now rewrite Z.abs_opp.
Qed.
Lemma dsub_opp : forall a b, dsub a b = dadd a (SFopp b).
Proof.
  intros [s|s| |s m e] [s'|s'| |s' m' e']; cbn [SFopp]; try reflexivity. unfold dsub, dadd, SFsub, SFadd. f_equal.
  destruct s'; cbn [cond_Zopp negb]; lia.
Qed.
Lemma near_sub : forall B, B = 2 ^ 2096 -> forall d M1 M2 z1 z2 a b, near d M1 z1 a -> near d M2 z2 b -> 0 <= d <= 2 ^ 52 -> M1 + M2 < B ->
  near (d + 1) (M1 + M2) (z1 - z2) (dsub a b).
Proof. intros. rewrite dsub_opp, <- Z.add_opp_r. apply (near_add B); trivial. now apply near_opp. Qed.

(** ** The cells *)
Local Notation laws := sumZ_laws.
Local Notation yes := (fun _ : Z => True).
Lemma yes_all : forall l : list Z, Forall yes l.
Proof. intros l. apply Forall_forall. trivial. Qed.
Definition close (d : Z) (cs : list double) (l m : list Z) : Prop :=
  length cs = S (length l) /\ length m = length l /\ Forall (Z.le 0) m /\
  forall q, (q <= sizeN l)%N -> exists c, cell cs q = Some c /\ near d (block_value sumZ m q) (block_value sumZ l q) c.
Lemma total_nonneg : forall m, Forall (Z.le 0) m -> 0 <= total m.
Proof. unfold total. induction 1; cbn [fold_right]; lia. Qed.
Lemma total_app : forall a b, total (a ++ b) = total a + total b.
Proof. unfold total. induction a; intros b; cbn [app fold_right]; rewrite ?IHa; lia. Qed.
Lemma total_all : forall l, combine_all sumZ l = total l.
Proof. reflexivity. Qed.
Lemma total_slice : forall m lo hi, Forall (Z.le 0) m -> 0 <= total (slice m lo hi) <= total m.
Proof.
  intros m lo hi F. unfold slice. set (a := firstn lo m). set (b := firstn (hi - lo) (skipn lo m)). set (c := skipn (hi - lo) (skipn lo m)).
  assert (E : m = a ++ b ++ c) by (unfold a, b, c; now rewrite !firstn_skipn). clearbody a b c. subst m. apply Forall_app in F. destruct F as (F1 & F).
  apply Forall_app in F. destruct F as (F2 & F3). apply total_nonneg in F1, F2, F3. rewrite !total_app. lia.
Qed.
Lemma total_firstn : forall m n, Forall (Z.le 0) m -> 0 <= total (firstn n m) <= total m.
Proof. intros m n F. pose proof (total_slice m 0 n F) as H. unfold slice in H. now rewrite Nat.sub_0_r in H. Qed.
Lemma change_total : forall l p v, (1 <= p <= length l)%nat -> total (change l p (fun x => x + v)) = total l + v.
Proof. intros l p v P. exact (all_change sumZ yes laws l p v (yes_all l) Logic.I P). Qed.
Lemma change_nonneg : forall m p v, Forall (Z.le 0) m -> 0 <= v -> Forall (Z.le 0) (change m p (fun x => x + v)).
Proof. intros m p v F V. apply Forall_change; [exact F|]. intros; lia. Qed.
Lemma change_out : forall (l : list Z) p g, (length l < p)%nat -> change l p g = l.
Proof.
  intros l p g H. apply list_eq_nth_error. intros i. rewrite nth_error_change. destruct (nth_error l i) as [x|] eqn:E; [|reflexivity].
  cbn [option_map]. assert (i < length l)%nat by (apply nth_error_Some; congruence). destruct (Nat.eqb_spec (S i) p); [lia|reflexivity].
Qed.
Lemma total_change_le : forall m p v, Forall (Z.le 0) m -> 0 <= v -> total (change m p (fun x => x + v)) <= total m + v.
Proof.
  intros m p v F V. destruct p as [|p]; [rewrite change_0; lia|]. destruct (Nat.le_gt_cases (S p) (length m)).
  - rewrite change_total by lia. lia.
  - rewrite change_out by lia. lia.
Qed.

Lemma close_update : forall B, B = 2 ^ 2096 -> forall d cs l m p v, close d cs l m -> fin v -> (sizeN l + 1 < two64)%N -> (p < two64)%N ->
  0 <= d <= 2 ^ 52 -> total m + magnitude v < B ->
  exists cs', update_cells sumD hops cs p v = Val cs' /\
    close (d + 1) cs' (change l (N.to_nat p) (fun x => x + units v)) (change m (N.to_nat p) (fun x => x + magnitude v)).
Proof.
  intros B EB d cs l m p v (L1 & L2 & NN & C) F S P D T.
  destruct (update_cells_hits sumD hops cs p v) as (cs' & R & H); trivial; [unfold sizeN in *; rewrite L1; lia| |].
  { exists p. change (2 ^ N.of_nat (64 - hops))%N with 1%N. lia. }
  exists cs'. split; [exact R|]. split; [|split; [|split]].
  - rewrite change_length. rewrite <- L1. apply Nat.le_antisymm; apply Nat.nlt_ge; intros K.
    + apply nth_error_Some in K. rewrite H in K. apply K. now rewrite (proj2 (nth_error_None cs (length cs))).
    + apply nth_error_Some in K. destruct (nth_error cs (length cs')) eqn:E; [|contradiction]. pose proof (H (length cs')) as Q. rewrite E in Q.
      rewrite (proj2 (nth_error_None cs' (length cs'))) in Q by lia. discriminate Q.
  - now rewrite !change_length.
  - apply change_nonneg; [exact NN|unfold magnitude; lia].
  - intros q Q. assert (Q' : (q <= sizeN l)%N) by (unfold sizeN in *; rewrite change_length in Q; exact Q). destruct (C q Q') as (c & E & K).
    unfold cell in *. rewrite H, E, N2Nat.id. cbn [option_map]. eexists. split; [reflexivity|].
    destruct (N.eqb_spec p 0) as [->|P0].
    + rewrite !change_0. cbn [negb andb]. apply (near_mono d); [exact K|lia].
    + pose proof (block_change sumZ yes laws l p (units v) q (yes_all l) Logic.I Q' ltac:(lia)) as BL. cbn [f_op sumZ] in BL. rewrite BL.
      assert (Qm : (q <= sizeN m)%N) by (unfold sizeN in *; now rewrite L2).
      pose proof (block_change sumZ yes laws m p (magnitude v) q (yes_all m) Logic.I Qm ltac:(lia)) as BM. cbn [f_op sumZ] in BM. rewrite BM.
      cbn [negb andb]. destruct (covers q p).
      * cbn [f_op sumD]. apply (near_add B); trivial; [apply (near_mono 0); [now apply near_exact|lia]|].
        pose proof (total_slice m (N.to_nat (q - lowbit q)) (N.to_nat q) NN) as TS. unfold block_value. rewrite total_all. lia.
      * apply (near_mono d); [exact K|lia].
Qed.
Lemma close_mono : forall d d' cs l m, close d cs l m -> d <= d' -> close d' cs l m.
Proof.
  intros d d' cs l m (A & A2 & A3 & C) D. repeat (split; [assumption|]). intros q Q. destruct (C q Q) as (c & E & K). exists c. split; [exact E|].
  apply (near_mono d); trivial.
Qed.

(** ** Queries *)
Lemma near_loop : forall B, B = 2 ^ 2096 -> forall d cs l m, close d cs l m -> (sizeN l + 1 < two64)%N -> 0 <= d -> d + 64 <= 2 ^ 52 -> total m < B ->
  forall stop, (stop <= sizeN l)%N -> forall fuel index v, (fuel <= 64)%nat -> (index <= stop)%N -> (2 ^ N.of_nat (63 - fuel) | index)%N ->
  near (d + 64 - Z.of_nat fuel) (total (slice m (N.to_nat (index - lowbit index)) (N.to_nat stop))) (total (slice l (N.to_nat (index - lowbit index)) (N.to_nat stop))) v ->
  exists r, query_loop sumD fuel cs index v = Val r /\ near (d + 64) (total (firstn (N.to_nat stop) m)) (total (firstn (N.to_nat stop) l)) r.
Proof.
  intros B EB d cs l m (L1 & L2 & NN & C) S D0 D T stop ST. induction fuel as [|fuel IH]; intros index v FU I DV N.
  - assert (NQ : next_query index = 0%N /\ (index - lowbit index = 0)%N).
    { destruct (N.eq_dec index 0) as [->|H0]; [split; reflexivity|]. destruct (next_query_step index 63) as [Hn Hd']; auto; try lia.
      apply divide_two64_lt in Hd'; [|lia]. split; [exact Hd'|lia]. }
    destruct NQ as (NQ & LB). cbn [query_loop]. rewrite NQ. exists v. split; [reflexivity|]. rewrite LB in N. cbn [N.to_nat] in N. rewrite !slice_0 in N.
    apply (near_mono _ _ _ _ _ N). lia.
  - destruct (N.eq_dec index 0) as [->|H0].
    { exists v. split; [reflexivity|]. cbn [N.sub lowbit N.to_nat] in N. rewrite !slice_0 in N. apply (near_mono _ _ _ _ _ N). lia. }
    destruct (next_query_step index (N.of_nat (63 - (1 + fuel)))) as [Hn Hd']; auto; try lia.
    assert (Hd2 : (2 ^ N.of_nat (63 - fuel) | next_query index)%N) by (eapply N.divide_trans; [|exact Hd']; apply pow_divide_le; lia).
    cbn [query_loop]. destruct (N.eqb_spec (next_query index) 0) as [E|E].
    { exists v. split; [reflexivity|]. rewrite <- Hn, E in N. cbn [N.to_nat] in N. rewrite !slice_0 in N. apply (near_mono _ _ _ _ _ N). lia. }
    destruct (C (next_query index) ltac:(lia)) as (c & EC & K). rewrite EC. rewrite <- Hn in N. set (i := next_query index) in *.
    apply IH; try lia; trivial.
    assert (SP : forall w, total (slice w (N.to_nat (i - lowbit i)) (N.to_nat stop)) = block_value sumZ w i + total (slice w (N.to_nat i) (N.to_nat stop))).
    { intros w. change (block_value sumZ w i) with (total (slice w (N.to_nat (i - lowbit i)) (N.to_nat i))). rewrite <- total_app. f_equal. apply slice_app; lia. }
    rewrite !SP. replace (d + 64 - Z.of_nat fuel) with (d + 64 - Z.of_nat (1 + fuel) + 1) by lia. cbn [f_op sumD]. apply (near_add B); trivial.
    + apply (near_mono d); [exact K|lia].
    + lia.
    + rewrite <- SP. pose proof (total_slice m (N.to_nat (i - lowbit i)) (N.to_nat stop) NN). lia.
Qed.
Lemma near_prefix : forall B, B = 2 ^ 2096 -> forall d cs l m p, close d cs l m -> (sizeN l + 1 < two64)%N -> 0 <= d -> d + 64 <= 2 ^ 52 -> total m < B ->
  (p <= sizeN l)%N ->
  exists r, prefix_query sumD cs p = Val r /\ near (d + 64) (total (firstn (N.to_nat p) m)) (total (firstn (N.to_nat p) l)) r.
Proof.
  intros B EB d cs l m p C S D0 D T P. unfold prefix_query. destruct (proj2 (proj2 (proj2 C)) p P) as (c & E & K). rewrite E.
  apply (near_loop B EB d cs l m C S D0 D T p P hops p c); try lia; try (unfold hops; lia).
  - exists p. change (2 ^ N.of_nat (63 - hops))%N with 1%N. lia.
  - apply (near_mono d); [exact K|unfold hops; lia].
Qed.
Lemma zero_units : forall c : double, f_truthy sumD c = false -> units c = 0.
Proof. intros [?|?| |? ? ?] E; try discriminate. reflexivity. Qed.
Lemma near_range : forall B, B = 2 ^ 2096 -> forall d cs l m lo hi, close d cs l m -> (sizeN l + 1 < two64)%N -> 0 <= d -> d + 65 <= 2 ^ 52 -> 2 * total m < B ->
  (lo <= hi)%N -> (hi <= sizeN l)%N ->
  exists r, range_query sumD cs lo hi = Val r /\ off_by (d + 65) (2 * total (firstn (N.to_nat hi) m)) (total (slice l (N.to_nat (lo - 1)) (N.to_nat hi))) r.
Proof.
  intros B EB d cs l m lo hi C S D0 D T LO HI. unfold range_query. pose proof C as (_ & _ & NN & _).
  destruct (near_prefix B EB d cs l m hi C S D0 ltac:(lia) ltac:(pose proof (total_nonneg m NN); lia) HI) as (v & EV & NV).
  pose proof (total_firstn m (N.to_nat hi) NN) as TH.
  assert (W : near (d + 64) (total (firstn (N.to_nat hi) m)) (total (firstn (N.to_nat hi) l)) v -> off_by (d + 65) (2 * total (firstn (N.to_nat hi) m)) (total (firstn (N.to_nat hi) l)) v).
  { intros (F & E & _). split; [exact F|]. apply Z.le_trans with (1 := E). clear - D0 TH. nia. }
  destruct (N.leb_spec lo 1) as [Q|Q].
  - cbn [bind]. rewrite EV. cbn [bind f_truthy f_zero sumD of_int]. exists v. split; [reflexivity|].
    replace (N.to_nat (lo - 1)) with 0%nat by lia. rewrite slice_0. now apply W.
  - destruct (near_prefix B EB d cs l m (lo - 1)%N C S D0 ltac:(lia) ltac:(pose proof (total_nonneg m NN); lia) ltac:(lia)) as (x & EX & NX).
    rewrite EX. cbn [bind]. rewrite EV. cbn [bind].
    assert (SP : forall w, total (firstn (N.to_nat hi) w) = total (firstn (N.to_nat (lo - 1)) w) + total (slice w (N.to_nat (lo - 1)) (N.to_nat hi))).
    { intros w. rewrite <- total_app. f_equal. rewrite <- !slice_0. apply slice_app; lia. }
    replace (total (slice l (N.to_nat (lo - 1)) (N.to_nat hi))) with (total (firstn (N.to_nat hi) l) - total (firstn (N.to_nat (lo - 1)) l)) by (rewrite (SP l); lia).
    pose proof (total_slice m (N.to_nat (lo - 1)) (N.to_nat hi) NN) as TS. pose proof (total_firstn m (N.to_nat (lo - 1)) NN) as TL. pose proof (SP m) as SM.
    destruct (f_truthy sumD x) eqn:TX.
    + cbn [f_discard sumD]. eexists. split; [reflexivity|].
      destruct (near_sub B EB (d + 64) _ _ _ _ _ _ NV NX ltac:(lia) ltac:(lia)) as (F & E & _). split; [exact F|].
      apply Z.le_trans with (1 := E). replace (d + 64 + 1) with (d + 65) by lia. apply Z.mul_le_mono_nonneg_l; lia.
    + exists v. split; [reflexivity|]. destruct NV as (F & E & _). destruct NX as (_ & EX' & _). rewrite (zero_units x TX) in EX'. split; [exact F|].
      set (A := total (firstn (N.to_nat hi) m)) in *. set (A' := total (firstn (N.to_nat (lo - 1)) m)) in *.
      assert ((d + 64) * A' <= (d + 64) * A) by (apply Z.mul_le_mono_nonneg_l; lia).
      replace ((d + 65) * (2 * A)) with ((d + 64) * A + (d + 64) * A + 2 * A) by ring. set (q := (d + 64) * A) in *. set (q' := (d + 64) * A') in *.
      clearbody q q'. change (2 ^ 52) with 4503599627370496 in *. lia.
Qed.

(** ** Building *)
Lemma close_build_loop : forall B, B = 2 ^ 2096 -> forall (inp : list double) done ms d cs, Forall fin inp ->
  close d cs (done ++ repeat 0 (length inp)) (ms ++ repeat 0 (length inp)) -> length ms = length done ->
  (sizeN done + sizeN inp + 1 < two64)%N -> 0 <= d -> d + Z.of_N (sizeN inp) <= 2 ^ 52 -> total ms + total (map magnitude inp) < B ->
  exists cs', build_loop sumD hops cs (sizeN done + 1) inp = Val cs' /\ close (d + Z.of_N (sizeN inp)) cs' (done ++ map units inp) (ms ++ map magnitude inp).
Proof.
  intros B EB. induction inp as [|v inp IH]; intros done ms d cs F C LM S D0 D T.
  - exists cs. split; [reflexivity|]. apply (close_mono d); [exact C|cbn; lia].
  - apply Forall_cons_iff in F; destruct F as (FV & FI). cbn [build_loop length repeat map] in *.
    assert (SZ : sizeN (v :: inp) = (1 + sizeN inp)%N) by (unfold sizeN; cbn [length]; lia). rewrite SZ in *.
    assert (TM : total (map magnitude (v :: inp)) = magnitude v + total (map magnitude inp)) by reflexivity. cbn [map] in TM. rewrite TM in T.
    assert (NI : 0 <= total (map magnitude inp)) by (apply total_nonneg; apply Forall_map, Forall_forall; intros; unfold magnitude; lia).
    assert (TZ : forall n, total (ms ++ repeat 0 n) = total ms) by (intros n; rewrite total_app; assert (total (repeat 0 n) = 0) by (induction n; [reflexivity|exact IHn]); lia).
    assert (P : N.to_nat (sizeN done + 1) = (1 + length done)%nat) by (unfold sizeN; lia).
    destruct (close_update B EB d cs _ _ (sizeN done + 1)%N v C FV) as (cs1 & R & C1); try lia.
    + unfold sizeN in *. rewrite app_length. cbn [length]. rewrite repeat_length. lia.
    + change (0 :: repeat 0 (length inp)) with (repeat 0 (1 + length inp)). rewrite TZ. lia.
    + rewrite R. cbn [bind]. rewrite P in C1. rewrite change_mid in C1. rewrite <- LM, change_mid, !Z.add_0_l in C1.
      specialize (IH (done ++ [units v]) (ms ++ [magnitude v]) (d + 1) cs1 FI). rewrite <- !app_assoc in IH. cbn [app] in IH.
      assert (SD : (sizeN (done ++ [units v]) = sizeN done + 1)%N) by (unfold sizeN; rewrite app_length; cbn [length]; lia).
      rewrite SD in IH. destruct (IH C1) as (cs' & R' & C'); try lia.
      * rewrite !app_length, LM. reflexivity.
      * rewrite total_app. unfold total at 2. cbn [fold_right]. lia.
      * exists cs'. split; [exact R'|]. replace (d + Z.of_N (1 + sizeN inp)) with (d + 1 + Z.of_N (sizeN inp)) by lia. exact C'.
Qed.
Lemma close_zero : forall n, close 0 (repeat (of_int 0) (S n)) (repeat 0 n) (repeat 0 n).
Proof.
  intros n. split; [now rewrite !repeat_length|]. split; [now rewrite repeat_length|]. split; [apply Forall_repeat'; lia|].
  intros q Q. unfold sizeN in Q. rewrite repeat_length in Q. exists (of_int 0). split.
  - unfold cell. apply nth_error_repeat. lia.
  - assert (Z0 : block_value sumZ (repeat 0 n) q = 0).
    { unfold block_value, slice. rewrite skipn_repeat, firstn_repeat. exact (all_repeat_null sumZ yes laws _). }
    rewrite Z0. exact near_zero.
Qed.
Lemma take_incl : forall {A} n (l : list A), exists r, l = take n l ++ r.
Proof. intros A n l. unfold take. destruct (_ <? _)%N; [exists (skipn (N.to_nat n) l); now rewrite firstn_skipn|exists []; now rewrite app_nil_r]. Qed.
Lemma take_map : forall {A B} (h : A -> B) n l, take n (map h l) = map h (take n l).
Proof. intros A B h n l. unfold take, sizeN. rewrite map_length. destruct (_ <? _)%N; [now rewrite firstn_map|reflexivity]. Qed.
Definition fine (t : fenwick double) : Prop := built t = true \/ processed t = [].
Lemma close_build : forall B, B = 2 ^ 2096 -> forall t (input : list double) n, fine t -> Forall fin input -> (sizeN input + 1 < two64)%N ->
  Z.of_N (sizeN input) <= 2 ^ 52 -> total (map magnitude input) < B ->
  exists cs, build sumD t input n = Val (mkF cs true) /\ close (Z.of_N (sizeN input)) cs (map units (take n input)) (map magnitude (take n input)).
Proof.
  intros B EB t input n FT F S D T. unfold build.
  set (size := if (n <? sizeN input)%N then (n + 1)%N else (sizeN input + 1)%N).
  assert (Hsz : (size = sizeN (take n input) + 1)%N).
  { unfold size, take. destruct (N.ltb_spec n (sizeN input)); [|reflexivity]. unfold sizeN in *. rewrite firstn_length. lia. }
  assert (Htake : firstn (N.to_nat (size - 1)) input = take n input).
  { unfold size, take. destruct (N.ltb_spec n (sizeN input)); [f_equal; lia|]. apply firstn_all2. unfold sizeN. lia. }
  rewrite Htake.
  assert (CE : (if (fsize t <? size)%N then repeat (f_null sumD) (N.to_nat size) else if built t then refill sumD (processed t) size else processed t) = repeat (of_int 0) (Datatypes.S (length (take n input)))).
  { replace (Datatypes.S (length (take n input))) with (N.to_nat size) by (rewrite Hsz; unfold sizeN; lia). destruct (N.ltb_spec (fsize t) size) as [L|L]; [reflexivity|].
    destruct FT as [->|E]; [reflexivity|]. exfalso. unfold fsize, sizeN in L. rewrite E in L. cbn in L. lia. }
  rewrite CE. destruct (take_incl n input) as (rest & EI).
  assert (TT : total (map magnitude (take n input)) <= total (map magnitude input)).
  { rewrite EI at 2. rewrite map_app, total_app. assert (0 <= total (map magnitude rest)); [|lia]. apply total_nonneg. apply Forall_map, Forall_forall. intros; unfold magnitude; lia. }
  pose proof (take_size n input) as TS.
  assert (FT' : Forall fin (take n input)) by (rewrite EI in F; now apply Forall_app in F).
  destruct (close_build_loop B EB (take n input) [] [] 0 _ FT' (close_zero (length (take n input)))) as (cs & R & C); trivial; try lia; try (unfold sizeN at 1; cbn [length]; lia).
  { unfold total at 1. cbn [fold_right]. lia. }
  change (sizeN (@nil Z) + 1)%N with 1%N in R. rewrite R. cbn [bind]. exists cs. split; [reflexivity|]. cbn [app] in C. apply (close_mono _ _ _ _ _ C). lia.
Qed.
Lemma close_resize : forall d cs l m k, close d cs l m -> k <> 0%N -> close d (processed (resize (mkF cs true) k)) (take (k - 1) l) (take (k - 1) m).
Proof.
  intros d cs l m k (L1 & L2 & NN & C) K. unfold resize, fsize, take, sizeN. cbn [processed]. rewrite L1, L2.
  destruct (N.ltb_spec k (N.of_nat (S (length l)))) as [Q|Q]; destruct (N.ltb_spec (k - 1) (N.of_nat (length l))) as [Q'|Q']; try lia; cbn [processed]; [|now repeat split].
  set (n := N.to_nat (k - 1)). replace (N.to_nat k) with (S n) by (unfold n; lia). 
  assert (BV : forall w q, (q <= N.of_nat n)%N -> block_value sumZ (firstn n w) q = block_value sumZ w q).
  { intros w q Hq. unfold block_value. f_equal. apply list_eq_nth_error. intros i. rewrite !nth_error_slice. destruct (Nat.ltb_spec i (N.to_nat q - N.to_nat (q - lowbit q))); trivial.
    rewrite nth_error_firstn'. destruct (Nat.ltb_spec (N.to_nat (q - lowbit q) + i) n); trivial. lia. }
  split; [rewrite !firstn_length; lia|]. split; [rewrite !firstn_length; lia|]. split; [now apply Forall_firstn'|].
  intros q HQ. unfold sizeN in HQ. rewrite firstn_length in HQ. destruct (C q ltac:(unfold sizeN; lia)) as (c & E & N). exists c. rewrite !BV by lia. split; [|exact N].
  unfold cell in *. rewrite nth_error_firstn'. destruct (Nat.ltb_spec (N.to_nat q) (S n)); [exact E|lia].
Qed.

(** ** Histories *)
Lemma change_zero : forall (l : list Z) p, change l p (fun x => x + 0) = l.
Proof.
  intros l p. apply list_eq_nth_error. intros i. rewrite nth_error_change. destruct (nth_error l i) as [x|]; [|reflexivity]. cbn [option_map].
  destruct (_ =? _)%nat; rewrite ?Z.add_0_r; reflexivity.
Qed.
Lemma take_total : forall n m, Forall (Z.le 0) m -> Forall (Z.le 0) (take n m) /\ total (take n m) <= total m.
Proof.
  intros n m F. destruct (take_incl n m) as (r & E). rewrite E in F. apply Forall_app in F. destruct F as (F1 & F2). split; [exact F1|].
  rewrite E at 2. rewrite total_app. apply total_nonneg in F2. lia.
Qed.
Lemma weight_nonneg : forall o, 0 <= weight o /\ 0 <= additions o.
Proof.
  intros [input n|p v|p v|s e|p|m| | |]; cbn [weight additions]; unfold magnitude; try lia. split; [|lia].
  apply total_nonneg. apply Forall_map, Forall_forall. intros; unfold magnitude; lia.
Qed.
Lemma close_step : forall B, B = 2 ^ 2096 -> forall o d cs l m, close d cs l m -> (sizeN l + 1 < two64)%N -> sum_call o -> 0 <= d -> d + additions o + 64 < 2 ^ 52 -> 2 * (total m + weight o) < B ->
  exists cs' r, fstep sumD (mkF cs true) o = Val (mkF cs' true, r) /\ close (d + additions o) cs' (after units l o) (after magnitude m o) /\
    (sizeN (after units l o) + 1 < two64)%N /\ total (after magnitude m o) <= total m + weight o.
Proof.
  intros B EB o d cs l m C S OK D0 D T. pose proof C as (L1 & L2 & NN & _). pose proof (total_nonneg m NN) as TN. pose proof (weight_nonneg o) as WN.
  destruct o as [input n|p v|p v|s e|p|k| | |]; cbn [sum_call additions weight after fstep] in *; try contradiction.
  - destruct OK as (F & SI). destruct (close_build B EB (mkF cs true) input n) as (cs' & R & C'); trivial; [now left|lia|lia|]. rewrite R. cbn [bind].
    exists cs', RUnit. split; [reflexivity|]. split; [apply (close_mono _ _ _ _ _ C'); lia|]. pose proof (take_size n input) as TS.
    split; [unfold sizeN in *; rewrite map_length; lia|]. rewrite <- take_map. 
    destruct (take_total n (map magnitude input)) as (_ & TT); [apply Forall_map, Forall_forall; intros; unfold magnitude; lia|]. lia.
  - destruct OK as (FV & P). unfold update. cbn [built negb processed].
    assert (FS : fsize (mkF cs true) = (sizeN l + 1)%N) by (unfold fsize, sizeN; cbn [processed]; lia). rewrite FS.
    assert (SC : forall g, (sizeN (change l (N.to_nat p) g) + 1 < two64)%N) by (intros g; unfold sizeN in *; now rewrite change_length).
    pose proof (total_change_le m (N.to_nat p) (magnitude v) NN ltac:(unfold magnitude; lia)) as TC.
    destruct (N.ltb_spec p (sizeN l + 1)) as [Q|Q]; cbn [andb].
    + destruct (f_truthy sumD v) eqn:TR.
      * destruct (close_update B EB d cs l m p v) as (cs' & R & C'); trivial; try lia. rewrite R. cbn [bind]. exists cs', (RBool true). repeat (split; [trivial|]). exact TC.
      * pose proof (zero_units v TR) as U. unfold magnitude in *. rewrite U in *. change (Z.abs 0) with 0 in *. rewrite !change_zero.
        exists cs, (RBool true). split; [reflexivity|]. split; [apply (close_mono _ _ _ _ _ C); lia|]. split; [exact S|lia].
    + rewrite !change_out by (unfold sizeN in *; lia). exists cs, (RBool false). split; [reflexivity|]. split; [apply (close_mono _ _ _ _ _ C); lia|]. split; [exact S|lia].
  - unfold query. cbn [built negb]. assert (FS : fsize (mkF cs true) = (sizeN l + 1)%N) by (unfold fsize, sizeN; cbn [processed]; lia). rewrite FS.
    replace (wsub (sizeN l + 1) 1) with (sizeN l).
    2:{ unfold wsub. replace (sizeN l + 1 + two64 - 1)%N with (sizeN l + 1 * two64)%N by lia. rewrite N.mod_add by (unfold two64; lia). rewrite N.mod_small; lia. }
    cbn [processed]. destruct (near_range B EB d cs l m (N.min (N.min s e) (sizeN l)) (N.min (N.max s e) (sizeN l)) C S D0) as (r & R & _); try lia.
    rewrite R. exists cs, (RVal r). split; [reflexivity|]. rewrite Z.add_0_r. repeat (split; [assumption|]). lia.
  - unfold at_. cbn [processed]. destruct (cell cs p) as [c|]; [exists cs, (RVal c)|exists cs, (RExn OutOfRange)]; (split; [reflexivity|]); rewrite Z.add_0_r; repeat (split; [assumption|]); lia.
  - pose proof (close_resize d cs l m k C OK) as C'. exists (processed (resize (mkF cs true) k)), RUnit.
    split; [unfold resize; destruct (_ <? _)%N; reflexivity|]. rewrite Z.add_0_r. split; [exact C'|]. pose proof (take_size (k - 1) l). split; [lia|].
    destruct (take_total (k - 1) m NN) as (_ & TT). lia.
  - exists cs, (RSize (fsize (mkF cs true))). split; [reflexivity|]. rewrite Z.add_0_r. repeat (split; [assumption|]). lia.
  - exists cs, (RBool true). split; [reflexivity|]. rewrite Z.add_0_r. repeat (split; [assumption|]). lia.
Qed.
Lemma close_run : forall B, B = 2 ^ 2096 -> forall ops d cs l m, close d cs l m -> (sizeN l + 1 < two64)%N -> Forall sum_call ops -> 0 <= d ->
  d + total (map additions ops) + 64 < 2 ^ 52 -> 2 * (total m + total (map weight ops)) < B ->
  exists cs' rs, frun sumD (mkF cs true) ops = Val (mkF cs' true, rs) /\
    close (d + total (map additions ops)) cs' (fold_left (after units) ops l) (fold_left (after magnitude) ops m) /\
    (sizeN (fold_left (after units) ops l) + 1 < two64)%N /\ total (fold_left (after magnitude) ops m) <= total m + total (map weight ops).
Proof.
  intros B EB. induction ops as [|o ops IH]; intros d cs l m C S OK D0 D T.
  - exists cs, []. split; [reflexivity|]. cbn [map fold_left]. change (total []) with 0. rewrite !Z.add_0_r. repeat (split; [assumption|]). lia.
  - apply Forall_cons_iff in OK; destruct OK as (O & OS). cbn [map fold_left frun] in *.
    assert (TA : forall x w, total (x :: w) = x + total w) by reflexivity. rewrite !TA in *. pose proof (weight_nonneg o) as WN.
    assert (WS : 0 <= total (map weight ops) /\ 0 <= total (map additions ops)) by (split; apply total_nonneg, Forall_map, Forall_forall; intros; apply weight_nonneg).
    destruct (close_step B EB o d cs l m C S O D0 ltac:(lia) ltac:(lia)) as (cs1 & r & R & C1 & S1 & T1). rewrite R. cbn [bind].
    destruct (IH (d + additions o) cs1 _ _ C1 S1 OS ltac:(lia) ltac:(lia) ltac:(lia)) as (cs' & rs & R' & C' & S' & T'). rewrite R'. cbn [bind].
    exists cs', (r :: rs). split; [reflexivity|]. rewrite Z.add_assoc. split; [exact C'|]. split; [exact S'|lia].
Qed.
Lemma history_error : forall B, B = 2 ^ 2096 -> forall ops s e, begins_built ops -> Forall sum_call ops -> total (map additions ops) + 64 < 2 ^ 52 -> 2 * total (map weight ops) < B ->
  exists t rs r, frun sumD fenwick_default ops = Val (t, rs) /\ query sumD t s e = Val r /\
    off_by (total (map additions ops) + 65) (2 * total (firstn (N.to_nat (N.max s e)) (elements magnitude ops))) (range_value sumZ (elements units ops) s e) r.
Proof.
  intros B EB [|[input n|p v|p v|s' e'|p|k| | |] ops] s e BB OK D T; try contradiction. clear BB.
  apply Forall_cons_iff in OK; destruct OK as ((F & SI) & OS). cbn [map additions weight] in *.
  assert (TA : forall x w, total (x :: w) = x + total w) by reflexivity. rewrite !TA in *.
  assert (WS : 0 <= total (map weight ops) /\ 0 <= total (map additions ops)) by (split; apply total_nonneg, Forall_map, Forall_forall; intros; apply weight_nonneg).
  assert (MN : Forall (Z.le 0) (map magnitude input)) by (apply Forall_map, Forall_forall; intros; unfold magnitude; lia).
  pose proof (total_nonneg _ MN) as MN'. destruct (take_total n _ MN) as (_ & TT). rewrite take_map in TT.
  destruct (close_build B EB fenwick_default input n) as (cs0 & R0 & C0); trivial; [now right|lia|lia|].
  pose proof (take_size n input) as TS.
  destruct (close_run B EB ops _ cs0 _ _ C0) as (cs & rs & R & C & S & TW); trivial; try lia; [unfold sizeN in *; rewrite map_length; eapply N.le_lt_trans; [apply N.add_le_mono_r; exact TS|exact SI]|].
  unfold elements. cbn [fold_left after frun fstep]. rewrite R0. cbn [bind]. rewrite R. cbn [bind].
  set (l := fold_left (after units) ops (map units (take n input))) in *. set (m := fold_left (after magnitude) ops (map magnitude (take n input))) in *.
  pose proof C as (L1 & L2 & NN & _).
  assert (Q : exists r, query sumD (mkF cs true) s e = Val r /\ off_by (Z.of_N (sizeN input) + total (map additions ops) + 65)
     (2 * total (firstn (N.to_nat (N.max s e)) m)) (range_value sumZ l s e) r).
  { unfold query. cbn [built negb]. assert (FS : fsize (mkF cs true) = (sizeN l + 1)%N) by (unfold fsize, sizeN; cbn [processed]; lia). rewrite FS.
    replace (wsub (sizeN l + 1) 1) with (sizeN l).
    2:{ unfold wsub. replace (sizeN l + 1 + two64 - 1)%N with (sizeN l + 1 * two64)%N by lia. rewrite N.mod_add by (unfold two64; lia). rewrite N.mod_small; lia. }
    cbn [processed]. destruct (near_range B EB _ cs l m (N.min (N.min s e) (sizeN l)) (N.min (N.max s e) (sizeN l)) C S) as (r & R' & O); try lia.
    exists r. split; [exact R'|]. unfold range_value. cbv zeta. match goal with |- context [combine_all sumZ ?x] => change (combine_all sumZ x) with (total x) end.
    replace (firstn (N.to_nat (N.max s e)) m) with (firstn (N.to_nat (N.min (N.max s e) (sizeN l))) m); [exact O|].
    destruct (N.le_gt_cases (N.max s e) (sizeN l)); [now rewrite N.min_l|]. rewrite N.min_r by lia. rewrite !firstn_all2; trivial; unfold sizeN in *; lia. }
  destruct Q as (r & QR & QO). exists (mkF cs true), (RUnit :: rs), r. split; [reflexivity|]. split; [exact QR|exact QO].
Qed.
