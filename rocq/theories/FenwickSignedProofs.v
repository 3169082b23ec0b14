(** Proofs for FenwickSignedProps.v *)
Require Import List Arith NArith ZArith Lia Bool.
Require Import Floats.SpecFloat.
Require Import Verif.Base Verif.Cint Verif.FenwickModel Verif.FenwickSpec Verif.FenwickProofs.
Require Import Verif.DoubleModel Verif.DoubleSpec Verif.DoubleProofs Verif.DoubleSumProofs Verif.FenwickSignedModel Verif.FenwickSignedSpec.
Import ListNotations.
Local Open Scope Z_scope.

Lemma size_map : forall {A B} (h : A -> B) l, sizeN (map h l) = sizeN l.
Proof. intros. unfold sizeN. now rewrite map_length. Qed.
Lemma cell_map : forall {A B} (h : A -> B) l p, cell (map h l) p = option_map h (cell l p).
Proof. intros. unfold cell. apply nth_error_map. Qed.
Lemma set_nth_map : forall {A B} (h : A -> B) l n x, set_nth (map h l) n (h x) = map h (set_nth l n x).
Proof. induction l as [|y l IH]; intros [|n] x; cbn; trivial. now rewrite IH. Qed.
Lemma repeat_map : forall {A B} (h : A -> B) x n, repeat (h x) n = map h (repeat x n).
Proof. induction n; cbn; congruence. Qed.
Lemma Forall_cell : forall {A} (P : A -> Prop) l p c, Forall P l -> cell l p = Some c -> P c.
Proof. intros A P l p c F E. rewrite Forall_forall in F. apply F. unfold cell in E. eauto using nth_error_In. Qed.
Lemma Forall_set : forall {A} (P : A -> Prop) l n x, Forall P l -> P x -> Forall P (set_nth l n x).
Proof. induction l as [|y l IH]; intros [|n] x F X; cbn; inversion F; auto. Qed.

Lemma update_no_exn : forall b f c p v e, s_update_cells b f c p v <> Exn e.
Proof.
  induction f as [|f IH]; intros c p v e; cbn [s_update_cells]; destruct (_ && _); try discriminate. destruct (cell _ _); [|discriminate].
  unfold add, chk. destruct (fitsb _ _); cbn [bind]; [apply IH|discriminate].
Qed.
Lemma loop_no_exn : forall b f c i v e, s_query_loop b f c i v <> Exn e.
Proof.
  induction f as [|f IH]; intros c i v e; cbn [s_query_loop]; destruct (_ =? _)%N; try discriminate. destruct (cell _ _); [|discriminate].
  unfold add, chk. destruct (fitsb _ _); cbn [bind]; [apply IH|discriminate].
Qed.
Lemma prefix_no_exn : forall b c p e, s_prefix_query b c p <> Exn e.
Proof. intros. unfold s_prefix_query. destruct (cell _ _); [apply loop_no_exn|discriminate]. Qed.
Lemma sub_no_exn : forall b x y e, sub b x y <> Exn e.
Proof. intros. unfold sub, chk. destruct (fitsb _ _); discriminate. Qed.
Lemma range_no_exn : forall b c s e x, s_range_query b c s e <> Exn x.
Proof.
  intros b c s e x. unfold s_range_query. pose proof (prefix_no_exn b c) as P.
  assert (P0 : forall x, (if (s <=? 1)%N then Val 0 else s_prefix_query b c (s - 1)) <> Exn x) by (intros; destruct (_ <=? _)%N; [discriminate|apply P]).
  destruct (if (s <=? 1)%N then _ else _) as [d|y| |]; cbn [bind]; try discriminate; [|exfalso; exact (P0 _ eq_refl)].
  specialize (P e). destruct (s_prefix_query b c e) as [v|y| |]; cbn [bind]; try discriminate; [|exfalso; exact (P _ eq_refl)].
  destruct (truthy d); [apply sub_no_exn|discriminate].
Qed.

(** ** A defined run is the run of the other element type *)
Section Sim.
Context {T : Type} (tr : transform T) (h : Z -> T) (ok : Z -> Prop) (b : Z).
Hypothesis H_add : forall x y z, ok x -> ok y -> add b x y = Val z -> ok z /\ f_op tr (h x) (h y) = h z.
Hypothesis H_sub : forall x y z, ok x -> ok y -> sub b x y = Val z -> ok z /\ f_discard tr (h x) (h y) = Some (h z).
Hypothesis H_null : f_null tr = h 0.
Hypothesis H_zero : f_zero tr = h 0.
Hypothesis H_ok : ok 0.
Hypothesis H_truthy : forall x, ok x -> f_truthy tr (h x) = truthy x.

Lemma sim_update : forall fuel cells p v c, Forall ok cells -> ok v -> s_update_cells b fuel cells p v = Val c ->
  Forall ok c /\ update_cells tr fuel (map h cells) p (h v) = Val (map h c).
Proof.
  induction fuel as [|fuel IH]; intros cells p v c F V E; cbn [s_update_cells update_cells] in *; rewrite size_map.
  - destruct (_ && _); [discriminate|]. injection E as <-. now split.
  - destruct (_ && _); [|injection E as <-; now split]. rewrite cell_map. destruct (cell cells p) as [x|] eqn:C; [|discriminate]. cbn [option_map].
    destruct (add b x v) as [r| | |] eqn:A; try discriminate. cbn [bind] in E.
    destruct (H_add _ _ _ (Forall_cell _ _ _ _ F C) V A) as (R & ->). rewrite set_nth_map. apply IH; trivial. now apply Forall_set.
Qed.
Lemma sim_loop : forall fuel cells i v r, Forall ok cells -> ok v -> s_query_loop b fuel cells i v = Val r ->
  ok r /\ query_loop tr fuel (map h cells) i (h v) = Val (h r).
Proof.
  induction fuel as [|fuel IH]; intros cells i v r F V E; cbn [s_query_loop query_loop] in *.
  - destruct (_ =? _)%N; [|discriminate]. injection E as <-. now split.
  - destruct (_ =? _)%N; [injection E as <-; now split|]. rewrite cell_map. destruct (cell cells _) as [x|] eqn:C; [|discriminate]. cbn [option_map].
    destruct (add b x v) as [w| | |] eqn:A; try discriminate. cbn [bind] in E.
    destruct (H_add _ _ _ (Forall_cell _ _ _ _ F C) V A) as (R & ->). now apply IH.
Qed.
Lemma sim_prefix : forall cells p r, Forall ok cells -> s_prefix_query b cells p = Val r ->
  ok r /\ prefix_query tr (map h cells) p = Val (h r).
Proof.
  intros cells p r F E. unfold s_prefix_query, prefix_query in *. rewrite cell_map. destruct (cell cells p) as [x|] eqn:C; [|discriminate]. cbn [option_map].
  apply sim_loop; trivial. exact (Forall_cell _ _ _ _ F C).
Qed.
Lemma sim_range : forall cells s e r, Forall ok cells -> s_range_query b cells s e = Val r ->
  ok r /\ range_query tr (map h cells) s e = Val (h r).
Proof.
  intros cells s e r F E. unfold s_range_query, range_query in *.
  assert (X : exists d, (if (s <=? 1)%N then Val 0 else s_prefix_query b cells (s - 1)) = Val d /\ ok d /\
    (if (s <=? 1)%N then Val (f_zero tr) else prefix_query tr (map h cells) (s - 1)) = Val (h d)).
  { destruct (s <=? 1)%N; [exists 0; now rewrite H_zero|]. destruct (s_prefix_query b cells (s - 1)) as [d| | |] eqn:P; try discriminate.
    exists d. destruct (sim_prefix _ _ _ F P). now rewrite H0. }
  destruct X as (d & X & OD & ->). rewrite X in E. cbn [bind] in *.
  destruct (s_prefix_query b cells e) as [v| | |] eqn:P; try discriminate. destruct (sim_prefix _ _ _ F P) as (OV & ->). cbn [bind] in *.
  rewrite H_truthy by trivial. destruct (truthy d); [|injection E as <-; now split].
  destruct (H_sub _ _ _ OV OD E) as (R & ->). now split.
Qed.
Lemma sim_build_loop : forall inp cells ii c, Forall ok cells -> Forall ok inp -> s_build_loop b hops cells ii inp = Val c ->
  Forall ok c /\ build_loop tr hops (map h cells) ii (map h inp) = Val (map h c).
Proof.
  induction inp as [|v inp IH]; intros cells ii c F FI E; cbn [s_build_loop build_loop map] in *; [injection E as <-; now split|].
  inversion FI; subst. destruct (s_update_cells b hops cells ii v) as [x| | |] eqn:U; try discriminate. cbn [bind] in E.
  destruct (sim_update _ _ _ _ _ F H1 U) as (FX & ->). cbn [bind]. now apply IH.
Qed.

Definition conv (t : fenwick Z) : fenwick T := mkF (map h (processed t)) (built t).
Definition okay (t : fenwick Z) : Prop := Forall ok (processed t).
Lemma Forall_repeat0 : forall n, Forall ok (repeat 0 n).
Proof. induction n; cbn; auto. Qed.
Lemma sim_build : forall t inp n t', okay t -> Forall ok inp -> s_build b t inp n = Val t' ->
  okay t' /\ build tr (conv t) (map h inp) n = Val (conv t').
Proof.
  intros t inp n t' OT FI E. unfold s_build, build in *. unfold fsize. cbn [conv processed built]. rewrite !size_map.
  set (size := if (n <? sizeN inp)%N then (n + 1)%N else (sizeN inp + 1)%N) in *.
  fold (fsize t). unfold refill. rewrite H_null, repeat_map.
  set (cells := if (fsize t <? size)%N then repeat 0 (N.to_nat size) else if built t then repeat 0 (N.to_nat size) else processed t) in *.
  replace (if (fsize t <? size)%N then map h (repeat 0 (N.to_nat size)) else if built t then map h (repeat 0 (N.to_nat size)) else map h (processed t))
    with (map h cells) by (unfold cells; destruct (fsize t <? size)%N, (built t); reflexivity).
  rewrite firstn_map. destruct (s_build_loop b hops cells 1 (firstn (N.to_nat (size - 1)) inp)) as [c| | |] eqn:B; try discriminate.
  cbn [bind] in E. injection E as <-.
  assert (FC : Forall ok cells) by (unfold cells; destruct (fsize t <? size)%N, (built t); auto using Forall_repeat0).
  destruct (sim_build_loop _ _ _ _ FC (Forall_firstn' _ _ _ FI) B) as (O & ->). cbn [bind]. now split.
Qed.
Lemma sim_step : forall t o t' r, okay t -> call_all ok o -> s_step b t o = Val (t', r) ->
  okay t' /\ fstep tr (conv t) (call_map h o) = Val (conv t', answer_map h r).
Proof.
  intros t o t' r OT CO E. destruct o as [inp n|p v|p v|s e|p|n| | |]; cbn [s_step fstep call_map call_all] in *.
  - destruct (s_build b t inp n) as [x| | |] eqn:B; try discriminate. cbn [bind] in E. injection E as <- <-.
    destruct (sim_build _ _ _ _ OT CO B) as (O & ->). now split.
  - unfold s_update, update, fsize in *. cbn [conv processed built] in *. rewrite size_map, H_truthy by trivial.
    destruct (built t) eqn:BT; cbn [negb] in *; [|injection E as <- <-; cbn [answer_map]; unfold conv; rewrite BT; now split].
    destruct (_ && _).
    + destruct (s_update_cells b hops (processed t) p v) as [c| | |] eqn:U; try discriminate; [|now apply update_no_exn in U]. cbn [bind] in E. injection E as <- <-.
      destruct (sim_update _ _ _ _ _ OT CO U) as (O & ->). cbn [bind]. now split.
    + injection E as <- <-. split; [exact OT|]. unfold conv. now rewrite BT.
  - unfold s_set_value, set_value, fsize in *. cbn [conv processed built] in *. rewrite size_map.
    destruct (built t) eqn:BT; cbn [negb] in *; [|injection E as <- <-; cbn [answer_map]; unfold conv; rewrite BT; now split].
    destruct (_ && _).
    + destruct (s_range_query b (processed t) p p) as [w| | |] eqn:Q; try discriminate; [|now apply range_no_exn in Q]. destruct (sim_range _ _ _ _ OT Q) as (OW & ->). cbn [bind] in *.
      destruct (sub b v w) as [d| | |] eqn:S; try discriminate; [|now apply sub_no_exn in S]. destruct (H_sub _ _ _ CO OW S) as (OD & ->). cbn [bind] in *.
      rewrite H_truthy by trivial. destruct (truthy d).
      * destruct (s_update_cells b hops (processed t) p d) as [c| | |] eqn:U; try discriminate; [|now apply update_no_exn in U]. cbn [bind] in E. injection E as <- <-.
        destruct (sim_update _ _ _ _ _ OT OD U) as (O & ->). cbn [bind]. now split.
      * injection E as <- <-. split; [exact OT|]. unfold conv. now rewrite BT.
    + injection E as <- <-. split; [exact OT|]. unfold conv. now rewrite BT.
  - unfold s_query, query, fsize in *. cbn [conv processed built] in *. rewrite size_map.
    destruct (built t) eqn:BT; cbn [negb] in *; [|injection E as <- <-; cbn [answer_map]; unfold conv; rewrite BT; now split].
    destruct (s_range_query b (processed t) _ _) as [w| | |] eqn:Q in E; try discriminate; injection E as <- <-.
    + destruct (sim_range _ _ _ _ OT Q) as (OW & ->). split; [exact OT|]. unfold conv. now rewrite BT.
    + exfalso. exact (range_no_exn _ _ _ _ _ Q).
  - unfold at_ in *. cbn [conv processed] in *. rewrite cell_map. destruct (cell (processed t) p); injection E as <- <-; now split.
  - injection E as <- <-. unfold resize, fsize. cbn [conv processed built]. rewrite size_map.
    destruct (_ <? _)%N; [|now split]. split; [now apply Forall_firstn'|]. unfold conv. cbn [processed built]. now rewrite firstn_map.
  - injection E as <- <-. split; [exact OT|]. unfold fsize. cbn [conv processed]. now rewrite size_map.
  - injection E as <- <-. now split.
  - injection E as <- <-. split; [constructor|reflexivity].
Qed.
Lemma sim_run : forall ops t t' rs, okay t -> Forall (call_all ok) ops -> s_run b t ops = Val (t', rs) ->
  okay t' /\ frun tr (conv t) (map (call_map h) ops) = Val (conv t', map (answer_map h) rs).
Proof.
  induction ops as [|o ops IH]; intros t t' rs OT F E; cbn [s_run frun map] in *; [injection E as <- <-; now split|].
  inversion F; subst. destruct (s_step b t o) as [[t1 r]| | |] eqn:S; try discriminate. cbn [bind] in E.
  destruct (sim_step _ _ _ _ OT H1 S) as (O1 & ->). cbn [bind].
  destruct (s_run b t1 ops) as [[t2 rs2]| | |] eqn:R; try discriminate. cbn [bind] in E. injection E as <- <-.
  destruct (IH _ _ _ O1 H2 R) as (O2 & ->). cbn [bind]. now split.
Qed.
End Sim.

(** ** If all sums fit, nothing overflows *)
Lemma fits_zero : forall b, 0 < b -> fits b 0.
Proof. intros b B. unfold fits, imin, imax. pose proof (Z.pow_pos_nonneg 2 (b - 1) ltac:(lia) ltac:(lia)). lia. Qed.
Lemma update_keeps : forall fuel cells p v c q, (p < two64)%N -> (q < p)%N \/ p = 0%N -> update_cells sumZ fuel cells p v = Val c -> cell c q = cell cells q.
Proof.
  induction fuel as [|fuel IH]; intros cells p v c q P Q E; cbn [update_cells] in E.
  - destruct (_ && _); [discriminate|]. now injection E as <-.
  - destruct (N.eqb_spec p 0) as [Z|NZ]; cbn [negb andb] in E; [now injection E as <-|]. destruct (_ <? _)%N; [|now injection E as <-].
    destruct (cell cells p) as [x|] eqn:C; [|discriminate]. destruct Q as [Q|Q]; [|contradiction].
    destruct (next_update_step p 0) as [NU _]; [lia|trivial|exists p; rewrite N.pow_0_r; lia|].
    assert (NB : (next_update p < two64)%N) by (destruct NU as [[-> ?]|[-> ?]]; lia).
    apply IH with (q := q) in E; [|exact NB|destruct NU as [[-> _]|[-> _]]; lia]. rewrite E. unfold cell. apply nth_error_set_nth_neq. lia.
Qed.
Lemma signed_update : forall b fuel cells p v c, (p < two64)%N -> update_cells sumZ fuel cells p v = Val c -> Forall (fits b) c ->
  s_update_cells b fuel cells p v = Val c.
Proof.
  induction fuel as [|fuel IH]; intros cells p v c P E F; cbn [update_cells s_update_cells] in *.
  - destruct (_ && _); [discriminate|trivial].
  - destruct (N.eqb_spec p 0) as [Z|NZ]; cbn [negb andb] in *; [trivial|]. destruct (N.ltb_spec p (sizeN cells)) as [L|]; [|trivial].
    destruct (cell cells p) as [x|] eqn:C; [|discriminate].
    destruct (next_update_step p 0) as [NU _]; [lia|trivial|exists p; rewrite N.pow_0_r; lia|].
    assert (K : cell c p = Some (x + v)).
    { rewrite (update_keeps _ _ _ _ _ p) with (3 := E); [|destruct NU as [[-> ?]|[-> ?]]; lia|
        destruct NU as [[-> _]|[-> _]]; [left; pose proof (lowbit_pos_N p); lia|now right]].
      unfold cell. rewrite nth_error_set_nth_eq; [reflexivity|]. unfold sizeN in L. lia. }
    unfold add. rewrite chk_ok by (apply (Forall_cell _ _ _ _ F K)). cbn [bind]. apply IH; trivial. destruct NU as [[-> ?]|[-> ?]]; lia.
Qed.
Local Notation laws := sumZ_laws.
Local Notation yes := (fun _ : Z => True).
Lemma yes_all : forall l : list Z, Forall yes l.
Proof. intros l. apply Forall_forall. trivial. Qed.
Lemma rep_fits : forall b l, sums_fit b l -> Forall (fits b) (rep sumZ l).
Proof.
  intros b l F. unfold rep. apply Forall_forall. intros x I. apply in_map_iff in I. destruct I as (q & <- & _). exact (F _ _).
Qed.
Lemma signed_update_rep : forall b l p v, (sizeN l + 1 < two64)%N -> (p < two64)%N -> sums_fit b (change l (N.to_nat p) (fun x => x + v)) ->
  s_update_cells b hops (rep sumZ l) p v = Val (rep sumZ (change l (N.to_nat p) (fun x => x + v))).
Proof.
  intros b l p v S P F. apply signed_update; [trivial| |now apply rep_fits].
  exact (update_rep sumZ yes laws l p v (yes_all l) Logic.I S P).
Qed.
Lemma signed_loop_rep : forall b l stop, sums_fit b l -> forall fuel index v,
  (fuel <= 64)%nat -> (sizeN l + 1 < two64)%N -> (index <= stop)%N -> (stop <= sizeN l)%N -> (2 ^ N.of_nat (63 - fuel) | index)%N ->
  v = zsum (slice l (N.to_nat (index - lowbit index)) (N.to_nat stop)) ->
  s_query_loop b fuel (rep sumZ l) index v = Val (zsum (firstn (N.to_nat stop) l)).
Proof.
  intros b l stop F. induction fuel as [|fuel IH]; intros index v Hf Hs Hi Hst Hd Hv.
  - destruct (N.eq_dec index 0) as [->|H0].
    { cbn. rewrite Hv. simpl. now rewrite slice_0. }
    destruct (next_query_step index 63) as [Hn Hd']; auto; try lia.
    apply divide_two64_lt in Hd'; [|lia].
    cbn [s_query_loop]. rewrite Hd'. simpl. rewrite Hv.
    rewrite <- Hn, Hd'. simpl. now rewrite slice_0.
  - destruct (N.eq_dec index 0) as [->|H0].
    { cbn. rewrite Hv. simpl. now rewrite slice_0. }
    destruct (next_query_step index (N.of_nat (63 - S fuel))) as [Hn Hd']; auto; try lia.
    assert (Hd2 : (2 ^ N.of_nat (63 - fuel) | next_query index)%N).
    { eapply N.divide_trans; [|exact Hd']. apply pow_divide_le. lia. }
    cbn [s_query_loop].
    destruct (N.eqb_spec (next_query index) 0) as [E|E].
    { rewrite Hv, <- Hn, E. simpl. now rewrite slice_0. }
    rewrite cell_rep by lia.
    set (i := next_query index) in *.
    assert (A : block_value sumZ l i + v = zsum (slice l (N.to_nat (i - lowbit i)) (N.to_nat stop))).
    { rewrite Hv, <- Hn. unfold block_value. pose proof (lowbit_le i).
      pose proof (all_app sumZ yes laws (slice l (N.to_nat (i - lowbit i)) (N.to_nat i)) (slice l (N.to_nat i) (N.to_nat stop)) (yes_all _) (yes_all _)) as AA.
      rewrite (slice_app l (N.to_nat (i - lowbit i)) (N.to_nat i) (N.to_nat stop)) by lia. exact (eq_sym AA). }
    unfold add. rewrite A, chk_ok by apply F. cbn [bind]. apply IH; auto; lia.
Qed.
Lemma signed_prefix_rep : forall b l p, sums_fit b l -> (sizeN l + 1 < two64)%N -> (p <= sizeN l)%N ->
  s_prefix_query b (rep sumZ l) p = Val (zsum (firstn (N.to_nat p) l)).
Proof.
  intros b l p F Hs Hp. unfold s_prefix_query. rewrite cell_rep by auto.
  apply signed_loop_rep; auto; try (unfold hops; lia).
  exists p. change (2 ^ N.of_nat (63 - hops))%N with 1%N. lia.
Qed.
Lemma zsum_app : forall x y, zsum (x ++ y) = zsum x + zsum y.
Proof. induction x as [|a x IH]; intros y; cbn [zsum fold_right app]; [reflexivity|]. fold (zsum x) (zsum (x ++ y)). rewrite IH. lia. Qed.
Lemma zsum_slice : forall l lo hi, (lo <= hi)%nat -> zsum (slice l lo hi) = zsum (firstn hi l) - zsum (firstn lo l).
Proof. intros l lo hi L. rewrite <- (slice_0 l hi), <- (slice_0 l lo), (slice_app l 0 lo hi), zsum_app by lia. lia. Qed.
Lemma signed_range_rep : forall b l lo hi, sums_fit b l -> (sizeN l + 1 < two64)%N -> (lo <= hi)%N -> (hi <= sizeN l)%N ->
  s_range_query b (rep sumZ l) lo hi = Val (zsum (slice l (N.to_nat (lo - 1)) (N.to_nat hi))).
Proof.
  intros b l lo hi F Hs Hlo Hhi. unfold s_range_query. pose proof (F (N.to_nat (lo - 1)) (N.to_nat hi)) as FS. rewrite zsum_slice in * by lia.
  destruct (N.leb_spec lo 1) as [C|C].
  - cbn [bind]. rewrite signed_prefix_rep by auto. cbn [bind truthy]. change (truthy 0) with false. cbn iota.
    replace (N.to_nat (lo - 1)) with 0%nat by lia. f_equal. cbn [firstn zsum fold_right]. lia.
  - rewrite !signed_prefix_rep by (auto; lia). cbn [bind]. unfold truthy, sub.
    destruct (Z.eqb_spec (zsum (firstn (N.to_nat (lo - 1)) l)) 0) as [E|E]; cbn [negb].
    + f_equal. lia.
    + now apply chk_ok.
Qed.
Lemma zsum_zeros : forall n m, zsum (firstn n (repeat 0 m)) = 0.
Proof. induction n as [|n IH]; intros [|m]; try reflexivity. exact (IH m). Qed.
Lemma prefix_sums_fit : forall b d r m, sums_fit b (d ++ r) -> sums_fit b (d ++ repeat 0 m).
Proof.
  intros b d r m F lo hi.
  assert (P : forall n, zsum (firstn n (d ++ repeat 0 m)) = zsum (firstn (min n (length d)) (d ++ r))).
  { intros n. rewrite !firstn_app, !zsum_app, zsum_zeros. replace (min n (length d) - length d)%nat with 0%nat by lia. cbn [firstn zsum fold_right].
    destruct (Nat.le_ge_cases n (length d)); [now rewrite Nat.min_l by trivial|]. rewrite Nat.min_r by trivial. now rewrite !firstn_all2 by lia. }
  destruct (Nat.le_gt_cases lo hi) as [L|L].
  - rewrite zsum_slice, !P by trivial. rewrite <- zsum_slice by lia. apply F.
  - unfold slice. replace (hi - lo)%nat with 0%nat by lia. specialize (F lo hi). unfold slice in F. now replace (hi - lo)%nat with 0%nat in F by lia.
Qed.
Lemma signed_build_loop : forall b inp done, sums_fit b (done ++ inp) -> (sizeN done + sizeN inp + 1 < two64)%N ->
  s_build_loop b hops (rep sumZ (done ++ repeat 0 (length inp))) (sizeN done + 1) inp = Val (rep sumZ (done ++ inp)).
Proof.
  intros b. induction inp as [|v inp IH]; intros done F HS.
  - reflexivity.
  - cbn [s_build_loop length repeat]. unfold sizeN in HS. simpl in HS.
    assert (E : change (done ++ 0 :: repeat 0 (length inp)) (N.to_nat (sizeN done + 1)) (fun x => x + v) = (done ++ [v]) ++ repeat 0 (length inp)).
    { replace (N.to_nat (sizeN done + 1)) with (S (length done)) by (unfold sizeN; lia). rewrite change_mid, <- app_assoc. reflexivity. }
    rewrite signed_update_rep; rewrite ?E.
    + cbn [bind]. replace (sizeN done + 1 + 1)%N with (sizeN (done ++ [v]) + 1)%N by (unfold sizeN; rewrite app_length; simpl; lia).
      rewrite IH; rewrite <- ?app_assoc; trivial. unfold sizeN. rewrite app_length. simpl. lia.
    + unfold sizeN. rewrite app_length. simpl. rewrite repeat_length. lia.
    + unfold sizeN in *. lia.
    + apply prefix_sums_fit with (r := inp). now rewrite <- app_assoc.
Qed.
Lemma signed_build : forall b t a input n, Rel sumZ yes t a -> sums_fit b (take n input) -> (sizeN input + 1 < two64)%N ->
  s_build b t input n = Val (mkF (rep sumZ (take n input)) true).
Proof.
  intros b t a input n HR F Hs. unfold s_build.
  set (size := if (n <? sizeN input)%N then (n + 1)%N else (sizeN input + 1)%N).
  assert (Hsz : (size = sizeN (take n input) + 1)%N).
  { unfold size, take. destruct (N.ltb_spec n (sizeN input)); [|reflexivity].
    unfold sizeN in *. rewrite firstn_length. lia. }
  assert (Htake : firstn (N.to_nat (size - 1)) input = take n input).
  { unfold size, take. destruct (N.ltb_spec n (sizeN input)).
    - f_equal. lia.
    - apply firstn_all2. unfold sizeN. lia. }
  replace (if (fsize t <? size)%N then repeat 0 (N.to_nat size)
           else if built t then repeat 0 (N.to_nat size) else processed t)
    with (rep sumZ ([] ++ repeat 0 (length (take n input)))).
  2:{ cbn [app]. rewrite (rep_repeat_null sumZ yes laws (length (take n input)) : rep sumZ (repeat 0 _) = repeat 0 _).
      replace (S (length (take n input))) with (N.to_nat size)
        by (rewrite Hsz; unfold sizeN; lia).
      destruct HR; cbn [built processed].
      - destruct (N.ltb_spec (fsize (mkF (@nil Z) false)) size); auto.
        unfold fsize, sizeN in *. simpl in *. lia.
      - destruct (N.ltb_spec (fsize (mkF (@nil Z) true)) size); auto.
      - destruct (N.ltb_spec (fsize (mkF (rep sumZ l) true)) size); auto. }
  rewrite Htake.
  change 1%N with (sizeN (@nil Z) + 1)%N.
  rewrite signed_build_loop; auto.
  unfold sizeN at 1. simpl. pose proof (take_size n input). lia.
Qed.
Lemma call_fop : forall o : fop Z, call_ok o -> fop_ok sumZ yes o.
Proof. intros [inp n|p v|p v|s e|p|n| | |] C; cbn in *; trivial; [split; [apply yes_all|exact C]|split; [trivial|apply sumZ_reachable]]. Qed.
Lemma query_agree : forall b l s e, sums_fit b l -> (sizeN l + 1 < two64)%N -> s_query b (mkF (rep sumZ l) true) s e = Val (range_value sumZ l s e).
Proof.
  intros b l s e F S. unfold s_query. cbn [built negb processed]. rewrite fsize_rep.
  replace (wsub (sizeN l + 1) 1) with (sizeN l).
  2:{ unfold wsub. replace (sizeN l + 1 + two64 - 1)%N with (sizeN l + 1 * two64)%N by lia. rewrite N.mod_add by (unfold two64; lia). rewrite N.mod_small; lia. }
  apply signed_range_rep; auto; lia.
Qed.
Lemma signed_step : forall b t a o a' r, Rel sumZ yes t a -> call_ok o -> state_fits b a -> change_fits b a o -> sstep sumZ a o = Some (a', r) -> state_fits b a' ->
  exists t', s_step b t o = Val (t', r) /\ Rel sumZ yes t' a'.
Proof.
  intros b t a o a' r HR C SF CF E SF'. pose proof (step_rel sumZ yes laws t a o HR (call_fop o C)) as ST. rewrite E in ST. destruct ST as (t' & ST & HR').
  exists t'. split; [|exact HR']. rewrite <- ST.
  destruct o as [inp n|p v|p v|s e|p|n| | |]; try reflexivity.
  - cbn [sstep] in E. destruct a; injection E as <- <-; cbn [s_step fstep] in *; rewrite (signed_build b t _ inp n HR SF' C), (build_rel sumZ yes laws t _ inp n HR (yes_all _) C); reflexivity.
  - cbn [s_step fstep]. destruct HR as [| |l Hl Hs]; [reflexivity|now destruct p|]. cbn [sstep] in E. unfold s_update, update. cbn [built negb processed]. rewrite fsize_rep.
    destruct (N.ltb_spec p (sizeN l + 1)) as [L|L]; cbn [andb]; [|reflexivity]. injection E as <- <-. change (f_truthy sumZ v) with (truthy v).
    destruct (truthy v); [|reflexivity]. rewrite signed_update_rep by (trivial; lia).
    rewrite (update_rep sumZ yes laws l p v (yes_all l) Logic.I Hs) by lia. reflexivity.
  - cbn [s_step fstep]. destruct HR as [| |l Hl Hs]; [reflexivity|now destruct p|]. cbn [sstep] in E. unfold s_set_value, set_value. cbn [built negb processed]. rewrite fsize_rep.
    destruct (N.ltb_spec p (sizeN l + 1)) as [L|L]; cbn [andb]; [|reflexivity]. destruct (N.eqb_spec p 0) as [Z0|Z0]; cbn [negb]; [reflexivity|].
    destruct (N.leb_spec 1 p); [|lia]. destruct (N.leb_spec p (sizeN l)); [|lia]. cbn [andb] in E. injection E as <- <-.
    rewrite signed_range_rep by (trivial; lia). rewrite (range_query_rep sumZ yes laws l p p (yes_all l) Hs) by lia. cbn [bind].
    destruct (nth_error l (N.to_nat (p - 1))) as [x|] eqn:Ex.
    2:{ apply nth_error_None in Ex. unfold sizeN in *. lia. }
    assert (Es : slice l (N.to_nat (p - 1)) (N.to_nat p) = [x]).
    { apply list_eq_nth_error; intros i. rewrite nth_error_slice.
      destruct (Nat.ltb_spec i (N.to_nat p - N.to_nat (p - 1))).
      - assert (i = 0%nat) by lia. subst. rewrite Nat.add_0_r. rewrite Ex. reflexivity.
      - destruct i; [lia|]. destruct i; reflexivity. }
    rewrite Es. change (zsum [x]) with (x + 0). change (combine_all sumZ [x]) with (x + 0). rewrite Z.add_0_r.
    unfold sub. rewrite chk_ok by (now apply CF). cbn [bind]. change (f_discard sumZ v x) with (Some (v - x)). cbn iota. change (f_truthy sumZ (v - x)) with (truthy (v - x)).
    destruct (truthy (v - x)); [|reflexivity].
    assert (Hch : change l (N.to_nat p) (fun y => y + (v - x)) = change l (N.to_nat p) (fun _ => v)).
    { apply list_eq_nth_error; intros i. rewrite !nth_error_change.
      destruct (nth_error l i) as [y|] eqn:Ei; cbn [option_map]; auto.
      destruct (Nat.eqb_spec (S i) (N.to_nat p)); auto.
      replace i with (N.to_nat (p - 1)) in Ei by lia. rewrite Ei in Ex. injection Ex as ->. f_equal. lia. }
    rewrite signed_update_rep by (trivial; try lia; now rewrite Hch).
    rewrite (update_rep sumZ yes laws l p (v - x) (yes_all l) Logic.I Hs) by lia. reflexivity.
  - cbn [s_step fstep]. destruct HR as [| |l Hl Hs]; try reflexivity; [discriminate E|].
    rewrite query_agree, (query_rel sumZ yes laws l s e (yes_all l) Hs) by trivial. reflexivity.
Qed.
Lemma signed_run : forall b ops t a a' rs, Rel sumZ yes t a -> Forall call_ok ops -> state_fits b a -> run_fits b a ops -> srun sumZ a ops = Some (a', rs) ->
  exists t', s_run b t ops = Val (t', rs) /\ Rel sumZ yes t' a'.
Proof.
  intros b. induction ops as [|o ops IH]; intros t a a' rs HR C SF RF E; cbn [srun s_run run_fits] in *; [injection E as <- <-; eauto|].
  inversion C; subst. destruct RF as (CF & RF). destruct (sstep sumZ a o) as [[a1 r]|] eqn:S; [|discriminate]. destruct RF as (SF1 & RF).
  destruct (srun sumZ a1 ops) as [[a2 rs2]|] eqn:R; [|discriminate]. injection E as <- <-.
  destruct (signed_step b t a o a1 r HR H1 SF CF S SF1) as (t1 & -> & HR1). cbn [bind].
  destruct (IH t1 a1 a2 rs2 HR1 H2 SF1 RF R) as (t2 & -> & HR2). cbn [bind]. eauto.
Qed.
Lemma signed_defined : forall b ops a rs, Forall call_ok ops -> run_fits b Unbuilt ops -> srun sumZ Unbuilt ops = Some (a, rs) ->
  exists t, s_run b fenwick_default ops = Val (t, rs).
Proof.
  intros b ops a rs C F E. destruct (signed_run b ops fenwick_default Unbuilt a rs) as (t & R & _); trivial; [constructor|exact Logic.I|]. eauto.
Qed.

(** ** What the answers are *)
Lemma call_map_id : forall o : fop Z, call_map (fun x => x) o = o.
Proof. intros [inp n|p v|p v|s e|p|n| | |]; cbn; trivial. now rewrite map_id. Qed.
Lemma answer_map_id : forall r : fout Z, answer_map (fun x => x) r = r.
Proof. now intros []. Qed.
Lemma map_same : forall {A} (f : A -> A) l, (forall x, f x = x) -> map f l = l.
Proof. induction l as [|x l IH]; intros H; cbn; [reflexivity|]. now rewrite H, IH. Qed.
Lemma signed_exact : forall b ops t rs, Forall call_ok ops -> s_run b fenwick_default ops = Val (t, rs) -> exists a, srun sumZ Unbuilt ops = Some (a, rs).
Proof.
  intros b ops t rs C E.
  destruct (sim_run sumZ (fun x => x) yes b) with (ops := ops) (t := @fenwick_default Z) (t' := t) (rs := rs) as (_ & R); trivial; try reflexivity.
  - intros x y z _ _ A. apply chk_val in A. destruct A as (-> & _). now split.
  - intros x y z _ _ A. apply chk_val in A. destruct A as (-> & _). now split.
  - constructor.
  - apply Forall_forall. intros [] _; cbn; trivial. apply yes_all.
  - rewrite (map_same _ ops call_map_id), (map_same _ rs answer_map_id) in R.
    destruct (srun_some_of_val sumZ yes laws ops (conv (fun x => x) t) rs) as (a & S & _); [|exact R|eauto].
    eapply Forall_impl; [exact call_fop|exact C].
Qed.

(** Elements that are not negative. *)
Lemma zsum_nonneg : forall l, Forall (Z.le 0) l -> 0 <= zsum l.
Proof. induction 1; cbn [zsum fold_right]; [lia|]. fold (zsum l). lia. Qed.
Lemma slice_le : forall l lo hi, Forall (Z.le 0) l -> 0 <= zsum (slice l lo hi) <= zsum l.
Proof.
  intros l lo hi F. split; [apply zsum_nonneg; now apply Forall_slice|].
  assert (E : zsum l = zsum (firstn lo l) + (zsum (slice l lo hi) + zsum (skipn (hi - lo) (skipn lo l)))).
  { rewrite <- !zsum_app. unfold slice. now rewrite !firstn_skipn. }
  pose proof (zsum_nonneg _ (Forall_firstn' _ lo _ F)). pose proof (zsum_nonneg _ (Forall_skipn' _ (hi - lo) _ (Forall_skipn' _ lo _ F))). lia.
Qed.
Lemma within_sums : forall b l, 0 < b -> Forall (Z.le 0) l -> fits b (zsum l) -> sums_fit b l.
Proof. intros b l B F T lo hi. pose proof (slice_le l lo hi F). pose proof (fits_zero b B). unfold fits in *. lia. Qed.
Lemma element_le : forall l n x, Forall (Z.le 0) l -> nth_error l n = Some x -> 0 <= x <= zsum l.
Proof.
  induction l as [|y l IH]; intros [|n] x F E; try discriminate; inversion F; subst; cbn [zsum fold_right]; fold (zsum l).
  - injection E as <-. pose proof (zsum_nonneg l H2). lia.
  - specialize (IH n x H2 E). lia.
Qed.
Lemma within_fits : forall b ops a, 0 < b -> state_within b a -> run_within b a ops -> run_fits b a ops.
Proof.
  intros b ops. induction ops as [|o ops IH]; intros a B W R; cbn [run_within run_fits] in *; [trivial|].
  destruct (sstep sumZ a o) as [[a' r]|] eqn:S.
  - destruct R as (W' & R). split; [|split; [|now apply IH]].
    + destruct a as [|l|], o as [inp n|p v|p v|s e|p|n| | |]; cbn [change_fits]; trivial. intros x P X. cbn [sstep state_within] in *.
      assert (P' : (p <= sizeN l)%N) by (assert (N.to_nat (p - 1) < length l)%nat by (apply nth_error_Some; congruence); unfold sizeN; lia).
      destruct (N.leb_spec 1 p); [|lia]. destruct (N.leb_spec p (sizeN l)); [|lia]. cbn [andb] in S. injection S as <- <-. cbn [state_within] in W'.
      destruct W as (F & T). destruct W' as (F' & T'). pose proof (element_le l _ x F X) as EX.
      assert (XV : nth_error (change l (N.to_nat p) (fun _ => v)) (N.to_nat (p - 1)) = Some v).
      { rewrite nth_error_change, X. cbn [option_map]. replace (S (N.to_nat (p - 1)) =? N.to_nat p)%nat with true; [reflexivity|]. symmetry. apply Nat.eqb_eq. lia. }
      pose proof (element_le _ _ v F' XV) as EV. unfold fits, imin, imax in *. lia.
    + destruct a' as [|l|]; cbn [state_within state_fits] in *; trivial. destruct W'. now apply within_sums.
  - split; [|trivial]. destruct a as [|l|], o as [inp n|p v|p v|s e|p|n| | |]; cbn [change_fits]; trivial. cbn [sstep] in S. destruct (_ && _); discriminate.
Qed.
Lemma signed_nonneg : forall b ops a rs, 0 < b -> Forall call_ok ops -> run_within b Unbuilt ops -> srun sumZ Unbuilt ops = Some (a, rs) ->
  exists t, s_run b fenwick_default ops = Val (t, rs).
Proof. intros b ops a rs B C W E. apply signed_defined with (a := a); trivial. apply within_fits; trivial. exact Logic.I. Qed.

(** ** Doubles that are integers *)
Lemma opp_int : forall z, small z -> z <> 0 -> SFopp (of_int z) = of_int (- z).
Proof.
  intros z S N. destruct (of_int_small z S) as (V & F & U). apply of_int_unique; try (unfold small in *; lia).
  - destruct (of_int z); try contradiction; exact V.
  - destruct (of_int z); try contradiction; exact Logic.I.
  - rewrite Z.mul_opp_l, <- U. destruct (of_int z) as [|?| |[] m e]; try contradiction; cbn [SFopp negb units]; lia.
Qed.
Lemma dsub_int : forall a b, small a -> small b -> small (a - b) -> dsub (of_int a) (of_int b) = of_int (a - b).
Proof.
  intros a b A B AB. destruct (of_int_small a A) as (VA & FA & UA). destruct (of_int_small b B) as (VB & FB & UB). pose proof (pow_pos 1074 ltac:(lia)) as P.
  destruct (Z.eq_dec a 0) as [->|NA].
  { rewrite Z.sub_0_l. destruct (Z.eq_dec b 0) as [->|NB]; [reflexivity|]. rewrite <- opp_int by trivial.
    assert (UB' : units (of_int b) <> 0) by nia. destruct (of_int b) as [|?| |s m e]; try contradiction; reflexivity. }
  destruct (Z.eq_dec b 0) as [->|NB].
  { rewrite Z.sub_0_r. assert (UA' : units (of_int a) <> 0) by nia. destruct (of_int a) as [|?| |s m e]; try contradiction; reflexivity. }
  apply nearest_int; [trivial|]. rewrite Z.mul_sub_distr_r, <- UA, <- UB.
  destruct (of_int a) as [?|?| |sa ma ea]; try contradiction; try (exfalso; rewrite units_zero in UA; nia).
  destruct (of_int b) as [?|?| |sb mb eb]; try contradiction; try (exfalso; rewrite units_zero in UB; nia).
  apply valid_exp in VA, VB. unfold dsub, SFsub. rewrite !units_finite.
  rewrite <- Z.add_opp_r, <- sg_neg, <- (add_aligned sa ma ea (negb sb) mb eb) by lia.
  replace (cond_Zopp (negb sb) (Z.pos (fst (shl_align mb eb (Z.min ea eb))))) with (- cond_Zopp sb (Z.pos (fst (shl_align mb eb (Z.min ea eb))))) by (destruct sb; cbn [cond_Zopp negb]; lia).
  rewrite Z.add_opp_r. apply normalize_nearest; lia.
Qed.
Lemma fits_small : forall z, fits 54 z -> small z.
Proof. intros z. unfold fits, imin, imax, small. change (54 - 1) with 53. generalize (2 ^ 53). lia. Qed.
Lemma double_run : forall ops t rs, Forall (call_all small) ops -> s_run 54 fenwick_default ops = Val (t, rs) ->
  exists t', frun sumD fenwick_default (map (call_map of_int) ops) = Val (t', map (answer_map of_int) rs).
Proof.
  intros ops t rs C E.
  destruct (sim_run sumD of_int small 54) with (ops := ops) (t := @fenwick_default Z) (t' := t) (rs := rs) as (_ & R); trivial; try reflexivity.
  - intros x y z X Y A. apply chk_val in A. destruct A as (-> & F). apply fits_small in F. split; [trivial|]. now apply dadd_int.
  - intros x y z X Y A. apply chk_val in A. destruct A as (-> & F). apply fits_small in F. split; [trivial|]. cbn [sumD f_discard]. now rewrite dsub_int.
  - unfold small. lia.
  - intros x X. destruct (of_int_small x X) as (V & F & U). pose proof (pow_pos 1074 ltac:(lia)) as P. cbn [sumD f_truthy]. unfold truthy.
    destruct (Z.eqb_spec x 0) as [->|N]; [reflexivity|]. assert (U' : units (of_int x) <> 0) by nia.
    destruct (of_int x) as [|?| |s m e]; try contradiction; reflexivity.
  - constructor.
  - eauto.
Qed.
Lemma double_integers : forall ops a rs, Forall call_ok ops -> Forall (call_all small) ops -> run_fits 54 Unbuilt ops -> srun sumZ Unbuilt ops = Some (a, rs) ->
  exists t, frun sumD fenwick_default (map (call_map of_int) ops) = Val (t, map (answer_map of_int) rs).
Proof. intros ops a rs C S F E. destruct (signed_defined 54 ops a rs C F E) as (t & R). exact (double_run ops t rs S R). Qed.
