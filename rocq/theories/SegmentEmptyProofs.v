(** Proofs about segment trees rebuilt from nothing. *)
Require Import List Arith NArith ZArith Lia Bool.
Require Import Verif.Base Verif.HeapModel Verif.HeapProofs Verif.SegmentModel Verif.SegmentSpec Verif.SegmentProofs.
Require Import Verif.SegmentEmptySpec.
Import ListNotations.
Local Open Scope N_scope.

Section Proofs.
Context {T R U : Type}.
Variable tr : transform T R U.
Variable den : U -> N -> R -> R.
Hypothesis LAW : lawful tr den.
Local Notation node := (node R U).
Local Notation total := (total (join tr) (no_value tr)).
Local Notation repr := (repr tr den).
Implicit Types h : list node.

Lemma app_last_inv : forall (ys xl xr : list R) z, xr <> [] -> xl ++ xr = ys ++ [z] ->
  exists zr, xr = zr ++ [z] /\ ys = xl ++ zr.
Proof.
  intros ys xl xr z N E. destruct (exists_last N) as (zr & w & ->). exists zr.
  rewrite app_assoc in E. apply app_inj_tail in E as (<- & <-). auto.
Qed.

Lemma query_beyond : forall fuel h pos s e zs z a b, repr h pos s e (zs ++ [z]) -> s <= a -> a <= b -> e < b ->
  (N.to_nat (e - s) < fuel)%nat ->
  exists h', range_query tr fuel h a b pos (no_value tr) = Val (h', total (sub s a b (zs ++ [no_value tr]))) /\
    repr h' pos s e (zs ++ [z]) /\ sizeN h' = sizeN h /\ forall q, ~ under pos q -> cell h' q = cell h q.
Proof.
  induction fuel as [|fuel IH]; intros h pos s e zs z a b H SA AB EB F; [lia|].
  cbn [range_query]. destruct (repr_cell _ _ _ _ _ _ _ H) as (n & C & S & E & I & V & B).
  pose proof (repr_size _ _ _ _ _ _ _ H) as (LE & SZ).
  rewrite (get_ok _ _ _ C). cbn [bind]. rewrite (leaf_eq n s e) by trivial. rewrite S, E.
  rewrite (proj2 (N.eqb_neq b e)) by lia. rewrite andb_false_r. cbn [andb].
  destruct (N.eqb_spec s e) as [SE|SE].
  { exists h. split; [|auto]. assert (zs = []) as ->.
    { rewrite sizeN_app in SZ. destruct zs; [trivial|]. rewrite !sizeN_cons in SZ. lia. }
    cbn [app sub]. now destruct ((a <=? s) && (s <=? b)). }
  assert (L : s < e) by lia. clear LE SE.
  destruct (repr_inner _ _ _ _ _ _ _ _ H L C) as (xl & xr & P & Hl & Hr & X).
  rewrite (center_eq n s e) by (trivial; lia).
  pose proof (center_between s e L) as CB. set (c := (s + e) / 2) in *.
  unfold lower_bound, upper_bound. rewrite I, left_small, right_small by trivial.
  destruct (push_down_ok tr den LAW h pos s e n xl xr C S E L Hl Hr)
    as (h1 & n1 & yl & yr & E1 & Z1 & K1 & C1 & S1 & N1 & I1 & A1 & Yl & Yr & Y).
  fold c in Yl, Yr. rewrite E1. cbn [bind]. rewrite <- X in Y.
  pose proof (repr_size _ _ _ _ _ _ _ Yl) as (_ & SL). pose proof (repr_size _ _ _ _ _ _ _ Yr) as (_ & SR).
  destruct (app_last_inv _ _ _ _ (repr_nonempty _ _ _ _ _ _ _ Yr) Y) as (zr & -> & ->).
  rewrite sizeN_app in SR. change (sizeN [z]) with 1 in SR.
  assert (SUB : sub s a b ((yl ++ zr) ++ [no_value tr]) = sub s a b yl ++ sub (c + 1) a b (zr ++ [no_value tr])).
  { rewrite <- app_assoc, sub_app. do 2 f_equal. lia. }
  assert (FIN : forall h2 r,
     repr h2 (2 * pos + 1) s c yl -> repr h2 (2 * pos + 2) (c + 1) e (zr ++ [z]) -> cell h2 pos = Some n1 ->
     sizeN h2 = sizeN h -> (forall q, ~ under pos q -> cell h2 q = cell h q) ->
     r = total (sub s a b ((yl ++ zr) ++ [no_value tr])) ->
     exists h', (let* h4 := pull_up tr h2 pos (2 * pos + 1) (2 * pos + 2) in Val (h4, r))
         = Val (h', total (sub s a b ((yl ++ zr) ++ [no_value tr]))) /\
       repr h' pos s e ((yl ++ zr) ++ [z]) /\ sizeN h' = sizeN h /\ forall q, ~ under pos q -> cell h' q = cell h q).
  { intros h2 r Rl Rr C2 Z2 K2 ->.
    destruct (pull_up_ok tr den LAW h2 pos s e n1 yl (zr ++ [z]) C2 S1 N1) as (h4 & E4 & Z4 & K4 & R4); trivial; [congruence|].
    rewrite E4. cbn [bind]. exists h4. split; [trivial|]. rewrite Y in R4. split; [trivial|].
    split; [congruence|]. intros q Hq. rewrite K4; [auto|]. intros ->. apply Hq. constructor. }
  assert (NL : forall q, under (2 * pos + 1) q -> q <> pos) by (intros q Hq; apply under_le in Hq; lia).
  assert (NR : forall q, under (2 * pos + 2) q -> q <> pos) by (intros q Hq; apply under_le in Hq; lia).
  rewrite (proj2 (N.ltb_lt c b)) by lia.
  destruct (N.leb_spec a c) as [ac|ac]; cbn [andb].
  - rewrite N.min_r by lia.
    destruct (range_query_ok tr den LAW fuel h1 (2 * pos + 1) s c yl a c (no_value tr) Yl) as (h2 & E2 & R2 & Z2 & K2); [lia..|].
    rewrite E2. cbn [bind].
    assert (Yr2 : repr h2 (2 * pos + 2) (c + 1) e (zr ++ [z])).
    { apply repr_frame with h1; [trivial|]. intros q Hq. apply K2. intro. now apply (under_disjoint pos q). }
    rewrite wadd1 by lia.
    destruct (IH h2 (2 * pos + 2) (c + 1) e zr z (c + 1) b Yr2) as (h3 & E3 & R3 & Z3 & K3); [lia..|].
    rewrite E3. cbn [bind]. apply FIN; trivial.
    + apply repr_frame with h2; [trivial|]. intros q Hq. apply K3. intro. now apply (under_disjoint pos q).
    + rewrite K3, K2; trivial; intro Hq; [now apply (NL pos)|now apply (NR pos)].
    + congruence.
    + intros q Hq. rewrite K3, K2; [auto| |]; intro U1; apply Hq; [now apply under_left|now apply under_right].
    + rewrite SUB. rewrite (sub_ext yl s a b a c) by (intros; lia).
      rewrite (sub_ext (zr ++ [no_value tr]) (c + 1) a b (c + 1) b) by (intros; lia).
      symmetry. apply total_app; [exact (law_assoc _ _ _ LAW)| |]; intro Z; apply (f_equal sizeN) in Z.
      * rewrite sub_size in Z; cbn in Z; lia.
      * rewrite (sub_ext _ (c + 1) (c + 1) b (c + 1) e) in Z by (intros i Hi; rewrite sizeN_app in Hi; change (sizeN [no_value tr]) with 1 in Hi; lia).
        rewrite sub_size in Z; try (rewrite sizeN_app; change (sizeN [no_value tr]) with 1); cbn in Z; lia.
  - destruct (IH h1 (2 * pos + 2) (c + 1) e zr z a b Yr) as (h2 & E2 & R2 & Z2 & K2); [lia..|].
    rewrite E2. cbn [bind]. apply FIN; trivial.
    + apply repr_frame with h1; [trivial|]. intros q Hq. apply K2. intro. now apply (under_disjoint pos q).
    + rewrite K2; trivial. intro Hq. now apply (NR pos).
    + congruence.
    + intros q Hq. rewrite K2; [auto|]. intro. apply Hq. now apply under_right.
    + rewrite SUB, (sub_none yl) by lia. reflexivity.
Qed.

Lemma update_beyond : forall fuel h pos s e zs z a b u, repr h pos s e (zs ++ [z]) -> s <= a -> a <= b -> e < b ->
  (N.to_nat (e - s) < fuel)%nat ->
  exists h', range_update tr fuel h a b pos u (no_value tr)
      = Val (h', total (sub s a b (change_range (den u) s a b zs ++ [no_value tr]))) /\
    repr h' pos s e (change_range (den u) s a b zs ++ [z]) /\
    sizeN h' = sizeN h /\ forall q, ~ under pos q -> cell h' q = cell h q.
Proof.
  induction fuel as [|fuel IH]; intros h pos s e zs z a b u H SA AB EB F; [lia|].
  cbn [range_update]. destruct (repr_cell _ _ _ _ _ _ _ H) as (n & C & S & E & I & V & B).
  pose proof (repr_size _ _ _ _ _ _ _ H) as (LE & SZ).
  rewrite (get_ok _ _ _ C). cbn [bind]. rewrite (leaf_eq n s e) by trivial. rewrite S, E.
  rewrite (proj2 (N.eqb_neq b e)) by lia. rewrite andb_false_r. cbn [andb].
  destruct (N.eqb_spec s e) as [SE|SE].
  { assert (zs = []) as ->.
    { rewrite sizeN_app in SZ. destruct zs; [trivial|]. rewrite !sizeN_cons in SZ. lia. }
    exists h. split; [|auto]. cbn [app sub change_range]. now destruct ((a <=? s) && (s <=? b)). }
  assert (L : s < e) by lia. clear LE SE.
  destruct (repr_inner _ _ _ _ _ _ _ _ H L C) as (xl & xr & P & Hl & Hr & X).
  rewrite (center_eq n s e) by (trivial; lia).
  pose proof (center_between s e L) as CB. set (c := (s + e) / 2) in *.
  unfold lower_bound, upper_bound. rewrite I, left_small, right_small by trivial.
  destruct (push_down_ok tr den LAW h pos s e n xl xr C S E L Hl Hr)
    as (h1 & n1 & yl & yr & E1 & Z1 & K1 & C1 & S1 & N1 & I1 & A1 & Yl & Yr & Y).
  fold c in Yl, Yr. rewrite E1. cbn [bind]. rewrite <- X in Y.
  pose proof (repr_size _ _ _ _ _ _ _ Yl) as (_ & SL). pose proof (repr_size _ _ _ _ _ _ _ Yr) as (_ & SR).
  destruct (app_last_inv _ _ _ _ (repr_nonempty _ _ _ _ _ _ _ Yr) Y) as (zr & -> & ->).
  rewrite sizeN_app in SR. change (sizeN [z]) with 1 in SR.
  assert (CHG : change_range (den u) s a b (yl ++ zr) = change_range (den u) s a b yl ++ change_range (den u) (c + 1) a b zr).
  { rewrite change_app. do 2 f_equal. lia. }
  set (wl := change_range (den u) s a b yl) in *. set (wr := change_range (den u) (c + 1) a b zr) in *.
  assert (SWL : sizeN wl = sizeN yl) by apply change_size. assert (SWR : sizeN wr = sizeN zr) by apply change_size.
  rewrite CHG.
  assert (SUB : sub s a b ((wl ++ wr) ++ [no_value tr]) = sub s a b wl ++ sub (c + 1) a b (wr ++ [no_value tr])).
  { rewrite <- app_assoc, sub_app. do 2 f_equal. lia. }
  assert (FIN : forall h2 r,
     repr h2 (2 * pos + 1) s c wl -> repr h2 (2 * pos + 2) (c + 1) e (wr ++ [z]) -> cell h2 pos = Some n1 ->
     sizeN h2 = sizeN h -> (forall q, ~ under pos q -> cell h2 q = cell h q) ->
     r = total (sub s a b ((wl ++ wr) ++ [no_value tr])) ->
     exists h', (let* h4 := pull_up tr h2 pos (2 * pos + 1) (2 * pos + 2) in Val (h4, r))
         = Val (h', total (sub s a b ((wl ++ wr) ++ [no_value tr]))) /\
       repr h' pos s e ((wl ++ wr) ++ [z]) /\ sizeN h' = sizeN h /\ forall q, ~ under pos q -> cell h' q = cell h q).
  { intros h2 r Rl Rr C2 Z2 K2 ->.
    destruct (pull_up_ok tr den LAW h2 pos s e n1 wl (wr ++ [z]) C2 S1 N1) as (h4 & E4 & Z4 & K4 & R4); trivial; [congruence|].
    rewrite E4. cbn [bind]. exists h4. split; [trivial|]. rewrite app_assoc in R4. split; [trivial|].
    split; [congruence|]. intros q Hq. rewrite K4; [auto|]. intros ->. apply Hq. constructor. }
  assert (NL : forall q, under (2 * pos + 1) q -> q <> pos) by (intros q Hq; apply under_le in Hq; lia).
  assert (NR : forall q, under (2 * pos + 2) q -> q <> pos) by (intros q Hq; apply under_le in Hq; lia).
  rewrite (proj2 (N.ltb_lt c b)) by lia.
  destruct (N.leb_spec a c) as [ac|ac]; cbn [andb].
  - destruct (range_update_ok tr den LAW fuel h1 (2 * pos + 1) s c yl a c u (no_value tr) Yl) as (h2 & E2 & R2 & Z2 & K2); [lia..|].
    rewrite E2. cbn [bind].
    assert (W1 : change_range (den u) s a c yl = wl) by (apply change_ext; trivial; intros; lia).
    rewrite W1 in R2 |- *.
    assert (Yr2 : repr h2 (2 * pos + 2) (c + 1) e (zr ++ [z])).
    { apply repr_frame with h1; [trivial|]. intros q Hq. apply K2. intro. now apply (under_disjoint pos q). }
    rewrite wadd1 by lia.
    destruct (IH h2 (2 * pos + 2) (c + 1) e zr z (c + 1) b u Yr2) as (h3 & E3 & R3 & Z3 & K3); [lia..|].
    rewrite E3. cbn [bind].
    assert (W2 : change_range (den u) (c + 1) (c + 1) b zr = wr) by (apply change_ext; trivial; intros; lia).
    rewrite W2 in R3 |- *. apply FIN; trivial.
    + apply repr_frame with h2; [trivial|]. intros q Hq. apply K3. intro. now apply (under_disjoint pos q).
    + rewrite K3, K2; trivial; intro Hq; [now apply (NL pos)|now apply (NR pos)].
    + congruence.
    + intros q Hq. rewrite K3, K2; [auto| |]; intro U1; apply Hq; [now apply under_left|now apply under_right].
    + rewrite SUB. rewrite (sub_ext wl s a b a c) by (intros; lia).
      rewrite (sub_ext (wr ++ [no_value tr]) (c + 1) a b (c + 1) b) by (intros; lia).
      symmetry. apply total_app; [exact (law_assoc _ _ _ LAW)| |]; intro Z; apply (f_equal sizeN) in Z.
      * rewrite sub_size in Z; cbn in Z; lia.
      * rewrite (sub_ext _ (c + 1) (c + 1) b (c + 1) e) in Z by (intros i Hi; rewrite sizeN_app in Hi; change (sizeN [no_value tr]) with 1 in Hi; lia).
        rewrite sub_size in Z; try (rewrite sizeN_app; change (sizeN [no_value tr]) with 1); cbn in Z; lia.
  - assert (W1 : wl = yl) by (apply change_none; lia). rewrite W1 in *.
    destruct (IH h1 (2 * pos + 2) (c + 1) e zr z a b u Yr) as (h2 & E2 & R2 & Z2 & K2); [lia..|].
    rewrite E2. cbn [bind]. apply FIN; trivial.
    + apply repr_frame with h1; [trivial|]. intros q Hq. apply K2. intro. now apply (under_disjoint pos q).
    + rewrite K2; trivial. intro Hq. now apply (NR pos).
    + congruence.
    + intros q Hq. rewrite K2; [auto|]. intro. apply Hq. now apply under_right.
    + rewrite SUB, (sub_none yl) by lia. reflexivity.
Qed.

Variable required : N -> N.
Hypothesis ENOUGH : enough required.
Definition held (fuel : nat) (t : tree R U) (st : emptied) : Prop :=
  match st with
  | (None, _) => built_heap t = false /\ size t = 0
  | (Some xs, gone) => built_heap t = true /\ size t = (if gone then 0 else sizeN xs) /\ 0 < sizeN xs < 2 ^ 60 /\
      (length xs <= fuel)%nat /\ repr (heap t) 0 0 (sizeN xs - 1) xs
  end.
Lemma held_facts : forall fuel t st, held fuel t st -> size t = size_of st /\ built_heap t = built_of st.
Proof. intros fuel t ([xs|] & [|]) H; cbn in *; intuition. Qed.
Lemma rebuild_held : forall fuel t st v k, any_size fuel (ORebuild v k : op T U) -> held fuel t st ->
  exists t', step tr required fuel t (ORebuild v k) = Val (t', snd (emptied_step tr den st (ORebuild v k))) /\
    held fuel t' (fst (emptied_step tr den st (ORebuild v k))).
Proof.
  intros fuel t (a & gone) v k (B & F) H.
  assert (G : emptied_step tr den (a, gone) (ORebuild v k) =
    match firstn (N.to_nat k) v with [] => ((a, true), ADone) | w => ((Some (leaves tr w), false), ADone) end).
  { unfold emptied_step. destruct a as [xs|]; [destruct gone|]; cbn [reaching spec_step empties]; now destruct (firstn (N.to_nat k) v). }
  rewrite G. cbn [step]. destruct (firstn (N.to_nat k) v) as [|x w] eqn:W.
  - assert (NE : (if k <? sizeN v then k else sizeN v) = 0).
    { apply (f_equal (@length T)) in W. rewrite firstn_length in W. cbn in W. unfold sizeN. destruct (N.ltb_spec k (N.of_nat (length v))); lia. }
    unfold build. rewrite NE, N.eqb_refl. cbn [bind]. eexists. split; [reflexivity|]. cbn. destruct a as [xs|]; cbn in *; [|intuition].
    destruct H as (H1 & _ & H3). auto.
  - assert (V : v <> []) by (intros ->; now rewrite firstn_nil in W).
    assert (K0 : 0 < k) by (destruct k; [discriminate W|lia]).
    destruct (build_ok tr den LAW required ENOUGH fuel t v k V K0 B F) as (t' & E & I & _). rewrite E. cbn [bind].
    exists t'. split; [reflexivity|]. rewrite W in I. exact I.
Qed.
Lemma held_step : forall fuel t st o, any_size fuel o -> held fuel t st ->
  exists t', step tr required fuel t o = Val (t', snd (emptied_step tr den st o)) /\
    held fuel t' (fst (emptied_step tr den st o)).
Proof.
  intros fuel t st o AS H. destruct o as [s e|s e u|v k]; [| |now apply rebuild_held].
  - destruct st as ([xs|] & gone).
    + destruct gone.
      * destruct H as (BU & SZ & B & F & RE). cbn [step]. unfold query. rewrite BU. cbn [negb].
        destruct (repr_cell _ _ _ _ _ _ _ RE) as (n & C & _). unfold head. rewrite (at_ok _ _ _ C). cbn [bind].
        unfold fixed_start, fixed_end. rewrite SZ. change (wsub 0 1) with (two64 - 1).
        assert (B64 : two64 = 16 * 2 ^ 60) by reflexivity.
        unfold emptied_step. cbn [reaching]. destruct (N.leb_spec (sizeN xs) (N.max s e)) as [Q|Q]; cbn [fst snd spec_step empties].
        -- assert (XS : xs <> []) by (intros ->; cbn in B; lia). destruct (exists_last XS) as (zs & z & EX). rewrite EX in RE.
           destruct (query_beyond fuel (heap t) 0 0 (sizeN xs - 1) zs z (N.min (N.min s e) (two64 - 1)) (N.min (N.max s e) (two64 - 1)))
             as (h' & E' & R' & Z' & _); [rewrite EX; exact RE|lia..|unfold sizeN in *; lia|].
           rewrite E'. cbn [bind]. rewrite EX, removelast_last.
           rewrite (sub_ext (zs ++ [no_value tr]) 0 (N.min s e) (N.max s e) (N.min (N.min s e) (two64 - 1)) (N.min (N.max s e) (two64 - 1))).
           2: { intros i Hi. rewrite EX in B. rewrite sizeN_app in B, Hi. change (sizeN [z]) with 1 in B. change (sizeN [no_value tr]) with 1 in Hi. lia. }
           eexists. split; [reflexivity|]. cbn [held built_heap size heap]. rewrite <- EX. rewrite <- EX in R'. auto.
        -- destruct (range_query_ok tr den LAW fuel (heap t) 0 0 (sizeN xs - 1) xs (N.min (N.min s e) (two64 - 1))
             (N.min (N.max s e) (two64 - 1)) (no_value tr) RE) as (h' & E' & R' & Z' & _); [lia..|unfold sizeN in *; lia|].
           rewrite E'. cbn [bind]. replace (N.min (N.min s e) (two64 - 1)) with (clamp (sizeN xs) (N.min s e)) by (unfold clamp; lia).
           replace (N.min (N.max s e) (two64 - 1)) with (clamp (sizeN xs) (N.max s e)) by (unfold clamp; lia).
           eexists. split; [reflexivity|]. cbn [held built_heap size heap]. auto.
      * destruct (step_ok tr den LAW required ENOUGH fuel t (Some xs) (OQuery s e) Logic.I H) as (t' & E & I). exists t'. auto.
    + destruct H as (BU & SZ). cbn [step]. unfold query. rewrite BU. cbn [negb]. exists t. cbn. auto.
  - destruct st as ([xs|] & gone).
    + destruct gone.
      * destruct H as (BU & SZ & B & F & RE). cbn [step]. unfold query_update. rewrite BU. cbn [negb].
        destruct (repr_cell _ _ _ _ _ _ _ RE) as (n & C & _). unfold head. rewrite (at_ok _ _ _ C). cbn [bind].
        unfold fixed_start, fixed_end. rewrite SZ. change (wsub 0 1) with (two64 - 1).
        assert (B64 : two64 = 16 * 2 ^ 60) by reflexivity.
        assert (LC : forall f a b ys, length (change_range f 0 a b ys) = length (ys : list R)).
        { intros f a b ys. pose proof (change_size f ys 0 a b) as Q. unfold sizeN in Q. lia. }
        unfold emptied_step. cbn [reaching]. destruct (N.leb_spec (sizeN xs) (N.max s e)) as [Q|Q]; cbn [fst snd spec_step empties].
        -- assert (XS : xs <> []) by (intros ->; cbn in B; lia). destruct (exists_last XS) as (zs & z & EX). rewrite EX in RE.
           destruct (update_beyond fuel (heap t) 0 0 (sizeN xs - 1) zs z (N.min (N.min s e) (two64 - 1)) (N.min (N.max s e) (two64 - 1)) u)
             as (h' & E' & R' & Z' & _); [rewrite EX; exact RE|lia..|unfold sizeN in *; lia|].
           rewrite E'. cbn [bind]. rewrite EX, removelast_last, last_last.
           assert (BZ : sizeN zs + 1 < 2 ^ 60) by (rewrite EX, sizeN_app in B; change (sizeN [z]) with 1 in B; lia).
           assert (W : change_range (den u) 0 (N.min (N.min s e) (two64 - 1)) (N.min (N.max s e) (two64 - 1)) zs =
                       change_range (den u) 0 (N.min s e) (N.max s e) zs) by (apply change_ext; trivial; intros; lia).
           rewrite W in R' |- *.
           set (ys := change_range (den u) 0 (N.min s e) (N.max s e) zs) in *.
           assert (SY : sizeN ys = sizeN zs) by apply change_size. assert (LY : length ys = length zs) by apply LC.
           rewrite (sub_ext (ys ++ [no_value tr]) 0 (N.min s e) (N.max s e) (N.min (N.min s e) (two64 - 1)) (N.min (N.max s e) (two64 - 1))).
           2: { intros i Hi. rewrite sizeN_app in Hi. change (sizeN [no_value tr]) with 1 in Hi. lia. }
           eexists. split; [reflexivity|]. cbn [held built_heap size heap].
           assert (SE : sizeN (ys ++ [z]) = sizeN xs) by (rewrite EX, !sizeN_app; lia). rewrite SE.
           split; [trivial|]. split; [trivial|]. split; [trivial|]. split; [|exact R'].
           rewrite EX in F. rewrite app_length in F |- *. lia.
        -- destruct (range_update_ok tr den LAW fuel (heap t) 0 0 (sizeN xs - 1) xs (N.min (N.min s e) (two64 - 1))
             (N.min (N.max s e) (two64 - 1)) u (no_value tr) RE) as (h' & E' & R' & Z' & _); [lia..|unfold sizeN in *; lia|].
           rewrite E'. cbn [bind]. replace (N.min (N.min s e) (two64 - 1)) with (clamp (sizeN xs) (N.min s e)) in R' |- * by (unfold clamp; lia).
           replace (N.min (N.max s e) (two64 - 1)) with (clamp (sizeN xs) (N.max s e)) in R' |- * by (unfold clamp; lia).
           eexists. split; [reflexivity|]. cbn [held built_heap size heap]. rewrite change_size, LC. auto.
      * destruct (step_ok tr den LAW required ENOUGH fuel t (Some xs) (OUpdate s e u) Logic.I H) as (t' & E & I). exists t'. auto.
    + destruct H as (BU & SZ). cbn [step]. unfold query_update. rewrite BU. cbn [negb]. exists t. cbn. auto.
Qed.
Lemma held_run : forall fuel ops t st, Forall (any_size fuel) ops -> held fuel t st ->
  exists t', run tr required fuel t ops = Val (t', snd (emptied_run tr den st ops)) /\
    held fuel t' (fst (emptied_run tr den st ops)).
Proof.
  induction ops as [|o ops IH]; intros t st F I; cbn [run emptied_run].
  - exists t. auto.
  - inversion F as [|? ? Fo Fr]; subst.
    destruct (held_step fuel t st o Fo I) as (t1 & E1 & I1). rewrite E1. cbn [bind].
    destruct (emptied_step tr den st o) as (a1 & x). cbn [fst snd] in *.
    destruct (IH t1 a1 Fr I1) as (t2 & E2 & I2). rewrite E2. cbn [bind].
    destruct (emptied_run tr den a1 ops) as (a2 & l). cbn [fst snd] in *. eauto.
Qed.
Lemma any_history : forall fuel ops, Forall (any_size fuel) ops ->
  let (st, l) := emptied_run tr den (None, false) ops in
  exists t, run tr required fuel empty_tree ops = Val (t, l) /\ size t = size_of st /\ built_heap t = built_of st.
Proof.
  intros fuel ops F. destruct (held_run fuel ops empty_tree (None, false) F) as (t & E & H); [split; reflexivity|].
  destruct (emptied_run tr den (None, false) ops) as (st & l). cbn [fst snd] in *. exists t. split; [exact E|]. eapply held_facts; eassumption.
Qed.
Lemma emptied_run_app : forall o1 o2 a, emptied_run tr den a (o1 ++ o2) =
  (fst (emptied_run tr den (fst (emptied_run tr den a o1)) o2),
   snd (emptied_run tr den a o1) ++ snd (emptied_run tr den (fst (emptied_run tr den a o1)) o2)).
Proof.
  induction o1 as [|o o1 IH]; intros o2 a; cbn [app emptied_run].
  - cbn. now destruct (emptied_run tr den a o2).
  - destruct (emptied_step tr den a o) as (a1 & x). rewrite IH.
    destruct (emptied_run tr den a1 o1) as (a2 & l). cbn [fst snd app].
    now destruct (emptied_run tr den a2 o2).
Qed.
Lemma emptied_run_length : forall ops a, length (snd (emptied_run tr den a ops)) = length ops.
Proof.
  induction ops as [|o ops IH]; intros a; cbn [emptied_run]; [trivial|].
  destruct (emptied_step tr den a o) as (a1 & x). specialize (IH a1).
  destruct (emptied_run tr den a1 ops). cbn in *. now f_equal.
Qed.
(** A rebuild from something forgets all that was before. *)
Lemma any_rebuild_forgets : forall fuel o1 v k o2,
  Forall (any_size fuel) o1 -> fair fuel (ORebuild v k : op T U) -> Forall (any_size fuel) o2 ->
  exists t1 t2 l1 l2, run tr required fuel empty_tree (o1 ++ ORebuild v k :: o2) = Val (t1, l1 ++ l2) /\
    length l1 = length o1 /\ run tr required fuel empty_tree (ORebuild v k :: o2) = Val (t2, l2).
Proof.
  intros fuel o1 v k o2 F1 (V & K0 & B & F) F2.
  destruct (held_run fuel (o1 ++ ORebuild v k :: o2) empty_tree (None, false)) as (t1 & E1 & _).
  { apply Forall_app. split; [trivial|]. constructor; [now split|trivial]. }
  { split; reflexivity. }
  destruct (held_run fuel (ORebuild v k :: o2) empty_tree (None, false)) as (t2 & E2 & _).
  { constructor; [now split|trivial]. }
  { split; reflexivity. }
  exists t1, t2. do 2 eexists. split; [rewrite E1, emptied_run_app; reflexivity|]. split; [apply emptied_run_length|].
  rewrite E2. f_equal. f_equal. generalize (fst (emptied_run tr den (None, false) o1)). intros (a & gone). cbn [emptied_run].
  assert (G : forall a gone, emptied_step tr den (a, gone) (ORebuild v k) = ((Some (leaves tr (firstn (N.to_nat k) v)), false), ADone)).
  { intros a0 g0. assert (W : firstn (N.to_nat k) v <> []). { destruct v; [congruence|]. destruct (N.to_nat k) eqn:Q; [lia|discriminate]. }
    unfold emptied_step. destruct a0 as [xs|]; [destruct g0|]; cbn [reaching spec_step empties]; now destruct (firstn (N.to_nat k) v). }
  now rewrite !G.
Qed.
(** Calls within the old array do not see a rebuild from nothing. *)
Lemma below_run : forall ops xs gone, Forall (below (sizeN xs)) ops ->
  snd (emptied_run tr den (Some xs, gone) ops) = snd (emptied_run tr den (Some xs, false) ops).
Proof.
  induction ops as [|o ops IH]; intros xs gone F; cbn [emptied_run]; [trivial|]. inversion F as [|? ? Fo Fr]; subst.
  assert (G : forall g, exists ys x, emptied_step tr den (Some xs, g) o = ((Some ys, g), x) /\ sizeN ys = sizeN xs /\
    spec_step tr den (Some xs) o = (Some ys, x)).
  { intros g. destruct o as [s e|s e u|v k]; cbn [below] in Fo; [| |contradiction]; unfold emptied_step; cbn [reaching spec_step empties].
    - destruct (N.leb_spec (sizeN xs) (N.max s e)); [lia|]. do 2 eexists. split; [destruct g; reflexivity|]. split; reflexivity.
    - destruct (N.leb_spec (sizeN xs) (N.max s e)); [lia|]. do 2 eexists. split; [destruct g; reflexivity|]. split; [apply change_size|reflexivity]. }
  destruct (G gone) as (ys & x & E & S & P). destruct (G false) as (ys' & x' & E' & S' & P'). rewrite P in P'. injection P' as <- <-.
  rewrite E, E'. rewrite <- S in Fr. specialize (IH ys gone Fr).
  destruct (emptied_run tr den (Some ys, gone) ops), (emptied_run tr den (Some ys, false) ops). cbn in *. now f_equal.
Qed.
Lemma not_seen : forall fuel o1 v k o2 t1 l1, Forall (any_size fuel) o1 -> v = [] \/ k = 0 ->
  any_size fuel (ORebuild v k : op T U) -> Forall (any_size fuel) o2 ->
  run tr required fuel empty_tree o1 = Val (t1, l1) -> Forall (below (size t1)) o2 ->
  exists t2 t3 l2, run tr required fuel empty_tree (o1 ++ o2) = Val (t2, l1 ++ l2) /\
    run tr required fuel empty_tree (o1 ++ ORebuild v k :: o2) = Val (t3, l1 ++ ADone :: l2).
Proof.
  intros fuel o1 v k o2 t1 l1 F1 Z FV F2 E1 BL.
  destruct (held_run fuel o1 empty_tree (None, false) F1) as (t & E & H); [split; reflexivity|]. rewrite E1 in E. injection E as <- ->.
  destruct (held_run fuel (o1 ++ o2) empty_tree (None, false)) as (t2 & E2 & _); [now apply Forall_app|split; reflexivity|].
  destruct (held_run fuel (o1 ++ ORebuild v k :: o2) empty_tree (None, false)) as (t3 & E3 & _); [apply Forall_app; auto|split; reflexivity|].
  rewrite emptied_run_app in E2, E3. cbn [fst snd] in E2, E3.
  exists t2, t3. eexists. split; [exact E2|]. rewrite E3. do 3 f_equal. clear E2 E3.
  set (st := fst (emptied_run tr den (None, false) o1)) in *.
  assert (W : firstn (N.to_nat k) v = []) by (destruct Z as [->| ->]; [apply firstn_nil|reflexivity]).
  destruct st as (a & gone). cbn [emptied_run].
  assert (G : emptied_step tr den (a, gone) (ORebuild v k) = ((a, true), ADone)).
  { unfold emptied_step. destruct a as [xs|]; [destruct gone|]; cbn [reaching spec_step empties]; now rewrite W. }
  rewrite G. destruct o2 as [|o o2]; [reflexivity|].
  assert (POS : size t1 <> 0). { inversion BL as [|? ? Bo _]; subst. intros Q. rewrite Q in Bo. destruct o; cbn in Bo; try contradiction; lia. }
  destruct a as [xs|]; [|destruct H as (_ & SZ); congruence]. destruct H as (_ & SZ & _). destruct gone; [congruence|]. rewrite SZ in BL.
  pose proof (below_run (o :: o2) xs true BL) as Q. assert (D : forall p : emptied (R := R) * list (answer R), snd (let (st, l) := p in (st, ADone :: l)) = ADone :: snd p) by (now intros []).
  etransitivity; [apply D|]. f_equal. exact Q.
Qed.
End Proofs.
