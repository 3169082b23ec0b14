(** Proofs about subarray.h and subset.h. *)
Require Import List Arith NArith ZArith Lia Bool.
Require Import Verif.Base Verif.Cint Verif.SubModel Verif.SubSpec.
Import ListNotations.
Local Open Scope Z_scope.

(** ** Lists *)
Lemma total_app : forall l l', total (l ++ l') = total l + total l'.
Proof. induction l as [|x l IH]; intros l'; [reflexivity|]. cbn [app]. unfold total in *. cbn [fold_right]. rewrite IH. lia. Qed.
Lemma total_one : forall x, total [x] = x.
Proof. intros. cbn. lia. Qed.
Lemma split_snoc : forall (p p1 p2 : list Z) x, p ++ [x] = p1 ++ p2 ->
  (p2 = [] /\ p1 = p ++ [x]) \/ exists p2', p2 = p2' ++ [x] /\ p = p1 ++ p2'.
Proof.
  intros p p1 p2 x E. destruct p2 as [|y r] using rev_ind.
  - left. rewrite app_nil_r in E. auto.
  - right. rewrite app_assoc in E. apply app_inj_tail in E. destruct E as (-> & ->). eauto.
Qed.
Lemma part_snoc : forall w p x, part w (p ++ [x]) ->
  part w p \/ exists a w', w = w' ++ [x] /\ p = a ++ w'.
Proof.
  intros w p x (NE & a & c & E). rewrite app_assoc in E.
  destruct (split_snoc _ _ _ _ E) as [(-> & E')|(c' & -> & ->)].
  - right. destruct (split_snoc p a w x (eq_sym E')) as [(-> & _)|(w' & -> & ->)]; [congruence|eauto].
  - left. split; [trivial|]. exists a, c'. now rewrite app_assoc.
Qed.
Lemma part_more : forall w p x, part w p -> part w (p ++ [x]).
Proof.
  intros w p x (NE & a & c & ->). split; [trivial|]. exists a, (c ++ [x]). now rewrite <- !app_assoc.
Qed.
Lemma part_suffix : forall a w, w <> [] -> part w (a ++ w).
Proof. intros a w NE. split; [trivial|]. exists a, []. now rewrite app_nil_r. Qed.

Lemma lookup_assign_eq : forall A (m : list (Z * A)) k v, lookup (assign m k v) k = Some v.
Proof. intros. unfold lookup, assign. cbn. now rewrite Z.eqb_refl. Qed.
Lemma lookup_assign_neq : forall A (m : list (Z * A)) k v k', k' <> k -> lookup (assign m k v) k' = lookup m k'.
Proof.
  intros A m k v k' NE. unfold lookup, assign. cbn. destruct (Z.eqb_spec k k'); [congruence|]. f_equal.
  induction m as [|(j & w) m IH]; [trivial|]. cbn. destruct (Z.eqb_spec j k); cbn.
  - destruct (Z.eqb_spec j k'); [congruence|exact IH].
  - destruct (Z.eqb_spec j k'); [trivial|exact IH].
Qed.

(** ** The longest part with a given sum *)
Section Length.
Variables (b r : Z).
Definition entries (p : list Z) (c : list (Z * nat)) : Prop :=
  forall s i, lookup c s = Some i -> exists p1 p2, p = p1 ++ p2 /\ length p1 = S i /\ total p1 = s.
Definition sound (p : list Z) (k : nat) : Prop := k = O \/ exists w, part w p /\ total w = r /\ length w = k.
Definition all_firsts (p : list Z) (c : list (Z * nat)) : Prop :=
  forall p1 p2, p = p1 ++ p2 -> p1 <> [] -> total p1 <> 0 ->
  exists i, lookup c (total p1) = Some i /\ (S i <= length p1)%nat.
Definition complete0 (p : list Z) (k : nat) : Prop := forall w, part w p -> total w = 0 -> (length w <= k)%nat.
Definition all_known (p : list Z) (c : list (Z * nat)) : Prop :=
  forall p1 p2, p = p1 ++ p2 -> p1 <> [] -> exists i, lookup c (total p1) = Some i.
Definition none (p : list Z) : Prop := forall w, part w p -> total w <> r.

Definition linv (p : list Z) (c : list (Z * nat)) (k : nat) : Prop :=
  entries p c /\ sound p k /\ (r = 0 -> all_firsts p c /\ complete0 p k) /\ (k = O -> all_known p c /\ none p).

Lemma sound_more : forall p x k, sound p k -> sound (p ++ [x]) k.
Proof. intros p x k [H|(w & P & T & L)]; [now left|right]. exists w. auto using part_more. Qed.
Lemma entries_more : forall p x c, entries p c -> entries (p ++ [x]) c.
Proof.
  intros p x c E s i H. destruct (E s i H) as (p1 & p2 & -> & L & T). exists p1, (p2 ++ [x]).
  now rewrite app_assoc.
Qed.
Lemma entries_bound : forall p c s i, entries p c -> lookup c s = Some i -> (i < length p)%nat.
Proof.
  intros p c s i E H. destruct (E s i H) as (p1 & p2 & -> & L & T). rewrite app_length. lia.
Qed.
Lemma entries_assign : forall p x c, entries p c -> entries (p ++ [x]) (assign c (total (p ++ [x])) (length p)).
Proof.
  intros p x c E s i H. destruct (Z.eq_dec s (total (p ++ [x]))) as [->|NE].
  - rewrite lookup_assign_eq in H. injection H as <-. exists (p ++ [x]), [].
    rewrite app_nil_r, app_length. cbn. split; [trivial|split; [lia|trivial]].
  - rewrite lookup_assign_neq in H by trivial. eapply entries_more; eassumption.
Qed.

Lemma length_loop_ok : forall l p c k k', linv p c k ->
  length_loop b l (length p) (total p) r c k = Val k' -> exists c', linv (p ++ l) c' k'.
Proof.
  induction l as [|x l IH]; intros p c k k' I H; cbn [length_loop] in H.
  { injection H as <-. rewrite app_nil_r. eauto. }
  destruct (chk b (total p + x)) as [s|e| |] eqn:C; try discriminate. cbn [bind] in H.
  apply chk_val in C. destruct C as (-> & _).
  assert (TS : total p + x = total (p ++ [x])) by (rewrite total_app, total_one; lia).
  assert (LS : S (length p) = length (p ++ [x])) by (rewrite app_length; cbn; lia).
  replace (p ++ x :: l) with ((p ++ [x]) ++ l) by (rewrite <- app_assoc; reflexivity).
  rewrite TS, LS in H. destruct I as (EN & SO & Z0 & KN).
  destruct (Z.eqb_spec (total (p ++ [x])) r) as [E|NE].
  - revert H. apply IH. split; [now apply entries_more|]. split.
    { right. exists (p ++ [x]). split; [|split; [trivial|rewrite app_length; reflexivity]].
      split; [now destruct p|]. exists [], []. now rewrite app_nil_r. }
    split; [|lia]. intros R0. split.
    + intros p1 p2 Ep N1 T1. destruct (split_snoc _ _ _ _ Ep) as [(-> & ->)|(p2' & -> & Ep')].
      * congruence.
      * destruct (Z0 R0) as (AF & _). now apply (AF p1 p2').
    + intros w (_ & a & d & Ew) _. rewrite <- (Nat.add_1_r (length p)) in LS. rewrite LS, Ew, !app_length. lia.
  - destruct (chk b (total (p ++ [x]) - r)) as [key|e| |] eqn:C; try discriminate. cbn [bind] in H.
    apply chk_val in C. destruct C as (-> & _).
    destruct (lookup c (total (p ++ [x]) - r)) as [second|] eqn:LK.
    + revert H. apply IH. pose proof (entries_bound _ _ _ _ EN LK) as SB.
      split; [now apply entries_more|]. split; [|split].
      * destruct (Nat.max_spec k (length p - second)) as [(_ & ->)|(_ & ->)]; [|now apply sound_more].
        right. destruct (EN _ _ LK) as (p1 & p2 & -> & L1 & T1).
        exists (p2 ++ [x]). split; [|split].
        -- rewrite <- app_assoc. apply part_suffix. now destruct p2.
        -- rewrite <- app_assoc, total_app in T1. lia.
        -- rewrite !app_length in *. cbn. lia.
      * intros R0. destruct (Z0 R0) as (AF & CO). split.
        -- intros p1 p2 Ep N1 T1. destruct (split_snoc _ _ _ _ Ep) as [(-> & ->)|(p2' & -> & Ep')].
           ++ rewrite R0, Z.sub_0_r in LK. exists second. split; [trivial|]. rewrite app_length. cbn. lia.
           ++ now apply (AF p1 p2').
        -- intros w P T. destruct (part_snoc _ _ _ P) as [P'|(a & w' & -> & ->)].
           ++ specialize (CO w P' T). lia.
           ++ destruct a as [|a0 a].
              { cbn [app] in NE. rewrite R0 in NE. congruence. }
              assert (TA : total ((a0 :: a) ++ w' ++ [x]) = total (a0 :: a)) by (rewrite total_app; lia).
              destruct (AF (a0 :: a) w' eq_refl) as (i & LI & BI); [discriminate| |].
              { rewrite <- TA. rewrite <- app_assoc in NE. congruence. }
              rewrite <- app_assoc, TA, R0, Z.sub_0_r in LK. rewrite LI in LK. injection LK as <-.
              rewrite !app_length in *. cbn [length] in *. lia.
      * intros K0. exfalso. lia.
    + assert (NEWKEY : r = 0 \/ lookup c (total (p ++ [x])) = None \/ exists i, lookup c (total (p ++ [x])) = Some i /\ r <> 0).
      { destruct (Z.eq_dec r 0); [now left|right]. destruct (lookup c (total (p ++ [x]))); eauto. }
      assert (NONE : k = O -> none (p ++ [x])).
      { intros K0 w P. destruct (KN K0) as (AK & NN).
        destruct (part_snoc _ _ _ P) as [P'|(a & w' & -> & ->)]; [now apply NN|].
        intros T. destruct a as [|a0 a].
        { cbn [app] in NE. congruence. }
        destruct (AK (a0 :: a) w' eq_refl) as (i & LI); [discriminate|].
        rewrite <- app_assoc, total_app in LK. replace (total (a0 :: a) + total (w' ++ [x]) - r) with (total (a0 :: a)) in LK by lia.
        congruence. }
      assert (CO' : r = 0 -> complete0 (p ++ [x]) k).
      { intros R0 w P T. destruct (Z0 R0) as (AF & CO).
        destruct (part_snoc _ _ _ P) as [P'|(a & w' & -> & ->)]; [now apply CO|].
        exfalso. destruct a as [|a0 a].
        { cbn [app] in NE. rewrite R0 in NE. congruence. }
        assert (TA : total ((a0 :: a) ++ w' ++ [x]) = total (a0 :: a)) by (rewrite total_app; lia).
        destruct (AF (a0 :: a) w' eq_refl) as (i & LI & BI); [discriminate| |].
        { rewrite <- TA. rewrite <- app_assoc in NE. congruence. }
        rewrite <- app_assoc, TA, R0, Z.sub_0_r in LK. congruence. }
      destruct ((r =? 0) || match lookup c (total (p ++ [x])) with Some _ => false | None => true end) eqn:W.
      * revert H. apply IH. split; [now apply entries_assign|]. split; [now apply sound_more|].
        split.
        -- intros R0. split; [|now apply CO']. intros p1 p2 Ep N1 T1.
           rewrite R0, Z.sub_0_r in LK.
           destruct (split_snoc _ _ _ _ Ep) as [(-> & ->)|(p2' & -> & Ep')].
           ++ exists (length p). rewrite lookup_assign_eq, app_length. cbn. split; [trivial|lia].
           ++ destruct (Z0 R0) as (AF & _). destruct (AF p1 p2' Ep' N1 T1) as (i & LI & BI).
              exists i. split; [|trivial]. rewrite lookup_assign_neq; [trivial|]. intros E. congruence.
        -- intros K0. split; [|now apply NONE]. destruct (KN K0) as (AK & _). intros p1 p2 Ep N1.
           destruct (Z.eq_dec (total p1) (total (p ++ [x]))) as [->|NT].
           { rewrite lookup_assign_eq. eauto. }
           rewrite lookup_assign_neq by trivial.
           destruct (split_snoc _ _ _ _ Ep) as [(-> & ->)|(p2' & -> & Ep')]; [congruence|].
           now apply (AK p1 p2').
      * apply orb_false_iff in W. destruct W as (R0 & W). apply Z.eqb_neq in R0.
        destruct (lookup c (total (p ++ [x]))) as [i|] eqn:LK2; [|discriminate].
        revert H. apply IH. split; [now apply entries_more|]. split; [now apply sound_more|].
        split; [intros; congruence|]. intros K0. split; [|now apply NONE]. intros p1 p2 Ep N1.
        destruct (split_snoc _ _ _ _ Ep) as [(-> & ->)|(p2' & -> & Ep')]; [eauto|].
        destruct (KN K0) as (AK & _). now apply (AK p1 p2').
Qed.
Lemma linv_start : linv [] [] 0.
Proof.
  split; [intros s i H; discriminate|]. split; [now left|].
  assert (N : forall w, ~ part w []).
  { intros w (NE & a & c & E). destruct a; [|discriminate]. destruct w; [congruence|discriminate]. }
  split.
  - intros _. split; [|intros w P; now apply N in P]. intros p1 p2 E NE. destruct p1; [congruence|discriminate].
  - intros _. split; [|intros w P; now apply N in P]. intros p1 p2 E NE. destruct p1; [congruence|discriminate].
Qed.
Lemma length_ok : forall l k, max_length_of_sum b l r = Val k ->
  sound l k /\ (r = 0 -> complete0 l k) /\ (k = O -> none l).
Proof.
  intros l k H. destruct (length_loop_ok l [] [] 0 k linv_start H) as (c & _ & S & Z0 & N).
  split; [exact S|]. split; [intros R; apply Z0; exact R|intros K; apply N; exact K].
Qed.
(** A prefix with the sum is never missed. *)
Lemma length_loop_max : forall l p c k k', length_loop b l (length p) (total p) r c k = Val k' ->
  (k <= length p)%nat -> entries p c ->
  (k <= k')%nat /\ forall a d, l = a ++ d -> a <> [] -> total (p ++ a) = r -> (length (p ++ a) <= k')%nat.
Proof.
  induction l as [|x l IH]; intros p c k k' H K EN; cbn [length_loop] in H.
  { injection H as <-. split; [lia|]. intros a d E N. destruct a; [congruence|discriminate]. }
  destruct (chk b (total p + x)) as [s|e| |] eqn:C; try discriminate. cbn [bind] in H.
  apply chk_val in C. destruct C as (-> & _).
  assert (TS : total p + x = total (p ++ [x])) by (rewrite total_app, total_one; lia).
  assert (LS : S (length p) = length (p ++ [x])) by (rewrite app_length; cbn; lia).
  rewrite TS, LS in H.
  assert (ST : forall c1 k1, length_loop b l (length (p ++ [x])) (total (p ++ [x])) r c1 k1 = Val k' ->
     entries (p ++ [x]) c1 -> (k <= k1 <= length (p ++ [x]))%nat ->
     (total (p ++ [x]) = r -> (length (p ++ [x]) <= k1)%nat) ->
     (k <= k')%nat /\ forall a d, x :: l = a ++ d -> a <> [] -> total (p ++ a) = r -> (length (p ++ a) <= k')%nat).
  { intros c1 k1 H1 E1 B1 T1. destruct (IH _ _ _ _ H1) as (A & B); [lia|trivial|]. split; [lia|].
    intros [|y a] d E N T; [congruence|]. injection E as <- E.
    replace (p ++ x :: a) with ((p ++ [x]) ++ a) in * by (rewrite <- app_assoc; reflexivity).
    destruct a as [|z a].
    - rewrite app_nil_r in *. specialize (T1 T). lia.
    - apply (B (z :: a) d); [trivial|discriminate|trivial]. }
  destruct (Z.eqb_spec (total (p ++ [x])) r) as [E|NE].
  - apply (ST _ _ H); [now apply entries_more|lia|lia].
  - destruct (chk b (total (p ++ [x]) - r)) as [key|e| |] eqn:C; try discriminate. cbn [bind] in H.
    destruct (lookup c key) as [second|] eqn:LK.
    + apply (ST _ _ H); [now apply entries_more|lia|congruence].
    + destruct (_ || _).
      * apply (ST _ _ H); [now apply entries_assign|lia|congruence].
      * apply (ST _ _ H); [now apply entries_more|lia|congruence].
Qed.
Lemma length_prefix : forall l k a d, max_length_of_sum b l r = Val k -> l = a ++ d -> a <> [] -> total a = r ->
  (length a <= k)%nat.
Proof.
  intros l k a d H E N T. unfold max_length_of_sum in H.
  destruct (length_loop_max l [] [] 0 k H) as (_ & B); [cbn; lia|intros s i D; discriminate|].
  exact (B a d E N T).
Qed.
End Length.

Lemma weight_nonneg : forall l, 0 <= weight l.
Proof. induction l as [|x l IH]; cbn; [lia|]. unfold weight in IH. lia. Qed.
Lemma fits_abs : forall b x, Z.abs x <= imax b -> fits b x.
Proof. intros b x H. unfold fits, imin, imax in *. lia. Qed.
Lemma length_loop_val : forall b r l ii s c k, Z.abs s + weight l + Z.abs r <= imax b ->
  exists k', length_loop b l ii s r c k = Val k'.
Proof.
  intros b r. induction l as [|x l IH]; intros ii s c k W; cbn [length_loop]; [eauto|].
  cbn [weight fold_right] in W. fold (weight l) in W. pose proof (weight_nonneg l).
  rewrite chk_ok by (apply fits_abs; lia). cbn [bind].
  assert (W' : Z.abs (s + x) + weight l + Z.abs r <= imax b) by lia.
  destruct (s + x =? r); [now apply IH|].
  rewrite chk_ok by (apply fits_abs; lia). cbn [bind].
  destruct (lookup c _); [now apply IH|]. destruct (_ || _); now apply IH.
Qed.
Lemma length_val : forall b r l, weight l + Z.abs r <= imax b -> exists k, max_length_of_sum b l r = Val k.
Proof. intros b r l W. apply length_loop_val. cbn. lia. Qed.

(** ** The greatest sum *)
Definition greatest_suffix (p : list Z) (r : Z) : Prop :=
  (exists a w, w <> [] /\ p = a ++ w /\ total w = r) /\ forall a w, w <> [] -> p = a ++ w -> total w <= r.

Lemma sum_loop_ok : forall b l p cur best r, greatest_suffix p cur -> greatest p best ->
  sum_loop b l cur best = Val r -> greatest (p ++ l) r.
Proof.
  intros b. induction l as [|x l IH]; intros p cur best r GS G H; cbn [sum_loop] in H.
  { injection H as <-. now rewrite app_nil_r. }
  destruct (chk b (cur + x)) as [s|e| |] eqn:C; try discriminate. cbn [bind] in H.
  apply chk_val in C. destruct C as (-> & _).
  replace (p ++ x :: l) with ((p ++ [x]) ++ l) by (rewrite <- app_assoc; reflexivity).
  assert (GS' : greatest_suffix (p ++ [x]) (Z.max x (cur + x))).
  { destruct GS as ((a & w & NE & E & T) & B). split.
    - destruct (Z.max_spec x (cur + x)) as [(_ & ->)|(_ & ->)].
      + exists a, (w ++ [x]). split; [now destruct w|]. rewrite E, <- app_assoc, total_app, total_one, T. auto.
      + exists p, [x]. split; [discriminate|]. now rewrite total_one.
    - intros a' w' NE' E'. destruct (split_snoc _ _ _ _ E') as [(-> & _)|(w1 & -> & E1)]; [congruence|].
      rewrite total_app, total_one. destruct w1 as [|y w1]; [cbn; lia|].
      assert (total (y :: w1) <= cur) by (apply (B a'); [discriminate|trivial]). lia. }
  revert H. apply IH; [trivial|].
  destruct G as ((w & P & T) & B). split.
  - destruct (Z.max_spec (Z.max x (cur + x)) best) as [(_ & ->)|(_ & ->)].
    + exists w. auto using part_more.
    + destruct GS' as ((a & w' & NE & E & T') & _). exists w'. rewrite E. auto using part_suffix.
  - intros w' P'. destruct (part_snoc _ _ _ P') as [P1|(a & w1 & -> & ->)].
    + specialize (B w' P1). lia.
    + destruct GS' as (_ & B'). specialize (B' a (w1 ++ [x])). rewrite <- app_assoc in B'.
      assert (total (w1 ++ [x]) <= Z.max x (cur + x)) by (apply B'; [now destruct w1|trivial]). lia.
Qed.
Lemma one_part : forall w x, part w [x] -> w = [x].
Proof.
  intros w x (NE & a & c & E). destruct a as [|y a].
  - destruct w as [|z w]; [congruence|]. injection E as <- E. destruct w; [reflexivity|discriminate].
  - injection E as _ E. destruct a, w; try discriminate. congruence.
Qed.
Lemma greatest_one : forall x, greatest [x] x /\ greatest_suffix [x] x.
Proof.
  intros x. split; split.
  - exists [x]. split; [apply (part_suffix [] [x]); discriminate|apply total_one].
  - intros w P. rewrite (one_part _ _ P), total_one. lia.
  - exists [], [x]. split; [discriminate|]. split; [trivial|apply total_one].
  - intros a w NE E. assert (P : part w [x]) by (rewrite E; now apply part_suffix).
    rewrite (one_part _ _ P), total_one. lia.
Qed.
(** The first element counts twice if that is more. *)
Lemma max_sum_doubled : forall b f l r, max_sum_of b (f :: l) = Val r -> greatest (Z.max f (f + f) :: l) r.
Proof.
  intros b f l r H. unfold max_sum_of in H. cbn [sum_loop] in H.
  destruct (chk b (f + f)) as [s|e| |] eqn:C; try discriminate. cbn [bind] in H.
  apply chk_val in C. destruct C as (-> & _).
  replace (Z.max (Z.max f (f + f)) f) with (Z.max f (f + f)) in H by lia.
  destruct (greatest_one (Z.max f (f + f))) as (G & GS).
  exact (sum_loop_ok b l [Z.max f (f + f)] _ _ r GS G H).
Qed.
Lemma max_sum_ok : forall b f l r, f <= 0 -> max_sum_of b (f :: l) = Val r -> greatest (f :: l) r.
Proof.
  intros b f l r F H. apply max_sum_doubled in H. now replace (Z.max f (f + f)) with f in H by lia.
Qed.
Lemma sum_loop_val : forall b l cur best, Z.abs cur + weight l <= imax b -> exists r, sum_loop b l cur best = Val r.
Proof.
  intros b. induction l as [|x l IH]; intros cur best W; cbn [sum_loop]; [eauto|].
  cbn [weight fold_right] in W. fold (weight l) in W. pose proof (weight_nonneg l).
  rewrite chk_ok by (apply fits_abs; lia). cbn [bind]. apply IH. lia.
Qed.
Lemma max_sum_val : forall b l, 2 * weight l <= imax b -> exists r, max_sum_of b l = Val r.
Proof.
  intros b [|f l] W; [cbn; eauto|]. apply sum_loop_val. cbn [weight fold_right] in *. fold (weight l) in *.
  pose proof (weight_nonneg l). lia.
Qed.
(** How far off the answer can be. *)
Lemma part_cons : forall w x l, part w (x :: l) -> (exists w', w = x :: w' /\ exists c, l = w' ++ c) \/ part w l.
Proof.
  intros w x l (NE & a & c & E). destruct a as [|y a].
  - left. destruct w as [|z w]; [congruence|]. injection E as <- E. eauto.
  - right. injection E as _ E. split; [trivial|]. eauto.
Qed.
Lemma part_cons_in : forall w x l, part w l -> part w (x :: l).
Proof. intros w x l (NE & a & c & ->). split; [trivial|]. exists (x :: a), c. reflexivity. Qed.
Lemma part_prefix : forall w c, w <> [] -> part w (w ++ c).
Proof. intros w c NE. split; [trivial|]. exists [], c. reflexivity. Qed.
Lemma max_sum_error : forall b f l r t, max_sum_of b (f :: l) = Val r -> greatest (f :: l) t -> t <= r <= t + Z.max 0 f.
Proof.
  intros b f l r t H ((w & P & T) & B). apply max_sum_doubled in H. destruct H as ((w' & P' & T') & B').
  split.
  - destruct (part_cons _ _ _ P) as [(w1 & -> & c & E)|P1].
    + assert (total (Z.max f (f + f) :: w1) <= r).
      { apply B'. rewrite E. apply (part_prefix (Z.max f (f + f) :: w1) c). discriminate. }
      cbn in *. lia.
    + specialize (B' w (part_cons_in _ _ _ P1)). lia.
  - destruct (part_cons _ _ _ P') as [(w1 & -> & c & E)|P1].
    + assert (total (f :: w1) <= t).
      { apply B. rewrite E. apply (part_prefix (f :: w1) c). discriminate. }
      cbn in *. lia.
    + specialize (B w' (part_cons_in _ _ _ P1)). lia.
Qed.

(** ** Counting selections *)
Lemma selections_cons : forall x l s,
  selections_with_sum (x :: l) s = (selections_with_sum l s + selections_with_sum l (s - x))%N.
Proof.
  intros x l s. unfold selections_with_sum. cbn [selections]. rewrite filter_app, app_length.
  assert (E : forall L, length (filter (fun w => total w =? s) (map (cons x) L)) =
                   length (filter (fun w => total w =? s - x) L)).
  { induction L as [|w L IH]; [trivial|]. cbn [map filter].
    assert (X : total (x :: w) =? s = (total w =? s - x)).
    { cbn. fold (total w). destruct (Z.eqb_spec (x + total w) s), (Z.eqb_spec (total w) (s - x)); lia. }
    rewrite X. destruct (total w =? s - x); cbn [length]; now rewrite IH. }
  rewrite E. lia.
Qed.
Lemma selections_nil : forall s, selections_with_sum [] s = if s =? 0 then 1%N else 0%N.
Proof. intros s. unfold selections_with_sum. cbn [selections filter].
  change (total []) with 0. rewrite Z.eqb_sym. now destruct (s =? 0). Qed.

Section Subsets.
Variables (b : Z) (right_first : bool) (whole : list Z).
Definition cvalid (c : cache) : Prop := (length whole <= length c)%nat /\
  forall i m s x, (i < length whole)%nat -> nth_error c i = Some m -> lookup m s = Some x ->
    x = (selections_with_sum (skipn i whole) s mod two64)%N.

Lemma cvalid_set : forall c i m s x, cvalid c -> nth_error c i = Some m ->
  x = (selections_with_sum (skipn i whole) s mod two64)%N -> cvalid (set_nth c i (assign m s x)).
Proof.
  intros c i m s x (L & V) M X. split; [now rewrite set_nth_length|].
  intros j m' s' x' J M' H. destruct (Nat.eq_dec j i) as [->|NE].
  - rewrite nth_error_set_nth_eq in M' by (apply nth_error_Some; congruence). injection M' as <-.
    destruct (Z.eq_dec s' s) as [->|NS].
    + rewrite lookup_assign_eq in H. congruence.
    + rewrite lookup_assign_neq in H by trivial. eapply V; eassumption.
  - rewrite nth_error_set_nth_neq in M' by auto. eapply V; eassumption.
Qed.
Lemma subsets_ok : forall l ii s c c' x, skipn ii whole = l -> (ii + length l = length whole)%nat -> cvalid c ->
  sum_of_subsets b right_first l ii s c = Val (c', x) ->
  x = (selections_with_sum l s mod two64)%N /\ cvalid c' /\ length c' = length c.
Proof.
  induction l as [|y l IH]; intros ii s c c' x SK LE V H; cbn [sum_of_subsets] in H.
  { injection H as <- <-. rewrite selections_nil. split; [now destruct (s =? 0)|auto]. }
  cbn [length] in LE.
  destruct (nth_error c ii) as [m|] eqn:M; [|discriminate].
  destruct (lookup m s) as [res|] eqn:LK.
  { injection H as <- <-. split; [|auto]. destruct V as (_ & V). rewrite (V ii m s res); trivial; [now rewrite SK|lia]. }
  assert (SK' : skipn (S ii) whole = l).
  { clear - SK. revert ii SK. induction whole as [|z w IHw]; intros ii SK; [destruct ii; discriminate|].
    destruct ii as [|ii]; [now injection SK|]. cbn in *. now apply IHw. }
  assert (G : exists c1 a d, cvalid c1 /\ length c1 = length c /\ a = (selections_with_sum l s mod two64)%N /\
     d = (selections_with_sum l (s - y) mod two64)%N /\
     (match nth_error c1 ii with None => UB | Some m => Val (set_nth c1 ii (assign m s (wadd a d)), wadd a d) end) = Val (c', x)).
  { destruct right_first.
    - destruct (chk b (s - y)) as [s'|e| |] eqn:C; try discriminate. apply chk_val in C. destruct C as (-> & _). cbn [bind] in H.
      destruct (sum_of_subsets b true l (S ii) (s - y) c) as [(c1 & d)|e| |] eqn:E1; try discriminate. cbn [bind] in H.
      destruct (sum_of_subsets b true l (S ii) s c1) as [(c2 & a)|e| |] eqn:E2; try discriminate. cbn [bind] in H.
      destruct (IH _ _ _ _ _ SK' ltac:(lia) V E1) as (X1 & V1 & L1).
      destruct (IH _ _ _ _ _ SK' ltac:(lia) V1 E2) as (X2 & V2 & L2).
      exists c2, a, d. split; [trivial|]. split; [congruence|]. auto.
    - destruct (sum_of_subsets b false l (S ii) s c) as [(c1 & a)|e| |] eqn:E1; try discriminate. cbn [bind] in H.
      destruct (chk b (s - y)) as [s'|e| |] eqn:C; try discriminate. apply chk_val in C. destruct C as (-> & _). cbn [bind] in H.
      destruct (sum_of_subsets b false l (S ii) (s - y) c1) as [(c2 & d)|e| |] eqn:E2; try discriminate. cbn [bind] in H.
      destruct (IH _ _ _ _ _ SK' ltac:(lia) V E1) as (X1 & V1 & L1).
      destruct (IH _ _ _ _ _ SK' ltac:(lia) V1 E2) as (X2 & V2 & L2).
      exists c2, a, d. split; [trivial|]. split; [congruence|]. auto. }
  destruct G as (c1 & a & d & V1 & L1 & A & D & F).
  destruct (nth_error c1 ii) as [m1|] eqn:M1; [|discriminate]. injection F as <- <-.
  assert (X : wadd a d = (selections_with_sum (y :: l) s mod two64)%N).
  { rewrite selections_cons, A, D. unfold wadd. rewrite <- N.add_mod by discriminate. reflexivity. }
  split; [trivial|]. split; [|now rewrite set_nth_length].
  apply cvalid_set; trivial. now rewrite SK.
Qed.
Lemma subsets_val : forall l ii s c, (ii + length l <= length c)%nat -> Z.abs s + weight l <= imax b ->
  exists c' x, sum_of_subsets b right_first l ii s c = Val (c', x) /\ length c' = length c.
Proof.
  induction l as [|y l IH]; intros ii s c L W; cbn [sum_of_subsets]; [eauto|].
  cbn [weight fold_right length] in *. fold (weight l) in *. pose proof (weight_nonneg l).
  destruct (nth_error c ii) as [m|] eqn:M; [|apply nth_error_None in M; lia].
  destruct (lookup m s); [eauto|].
  assert (C : chk b (s - y) = Val (s - y)) by (apply chk_ok, fits_abs; lia).
  rewrite C. cbn [bind].
  destruct right_first.
  - destruct (IH (S ii) (s - y) c) as (c1 & d & -> & L1); [lia|lia|]. cbn [bind].
    destruct (IH (S ii) s c1) as (c2 & a & -> & L2); [lia|lia|]. cbn [bind].
    destruct (nth_error c2 ii) as [m2|] eqn:M2; [|apply nth_error_None in M2; lia].
    do 2 eexists. split; [reflexivity|]. rewrite set_nth_length. congruence.
  - destruct (IH (S ii) s c) as (c1 & d & -> & L1); [lia|lia|]. cbn [bind].
    destruct (IH (S ii) (s - y) c1) as (c2 & a & -> & L2); [lia|lia|]. cbn [bind].
    destruct (nth_error c2 ii) as [m2|] eqn:M2; [|apply nth_error_None in M2; lia].
    do 2 eexists. split; [reflexivity|]. rewrite set_nth_length. congruence.
Qed.
Lemma cvalid_fresh : cvalid (repeat [] (length whole)).
Proof.
  split; [rewrite repeat_length; lia|]. intros i m s x I M H.
  apply nth_error_In, repeat_spec in M. subst m. discriminate.
Qed.
Lemma sums_ok : forall sums c, cvalid c -> (forall s, In s sums -> Z.abs s + weight whole <= imax b) ->
  exists c', sums_of_subsets b right_first whole sums c =
    Val (c', map (fun s => selections_with_sum whole s mod two64)%N sums) /\ cvalid c'.
Proof.
  induction sums as [|s sums IH]; intros c V W; cbn [sums_of_subsets map]; [eauto|].
  destruct (subsets_val whole 0 s c) as (c1 & x & E & _).
  { destruct V as (L & _). exact L. }
  { apply W. now left. }
  rewrite E. cbn [bind]. destruct (subsets_ok whole 0 s c c1 x eq_refl eq_refl V E) as (-> & V1 & _).
  destruct (IH c1 V1) as (c2 & -> & V2). { intros s' I. apply W. now right. }
  cbn [bind]. eauto.
Qed.
End Subsets.
Lemma fresh_ok : forall b right_first l s, Z.abs s + weight l <= imax b ->
  sum_of_subsets_fresh b right_first l s = Val (selections_with_sum l s mod two64)%N.
Proof.
  intros b rf l s W. unfold sum_of_subsets_fresh.
  destruct (subsets_val b rf l 0 s (repeat [] (length l))) as (c & x & E & _); [rewrite repeat_length; lia|lia|].
  rewrite E. cbn [bind].
  now destruct (subsets_ok b rf l l 0 s _ _ _ eq_refl eq_refl (cvalid_fresh l) E) as (-> & _).
Qed.
