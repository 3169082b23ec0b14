(** Proofs about divisors.h, enum_factory.h, random.h and math_operation.h. *)
Require Import List Arith NArith ZArith Lia Bool Permutation Znumtheory.
Require Import Verif.Base Verif.Cint Verif.ToolsModel Verif.ToolsSpec.
Import ListNotations.

(** ** gcd *)
Local Open Scope N_scope.
Lemma gcd_sound : forall fuel a b g, gcd fuel a b = Val g -> g = N.gcd a b.
Proof.
  induction fuel as [|fuel IH]; intros a b g H; [discriminate|]. cbn [gcd] in H.
  destruct (N.eqb_spec b 0) as [->|NE].
  - injection H as <-. now rewrite N.gcd_0_r.
  - apply IH in H. rewrite H, N.gcd_comm, N.gcd_mod by trivial. apply N.gcd_comm.
Qed.
Lemma mod_half : forall b r, 0 < r -> r < b -> 2 * (b mod r) < b.
Proof.
  intros b r R L. pose proof (N.div_mod b r ltac:(lia)) as D. pose proof (N.mod_lt b r ltac:(lia)) as M.
  assert (1 <= b / r) by (apply N.div_le_lower_bound; lia). nia.
Qed.
Lemma gcd_total : forall k fuel a b, b < 2 ^ N.of_nat k -> (2 * k < fuel)%nat -> exists g, gcd fuel a b = Val g.
Proof.
  induction k as [|k IH]; intros fuel a b B F.
  - destruct fuel as [|fuel]; [lia|]. cbn [gcd]. change (2 ^ N.of_nat 0) with 1 in B.
    replace b with 0 by lia. cbn. eauto.
  - destruct fuel as [|[|fuel]]; [lia|lia|]. cbn [gcd].
    destruct (N.eqb_spec b 0); [eauto|].
    destruct (N.eqb_spec (a mod b) 0) as [|NE]; [eauto|]. apply IH; [|lia].
    pose proof (mod_half b (a mod b)) as H. pose proof (N.mod_lt a b ltac:(lia)) as M.
    rewrite Nat2N.inj_succ, N.pow_succ_r' in B. apply N.neq_0_lt_0 in NE. specialize (H NE M). lia.
Qed.
Lemma gcd_ok : forall a b, b < 2 ^ 64 -> exists g, gcd 129 a b = Val g /\ is_gcd g a b.
Proof.
  intros a b B. destruct (gcd_total 64 129 a b B) as (g & E); [lia|]. exists g. split; [trivial|].
  apply gcd_sound in E. subst g. split; [apply N.gcd_divide_l|]. split; [apply N.gcd_divide_r|].
  intros d. apply N.gcd_greatest.
Qed.

(** ** divisors_of *)
Definition pieces (n ii : N) : list N :=
  if n mod ii =? 0 then if wmul ii ii =? n then [ii] else [ii; n / ii] else [].
Fixpoint from (ii : N) (k : nat) : list N := match k with O => [] | S k => ii :: from (ii + 1) k end.
Lemma in_from : forall k ii x, In x (from ii k) <-> ii <= x < ii + N.of_nat k.
Proof.
  induction k as [|k IH]; intros ii x; cbn [from In]; [lia|]. rewrite IH. lia.
Qed.
Lemma nodup_from : forall k ii, NoDup (from ii k).
Proof.
  induction k as [|k IH]; intros ii; cbn [from]; constructor; [|apply IH]. rewrite in_from. lia.
Qed.
Lemma divisor_loop_pieces : forall fuel ii n acc,
  divisor_loop fuel ii n acc = acc ++ flat_map (pieces n) (from ii fuel).
Proof.
  induction fuel as [|fuel IH]; intros ii n acc; cbn [divisor_loop from flat_map]; [now rewrite app_nil_r|].
  rewrite IH, app_assoc. f_equal. unfold pieces. destruct (n mod ii =? 0); [|now rewrite app_nil_r].
  destruct (wmul ii ii =? n); cbn [negb]; rewrite <- ?app_assoc; reflexivity.
Qed.
Lemma nodup_flat_map : forall (A B : Type) (f : A -> list B) l, NoDup l -> (forall x, In x l -> NoDup (f x)) ->
  (forall x y z, In x l -> In y l -> In z (f x) -> In z (f y) -> x = y) -> NoDup (flat_map f l).
Proof.
  intros A B f. induction l as [|x l IH]; intros ND E D; cbn [flat_map]; [constructor|].
  inversion ND as [|? ? NI ND']; subst.
  assert (R : NoDup (flat_map f l)).
  { apply IH; [trivial| |]. - intros; apply E; now right. - intros y z w Y Z. apply (D y z w); now right. }
  pose proof (E x (or_introl eq_refl)) as NX.
  assert (DJ : forall z, In z (f x) -> ~ In z (flat_map f l)).
  { intros z Hz H. apply in_flat_map in H. destruct H as (y & Y & Hy).
    assert (x = y) by (apply (D x y z); [now left|now right|trivial|trivial]). congruence. }
  clear - R NX DJ. induction (f x) as [|z fx IHx]; [exact R|]. cbn. inversion NX; subst. constructor.
  - rewrite in_app_iff. intros [H|H]; [contradiction|]. apply (DJ z); [now left|trivial].
  - apply IHx; [trivial|]. intros w W. apply DJ. now right.
Qed.
Section Divisors.
Variables (square : N -> N) (n : N).
Hypothesis SQ : square_root square.
Hypothesis NP : 0 < n.
Hypothesis NB : n < 2 ^ 64.
Lemma low_exact : forall ii, In ii (from 2 (N.to_nat (square n - 1))) -> n mod ii = 0 -> ii * ii <= n.
Proof.
  intros ii I D. apply in_from in I. destruct (SQ n NB) as (S1 & S2 & S3).
  destruct (N.le_gt_cases (ii * ii) n) as [|G]; [trivial|exfalso].
  assert (IL : ii <= square n) by lia. clear I.
  pose proof (N.sqrt_spec n ltac:(lia)) as (R1 & R2). set (r := N.sqrt n) in *. clearbody r.
  set (s := square n) in *. clearbody s.
  apply N.mod_divide in D; [|nia]. destruct D as (q & ->).
  assert (q < ii) by nia. assert (ii * ii <= s * s) by nia. assert (ii <= 3072) by nia.
  assert (q * ii < 2 ^ 52).
  { change (2 ^ 52) with 4503599627370496. nia. }
  specialize (S1 H2). subst s. nia.
Qed.
Lemma wmul_low : forall ii, ii * ii <= n -> wmul ii ii = ii * ii.
Proof. intros ii H. unfold wmul. apply N.mod_small. unfold two64. lia. Qed.
Lemma in_divisors : forall d, In d (divisors_of square n false) <-> N.divide d n /\ 1 < d < n.
Proof.
  intros d. unfold divisors_of. rewrite divisor_loop_pieces. cbn [app]. rewrite in_flat_map. split.
  - intros (ii & I & H). unfold pieces in H. destruct (N.eqb_spec (n mod ii) 0) as [M|]; [|contradiction].
    pose proof (low_exact ii I M) as L. apply in_from in I. rewrite (wmul_low ii L) in H.
    assert (M' := M). apply N.mod_divide in M'; [|lia]. destruct M' as (q & Q).
    destruct (N.eqb_spec (ii * ii) n) as [E|NE].
    + destruct H as [<-|[]]. split; [exists q; trivial|]. nia.
    + assert (DQ : n / ii = q) by (rewrite Q; apply N.div_mul; lia).
      destruct H as [<-|[<-|[]]].
      * split; [exists q; trivial|]. nia.
      * rewrite DQ. split; [exists ii; lia|]. nia.
  - intros ((q & Q) & D1 & D2). destruct (SQ n NB) as (S1 & S2 & S3).
    pose proof (N.sqrt_spec n ltac:(lia)) as (R1 & R2). set (r := N.sqrt n) in *.
    assert (Q2 : 2 <= q) by nia. 
    destruct (N.le_gt_cases d r) as [DL|DG].
    + exists d. split; [apply in_from; lia|]. unfold pieces.
      replace (n mod d) with 0 by (rewrite Q; symmetry; apply N.mod_mul; lia). cbn.
      destruct (wmul d d =? n); now left.
    + assert (QL : q <= r) by nia. exists q. split; [apply in_from; lia|]. unfold pieces.
      replace (n mod q) with 0 by (rewrite Q, N.mul_comm; symmetry; apply N.mod_mul; lia). cbn [N.eqb].
      rewrite wmul_low by nia. destruct (N.eqb_spec (q * q) n) as [E|NE]; [exfalso; nia|].
      right. left. rewrite Q, N.mul_comm. apply N.div_mul. lia.
Qed.
Lemma nodup_divisors : NoDup (divisors_of square n false).
Proof.
  unfold divisors_of. rewrite divisor_loop_pieces. cbn [app]. apply nodup_flat_map; [apply nodup_from| |].
  - intros ii I. unfold pieces. destruct (N.eqb_spec (n mod ii) 0) as [M|]; [|constructor].
    pose proof (low_exact ii I M) as L. rewrite (wmul_low ii L). apply in_from in I.
    destruct (N.eqb_spec (ii * ii) n) as [E|NE]; [constructor; [tauto|constructor]|].
    constructor; [|constructor; [tauto|constructor]]. intros [E|[]]. apply NE.
    apply N.mod_divide in M; [|lia]. destruct M as (q & Q). rewrite Q, N.div_mul in E by lia. subst q. auto.
  - intros x y z X Y HX HY. unfold pieces in HX, HY.
    destruct (N.eqb_spec (n mod x) 0) as [MX|]; [|contradiction].
    destruct (N.eqb_spec (n mod y) 0) as [MY|]; [|contradiction].
    pose proof (low_exact x X MX) as LX. pose proof (low_exact y Y MY) as LY.
    rewrite (wmul_low _ LX) in HX. rewrite (wmul_low _ LY) in HY. apply in_from in X, Y.
    apply N.mod_divide in MX, MY; [|lia|lia]. destruct MX as (p & P), MY as (q & Q).
    assert (DX : n / x = p) by (rewrite P; apply N.div_mul; lia).
    assert (DY : n / y = q) by (rewrite Q; apply N.div_mul; lia).
    rewrite DX in HX. rewrite DY in HY.
    destruct (N.eqb_spec (x * x) n), (N.eqb_spec (y * y) n); cbn [In] in HX, HY; intuition (subst; nia).
Qed.
End Divisors.
Lemma divisors_zero : forall square sorting, square_root square -> divisors_of square 0 sorting = [].
Proof.
  intros square sorting SQ. destruct (SQ 0 ltac:(reflexivity)) as (S1 & _). unfold divisors_of.
  rewrite (S1 ltac:(reflexivity)). now destruct sorting.
Qed.

Lemma insert_perm : forall x l, Permutation (insert x l) (x :: l).
Proof.
  intros x. induction l as [|y l IH]; cbn [insert]; [auto|]. destruct (x <=? y); [auto|].
  rewrite IH. apply perm_swap.
Qed.
Lemma sort_perm : forall l, Permutation (sort l) l.
Proof.
  induction l as [|x l IH]; [constructor|]. change (sort (x :: l)) with (insert x (sort l)).
  rewrite insert_perm, IH. reflexivity.
Qed.
Fixpoint nondescending (l : list N) : Prop :=
  match l with [] => True | x :: r => (forall y, In y r -> x <= y) /\ nondescending r end.
Lemma insert_sorted : forall x l, nondescending l -> nondescending (insert x l).
Proof.
  intros x. induction l as [|y l IH]; cbn [insert]; [cbn; tauto|]. intros (A & B).
  destruct (N.leb_spec x y).
  - cbn [nondescending]. split; [|split; trivial]. intros z [<-|Z]; [trivial|]. specialize (A z Z). lia.
  - cbn [nondescending]. split; [|now apply IH]. intros z Z.
    apply (Permutation_in _ (insert_perm x l)) in Z. destruct Z as [<-|Z]; [lia|now apply A].
Qed.
Lemma sort_sorted : forall l, nondescending (sort l).
Proof. induction l as [|x l IH]; [exact I|]. change (sort (x :: l)) with (insert x (sort l)). now apply insert_sorted. Qed.
Lemma nodup_ascending : forall l, nondescending l -> NoDup l -> ascending l.
Proof.
  induction l as [|x l IH]; intros S ND; [exact I|]. destruct S as (A & B). inversion ND; subst. split; [|now apply IH].
  intros y Y. specialize (A y Y). assert (x <> y) by congruence. lia.
Qed.
Lemma divisors_ok : forall square n sorting, square_root square -> 0 < n < 2 ^ 64 ->
  let l := divisors_of square n sorting in
  (forall d, In d l <-> N.divide d n /\ 1 < d < n) /\ NoDup l /\ (sorting = true -> ascending l).
Proof.
  intros square n sorting SQ (NP & NB). pose proof (in_divisors square n SQ NP NB) as HI.
  pose proof (nodup_divisors square n SQ NP NB) as HD. destruct sorting.
  - change (divisors_of square n true) with (sort (divisors_of square n false)). cbv zeta.
    set (l := divisors_of square n false) in *. clearbody l.
    assert (ND : NoDup (sort l)) by (apply (Permutation_NoDup (Permutation_sym (sort_perm l))); trivial).
    split; [|split; [trivial|]].
    + intros d. rewrite <- HI. split; intros H; [exact (Permutation_in _ (sort_perm l) H)|exact (Permutation_in _ (Permutation_sym (sort_perm l)) H)].
    + intros _. apply nodup_ascending; [apply sort_sorted|trivial].
  - split; [exact HI|]. split; [exact HD|discriminate].
Qed.
(** The hypothesis on the square root is met by the exact one. *)
Lemma exact_square_root : square_root N.sqrt.
Proof. intros n _. destruct (N.sqrt_spec n ltac:(lia)) as (A & _). split; [trivial|]. split; [reflexivity|].
  eapply N.le_lt_trans; [exact A|]. apply N.lt_add_pos_r. reflexivity. Qed.
(** A number without divisors below its root but 1 is answered with nothing. *)
Lemma divisors_prime : forall square n sorting, square_root square -> 0 < n < 2 ^ 64 ->
  (divisors_of square n sorting = [] <-> forall d, N.divide d n -> d = 1 \/ d = n).
Proof.
  intros square n sorting SQ NB. destruct (divisors_ok square n sorting SQ NB) as (HI & _). split.
  - intros E d D. specialize (HI d). rewrite E in HI. cbn [In] in HI.
    pose proof (N.divide_pos_le d n ltac:(lia) D) as L.
    assert (d <> 0). { intros ->. apply N.divide_0_l in D. lia. }
    destruct (N.eq_dec d 1); [auto|]. destruct (N.eq_dec d n); [auto|]. exfalso. apply HI. split; [trivial|lia].
  - intros P. destruct (divisors_of square n sorting) as [|d l]; [trivial|exfalso].
    destruct (proj1 (HI d) (or_introl eq_refl)) as (D & B). destruct (P d D); lia.
Qed.

(** ** from_string *)
Local Open Scope Z_scope.
Lemma str_eqb_spec : forall s t, reflect (s = t) (str_eqb s t).
Proof. intros s t. unfold str_eqb. destruct (list_eq_dec N.eq_dec s t); constructor; trivial. Qed.
Lemma narrow_64 : forall b x, 0 < b <= 64 -> narrow b (x mod 2 ^ 64) = narrow b x.
Proof.
  intros b x B. unfold narrow. f_equal. rewrite <- Zplus_mod_idemp_l.
  rewrite <- Zmod_div_mod; [apply Zplus_mod_idemp_l|apply Z.pow_pos_nonneg; lia|reflexivity|].
  exists (2 ^ (64 - b)). rewrite <- Z.pow_add_r by lia. f_equal. lia.
Qed.
Lemma next_value_ok : forall b v, 0 < b <= 64 -> fits b (v + 1) -> next_value b v = v + 1.
Proof.
  intros b v B F. unfold next_value. rewrite narrow_64 by trivial.
  assert (E : narrow b (v mod 2 ^ 64 + 1) = narrow b (v + 1)).
  { unfold narrow. f_equal. rewrite <- !Z.add_assoc, <- (Zplus_mod_idemp_l (v mod 2 ^ 64)), <- (Zplus_mod_idemp_l v).
    rewrite <- Zmod_div_mod; [trivial|apply Z.pow_pos_nonneg; lia|reflexivity|].
    exists (2 ^ (64 - b)). rewrite <- Z.pow_add_r by lia. f_equal. lia. }
  rewrite E. apply narrow_ok; [lia|trivial].
Qed.
Lemma from_string_loop_ok : forall fuel b to_string s v maximum, 0 < b <= 64 -> fits b v -> fits b maximum ->
  (Z.to_nat (maximum - v) < fuel)%nat ->
  (exists r, from_string_loop fuel b to_string s v maximum = Val r /\ named to_string v maximum s r) \/
  (from_string_loop fuel b to_string s v maximum = Val maximum /\ unnamed to_string v maximum s) .
Proof.
  induction fuel as [|fuel IH]; intros b to_string s v maximum B FV FM F; cbn [from_string_loop].
  { exfalso. lia. }
  destruct (Z.ltb_spec v maximum) as [L|L].
  2:{ right. split; [trivial|]. intros u U. lia. }
  destruct (str_eqb_spec s (to_string v)) as [E|NE].
  - left. exists v. split; [trivial|]. split; [lia|]. split; [auto|]. intros u U. lia.
  - assert (FV' : fits b (v + 1)) by (unfold fits in *; lia).
    rewrite next_value_ok by trivial.
    destruct (IH b to_string s (v + 1) maximum B FV' FM ltac:(lia)) as [(r & E & N1 & N2 & N3)|(E & N)].
    + left. exists r. split; [trivial|]. split; [lia|]. split; [trivial|]. intros u U.
      destruct (Z.eq_dec u v) as [->|]; [congruence|apply N3; lia].
    + right. split; [trivial|]. intros u U. destruct (Z.eq_dec u v) as [->|]; [congruence|apply N; lia].
Qed.
Lemma from_string_ok : forall b to_string minimum maximum s, 0 < b <= 64 -> fits b minimum -> fits b maximum ->
  (exists r, from_string b to_string minimum maximum s = Val r /\ named to_string minimum maximum s r) \/
  (from_string b to_string minimum maximum s = Val maximum /\ unnamed to_string minimum maximum s).
Proof. intros. apply from_string_loop_ok; trivial. lia. Qed.
Lemma from_string_first : forall b to_string minimum maximum s r, 0 < b <= 64 -> fits b minimum -> fits b maximum ->
  named to_string minimum maximum s r -> from_string b to_string minimum maximum s = Val r.
Proof.
  intros b to_string minimum maximum s r B F1 F2 (R1 & R2 & R3).
  destruct (from_string_ok b to_string minimum maximum s B F1 F2) as [(q & E & Q1 & Q2 & Q3)|(_ & U)].
  - rewrite E. f_equal. destruct (Z.lt_trichotomy q r) as [L|[L|L]]; [|trivial|].
    + destruct (R3 q ltac:(lia) Q2).
    + destruct (Q3 r ltac:(lia) R2).
  - destruct (U r R1 R2).
Qed.
Lemma from_string_unknown : forall b to_string minimum maximum s, 0 < b <= 64 -> fits b minimum -> fits b maximum ->
  unnamed to_string minimum maximum s -> from_string b to_string minimum maximum s = Val maximum.
Proof.
  intros b to_string minimum maximum s B F1 F2 U.
  destruct (from_string_ok b to_string minimum maximum s B F1 F2) as [(q & E & Q1 & Q2 & Q3)|(E & _)]; [|trivial].
  destruct (U q Q1 Q2).
Qed.
Lemma from_string_round_trip : forall b to_string minimum maximum v, 0 < b <= 64 -> fits b minimum -> fits b maximum ->
  (forall x y, minimum <= x <= maximum -> minimum <= y <= maximum -> to_string x = to_string y -> x = y) ->
  minimum <= v <= maximum -> from_string b to_string minimum maximum (to_string v) = Val v.
Proof.
  intros b to_string minimum maximum v B F1 F2 D V. destruct (Z.eq_dec v maximum) as [->|NE].
  - apply from_string_unknown; trivial. intros u U E. apply D in E; lia.
  - apply from_string_first; trivial. split; [lia|]. split; [trivial|]. intros u U E. apply D in E; lia.
Qed.

(** ** random.h *)
Local Open Scope N_scope.
Lemma dist_ok : forall w lo hi raw, lo <= hi -> hi < 2 ^ w -> exists d, dist w lo hi raw = Val d /\ lo <= d <= hi.
Proof.
  intros w lo hi raw L H. unfold dist. rewrite !N.mod_small by lia.
  destruct (N.ltb_spec hi lo); [lia|]. eexists. split; [reflexivity|].
  pose proof (N.mod_lt raw (hi - lo + 1) ltac:(lia)) as M.
  set (m := raw mod (hi - lo + 1)) in *. clearbody m. lia.
Qed.
Lemma dist_onto : forall w lo hi d, hi < 2 ^ w -> lo <= d <= hi -> exists raw, dist w lo hi raw = Val d.
Proof.
  intros w lo hi d H B. exists (d - lo). unfold dist. rewrite !(N.mod_small _ (2 ^ w)) by lia.
  destruct (N.ltb_spec hi lo); [lia|]. rewrite N.mod_small by lia. f_equal. lia.
Qed.
Definition target (k : Z) (sgn : bool) (x : N) : Prop :=
  if sgn then (Z.of_N x <= imax k)%Z else (Z.of_N x < 2 ^ k)%Z.
Lemma next_random_ok : forall w k sgn start end_ raw, (0 < k)%Z -> start <= end_ -> end_ < 2 ^ w -> target k sgn end_ ->
  exists r, next_random w k sgn start end_ raw = Val (Z.of_N r) /\ start <= r <= end_.
Proof.
  intros w k sgn start end_ raw K L H T. unfold next_random.
  destruct (dist_ok w start end_ raw L H) as (d & -> & D). cbn [bind]. exists d. split; [|trivial]. f_equal.
  destruct sgn; cbn in T.
  - apply narrow_ok; [lia|]. pose proof (Z.pow_nonneg 2 (k - 1) ltac:(lia)). unfold fits, imin, imax in *. lia.
  - apply Z.mod_small. lia.
Qed.
Lemma next_random_onto : forall w k sgn start end_ r, (0 < k)%Z -> end_ < 2 ^ w -> target k sgn end_ ->
  start <= r <= end_ -> exists raw, next_random w k sgn start end_ raw = Val (Z.of_N r).
Proof.
  intros w k sgn start end_ r K H T R. destruct (dist_onto w start end_ r H R) as (raw & E). exists raw.
  unfold next_random. rewrite E. cbn [bind]. f_equal. destruct sgn; cbn in T.
  - apply narrow_ok; [lia|]. pose proof (Z.pow_nonneg 2 (k - 1) ltac:(lia)). unfold fits, imin, imax in *. lia.
  - apply Z.mod_small. lia.
Qed.
Lemma next_random_empty : forall w k sgn start end_ raw, start < 2 ^ w -> end_ < start ->
  next_random w k sgn start end_ raw = UB.
Proof.
  intros w k sgn start end_ raw S E. unfold next_random, dist. rewrite !N.mod_small by lia.
  destruct (N.ltb_spec end_ start); [reflexivity|lia].
Qed.
Lemma random_char_ok : forall w set raw, 7 <= w -> sizeN set <= 2 ^ w ->
  exists c, next_random_char w set raw = Val c /\ (set <> [] -> In c set) /\ (set = [] -> 32 <= c <= 126).
Proof.
  intros w set raw W S. destruct set as [|x set].
  - cbn [next_random_char]. assert (2 ^ 7 <= 2 ^ w) by (apply N.pow_le_mono_r; lia).
    destruct (dist_ok w 32 126 raw) as (d & -> & D); [lia|change (2 ^ 7) with 128 in *; lia|].
    exists d. split; [trivial|]. split; [congruence|trivial].
  - unfold next_random_char. destruct (dist_ok w 0 (sizeN (x :: set) - 1) raw) as (d & -> & D); [lia| |].
    { unfold sizeN in *. cbn [length] in *. lia. }
    cbn [bind]. destruct (nth_error (x :: set) (N.to_nat d)) as [c|] eqn:E.
    + exists c. split; [trivial|]. split; [|congruence]. intros _. eapply nth_error_In; eauto.
    + apply nth_error_None in E. unfold sizeN in D. cbn [length] in *. lia.
Qed.
Lemma random_string_ok : forall w set raws count ii, 7 <= w -> sizeN set <= 2 ^ w ->
  exists s, random_chars w count set raws ii = Val s /\ length s = count /\
    forall c, In c s -> (set <> [] -> In c set) /\ (set = [] -> 32 <= c <= 126).
Proof.
  intros w set raws. induction count as [|count IH]; intros ii W S; cbn [random_chars].
  { exists []. split; [trivial|]. split; [trivial|]. intros c []. }
  destruct (random_char_ok w set (raws ii) W S) as (c & -> & C). cbn [bind].
  destruct (IH (Datatypes.S ii) W S) as (s & -> & L & H). cbn [bind]. exists (c :: s). split; [trivial|].
  split; [cbn; congruence|]. intros d [<-|D]; auto.
Qed.
(** Any string of members can come out. *)
Lemma random_char_onto : forall w set c, set <> [] -> sizeN set <= 2 ^ w -> In c set ->
  exists raw, next_random_char w set raw = Val c.
Proof.
  intros w set c NE S I. apply In_nth_error in I. destruct I as (i & E).
  assert (L : (i < length set)%nat) by (apply nth_error_Some; congruence).
  destruct (dist_onto w 0 (sizeN set - 1) (N.of_nat i)) as (raw & R); [unfold sizeN in *; lia|unfold sizeN in *; lia|].
  exists raw. unfold next_random_char. destruct set as [|x set]; [congruence|]. rewrite R. cbn [bind].
  now rewrite Nat2N.id, E.
Qed.
Lemma random_string_onto : forall w set s ii, set <> [] -> sizeN set <= 2 ^ w -> (forall c, In c s -> In c set) ->
  exists raws, random_chars w (length s) set raws ii = Val s.
Proof.
  intros w set s. induction s as [|c s IH]; intros ii NE S H; [exists (fun _ => 0); reflexivity|].
  destruct (IH (Datatypes.S ii) NE S) as (raws & E); [intros; apply H; now right|].
  destruct (random_char_onto w set c NE S) as (raw & R); [apply H; now left|].
  exists (fun j => if Nat.eqb j ii then raw else raws j). cbn [length random_chars]. rewrite Nat.eqb_refl, R. cbn [bind].
  assert (X : forall count jj, (ii < jj)%nat ->
    random_chars w count set (fun j => if Nat.eqb j ii then raw else raws j) jj = random_chars w count set raws jj).
  { induction count as [|count IHc]; intros jj J; [trivial|]. cbn [random_chars].
    destruct (Nat.eqb_spec jj ii); [lia|]. destruct (next_random_char w set (raws jj)); trivial. cbn [bind].
    rewrite IHc by lia. trivial. }
  rewrite X by lia. now rewrite E.
Qed.

(** ** math_operation.h *)
Local Open Scope Z_scope.
Lemma variadic_sound : forall op (f : Z -> Z -> Z) e, (forall x y z, op x y = Val z -> z = f x y) ->
  (forall x, f x e = x) -> forall others first r, variadic op first others = Val r -> r = fold_right f e (first :: others).
Proof.
  intros op f e OP E. induction others as [|y others IH]; intros first r H.
  - injection H as <-. cbn. now rewrite E.
  - destruct others as [|z others].
    + cbn in *. rewrite E. now apply OP.
    + change (variadic op first (y :: z :: others)) with (let* r := variadic op y (z :: others) in op first r) in H.
      destruct (variadic op y (z :: others)) as [q|x| |] eqn:V; try discriminate. cbn [bind] in H.
      apply OP in H. apply IH in V. rewrite H, V. reflexivity.
Qed.
Lemma variadic_total : forall op (f : Z -> Z -> Z) e, (forall x y z, op x y = Val z -> z = f x y) ->
  (forall x, f x e = x) -> forall b, (forall x y, fits b (f x y) -> op x y = Val (f x y)) ->
  forall others first, (forall a c, first :: others = a ++ c -> c <> [] -> fits b (fold_right f e c)) ->
  variadic op first others = Val (fold_right f e (first :: others)).
Proof.
  intros op f e OP E b F. induction others as [|y others IH]; intros first H.
  - cbn. now rewrite E.
  - assert (HF : fits b (fold_right f e (first :: y :: others))) by (apply (H []); [trivial|discriminate]).
    destruct others as [|z others].
    + cbn in *. rewrite E in *. now apply F.
    + change (variadic op first (y :: z :: others)) with (let* r := variadic op y (z :: others) in op first r).
      rewrite IH.
      * cbn [bind]. rewrite F; [reflexivity|exact HF].
      * intros a c A C. apply (H (first :: a) c); [cbn; congruence|trivial].
Qed.
Lemma sum_sound : forall b first others r, sum_t b first others = Val r -> r = sumZ (first :: others).
Proof.
  intros b first others r H. apply (variadic_sound (plus b) Z.add 0) in H; [exact H| |apply Z.add_0_r].
  intros x y z P. now apply chk_val in P.
Qed.
Lemma sum_total : forall b first others, (forall a c, first :: others = a ++ c -> c <> [] -> fits b (sumZ c)) ->
  sum_t b first others = Val (sumZ (first :: others)).
Proof.
  intros b first others H. apply (variadic_total (plus b) Z.add 0) with (b := b); trivial.
  - intros x y z P. now apply chk_val in P.
  - apply Z.add_0_r.
  - intros x y F. now apply chk_ok.
Qed.
Lemma product_sound : forall b first others r, multiplication_t b first others = Val r -> r = prodZ (first :: others).
Proof.
  intros b first others r H. apply (variadic_sound (times b) Z.mul 1) in H; [exact H| |apply Z.mul_1_r].
  intros x y z P. now apply chk_val in P.
Qed.
Lemma product_total : forall b first others, (forall a c, first :: others = a ++ c -> c <> [] -> fits b (prodZ c)) ->
  multiplication_t b first others = Val (prodZ (first :: others)).
Proof.
  intros b first others H. apply (variadic_total (times b) Z.mul 1) with (b := b); trivial.
  - intros x y z P. now apply chk_val in P.
  - apply Z.mul_1_r.
  - intros x y F. now apply chk_ok.
Qed.
Lemma sum_u_ok : forall others first, Forall (fun x => (x < two64)%N) (first :: others) ->
  sum_u first others = Val (sumN (first :: others) mod two64)%N.
Proof.
  induction others as [|y others IH]; intros first F; inversion F as [|? ? F1 F2]; subst.
  - unfold sum_u, variadic, sumN. cbn [fold_right]. rewrite N.add_0_r, N.mod_small by trivial. reflexivity.
  - specialize (IH y F2). destruct others as [|z others].
    + unfold sum_u, variadic, plus_u, wadd, sumN. cbn [fold_right]. now rewrite N.add_0_r.
    + change (sum_u first (y :: z :: others)) with (let* r := sum_u y (z :: others) in plus_u first r).
      rewrite IH. cbn [bind]. unfold plus_u, wadd. f_equal. rewrite N.add_mod_idemp_r by discriminate. reflexivity.
Qed.
Lemma product_u_ok : forall others first, Forall (fun x => (x < two64)%N) (first :: others) ->
  multiplication_u first others = Val (prodN (first :: others) mod two64)%N.
Proof.
  induction others as [|y others IH]; intros first F; inversion F as [|? ? F1 F2]; subst.
  - unfold multiplication_u, variadic, prodN. cbn [fold_right]. rewrite N.mul_1_r, N.mod_small by trivial. reflexivity.
  - specialize (IH y F2). destruct others as [|z others].
    + unfold multiplication_u, variadic, times_u, wmul, prodN. cbn [fold_right]. now rewrite N.mul_1_r.
    + change (multiplication_u first (y :: z :: others)) with (let* r := multiplication_u y (z :: others) in times_u first r).
      rewrite IH. cbn [bind]. unfold times_u, wmul. f_equal. rewrite N.mul_mod_idemp_r by discriminate. reflexivity.
Qed.
Section Least.
Context {T : Type} (less : T -> T -> bool).
Hypothesis W : weak_order less.
Lemma least_snoc : forall l m x, first_least less l m -> first_least less (l ++ [x]) (min2 less m x).
Proof.
  destruct W as (IR & TR & NT). intros l m x (a & c & -> & A & C). unfold min2. destruct (less x m) eqn:E.
  - exists (a ++ m :: c), []. split; [trivial|]. split; [|intros y []]. intros y Y. apply in_app_iff in Y.
    destruct Y as [Y|[<-|Y]]; [apply TR with m; auto|trivial|].
    destruct (NT x y m E) as [|Z]; [trivial|]. rewrite (C y Y) in Z. discriminate.
  - exists a, (c ++ [x]). split; [now rewrite <- app_assoc|]. split; [trivial|]. intros y Y.
    apply in_app_iff in Y. destruct Y as [Y|[<-|[]]]; auto.
Qed.
Lemma minimum_ok : forall others first, first_least less (first :: others) (minimum less first others).
Proof.
  intros others first. unfold minimum.
  assert (G : forall others l m, first_least less l m -> first_least less (l ++ others) (fold_left (min2 less) others m)).
  { clear others first. induction others as [|x others IH]; intros l m H; [now rewrite app_nil_r|].
    replace (l ++ x :: others) with ((l ++ [x]) ++ others) by (rewrite <- app_assoc; reflexivity).
    cbn [fold_left]. now apply IH, least_snoc. }
  apply (G others [first] first). exists [], []. split; [trivial|]. split; intros x [].
Qed.
End Least.
Lemma maximum_minimum : forall T (less : T -> T -> bool) others first,
  maximum less first others = minimum (fun x y => less y x) first others.
Proof. intros. reflexivity. Qed.
Lemma weak_order_flip : forall T (less : T -> T -> bool), weak_order less -> weak_order (fun x y => less y x).
Proof.
  intros T less (IR & TR & NT). split; [trivial|]. split.
  - intros x y z A B. eapply TR; eauto.
  - intros x y z A. destruct (NT z y x A); auto.
Qed.
Lemma maximum_ok : forall T (less : T -> T -> bool) others first, weak_order less ->
  first_least (fun x y => less y x) (first :: others) (maximum less first others).
Proof. intros T less others first W. rewrite maximum_minimum. now apply minimum_ok, weak_order_flip. Qed.
Lemma less_weak : weak_order Z.ltb.
Proof.
  split; [apply Z.ltb_irrefl|]. split.
  - intros x y z A B. apply Z.ltb_lt in A, B. apply Z.ltb_lt. lia.
  - intros x y z A. apply Z.ltb_lt in A. rewrite !Z.ltb_lt. lia.
Qed.
Lemma sum_undone : forall b x y r, fits b x -> sum_t b x [y] = Val r -> subtraction_t b r y = Val x.
Proof.
  intros b x y r F H. apply chk_val in H. destruct H as (-> & _). unfold subtraction_t, minus.
  replace (x + y - y) with x by lia. now apply chk_ok.
Qed.
Lemma subtraction_undone : forall b x y r, fits b x -> subtraction_t b x y = Val r -> sum_t b r [y] = Val x.
Proof.
  intros b x y r F H. apply chk_val in H. destruct H as (-> & _). unfold sum_t, variadic, plus.
  replace (x - y + y) with x by lia. now apply chk_ok.
Qed.
Lemma product_undone : forall b x y r, fits b x -> y <> 0 -> multiplication_t b x [y] = Val r -> division_t b r y = Val x.
Proof.
  intros b x y r F NE H. apply chk_val in H. destruct H as (-> & _). unfold division_t, divide.
  destruct (Z.eqb_spec y 0); [contradiction|]. rewrite Z.quot_mul by trivial. now apply chk_ok.
Qed.
Lemma division_undone : forall b x y r, fits b x -> (y | x) -> division_t b x y = Val r -> multiplication_t b r [y] = Val x.
Proof.
  intros b x y r F (q & ->) H. unfold division_t, divide in H. destruct (Z.eqb_spec y 0); [discriminate|].
  rewrite Z.quot_mul in H by trivial. apply chk_val in H. destruct H as (-> & _). now apply chk_ok.
Qed.
Lemma null_values_ok : forall b x, fits b x ->
  sum_t b sum_null [x] = Val x /\ sum_t b x [sum_null] = Val x /\
  multiplication_t b multiplication_null [x] = Val x /\ multiplication_t b x [multiplication_null] = Val x.
Proof.
  intros b x F. unfold sum_t, multiplication_t, variadic, plus, times, sum_null, multiplication_null.
  rewrite Z.add_0_l, Z.add_0_r, Z.mul_1_l, Z.mul_1_r, chk_ok by trivial. auto.
Qed.
