(** Proofs about missing_element.h. *)
Require Import List Arith ZArith QArith Lia Bool Permutation.
Require Import Verif.Base Verif.Cint Verif.MissingModel Verif.MissingSpec.
Import ListNotations.
Local Open Scope Z_scope.

(** ** Progressions with a gap *)
Lemma without_length : forall n m, (m <= n)%nat -> length (without n m) = n.
Proof. intros n m H. unfold without. rewrite app_length, !seq_length. lia. Qed.
Lemma without_nth : forall n m i, (m <= n)%nat -> (i < n)%nat ->
  nth_error (without n m) i = Some (if (i <? m)%nat then i else S i).
Proof.
  intros n m i M I. unfold without. destruct (Nat.ltb_spec i m).
  - rewrite nth_error_app1 by (rewrite seq_length; lia).
    rewrite (nth_error_nth' _ O) by (rewrite seq_length; lia). rewrite seq_nth by lia. reflexivity.
  - rewrite nth_error_app2 by (rewrite seq_length; lia). rewrite seq_length.
    rewrite (nth_error_nth' _ O) by (rewrite seq_length; lia). rewrite seq_nth by lia. f_equal. lia.
Qed.
Lemma gap_length : forall A (t : nat -> A) n m, (m <= n)%nat -> length (map t (without n m)) = n.
Proof. intros. now rewrite map_length, without_length. Qed.
Lemma gap_deref : forall A (t : nat -> A) n m i, (m <= n)%nat -> (i < n)%nat ->
  deref (map t (without n m)) i = Val (t (if (i <? m)%nat then i else S i)).
Proof.
  intros A t n m i M I. unfold deref. now rewrite nth_error_map, without_nth.
Qed.
Lemma gap_deref_out : forall A (t : nat -> A) n m i, (m <= n)%nat -> (n <= i)%nat ->
  deref (map t (without n m)) i = UB.
Proof.
  intros A t n m i M I. unfold deref.
  destruct (nth_error (map t (without n m)) i) eqn:E; [|trivial].
  assert (i < length (map t (without n m)))%nat by (apply nth_error_Some; congruence).
  rewrite gap_length in *; lia.
Qed.

Lemma half_lt : forall c, (0 < c)%nat -> (c / 2 < c)%nat.
Proof. intros. apply Nat.div_lt; lia. Qed.
Lemma half_bounds : forall c, (2 * (c / 2) <= c <= 2 * (c / 2) + 1)%nat.
Proof.
  intros c. pose proof (Nat.div_mod c 2 ltac:(lia)). pose proof (Nat.mod_upper_bound c 2 ltac:(lia)). lia.
Qed.

Lemma down_le : forall j c, (Nat.iter j (fun c => c - c / 2) c <= c)%nat.
Proof. induction j as [|j IH]; intros c; [cbn; lia|]. specialize (IH c).
  change (Nat.iter (S j) (fun c => c - c / 2) c)%nat with ((fun c => c - c / 2) (Nat.iter j (fun c => c - c / 2) c))%nat.
  cbv beta. lia.
Qed.
Lemma iter_shift : forall j (f : nat -> nat) c, Nat.iter (S j) f c = Nat.iter j f (f c).
Proof. intros j f c. induction j as [|j IH]; [reflexivity|]. cbn in *. now rewrite IH. Qed.
Lemma reaches_one : forall c, (2 <= c)%nat -> exists j, (Nat.iter j (fun c => c - c / 2) c / 2 = 1)%nat.
Proof.
  intros c. induction c as [c IH] using (well_founded_induction lt_wf). intros C.
  pose proof (half_bounds c). destruct (Nat.eq_dec (c / 2) 1).
  - exists O. assumption.
  - destruct (IH (c - c / 2)%nat) as (j & E); [lia|lia|]. exists (S j). now rewrite iter_shift.
Qed.

(** ** The arithmetic search *)
Section Arithmetic.
Variables (b lower factor : Z) (n m : nat).
Hypothesis B : 0 < b.
Hypothesis F : factor <> 0.
Hypothesis M : (1 <= m <= n)%nat.
Hypothesis REP : representable b (arithmetic_term lower factor) n.
Hypothesis REP64 : representable 64 (arithmetic_term 0 factor) n.
Hypothesis B64 : b <= 64.

Let l := arithmetic_gap lower factor n m.
Let t := arithmetic_term lower factor.

Lemma l_length : length l = n.
Proof. apply gap_length. lia. Qed.

Lemma arith_step : forall fuel it c, (it < n)%nat ->
  let mid := (c / 2)%nat in
  arithmetic_loop b (S fuel) l factor lower it c =
  if (n <=? mid)%nat then UB
  else if (mid =? 0)%nat then Val (false, lower)
  else if (mid <? m)%nat then arithmetic_loop b fuel l factor lower (S it) (c + mid)
  else if (mid =? m)%nat then Val (true, t m)
  else arithmetic_loop b fuel l factor lower (S it) (c - mid).
Proof.
  intros fuel it c IT mid. cbn [arithmetic_loop]. rewrite l_length. fold mid.
  destruct (Nat.leb_spec n it); [lia|]. destruct (Nat.ltb_spec n mid).
  { destruct (Nat.leb_spec n mid); [reflexivity|lia]. }
  assert (E1 : chk 64 (Z.of_nat mid * factor) = Val (Z.of_nat mid * factor)).
  { apply chk_ok. specialize (REP64 mid). unfold arithmetic_term in REP64. apply REP64. lia. }
  assert (E2 : chk 64 (lower + Z.of_nat mid * factor) = Val (t mid)).
  { apply chk_ok. apply (fits_wider b); [lia|]. apply REP. lia. }
  rewrite E1. cbn [bind]. rewrite E2. cbn [bind].
  rewrite narrow_ok by (trivial; apply REP; lia).
  destruct (Nat.eqb_spec mid 0) as [Z0|NZ].
  { destruct (Nat.leb_spec n mid); [lia|reflexivity]. }
  destruct (Nat.leb_spec n mid).
  { unfold l, arithmetic_gap. rewrite gap_deref_out by lia. reflexivity. }
  unfold l at 1 3, arithmetic_gap. rewrite !gap_deref by lia. cbn [bind]. fold t.
  destruct (Nat.ltb_spec mid m).
  { now rewrite Z.eqb_refl. }
  assert (X : t mid =? t (S mid) = false).
  { apply Z.eqb_neq. unfold t, arithmetic_term. nia. }
  rewrite X.
  assert (E3 : chk b (t mid - factor) = Val (t (mid - 1)%nat)).
  { replace (t mid - factor) with (t (mid - 1)%nat) by (unfold t, arithmetic_term; nia).
    apply chk_ok, REP. lia. }
  rewrite E3. cbn [bind].
  destruct (Nat.ltb_spec (mid - 1) m).
  - rewrite Z.eqb_refl. destruct (Nat.eqb_spec mid m) as [->|]; [reflexivity|lia].
  - destruct (Nat.eqb_spec mid m); [lia|].
    assert (Y : t (S (mid - 1)) =? t (mid - 1)%nat = false).
    { apply Z.eqb_neq. unfold t, arithmetic_term. nia. }
    now rewrite Y.
Qed.

Lemma arith_stop : forall fuel it c, (n <= it)%nat ->
  arithmetic_loop b (S fuel) l factor lower it c = Exn InvalidSequence.
Proof.
  intros fuel it c IT. cbn [arithmetic_loop]. rewrite l_length. destruct (Nat.leb_spec n it); [trivial|lia].
Qed.
Lemma arith_sound : forall fuel it c, (it + fuel = S n)%nat -> (it <= n)%nat -> (2 <= c)%nat ->
  let r := arithmetic_loop b fuel l factor lower it c in
  r = Val (true, t m) \/ r = Exn InvalidSequence \/ r = UB.
Proof.
  induction fuel as [|fuel IH]; intros it c IT IN C; [lia|]. cbv zeta.
  destruct (Nat.eq_dec it n) as [->|].
  { rewrite arith_stop by lia. auto. }
  rewrite arith_step by lia. pose proof (half_bounds c). set (mid := (c / 2)%nat) in *. clearbody mid.
  destruct (Nat.leb_spec n mid); [auto|]. destruct (Nat.eqb_spec mid 0); [lia|].
  destruct (Nat.ltb_spec mid m); [apply IH; lia|]. destruct (Nat.eqb_spec mid m); [auto|].
  apply IH; lia.
Qed.

(** On the way down the positions looked at are the halves of [n], its upper
    half, the upper half of that, and so on. *)
Lemma arith_down : forall j fuel it c, (it + c <= n)%nat -> (c <= fuel)%nat ->
  m = (Nat.iter j (fun c => c - c / 2) c / 2)%nat ->
  arithmetic_loop b fuel l factor lower it c = Val (true, t m).
Proof.
  induction j as [|j IH]; intros fuel it c IT FU E.
  - change (m = c / 2)%nat in E. pose proof (half_bounds c). destruct fuel as [|fuel]; [lia|].
    rewrite arith_step by lia. rewrite <- E.
    destruct (Nat.leb_spec n m); [lia|]. destruct (Nat.eqb_spec m 0); [lia|].
    destruct (Nat.ltb_spec m m); [lia|]. now rewrite Nat.eqb_refl.
  - rewrite iter_shift in E. pose proof (half_bounds c). pose proof (half_bounds (c - c / 2)).
    pose proof (down_le j (c - c / 2)).
    pose proof (half_bounds (Nat.iter j (fun c => c - c / 2)%nat (c - c / 2)%nat)).
    rewrite <- E in *. destruct fuel as [|fuel]; [lia|].
    assert (LE : (m <= c / 2)%nat) by lia.
    rewrite arith_step by lia.
    destruct (Nat.leb_spec n (c / 2)); [lia|]. destruct (Nat.eqb_spec (c / 2) 0); [lia|].
    destruct (Nat.ltb_spec (c / 2) m); [lia|]. destruct (Nat.eqb_spec (c / 2) m); [reflexivity|].
    apply (IH fuel); trivial; lia.
Qed.

(** Too far to the right. *)
Lemma arith_up : (3 <= n)%nat -> ((n + n / 2) / 2 < m)%nat ->
  arithmetic_loop b (S n) l factor lower 0 n = UB.
Proof.
  intros N3 MM. pose proof (half_bounds n). pose proof (half_bounds (n + n / 2)).
  set (c2 := (n + n / 2)%nat) in *. pose proof (half_bounds (c2 + c2 / 2)).
  replace (S n) with (S (S (S (n - 2)))) by lia.
  rewrite arith_step by lia.
  destruct (Nat.leb_spec n (n / 2)); [lia|]. destruct (Nat.eqb_spec (n / 2) 0); [lia|].
  destruct (Nat.ltb_spec (n / 2) m); [|lia]. fold c2.
  rewrite arith_step by lia.
  destruct (Nat.leb_spec n (c2 / 2)); [lia|]. destruct (Nat.eqb_spec (c2 / 2) 0); [lia|].
  destruct (Nat.ltb_spec (c2 / 2) m); [|lia].
  rewrite arith_step by lia.
  destruct (Nat.leb_spec n ((c2 + c2 / 2) / 2)); [reflexivity|lia].
Qed.
End Arithmetic.

Lemma first_deref : forall lower factor n m, (m <= n)%nat -> (0 < n)%nat ->
  deref (arithmetic_gap lower factor n m) 0 = Val (if (m =? 0)%nat then lower + factor else lower).
Proof.
  intros lower factor n m M N. unfold arithmetic_gap. rewrite gap_deref by lia. f_equal.
  unfold arithmetic_term. destruct m; cbn -[Z.of_nat]; lia.
Qed.

Lemma arithmetic_first : forall b lower factor n, sane b lower factor n -> (0 < n)%nat ->
  find_missing_arithmetic b (arithmetic_gap lower factor n 0) factor lower = Val (true, lower).
Proof.
  intros b lower factor n (B & F & R & R64) N. unfold find_missing_arithmetic. rewrite first_deref by lia.
  cbn [bind Nat.eqb]. destruct (Z.eqb_spec (lower + factor) lower); [lia|].
  rewrite chk_ok. { cbn [bind]. now rewrite Z.eqb_refl. }
  specialize (R 1%nat). unfold arithmetic_term in R. replace (lower + factor) with (lower + Z.of_nat 1 * factor) by lia.
  apply R. lia.
Qed.
Lemma arithmetic_unfold : forall b lower factor n m, (1 <= m <= n)%nat ->
  find_missing_arithmetic b (arithmetic_gap lower factor n m) factor lower =
  arithmetic_loop b (S n) (arithmetic_gap lower factor n m) factor lower 0 n.
Proof.
  intros b lower factor n m M. unfold find_missing_arithmetic. rewrite first_deref by lia. cbn [bind].
  destruct (Nat.eqb_spec m 0); [lia|]. rewrite Z.eqb_refl. unfold arithmetic_gap. now rewrite gap_length by lia.
Qed.
Lemma arithmetic_sound : forall b lower factor n m, sane b lower factor n -> (m < n)%nat ->
  let r := find_missing_arithmetic b (arithmetic_gap lower factor n m) factor lower in
  r = Val (true, arithmetic_term lower factor m) \/ r = Exn InvalidSequence \/ r = UB.
Proof.
  intros b lower factor n m S M. destruct (Nat.eq_dec m 0) as [->|].
  { left. rewrite arithmetic_first by (trivial; lia). repeat f_equal. unfold arithmetic_term. lia. }
  destruct S as (B & F & R & R64). cbv zeta. rewrite arithmetic_unfold by lia.
  apply arith_sound; trivial; lia.
Qed.
Lemma arithmetic_down : forall b lower factor n m j, sane b lower factor n -> (1 <= m < n)%nat ->
  m = (Nat.iter j (fun c => c - c / 2) n / 2)%nat ->
  find_missing_arithmetic b (arithmetic_gap lower factor n m) factor lower
  = Val (true, arithmetic_term lower factor m).
Proof.
  intros b lower factor n m j (B & F & R & R64) M E. rewrite arithmetic_unfold by lia.
  apply (arith_down b lower factor n m) with (j := j); trivial; lia.
Qed.
Lemma arithmetic_one : forall b lower factor n, sane b lower factor n -> (2 <= n)%nat ->
  find_missing_arithmetic b (arithmetic_gap lower factor n 1) factor lower = Val (true, lower + factor).
Proof.
  intros b lower factor n S N. destruct (reaches_one n N) as (j & E).
  rewrite (arithmetic_down b lower factor n 1 j) by (trivial; lia). repeat f_equal. unfold arithmetic_term. lia.
Qed.
Lemma arithmetic_up : forall b lower factor n m, sane b lower factor n -> (3 <= n)%nat ->
  ((n + n / 2) / 2 < m <= n)%nat ->
  find_missing_arithmetic b (arithmetic_gap lower factor n m) factor lower = UB.
Proof.
  intros b lower factor n m (B & F & R & R64) N M. rewrite arithmetic_unfold by lia.
  apply arith_up; trivial; lia.
Qed.
Lemma arithmetic_complete : forall b lower factor n, sane b lower factor n -> (3 <= n)%nat ->
  find_missing_arithmetic b (map (arithmetic_term lower factor) (seq 0 n)) factor lower = UB.
Proof.
  intros b lower factor n S N. pose proof (half_bounds n). pose proof (half_bounds (n + n / 2)).
  rewrite <- (arithmetic_up b lower factor n n) by (trivial; lia).
  unfold arithmetic_gap, without. rewrite Nat.sub_diag. cbn [seq]. now rewrite app_nil_r.
Qed.
Lemma arithmetic_short : forall b lower factor n m, sane b lower factor n -> (m < n)%nat -> (n <= 4)%nat ->
  find_missing_arithmetic b (arithmetic_gap lower factor n m) factor lower
  = Val (true, arithmetic_term lower factor m).
Proof.
  intros b lower factor n m S M N. destruct (Nat.eq_dec m 0) as [->|].
  { rewrite arithmetic_first by (trivial; lia). repeat f_equal. unfold arithmetic_term. lia. }
  destruct S as (B & F & R & R64). rewrite arithmetic_unfold by lia.
  assert (X : (n = 2 /\ m = 1 \/ n = 3 /\ m = 1 \/ n = 3 /\ m = 2 \/ n = 4 /\ m = 1 \/ n = 4 /\ m = 2 \/ n = 4 /\ m = 3)%nat) by lia.
  decompose [or and] X; subst n m;
    repeat (rewrite arith_step by (trivial; lia); cbn -[arithmetic_loop arithmetic_gap arithmetic_term]); reflexivity.
Qed.

(** ** The geometric search *)
Section Geometric.
Variables (b lower factor : Z) (n m : nat) (power : Z -> Z -> nat -> Z).
Hypothesis S : sane_geometric b power lower factor n.
Hypothesis M : (1 <= m <= n)%nat.
Let l := geometric_gap lower factor n m.
Let t := geometric_term lower factor.

Lemma g_next : forall i, t i * factor = t (Datatypes.S i).
Proof.
  intros i. unfold t, geometric_term. rewrite Nat2Z.inj_succ, Z.pow_succ_r by lia. lia.
Qed.
Lemma g_nonzero : forall i, t i <> 0.
Proof.
  intros i. unfold t, geometric_term. destruct S as (L & F & _). apply Z.neq_mul_0. split; [trivial|].
  apply Z.pow_nonzero; lia.
Qed.
Lemma g_distinct : forall i, t (Datatypes.S i) =? t i = false.
Proof.
  intros i. apply Z.eqb_neq. rewrite <- g_next. pose proof (g_nonzero i). destruct S as (L & F & _). nia.
Qed.
Lemma g_length : length l = n.
Proof. apply gap_length. lia. Qed.

Lemma geo_step : forall fuel it c, (it < n)%nat -> (0 < c)%nat ->
  let mid := (c / 2)%nat in
  geometric_loop b power (Datatypes.S fuel) l factor lower it c =
  if (n <? mid)%nat then UB
  else if (mid =? 0)%nat || (mid =? n)%nat then Val (false, lower)
  else if (mid + 1 =? n)%nat then UB
  else if (mid + 1 =? m)%nat || (mid =? m)%nat then Val (true, t m)
  else if (mid <? m)%nat then geometric_loop b power fuel l factor lower (Datatypes.S it) (c + mid)
  else geometric_loop b power fuel l factor lower (Datatypes.S it) (c - mid).
Proof.
  intros fuel it c IT C mid. cbn [geometric_loop]. rewrite g_length. fold mid.
  destruct (Nat.eqb_spec c 0); [lia|]. destruct (Nat.leb_spec n it); [lia|].
  destruct (Nat.ltb_spec n mid); [reflexivity|].
  destruct (Nat.eqb_spec mid 0); [reflexivity|]. destruct (Nat.eqb_spec mid n); [reflexivity|]. cbn [orb].
  assert (R : forall i, (i <= n)%nat -> chk b (t i) = Val (t i)).
  { intros i I. apply chk_ok. destruct S as (_ & _ & R & _). now apply R. }
  assert (P : chk b (power lower factor mid) = Val (t mid)).
  { destruct S as (_ & _ & _ & P). rewrite P by lia. apply R. lia. }
  assert (D1 : deref l mid = Val (t (if (mid <? m)%nat then mid else Datatypes.S mid))).
  { unfold l, geometric_gap. now rewrite gap_deref by lia. }
  rewrite D1. cbn [bind].
  destruct (Nat.eqb_spec (mid + 1) n) as [E|NE].
  { assert (D2 : deref l (mid + 1) = UB) by (unfold l, geometric_gap; now rewrite gap_deref_out by lia).
    rewrite D2. destruct (chk_cases b (t (if (mid <? m)%nat then mid else Datatypes.S mid) * factor)) as [-> | ->];
      reflexivity. }
  assert (D2 : deref l (mid + 1) = Val (t (if (mid + 1 <? m)%nat then mid + 1 else Datatypes.S (mid + 1))%nat)).
  { unfold l, geometric_gap. now rewrite gap_deref by lia. }
  assert (D3 : deref l (mid - 1) = Val (t (if (mid - 1 <? m)%nat then mid - 1 else Datatypes.S (mid - 1))%nat)).
  { unfold l, geometric_gap. now rewrite gap_deref by lia. }
  rewrite D2, D3, P, g_next. rewrite R by (destruct (mid <? m)%nat; lia). cbn [bind].
  rewrite g_next. rewrite R by (destruct (mid - 1 <? m)%nat; lia). cbn [bind].
  destruct (Nat.eqb_spec (mid + 1) m) as [E1|NE1].
  { destruct (Nat.ltb_spec mid m); [|lia]. destruct (Nat.ltb_spec (mid + 1) m); [lia|].
    replace (mid + 1)%nat with m by lia. replace (Datatypes.S mid) with m by lia.
    rewrite g_distinct. reflexivity. }
  destruct (Nat.eqb_spec mid m) as [E2|NE2].
  { destruct (Nat.ltb_spec mid m); [lia|]. destruct (Nat.ltb_spec (mid + 1) m); [lia|].
    replace (mid + 1)%nat with (Datatypes.S mid) by lia. rewrite Z.eqb_refl. cbn [negb].
    destruct (Nat.ltb_spec (mid - 1) m); [|lia]. replace (Datatypes.S (mid - 1)) with mid by lia.
    rewrite g_distinct. cbn [negb orb]. now rewrite E2. }
  cbn [orb]. destruct (Nat.ltb_spec mid m).
  - destruct (Nat.ltb_spec (mid + 1) m); [|lia]. replace (mid + 1)%nat with (Datatypes.S mid) by lia.
    rewrite Z.eqb_refl. cbn [negb]. destruct (Nat.ltb_spec (mid - 1) m); [|lia].
    replace (Datatypes.S (mid - 1)) with mid by lia. rewrite Z.eqb_refl. cbn [negb]. reflexivity.
  - destruct (Nat.ltb_spec (mid + 1) m); [lia|]. replace (mid + 1)%nat with (Datatypes.S mid) by lia.
    rewrite Z.eqb_refl. cbn [negb]. destruct (Nat.ltb_spec (mid - 1) m); [lia|].
    replace (Datatypes.S (mid - 1)) with mid by lia. rewrite Z.eqb_refl. cbn [negb].
    now rewrite g_distinct.
Qed.
Lemma geo_stop : forall fuel it c, (n <= it)%nat -> (0 < c)%nat ->
  geometric_loop b power (Datatypes.S fuel) l factor lower it c = Exn InvalidSequence.
Proof.
  intros fuel it c IT C. cbn [geometric_loop]. rewrite g_length. destruct (Nat.eqb_spec c 0); [lia|].
  destruct (Nat.leb_spec n it); [trivial|lia].
Qed.
Lemma geo_sound : forall fuel it c, (it + fuel = Datatypes.S n)%nat -> (it <= n)%nat -> (0 < c)%nat ->
  let r := geometric_loop b power fuel l factor lower it c in
  r = Val (true, t m) \/ r = Val (false, lower) \/ r = Exn InvalidSequence \/ r = UB.
Proof.
  induction fuel as [|fuel IH]; intros it c IT IN C; [lia|]. cbv zeta.
  destruct (Nat.eq_dec it n) as [->|].
  { rewrite geo_stop by lia. auto. }
  rewrite geo_step by lia. pose proof (half_bounds c). set (mid := (c / 2)%nat) in *. clearbody mid.
  destruct (Nat.ltb_spec n mid); [auto|]. destruct (Nat.eqb_spec mid 0); [auto|].
  destruct (Nat.eqb_spec mid n); [auto|]. cbn [orb]. destruct (Nat.eqb_spec (mid + 1) n); [auto|].
  destruct (Nat.eqb_spec (mid + 1) m); [auto|]. destruct (Nat.eqb_spec mid m); [auto|]. cbn [orb].
  destruct (Nat.ltb_spec mid m); apply IH; lia.
Qed.
Lemma geo_down : forall j fuel it c, (3 <= n)%nat -> (it + c <= n)%nat -> (c <= fuel)%nat ->
  let p := (Nat.iter j (fun c => c - c / 2) c / 2)%nat in (1 <= p)%nat -> m = p \/ m = Datatypes.S p ->
  geometric_loop b power fuel l factor lower it c = Val (true, t m).
Proof.
  induction j as [|j IH]; intros fuel it c N3 IT FU p P E.
  - change p with (c / 2)%nat in *. pose proof (half_bounds c). destruct fuel as [|fuel]; [lia|].
    rewrite geo_step by lia. clear p. set (p := (c / 2)%nat) in *. clearbody p.
    destruct (Nat.ltb_spec n p); [lia|]. destruct (Nat.eqb_spec p 0); [lia|]. destruct (Nat.eqb_spec p n); [lia|].
    destruct (Nat.eqb_spec (p + 1) n); [lia|]. destruct (Nat.eqb_spec (p + 1) m); [trivial|].
    destruct (Nat.eqb_spec p m); [trivial|lia].
  - unfold p in *. rewrite iter_shift in *. pose proof (half_bounds c). pose proof (half_bounds (c - c / 2)).
    pose proof (down_le j (c - c / 2)).
    pose proof (half_bounds (Nat.iter j (fun c => c - c / 2)%nat (c - c / 2)%nat)).
    destruct fuel as [|fuel]; [lia|].
    rewrite geo_step by lia.
    destruct (Nat.ltb_spec n (c / 2)); [lia|]. destruct (Nat.eqb_spec (c / 2) 0); [lia|].
    destruct (Nat.eqb_spec (c / 2) n); [lia|]. destruct (Nat.eqb_spec (c / 2 + 1) n); [lia|].
    destruct (Nat.eqb_spec (c / 2 + 1) m); [trivial|]. destruct (Nat.eqb_spec (c / 2) m); [trivial|].
    destruct (Nat.ltb_spec (c / 2) m); [lia|]. cbn [orb].
    apply (IH fuel); trivial; lia.
Qed.
Lemma geo_up : (10 <= n)%nat -> ((n + n / 2) / 2 + 1 < m)%nat ->
  geometric_loop b power (Datatypes.S n) l factor lower 0 n = UB.
Proof.
  intros N10 MM. pose proof (half_bounds n). pose proof (half_bounds (n + n / 2)).
  set (c2 := (n + n / 2)%nat) in *. pose proof (half_bounds (c2 + c2 / 2)).
  replace (Datatypes.S n) with (Datatypes.S (Datatypes.S (Datatypes.S (n - 2)))) by lia.
  rewrite geo_step by lia.
  destruct (Nat.ltb_spec n (n / 2)); [lia|]. destruct (Nat.eqb_spec (n / 2) 0); [lia|].
  destruct (Nat.eqb_spec (n / 2) n); [lia|]. destruct (Nat.eqb_spec (n / 2 + 1) n); [lia|].
  destruct (Nat.eqb_spec (n / 2 + 1) m); [lia|]. destruct (Nat.eqb_spec (n / 2) m); [lia|]. cbn [orb].
  destruct (Nat.ltb_spec (n / 2) m); [|lia]. fold c2.
  rewrite geo_step by lia.
  destruct (Nat.ltb_spec n (c2 / 2)); [lia|]. destruct (Nat.eqb_spec (c2 / 2) 0); [lia|].
  destruct (Nat.eqb_spec (c2 / 2) n); [lia|]. destruct (Nat.eqb_spec (c2 / 2 + 1) n); [lia|].
  destruct (Nat.eqb_spec (c2 / 2 + 1) m); [lia|]. destruct (Nat.eqb_spec (c2 / 2) m); [lia|]. cbn [orb].
  destruct (Nat.ltb_spec (c2 / 2) m); [|lia].
  rewrite geo_step by lia.
  destruct (Nat.ltb_spec n ((c2 + c2 / 2) / 2)); [reflexivity|lia].
Qed.
End Geometric.

Lemma geometric_first_deref : forall lower factor n m, (m <= n)%nat -> (0 < n)%nat ->
  deref (geometric_gap lower factor n m) 0 = Val (if (m =? 0)%nat then lower * factor else lower).
Proof.
  intros lower factor n m M N. unfold geometric_gap. rewrite gap_deref by lia. f_equal.
  unfold geometric_term. destruct m; cbn -[Z.of_nat Z.pow].
  - replace (Z.of_nat 1) with 1 by lia. now rewrite Z.pow_1_r.
  - rewrite Z.pow_0_r. lia.
Qed.
Lemma geometric_first : forall b power lower factor n, sane_geometric b power lower factor n -> (0 < n)%nat ->
  find_missing_geometric b power (geometric_gap lower factor n 0) factor lower = Val (true, lower).
Proof.
  intros b power lower factor n (L & F & R & P) N. unfold find_missing_geometric.
  rewrite geometric_first_deref by lia. cbn [bind Nat.eqb].
  destruct (Z.eqb_spec (lower * factor) lower); [nia|].
  rewrite chk_ok. { cbn [bind]. now rewrite Z.eqb_refl. }
  specialize (R 1%nat). unfold geometric_term in R. replace (Z.of_nat 1) with 1 in R by lia.
  rewrite Z.pow_1_r in R. apply R. lia.
Qed.
Lemma geometric_unfold : forall b power lower factor n m, (1 <= m <= n)%nat ->
  find_missing_geometric b power (geometric_gap lower factor n m) factor lower =
  geometric_loop b power (S n) (geometric_gap lower factor n m) factor lower 0 n.
Proof.
  intros b power lower factor n m M. unfold find_missing_geometric. rewrite geometric_first_deref by lia. cbn [bind].
  destruct (Nat.eqb_spec m 0); [lia|]. rewrite Z.eqb_refl. unfold geometric_gap. now rewrite gap_length by lia.
Qed.
Lemma geometric_sound : forall b power lower factor n m, sane_geometric b power lower factor n -> (m < n)%nat ->
  let r := find_missing_geometric b power (geometric_gap lower factor n m) factor lower in
  r = Val (true, geometric_term lower factor m) \/ r = Val (false, lower) \/ r = Exn InvalidSequence \/ r = UB.
Proof.
  intros b power lower factor n m S M. destruct (Nat.eq_dec m 0) as [->|].
  { left. rewrite geometric_first by (trivial; lia). repeat f_equal. unfold geometric_term. rewrite Z.pow_0_r. lia. }
  cbv zeta. rewrite geometric_unfold by lia. apply geo_sound; trivial; lia.
Qed.
Lemma geometric_down : forall b power lower factor n m j, sane_geometric b power lower factor n -> (3 <= n)%nat ->
  let p := (Nat.iter j (fun c => c - c / 2) n / 2)%nat in (1 <= p)%nat -> (m = p \/ m = S p) -> (m < n)%nat ->
  find_missing_geometric b power (geometric_gap lower factor n m) factor lower
  = Val (true, geometric_term lower factor m).
Proof.
  intros b power lower factor n m j S N p P E M. rewrite geometric_unfold by lia.
  apply (geo_down b lower factor n m) with (j := j); trivial; lia.
Qed.
Lemma geometric_up : forall b power lower factor n m, sane_geometric b power lower factor n -> (10 <= n)%nat ->
  ((n + n / 2) / 2 + 1 < m <= n)%nat ->
  find_missing_geometric b power (geometric_gap lower factor n m) factor lower = UB.
Proof.
  intros b power lower factor n m S N M. rewrite geometric_unfold by lia.
  apply geo_up; trivial; lia.
Qed.
Lemma geometric_short : forall b power lower factor n m, sane_geometric b power lower factor n -> (m < n)%nat ->
  (3 <= n <= 8)%nat ->
  find_missing_geometric b power (geometric_gap lower factor n m) factor lower
  = Val (true, geometric_term lower factor m).
Proof.
  intros b power lower factor n m S M N. destruct (Nat.eq_dec m 0) as [->|].
  { rewrite geometric_first by (trivial; lia). repeat f_equal. unfold geometric_term. rewrite Z.pow_0_r. lia. }
  rewrite geometric_unfold by lia.
  assert (X : (n = 3 \/ n = 4 \/ n = 5 \/ n = 6 \/ n = 7 \/ n = 8)%nat) by lia.
  assert (Y : (m = 1 \/ m = 2 \/ m = 3 \/ m = 4 \/ m = 5 \/ m = 6 \/ m = 7)%nat) by lia.
  decompose [or] X; decompose [or] Y; subst n m; try lia; clear X Y;
    repeat (rewrite geo_step by (trivial; lia); cbn -[geometric_loop geometric_gap geometric_term]); reflexivity.
Qed.

(** ** The geometric search for floating point, over exact rationals *)
Lemma Qltb_spec : forall x y, Qltb x y = true <-> (x < y)%Q.
Proof.
  intros x y. unfold Qltb. rewrite negb_true_iff. split.
  - intros H. apply Qnot_le_lt. intros L. apply Qle_bool_iff in L. congruence.
  - intros H. destruct (Qle_bool y x) eqn:E; [|trivial]. apply Qle_bool_iff in E. exfalso. eapply Qlt_not_le; eassumption.
Qed.
Lemma near : forall x y e, (0 <= e)%Q -> (x == y)%Q -> Qltb (y + e) x || Qltb x (y - e) = false.
Proof.
  intros x y e E X. apply orb_false_iff. split.
  - destruct (Qltb (y + e) x) eqn:H; [|trivial]. apply Qltb_spec in H. rewrite X in H. exfalso.
    apply (Qlt_not_le _ _ H). rewrite <- (Qplus_0_r y) at 1. now apply Qplus_le_r.
  - destruct (Qltb x (y - e)) eqn:H; [|trivial]. apply Qltb_spec in H. rewrite X in H. exfalso.
    apply (Qlt_not_le _ _ H). rewrite <- (Qplus_0_r y) at 2. unfold Qminus. apply Qplus_le_r.
    apply (Qopp_le_compat 0 e) in E. exact E.
Qed.
Lemma always : forall x y e, (0 <= e)%Q -> Qle_bool x (y + e) || Qle_bool (y - e) x = true.
Proof.
  intros x y e E. destruct (Qle_bool x (y + e)) eqn:H; [reflexivity|]. cbn. apply Qle_bool_iff.
  apply Qlt_le_weak. apply Qle_lt_trans with (y + e)%Q.
  - unfold Qminus. apply Qplus_le_r. apply Qle_trans with 0%Q; [|trivial]. apply (Qopp_le_compat 0 e) in E. exact E.
  - apply Qnot_le_lt. intros L. apply Qle_bool_iff in L. congruence.
Qed.

Section Float.
Variables (lower factor error : Q) (n m : nat).
Hypothesis ERR : (0 <= error)%Q.
Hypothesis M : (1 <= m < n)%nat.
Let l := float_gap lower factor n m.
Let t := float_term lower factor.

Lemma f_length : length l = n.
Proof. apply gap_length. lia. Qed.

Lemma float_step : forall fuel it c, (it < n)%nat -> (0 < c)%nat ->
  let mid := (c / 2)%nat in
  (1 <= mid)%nat -> (mid + 1 < n)%nat -> (mid + 1 <> m)%nat -> mid <> m ->
  geometric_float_loop (S fuel) l factor lower error it c =
  geometric_float_loop fuel l factor lower error (S it) (c + mid).
Proof.
  intros fuel it c IT C mid M1 M2 M3 M4. cbn [geometric_float_loop]. rewrite f_length. fold mid.
  destruct (Nat.eqb_spec c 0); [lia|]. destruct (Nat.leb_spec n it); [lia|].
  destruct (Nat.ltb_spec n mid); [lia|].
  destruct (Nat.eqb_spec mid 0); [lia|]. destruct (Nat.eqb_spec mid n); [lia|]. cbn [orb].
  assert (D1 : deref l mid = Val (t (if (mid <? m)%nat then mid else S mid))).
  { unfold l, float_gap. now rewrite gap_deref by lia. }
  assert (D2 : deref l (mid + 1) = Val (t (S (if (mid <? m)%nat then mid else S mid)))).
  { unfold l, float_gap. rewrite gap_deref by lia. apply (f_equal (fun i => Val (t i))).
    destruct (Nat.ltb_spec (mid + 1) m), (Nat.ltb_spec mid m); lia. }
  assert (D3 : exists p, deref l (mid - 1) = Val (t p) /\ (if (mid <? m)%nat then mid else S mid) = S p).
  { unfold l, float_gap. rewrite gap_deref by lia. eexists. split; [reflexivity|].
    destruct (Nat.ltb_spec (mid - 1) m), (Nat.ltb_spec mid m); lia. }
  destruct D3 as (p & D3 & E). rewrite D1, D2, D3. cbn [bind]. rewrite E.
  rewrite (near (t (S (S p))) (t (S p) * factor) error) by (trivial; reflexivity).
  rewrite (near (t (S p)) (t p * factor) error) by (trivial; reflexivity).
  now rewrite always.
Qed.
Lemma float_found : forall fuel it c, (it < n)%nat -> (0 < c)%nat ->
  let mid := (c / 2)%nat in (1 <= mid)%nat -> (mid + 1 < n)%nat -> (mid + 1 = m)%nat \/ mid = m ->
  forall r, (t m * factor - t m > error)%Q \/ (t m - t m * factor > error)%Q ->
  geometric_float_loop (S fuel) l factor lower error it c = r -> exists x, r = Val (true, x) /\ (x == t m)%Q.
Proof.
  intros fuel it c IT C mid M1 M2 M3 r G <-. cbn [geometric_float_loop]. rewrite f_length. fold mid.
  destruct (Nat.eqb_spec c 0); [lia|]. destruct (Nat.leb_spec n it); [lia|].
  destruct (Nat.ltb_spec n mid); [lia|].
  destruct (Nat.eqb_spec mid 0); [lia|]. destruct (Nat.eqb_spec mid n); [lia|]. cbn [orb].
  assert (FAR : Qltb (t m + error) (t (S m)) || Qltb (t (S m)) (t m - error) = true).
  { apply orb_true_iff. rewrite !Qltb_spec. change (t (S m)) with (t m * factor)%Q.
    destruct G as [G|G]; [left|right].
    - apply (Qplus_lt_r _ _ (t m)) in G. setoid_replace (t m + (t m * factor - t m))%Q with (t m * factor)%Q in G by ring.
      exact G.
    - apply (Qplus_lt_r _ _ (t m * factor - error)) in G.
      setoid_replace (t m * factor - error + error)%Q with (t m * factor)%Q in G by ring.
      setoid_replace (t m * factor - error + (t m - t m * factor))%Q with (t m - error)%Q in G by ring. exact G. }
  assert (D1 : deref l mid = Val (t (if (mid <? m)%nat then mid else S mid))).
  { unfold l, float_gap. now rewrite gap_deref by lia. }
  assert (D2 : deref l (mid + 1) = Val (t (if (mid + 1 <? m)%nat then mid + 1 else S (mid + 1))%nat)).
  { unfold l, float_gap. now rewrite gap_deref by lia. }
  assert (D3 : deref l (mid - 1) = Val (t (if (mid - 1 <? m)%nat then mid - 1 else S (mid - 1))%nat)).
  { unfold l, float_gap. now rewrite gap_deref by lia. }
  rewrite D1, D2, D3. cbn [bind].
  destruct M3 as [E|E].
  - destruct (Nat.ltb_spec mid m); [|lia]. destruct (Nat.ltb_spec (mid + 1) m); [lia|].
    replace (S (mid + 1)) with (S m) by lia. change (t mid * factor)%Q with (t (S mid)).
    replace (S mid) with m by lia. rewrite FAR. exists (t m). split; reflexivity.
  - destruct (Nat.ltb_spec mid m); [lia|]. destruct (Nat.ltb_spec (mid + 1) m); [lia|].
    destruct (Nat.ltb_spec (mid - 1) m); [|lia].
    replace (S (mid + 1)) with (S (S mid)) by lia.
    rewrite (near (t (S (S mid))) (t (S mid) * factor) error) by (trivial; reflexivity).
    change (t (mid - 1)%nat * factor)%Q with (t (S (mid - 1))).
    replace (S (mid - 1)) with m by lia. rewrite E, FAR. exists (t m). split; reflexivity.
Qed.
Lemma float_sound : forall fuel it c x, geometric_float_loop fuel l factor lower error it c = Val (true, x) ->
  (x == t m)%Q.
Proof.
  induction fuel as [|fuel IH]; intros it c x H; [discriminate|].
  cbn [geometric_float_loop] in H. rewrite f_length in H.
  destruct (Nat.eqb_spec c 0); [discriminate|]. destruct (Nat.leb_spec n it); [discriminate|].
  set (mid := (c / 2)%nat) in *. clearbody mid.
  destruct (Nat.ltb_spec n mid); [discriminate|].
  destruct (Nat.eqb_spec mid 0); [discriminate|]. destruct (Nat.eqb_spec mid n); [discriminate|]. cbn [orb] in H.
  assert (D1 : deref l mid = Val (t (if (mid <? m)%nat then mid else S mid))).
  { unfold l, float_gap. now rewrite gap_deref by lia. }
  rewrite D1 in H. cbn [bind] in H.
  destruct (Nat.eq_dec (mid + 1) n) as [E|NE].
  { assert (D2 : deref l (mid + 1) = UB) by (unfold l, float_gap; now rewrite gap_deref_out by lia).
    rewrite D2 in H. discriminate. }
  assert (D2 : deref l (mid + 1) = Val (t (if (mid + 1 <? m)%nat then mid + 1 else S (mid + 1))%nat)).
  { unfold l, float_gap. now rewrite gap_deref by lia. }
  assert (D3 : deref l (mid - 1) = Val (t (if (mid - 1 <? m)%nat then mid - 1 else S (mid - 1))%nat)).
  { unfold l, float_gap. now rewrite gap_deref by lia. }
  rewrite D2, D3 in H. cbn [bind] in H.
  destruct (Nat.eq_dec (mid + 1) m) as [E1|NE1].
  - destruct (Nat.ltb_spec mid m); [|lia]. destruct (Nat.ltb_spec (mid + 1) m); [lia|].
    destruct (Nat.ltb_spec (mid - 1) m); [|lia].
    destruct (Qltb _ _ || _).
    + injection H as <-. change (t mid * factor)%Q with (t (S mid)). replace (S mid) with m by lia. reflexivity.
    + rewrite (near (t mid) (t (mid - 1)%nat * factor) error) in H.
      * rewrite always in H by trivial. exact (IH _ _ _ H).
      * trivial.
      * change (t (mid - 1)%nat * factor)%Q with (t (S (mid - 1))). now replace (S (mid - 1)) with mid by lia.
  - assert (NXT : (if (mid + 1 <? m)%nat then mid + 1 else S (mid + 1))%nat = S (if (mid <? m)%nat then mid else S mid)).
    { destruct (Nat.ltb_spec (mid + 1) m), (Nat.ltb_spec mid m); lia. }
    rewrite NXT in H. rewrite near in H by (trivial; reflexivity).
    destruct (Nat.eq_dec mid m) as [E2|NE2].
    + destruct (Nat.ltb_spec mid m); [lia|]. destruct (Nat.ltb_spec (mid - 1) m); [|lia].
      destruct (Qltb _ _ || _).
      * injection H as <-. change (t (mid - 1)%nat * factor)%Q with (t (S (mid - 1))).
        replace (S (mid - 1)) with m by lia. reflexivity.
      * rewrite always in H by trivial. exact (IH _ _ _ H).
    + assert (PRV : (if (mid <? m)%nat then mid else S mid) = S (if (mid - 1 <? m)%nat then mid - 1 else S (mid - 1))%nat).
      { destruct (Nat.ltb_spec (mid - 1) m), (Nat.ltb_spec mid m); lia. }
      rewrite PRV in H. rewrite near in H by (trivial; reflexivity).
      rewrite always in H by trivial. exact (IH _ _ _ H).
Qed.
Lemma float_never_left : forall fuel it c x, (m < c / 2)%nat ->
  geometric_float_loop fuel l factor lower error it c <> Val (true, x).
Proof.
  induction fuel as [|fuel IH]; intros it c x C H; [discriminate|].
  pose proof (half_bounds c).
  destruct (Nat.lt_ge_cases it n) as [IT|IT].
  - destruct (Nat.lt_ge_cases (c / 2 + 1) n) as [L|L].
    + rewrite float_step in H by lia. revert H. apply IH.
      pose proof (half_bounds (c + c / 2)). lia.
    + cbn [geometric_float_loop] in H. rewrite f_length in H.
      destruct (Nat.eqb_spec c 0); [discriminate|]. destruct (Nat.leb_spec n it); [discriminate|].
      set (mid := (c / 2)%nat) in *. clearbody mid.
      destruct (Nat.ltb_spec n mid); [discriminate|].
      destruct (Nat.eqb_spec mid 0); [discriminate|]. destruct (Nat.eqb_spec mid n); [discriminate|]. cbn [orb] in H.
      assert (D2 : deref l (mid + 1) = UB) by (unfold l, float_gap; now rewrite gap_deref_out by lia).
      rewrite D2 in H. destruct (deref l mid); discriminate.
  - cbn [geometric_float_loop] in H. rewrite f_length in H.
    destruct (Nat.eqb_spec c 0); [discriminate|]. destruct (Nat.leb_spec n it); [discriminate|lia].
Qed.
Lemma float_unfold :
  find_missing_geometric_float l factor lower error = geometric_float_loop (S n) l factor lower error 0 n.
Proof.
  unfold find_missing_geometric_float. unfold l at 1, float_gap. rewrite gap_deref by lia.
  destruct (Nat.ltb_spec 0 m); [|lia]. cbn [bind]. change (float_term lower factor 0) with lower.
  assert (E : Qeq_bool lower lower = true) by (apply Qeq_bool_iff; reflexivity). rewrite E.
  now rewrite f_length.
Qed.
End Float.

Lemma float_answers : forall lower factor error n m x, (0 <= error)%Q -> (1 <= m < n)%nat ->
  find_missing_geometric_float (float_gap lower factor n m) factor lower error = Val (true, x) ->
  (x == float_term lower factor m)%Q.
Proof.
  intros lower factor error n m x E M H. rewrite float_unfold in H by trivial. eapply float_sound; eassumption.
Qed.
Lemma float_left : forall lower factor error n m x, (0 <= error)%Q -> (1 <= m < n / 2)%nat ->
  find_missing_geometric_float (float_gap lower factor n m) factor lower error <> Val (true, x).
Proof.
  intros lower factor error n m x E M. pose proof (half_bounds n). rewrite float_unfold by (trivial; lia).
  apply float_never_left; trivial; lia.
Qed.
Lemma float_middle : forall lower factor error n m, (0 <= error)%Q -> (3 <= n)%nat -> (m < n)%nat ->
  m = (n / 2)%nat \/ m = (n / 2 + 1)%nat ->
  (float_term lower factor m * factor - float_term lower factor m > error)%Q \/
  (float_term lower factor m - float_term lower factor m * factor > error)%Q ->
  exists x, find_missing_geometric_float (float_gap lower factor n m) factor lower error = Val (true, x) /\
    (x == float_term lower factor m)%Q.
Proof.
  intros lower factor error n m E N M H G. pose proof (half_bounds n).
  assert (1 <= m < n)%nat by lia. rewrite float_unfold by trivial.
  eapply float_found; [exact E| | | | | | |exact G|reflexivity]; lia.
Qed.

(** ** XOR *)
Lemma xor_range_lxor : forall l e, xor_range e l = Z.lxor e (fold_right Z.lxor 0 l).
Proof.
  induction l as [|x l IH]; intros e; cbn; [now rewrite Z.lxor_0_r|]. rewrite IH. apply Z.lxor_assoc.
Qed.
Lemma xor_cons : forall x r, xor_range x r = fold_right Z.lxor 0 (x :: r).
Proof. intros. apply xor_range_lxor. Qed.
Lemma xor_perm : forall l l', Permutation l l' -> fold_right Z.lxor 0 l = fold_right Z.lxor 0 l'.
Proof.
  induction 1; cbn; try congruence.
  rewrite <- !Z.lxor_assoc. f_equal. apply Z.lxor_comm.
Qed.
Lemma xor_app : forall l l', fold_right Z.lxor 0 (l ++ l') = Z.lxor (fold_right Z.lxor 0 l) (fold_right Z.lxor 0 l').
Proof.
  induction l as [|x l IH]; intros l'; cbn; [reflexivity|]. rewrite IH. now rewrite Z.lxor_assoc.
Qed.

Lemma upto_S : forall lower k, upto lower (S k) = lower :: upto (lower + 1) k.
Proof.
  intros lower k. unfold upto. cbn [seq map]. f_equal; [lia|]. rewrite <- seq_shift, map_map.
  apply map_ext. intros i. lia.
Qed.
Lemma counting_ok : forall b k fuel ii e, (k < fuel)%nat -> (forall i, 1 <= i <= Z.of_nat k -> fits b (ii + i)) ->
  xor_counting b fuel ii (ii + Z.of_nat k - 1) e = Val (Z.lxor e (fold_right Z.lxor 0 (upto ii k))).
Proof.
  intros b. induction k as [|k IH]; intros fuel ii e FU R; (destruct fuel as [|fuel]; [lia|]); cbn [xor_counting].
  - destruct (Z.leb_spec ii (ii + Z.of_nat 0 - 1)); [lia|]. cbn. now rewrite Z.lxor_0_r.
  - destruct (Z.leb_spec ii (ii + Z.of_nat (S k) - 1)); [|lia].
    rewrite chk_ok by (apply R; lia). cbn [bind].
    replace (ii + Z.of_nat (S k) - 1) with (ii + 1 + Z.of_nat k - 1) by lia.
    rewrite IH; [|lia|].
    + rewrite upto_S. cbn [fold_right]. now rewrite Z.lxor_assoc.
    + intros i I. replace (ii + 1 + i) with (ii + (1 + i)) by lia. apply R. lia.
Qed.
Lemma sequential_ok : forall b lower l x, 0 < b <= 64 ->
  fits b lower -> lower + Z.of_nat (length l) < imax b -> l <> [] ->
  Permutation (x :: l) (upto lower (S (length l))) ->
  find_missing_sequential_range b l lower = Val (true, x).
Proof.
  intros b lower l x B FL MX NE P. unfold find_missing_sequential_range.
  destruct l as [|y r]; [congruence|]. set (l := y :: r) in *.
  assert (R : forall i, 0 <= i <= Z.of_nat (length l) + 1 -> fits b (lower + i)).
  { intros i I. unfold fits in *. lia. }
  rewrite chk_ok by (apply (fits_wider b); [lia|apply R; lia]). cbn [bind].
  replace (lower + Z.of_nat (length l)) with (lower + Z.of_nat (S (length l)) - 1) by lia.
  rewrite counting_ok; [|lia|intros i I; apply R; lia]. cbn [bind].
  rewrite xor_cons. fold l. rewrite <- (xor_perm _ _ P). cbn [fold_right].
  rewrite (Z.lxor_comm x), <- Z.lxor_assoc, Z.lxor_nilpotent. now rewrite Z.lxor_0_l.
Qed.
(** The counter has to go one beyond the end of the range. *)
Lemma counting_overflow : forall b k fuel ii e, (k < fuel)%nat -> ii + Z.of_nat k = imax b -> fits b ii ->
  xor_counting b fuel ii (ii + Z.of_nat k) e = UB.
Proof.
  intros b. induction k as [|k IH]; intros fuel ii e FU MX F; (destruct fuel as [|fuel]; [lia|]); cbn [xor_counting].
  - destruct (Z.leb_spec ii (ii + Z.of_nat 0)); [|lia]. rewrite chk_ub; [reflexivity|]. unfold fits. lia.
  - destruct (Z.leb_spec ii (ii + Z.of_nat (S k))); [|lia].
    rewrite chk_ok by (unfold fits in *; lia). cbn [bind].
    replace (ii + Z.of_nat (S k)) with (ii + 1 + Z.of_nat k) by lia. apply IH; [lia|lia|unfold fits in *; lia].
Qed.
Lemma sequential_overflow : forall b lower l, 0 < b <= 64 -> fits b lower -> l <> [] ->
  lower + Z.of_nat (length l) = imax b -> find_missing_sequential_range b l lower = UB.
Proof.
  intros b lower l B F NE E. unfold find_missing_sequential_range. destruct l as [|y r]; [congruence|].
  set (l := y :: r) in *. rewrite chk_ok.
  - cbn [bind]. rewrite counting_overflow; trivial. lia.
  - apply (fits_wider b); [lia|]. unfold fits in *. lia.
Qed.

Lemma not_common_ok : forall l1 l2 x, l1 <> [] -> Permutation l1 (x :: l2) \/ Permutation l2 (x :: l1) ->
  find_not_common_element l1 l2 = Val x.
Proof.
  intros l1 l2 x NE P. unfold find_not_common_element. destruct l1 as [|y r]; [congruence|].
  rewrite xor_range_lxor, xor_cons. destruct P as [P|P]; rewrite (xor_perm _ _ P); cbn [fold_right].
  - rewrite Z.lxor_assoc, Z.lxor_nilpotent. now rewrite Z.lxor_0_r.
  - rewrite (Z.lxor_comm x). rewrite <- Z.lxor_assoc, Z.lxor_nilpotent. now rewrite Z.lxor_0_l.
Qed.

Lemma occurrences_perm : forall l l', Permutation l l' -> forall v, occurrences v l = occurrences v l'.
Proof. intros l l' P v. now apply Permutation_count_occ. Qed.
(** If every value other than [x] occurs an even number of times, only [x] is left. *)
Lemma xor_parity : forall k l x, (length l <= k)%nat ->
  (forall v, v <> x -> Nat.even (occurrences v l) = true) ->
  fold_right Z.lxor 0 l = if Nat.odd (occurrences x l) then x else 0.
Proof.
  induction k as [|k IH]; intros l x K H.
  { destruct l; [reflexivity|cbn in K; lia]. }
  destruct l as [|y r]; [reflexivity|].
  destruct (in_dec Z.eq_dec y r) as [I|NI].
  - apply in_split in I. destruct I as (r1 & r2 & ->).
    assert (P : Permutation (y :: r1 ++ y :: r2) (y :: y :: r1 ++ r2)).
    { constructor. symmetry. apply Permutation_middle. }
    rewrite (xor_perm _ _ P), (occurrences_perm _ _ P). cbn [fold_right].
    rewrite <- Z.lxor_assoc, Z.lxor_nilpotent, Z.lxor_0_l.
    rewrite (IH _ x).
    + unfold occurrences. cbn [count_occ]. destruct (Z.eq_dec y x); [|reflexivity].
      now rewrite Nat.odd_succ_succ.
    + cbn in K. rewrite app_length in *. cbn in K. lia.
    + intros v V. specialize (H v V). rewrite (occurrences_perm _ _ P) in H. unfold occurrences in *.
      cbn [count_occ] in H. destruct (Z.eq_dec y v); [|exact H]. exact H.
  - assert (C : occurrences y r = O) by (apply count_occ_not_In; exact NI).
    destruct (Z.eq_dec y x) as [<-|NX].
    + unfold occurrences in *. cbn [count_occ fold_right]. destruct (Z.eq_dec y y); [|congruence]. rewrite C. cbn [Nat.odd].
      rewrite (IH r y).
      * unfold occurrences. rewrite C. cbn. apply Z.lxor_0_r.
      * cbn in K. lia.
      * intros v V. specialize (H v V). cbn [count_occ] in H. destruct (Z.eq_dec y v); [congruence|exact H].
    + specialize (H y NX). unfold occurrences in *. cbn [count_occ] in H. destruct (Z.eq_dec y y); [|congruence].
      rewrite C in H. discriminate.
Qed.
Lemma non_repeated_ok : forall l x, Nat.odd (occurrences x l) = true ->
  (forall v, v <> x -> Nat.even (occurrences v l) = true) -> find_non_repeated_element l = Val x.
Proof.
  intros l x O H. unfold find_non_repeated_element. destruct l as [|y r]; [discriminate|].
  rewrite xor_cons, (xor_parity _ _ x (le_n _) H), O. reflexivity.
Qed.
Lemma float_first : forall lower factor error n, (0 < n)%nat -> ~ (lower * factor == lower)%Q ->
  find_missing_geometric_float (float_gap lower factor n 0) factor lower error = Val (true, lower).
Proof.
  intros lower factor error n N D. unfold find_missing_geometric_float, float_gap. rewrite gap_deref by lia.
  cbn [Nat.ltb Nat.leb bind]. change (float_term lower factor 1) with (lower * factor)%Q.
  destruct (Qeq_bool (lower * factor) lower) eqn:E; [apply Qeq_bool_eq in E; contradiction|].
  now rewrite (Qeq_eq_bool _ _ (Qeq_refl (lower * factor))).
Qed.
