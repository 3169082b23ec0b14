(** Proofs about delimiters.h. *)
Require Import List Arith NArith ZArith Lia Bool.
Require Import Verif.Base Verif.TokenModel Verif.TokenSpec.
Import ListNotations.

(** ** The runs are determined by the text. *)
Lemma runs_concat : forall f s ws, runs f s ws -> concat ws = filter f s.
Proof.
  intros f s ws R. induction R as [gap G|gap w s ws G NE A B R IH]; cbn [concat].
  - induction G as [|c gap C G IH]; [trivial|]. cbn. now rewrite C.
  - rewrite !filter_app, IH.
    assert (E1 : filter f gap = []) by (clear - G; induction G as [|c gap C G IH]; [trivial|]; cbn; now rewrite C).
    assert (E2 : filter f w = w) by (clear - A; induction A as [|c w C A IH]; [trivial|]; cbn; rewrite C; congruence).
    now rewrite E1, E2.
Qed.
Lemma runs_words : forall f s ws, runs f s ws -> Forall (fun w => w <> [] /\ Forall (fun c => f c = true) w) ws.
Proof. intros f s ws R. induction R; constructor; auto. Qed.
Lemma gap_word : forall (f : N -> bool) gap w s gap' w' s', Forall (fun c => f c = false) gap -> Forall (fun c => f c = false) gap' ->
  w <> [] -> w' <> [] -> Forall (fun c => f c = true) w -> Forall (fun c => f c = true) w' ->
  match s with [] => True | c :: _ => f c = false end -> match s' with [] => True | c :: _ => f c = false end ->
  gap ++ w ++ s = gap' ++ w' ++ s' -> w = w' /\ s = s'.
Proof.
  intros f gap. induction gap as [|c gap IH]; intros w s gap' w' s' G G' N N' A A' B B' E.
  - destruct gap' as [|c' gap'].
    + cbn in E. clear N N' G G'. revert w' A' E. induction A as [|c w C A IHw]; intros w' A' E.
      * destruct A' as [|c' w' C' A']; [auto|]. cbn in E. subst s. congruence.
      * destruct A' as [|c' w' C' A'].
        { cbn in E. subst s'. congruence. }
        injection E as -> E. destruct (IHw w' A' E). split; congruence.
    + destruct w as [|d w]; [congruence|]. injection E as -> E. inversion A; inversion G'; congruence.
  - destruct gap' as [|c' gap'].
    + destruct w' as [|d w']; [congruence|]. injection E as -> E. inversion A'; inversion G; congruence.
    + injection E as -> E. inversion G; inversion G'; subst. eapply IH; eauto.
Qed.
Lemma runs_unique : forall f s ws, runs f s ws -> forall ws', runs f s ws' -> ws = ws'.
Proof.
  assert (X : forall (f : N -> bool) gap w s, Forall (fun c => f c = false) (gap ++ w ++ s) -> w <> [] -> Forall (fun c => f c = true) w -> False).
  { intros f gap w s G N A. destruct w as [|c w]; [congruence|]. rewrite !Forall_app in G.
    destruct G as (_ & G & _). inversion G; inversion A; congruence. }
  intros f s ws R. induction R as [gap G|gap w s ws G NE A B R IH]; intros ws' R'.
  - inversion R' as [|gap' w' s' ws1 G' N' A' B' R1]; subst; [trivial|]. exfalso. eapply X; eauto.
  - inversion R' as [gap' G' E1 E2|gap' w' s' ws1 G' N' A' B' R1 E1 E2]; subst.
    + exfalso. eapply X; eauto.
    + destruct (gap_word f gap' w' s' gap w s) as (-> & ->); trivial. f_equal. now apply IH.
Qed.

(** ** Reading *)
Section Read.
Variable table : list bool.
Let accepts (c : N) : bool := negb (space table c).
Lemma skip_ok : forall s, exists gap, s = gap ++ skip table s /\ Forall (fun c => accepts c = false) gap /\
  match skip table s with [] => True | c :: _ => accepts c = true end.
Proof.
  unfold accepts. induction s as [|c s (gap & E & G & H)]; cbn [skip].
  - exists []. auto.
  - destruct (space table c) eqn:S.
    + exists (c :: gap). split; [cbn; congruence|]. split; [|trivial]. constructor; [now rewrite S|trivial].
    + exists []. split; [trivial|]. split; [constructor|]. now rewrite S.
Qed.
Lemma take_ok : forall s w rest, take table s = (w, rest) -> s = w ++ rest /\ Forall (fun c => accepts c = true) w /\
  match rest with [] => True | c :: _ => accepts c = false end.
Proof.
  unfold accepts. induction s as [|c s IH]; intros w rest H; cbn [take] in H.
  - injection H as <- <-. auto.
  - destruct (space table c) eqn:S.
    + injection H as <- <-. split; [trivial|]. split; [constructor|]. now rewrite S.
    + destruct (take table s) as (w1 & r1) eqn:T. injection H as <- <-. destruct (IH w1 r1 eq_refl) as (-> & A & B).
      split; [trivial|]. split; [|trivial]. constructor; [now rewrite S|trivial].
Qed.
Lemma read_words_ok : forall fuel s, (length s < fuel)%nat -> exists ws, read_words fuel table s = Val ws /\ runs accepts s ws.
Proof.
  induction fuel as [|fuel IH]; intros s L; [lia|]. cbn [read_words].
  destruct (skip_ok s) as (gap & E & G & H).
  destruct (take table (skip table s)) as (w & rest) eqn:T. destruct (take_ok _ _ _ T) as (ET & A & B).
  destruct w as [|c w].
  - exists []. split; [trivial|]. assert (skip table s = []) as K.
    { destruct (skip table s) as [|c r] eqn:K; [trivial|]. cbn [take] in T. unfold accepts in H.
      destruct (space table c); [discriminate|]. destruct (take table r); discriminate. }
    rewrite K, app_nil_r in E. subst s. now apply runs_end.
  - destruct (IH rest) as (ws & -> & R).
    { rewrite E, ET, !app_length in L. cbn [length] in L. lia. }
    cbn [bind]. exists ((c :: w) :: ws). split; [trivial|]. rewrite E, ET. apply runs_word; trivial. discriminate.
Qed.
End Read.

(** ** The table *)
Section Table.
Variables (char_signed : bool) (f : Z -> outcome bool) (g : N -> bool).
Hypothesis F : forall ii, (ii < 256)%N -> f (char_of char_signed ii) = Val (g ii).
Lemma table_loop_ok : forall fuel ii rc, (ii + fuel = 256)%nat -> length rc = 256%nat ->
  (forall jj, (jj < ii)%nat -> nth jj rc false = negb (g (N.of_nat jj))) ->
  (forall jj, (ii <= jj)%nat -> nth jj rc false = false) ->
  exists t, table_loop char_signed fuel f ii rc = Val t /\ length t = 256%nat /\
    forall jj, (jj < 256)%nat -> nth jj t false = negb (g (N.of_nat jj)).
Proof.
  assert (NS : forall l i j, (i < length l)%nat -> nth j (set_nth l i true) false = if Nat.eqb i j then true else nth j l false).
  { intros l i j L. destruct (nth_error (set_nth l i true) j) as [x|] eqn:E.
    - rewrite (nth_error_nth _ _ _ E). rewrite nth_error_set_nth in E. destruct (Nat.eqb_spec i j).
      + destruct (Nat.ltb i (length l)); [congruence|discriminate].
      + now rewrite (nth_error_nth _ _ _ E).
    - apply nth_error_None in E. rewrite set_nth_length in E. rewrite !nth_overflow by (rewrite ?set_nth_length; lia).
      destruct (Nat.eqb_spec i j); [lia|trivial]. }
  induction fuel as [|fuel IH]; intros ii rc L LR A B; cbn [table_loop].
  - exists rc. split; [trivial|]. split; [trivial|]. intros jj J. apply A. lia.
  - rewrite F by lia. cbn [bind]. apply IH; [lia| | |].
    + destruct (g (N.of_nat ii)); [trivial|]. now rewrite set_nth_length.
    + intros jj J. destruct (Nat.eq_dec jj ii) as [->|NE].
      * destruct (g (N.of_nat ii)); cbn [negb]; [apply B; lia|]. rewrite NS by lia. now rewrite Nat.eqb_refl.
      * assert (JJ : (jj < ii)%nat) by lia. destruct (g (N.of_nat ii)); [now apply A|]. rewrite NS by lia.
        destruct (Nat.eqb_spec ii jj); [lia|now apply A].
    + intros jj J. destruct (g (N.of_nat ii)); [apply B; lia|]. rewrite NS by lia.
      destruct (Nat.eqb_spec ii jj); [lia|apply B; lia].
Qed.
Local Opaque table_loop.
Lemma table_ok : exists t, get_table char_signed f = Val t /\
  forall c, (c < 256)%N -> space t c = negb (g c).
Proof.
  unfold get_table. destruct (table_loop_ok 256 0 (repeat false 256)) as (t & E & L & H).
  - reflexivity.
  - apply repeat_length.
  - intros jj J. lia.
  - intros jj _. destruct (Nat.lt_ge_cases jj 256) as [J|J].
    + apply nth_repeat.
    + apply nth_overflow. rewrite repeat_length. lia.
  - exists t. split; [rewrite E; reflexivity|]. intros c C. unfold space. rewrite H by lia. now rewrite N2Nat.id.
Qed.
Local Transparent table_loop.
Lemma runs_ext : forall p q s ws, (forall c, In c s -> p c = q c) -> runs p s ws -> runs q s ws.
Proof.
  intros p q s ws E R. induction R as [gap G|gap w s ws G NE A B R IH].
  - apply runs_end. rewrite Forall_forall in *. intros c C. rewrite <- E by trivial. now apply G.
  - apply runs_word; trivial.
    + rewrite Forall_forall in *. intros c C. rewrite <- E by (rewrite in_app_iff; auto). now apply G.
    + rewrite Forall_forall in *. intros c C. rewrite <- E by (rewrite !in_app_iff; auto). now apply A.
    + destruct s as [|c s]; [trivial|]. rewrite <- E; [trivial|]. rewrite !in_app_iff. cbn. auto.
    + apply IH. intros c C. apply E. rewrite !in_app_iff. auto.
Qed.
Lemma words_ok : forall s, Forall (fun c => (c < 256)%N) s -> exists ws, words char_signed f s = Val ws /\ runs g s ws.
Proof.
  intros s S. unfold words. destruct table_ok as (t & -> & T). cbn [bind].
  destruct (read_words_ok t (Datatypes.S (length s)) s) as (ws & E & R); [lia|]. exists ws. split; [exact E|].
  revert R. apply runs_ext. intros c C. rewrite Forall_forall in S. rewrite T by (now apply S). apply negb_involutive.
Qed.
End Table.

(** ** The shipped filters *)
Lemma ctype_table : forall char_signed lenient class ii, (char_signed = false \/ lenient = true) -> (ii < 256)%N ->
  (forall c, (c < 0)%Z \/ (127 < c)%Z -> class c = false) ->
  ctype lenient class (char_of char_signed ii) = Val (class (Z.of_N ii)).
Proof.
  intros cs len class ii H I C. unfold ctype, char_of. destruct H as [->| ->].
  - cbn [andb]. destruct (Z.leb_spec (-1) (Z.of_N ii)); [reflexivity|lia].
  - rewrite orb_true_r. f_equal. destruct cs; cbn [andb]; [|reflexivity].
    destruct (N.leb_spec 128 ii); [|reflexivity]. rewrite !C by lia. reflexivity.
Qed.
Lemma ascii_class : forall class, class = isalpha \/ class = isalnum \/ class = islower \/ class = isupper \/ class = isdigit ->
  forall c, (c < 0)%Z \/ (127 < c)%Z -> class c = false.
Proof.
  intros class H c C. unfold isalpha, isalnum, islower, isupper, isdigit, between in *.
  assert (B : forall a b, (0 <= a)%Z -> (b <= 127)%Z -> ((a <=? c) && (c <=? b))%Z = false).
  { intros a b A B. apply andb_false_iff. rewrite !Z.leb_gt. lia. }
  decompose [or] H; subst class; unfold isalpha, isalnum, islower, isupper, isdigit, between; rewrite ?B by lia; reflexivity.
Qed.
Lemma shipped_ok : forall char_signed lenient class s, (char_signed = false \/ lenient = true) ->
  class = isalpha \/ class = isalnum \/ class = islower \/ class = isupper \/ class = isdigit ->
  Forall (fun c => (c < 256)%N) s ->
  exists ws, words char_signed (ctype lenient class) s = Val ws /\ runs (fun c => class (Z.of_N c)) s ws.
Proof.
  intros cs len class s H C S. apply words_ok; [|trivial]. intros ii I. apply ctype_table; trivial.
  now apply ascii_class.
Qed.
Lemma below_256 : forall (P : N -> bool), forallb P (map N.of_nat (seq 0 256)) = true -> forall c, (c < 256)%N -> P c = true.
Proof.
  intros P H c C. rewrite forallb_forall in H. apply H. apply in_map_iff. exists (N.to_nat c). split; [apply N2Nat.id|].
  apply in_seq. lia.
Qed.
Lemma class_table : forall class l,
  forallb (fun c => Bool.eqb (class (Z.of_N c)) (member l c)) (map N.of_nat (seq 0 256)) = true ->
  class = isalpha \/ class = isalnum \/ class = islower \/ class = isupper \/ class = isdigit ->
  forall char_signed lenient s, (char_signed = false \/ lenient = true) -> Forall (fun c => (c < 256)%N) s ->
  exists ws, words char_signed (ctype lenient class) s = Val ws /\ runs (member l) s ws.
Proof.
  intros class l T C cs len s H S. destruct (shipped_ok cs len class s H C S) as (ws & E & R). exists ws. split; [trivial|].
  revert R. apply runs_ext. intros c I. rewrite Forall_forall in S. apply eqb_prop. 
  now apply (below_256 (fun c => Bool.eqb (class (Z.of_N c)) (member l c)) T c (S c I)).
Qed.
Lemma filters_ok : forall char_signed lenient s, (char_signed = false \/ lenient = true) -> Forall (fun c => (c < 256)%N) s ->
  (exists ws, words char_signed (alpha_filter lenient) s = Val ws /\ runs (member (upper_case ++ lower_case)) s ws) /\
  (exists ws, words char_signed (alpha_num_filter lenient) s = Val ws /\ runs (member (upper_case ++ lower_case ++ digit_chars)) s ws) /\
  (exists ws, words char_signed (lower_filter lenient) s = Val ws /\ runs (member lower_case) s ws) /\
  (exists ws, words char_signed (upper_filter lenient) s = Val ws /\ runs (member upper_case) s ws) /\
  (exists ws, words char_signed (digit_filter lenient) s = Val ws /\ runs (member digit_chars) s ws).
Proof.
  intros cs len s H S. repeat split; (apply class_table; [vm_compute; reflexivity|tauto|trivial|trivial]).
Qed.
(** Every filter that calls a ctype function, without the extension. *)
Lemma shipped_ub : forall class, get_table true (ctype false class) = UB.
Proof.
  intros class. unfold get_table. generalize (repeat false 256). 
  assert (X : forall fuel ii rc, (ii <= 128)%nat -> (128 < ii + fuel)%nat ->
     table_loop true fuel (ctype false class) ii rc = UB).
  { induction fuel as [|fuel IH]; intros ii rc A B; [lia|]. cbn [table_loop].
    destruct (Nat.eq_dec ii 128) as [->|NE]; [reflexivity|].
    assert (E : ctype false class (char_of true (N.of_nat ii)) = Val (class (Z.of_N (N.of_nat ii)))).
    { unfold ctype, char_of. cbn [andb]. destruct (N.leb_spec 128 (N.of_nat ii)); [lia|].
      destruct (Z.leb_spec (-1) (Z.of_N (N.of_nat ii))); [reflexivity|lia]. }
    rewrite E. cbn [bind]. apply IH; lia. }
  intros rc. apply X; lia.
Qed.
