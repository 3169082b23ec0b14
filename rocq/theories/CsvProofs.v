(** Proofs about read_csv.h. *)
Require Import List Arith NArith ZArith Lia Bool.
Require Import Verif.Base Verif.Cint Verif.CsvModel Verif.CsvSpec.
Import ListNotations.

(** ** Splitting *)
Fixpoint split (d : N) (s : str) : list str :=
  match s with
  | [] => []
  | c :: r => if (c =? d)%N then [] :: split d r
              else match split d r with [] => [[c]] | w :: ws => (c :: w) :: ws end
  end.
Lemma split_getline : forall d s,
  split d s = match getline d s with None => [] | Some (w, rest) => w :: split d rest end.
Proof.
  intros d. induction s as [|c s IH]; [trivial|]. cbn [split getline until].
  destruct (c =? d)%N; [trivial|]. rewrite IH. destruct s as [|e s]; [reflexivity|].
  cbn [getline]. destruct (until d (e :: s)) as (w & rest). reflexivity.
Qed.
Lemma until_length : forall d s w rest, until d s = (w, rest) -> (length rest <= length s)%nat.
Proof.
  intros d. induction s as [|c s IH]; intros w rest H; cbn [until] in H.
  - injection H as <- <-. trivial.
  - destruct (c =? d)%N; [injection H as <- <-; cbn; lia|]. destruct (until d s) as (w1 & r1) eqn:E.
    injection H as <- <-. specialize (IH _ _ eq_refl). cbn. lia.
Qed.
Lemma getline_length : forall d s w rest, getline d s = Some (w, rest) -> (length rest < length s)%nat.
Proof.
  intros d [|c s] w rest H; [discriminate|]. cbn [getline until] in H. injection H as H.
  destruct (c =? d)%N; [injection H as <- <-; cbn; lia|]. destruct (until d s) as (w1 & r1) eqn:E.
  injection H as <- <-. apply until_length in E. cbn. lia.
Qed.
Lemma split_hit : forall d w rest, ~ In d w -> split d (w ++ d :: rest) = w :: split d rest.
Proof.
  intros d. induction w as [|c w IH]; intros rest N; cbn [app split].
  - now rewrite N.eqb_refl.
  - cbn [In] in N. destruct (N.eqb_spec c d); [exfalso; auto|]. rewrite IH by auto. reflexivity.
Qed.
Lemma split_end : forall d w, ~ In d w -> w <> [] -> split d w = [w].
Proof.
  intros d. induction w as [|c w IH]; intros N NE; [congruence|]. cbn [split]. cbn [In] in N.
  destruct (N.eqb_spec c d); [exfalso; auto|]. destruct w as [|e w]; [reflexivity|].
  rewrite IH; [reflexivity|auto|discriminate].
Qed.
Lemma split_join : forall d ws, Forall (fun w => ~ In d w) ws -> (ws = [] \/ last ws [] <> []) ->
  split d (join d ws) = ws.
Proof.
  intros d. induction ws as [|w ws IH]; intros F L; [trivial|]. inversion F as [|? ? F1 F2]; subst.
  destruct ws as [|w2 ws].
  - cbn [join]. apply split_end; [trivial|]. destruct L as [L|L]; [discriminate|exact L].
  - change (join d (w :: w2 :: ws)) with (w ++ d :: join d (w2 :: ws)). rewrite split_hit by trivial. f_equal.
    apply IH; [trivial|]. right. destruct L as [L|L]; [discriminate|exact L].
Qed.
Lemma split_lines : forall d ls rest, Forall (fun w => ~ In d w) ls ->
  split d (flat_map (fun l => l ++ [d]) ls ++ rest) = ls ++ split d rest.
Proof.
  intros d. induction ls as [|l ls IH]; intros rest F; [trivial|]. inversion F; subst.
  cbn [flat_map app]. rewrite <- !app_assoc. cbn [app]. rewrite split_hit by trivial. f_equal. now apply IH.
Qed.
Lemma split_spec : forall d s, splits_into d s (split d s).
Proof.
  intros d. induction s as [|c s (F & H)]; cbn [split].
  { split; [constructor|now left]. }
  revert F H. destruct (N.eqb_spec c d) as [->|NE]; destruct (split d s) as [|w ws] eqn:E; intros F H.
  - destruct H as [->|(N & _)]; [|now destruct N]. split; [constructor; auto|]. right. split; [discriminate|reflexivity].
  - split; [constructor; auto|]. destruct H as [->|(_ & ->)]; [left; reflexivity|]. right. split; [discriminate|reflexivity].
  - split; [constructor; [|constructor]; cbn; intros [?|[]]; congruence|].
    destruct H as [->|(N & _)]; [|now destruct N]. now left.
  - inversion F; subst. split; [constructor; [cbn; intros [?|?]; [congruence|contradiction]|trivial]|].
    assert (X : join d ((c :: w) :: ws) = c :: join d (w :: ws)) by (destruct ws; reflexivity). rewrite X.
    destruct H as [->|(_ & ->)]; [now left|right]. split; [discriminate|reflexivity].
Qed.
Lemma join_no : forall sep d ws, sep <> d -> Forall (fun w => ~ In d w) ws -> ~ In d (join sep ws).
Proof.
  intros sep d ws NE F. induction F as [|w ws N F IH]; [cbn; tauto|]. destruct ws as [|w2 ws]; [exact N|].
  change (join sep (w :: w2 :: ws)) with (w ++ sep :: join sep (w2 :: ws)). rewrite in_app_iff. cbn [In]. tauto.
Qed.

(** ** stoi *)
Lemma digits_numeral : forall s acc, Forall (fun c => (48 <= c <= 57)%N) s ->
  digits s acc = fold_left (fun a c => a * 10 + (Z.of_N c - 48))%Z s acc.
Proof.
  induction s as [|c s IH]; intros acc F; [trivial|]. inversion F; subst. cbn [digits fold_left].
  destruct (N.leb_spec 48 c), (N.leb_spec c 57); try lia. cbn [andb]. now apply IH.
Qed.
Lemma digit_head : forall s x, numeral s x -> exists c r, s = c :: r /\ (48 <= c <= 57)%N /\ starts_with_digit s = true.
Proof.
  intros s x (NE & F & _). destruct s as [|c r]; [congruence|]. inversion F; subst. exists c, r.
  split; [trivial|]. split; [trivial|]. cbn. destruct (N.leb_spec 48 c), (N.leb_spec c 57); try lia; reflexivity.
Qed.
Lemma stoi_positive : forall s x, numeral s x -> fits 32 x -> stoi s = Val x.
Proof.
  intros s x N F. destruct (digit_head s x N) as (c & r & E & C & S). unfold stoi.
  assert (SK : skip_space s = s).
  { rewrite E. cbn [skip_space]. destruct (N.leb_spec 9 c), (N.leb_spec c 13), (N.eqb_spec c 32); try lia; reflexivity. }
  rewrite SK. rewrite E at 1. destruct (N.eqb_spec c 45); [lia|]. destruct (N.eqb_spec c 43); [lia|].
  rewrite S. destruct N as (_ & FA & ->). rewrite digits_numeral by trivial. now rewrite (proj2 (fitsb_spec 32 _) F).
Qed.
Lemma stoi_negative : forall s x, numeral s x -> fits 32 (- x) -> stoi (45%N :: s) = Val (- x)%Z.
Proof.
  intros s x N F. destruct (digit_head s x N) as (c & r & E & C & S). 
  assert (U : stoi (45%N :: s) = if starts_with_digit s then
      if fitsb 32 (- digits s 0) then Val (- digits s 0)%Z else Exn OutOfRange else Exn InvalidArgument) by reflexivity.
  rewrite U, S. destruct N as (_ & FA & ->). rewrite digits_numeral by trivial.
  now rewrite (proj2 (fitsb_spec 32 _) F).
Qed.

Section Csv.
Context {X : Type}.
Variables (stod : str -> outcome (double X)) (nan_cast : outcome Z).
Notation make := (make_field stod nan_cast).
Notation row := (list (field X)).

(** ** Lines *)
Fixpoint read_row (types : list field_type) (ws : list str) {struct ws} : outcome (option row) :=
  match ws with
  | [] => Val (Some [])
  | w :: ws =>
      match types with
      | [] => Val None
      | t :: types =>
          let* f := make w t in
          let* r := read_row types ws in
          Val (option_map (cons f) r)
      end
  end.
Lemma read_fields_row : forall sep fuel pre types line, (length line < fuel)%nat ->
  read_fields stod nan_cast fuel sep (pre ++ types) line (length pre) = read_row types (split sep line).
Proof.
  intros sep. induction fuel as [|fuel IH]; intros pre types line L; [lia|]. cbn [read_fields]. rewrite split_getline.
  destruct (getline sep line) as [(w & rest)|] eqn:G; [|reflexivity]. cbn [read_row].
  destruct types as [|t types].
  - rewrite app_nil_r. rewrite (proj2 (nth_error_None pre (length pre))); [reflexivity|lia].
  - rewrite nth_error_app2, Nat.sub_diag by lia. cbn [nth_error].
    destruct (make w t) as [f|e| |]; trivial. cbn [bind].
    apply getline_length in G. replace (pre ++ t :: types) with ((pre ++ [t]) ++ types) by (rewrite <- app_assoc; reflexivity).
    replace (S (length pre)) with (length (pre ++ [t])) by (rewrite app_length; cbn; lia).
    rewrite IH by lia. reflexivity.
Qed.
Fixpoint read_table (sep : N) (types : list field_type) (lines : list str) : outcome (list row) :=
  match lines with
  | [] => Val []
  | line :: lines =>
      let* r := read_row types (split sep line) in
      match r with
      | None => Val []
      | Some vline => let* rest := read_table sep types lines in Val (vline :: rest)
      end
  end.
Lemma read_lines_table : forall sep types fuel s, (length s < fuel)%nat ->
  read_lines stod nan_cast fuel sep types s = read_table sep types (split newline s).
Proof.
  intros sep types. induction fuel as [|fuel IH]; intros s L; [lia|]. cbn [read_lines]. rewrite split_getline.
  destruct (getline newline s) as [(line & rest)|] eqn:G; [|reflexivity]. cbn [read_table].
  pose proof (read_fields_row sep (S (length line)) [] types line ltac:(lia)) as RF. cbn [app length] in RF. rewrite RF.
  destruct (read_row types (split sep line)) as [[v|]|e| |]; trivial. cbn [bind].
  apply getline_length in G. rewrite IH by lia. reflexivity.
Qed.
Lemma skip_lines_split : forall count s, split newline (skip_lines count s) = skipn count (split newline s).
Proof.
  induction count as [|count IH]; intros s; [reflexivity|]. cbn [skip_lines]. rewrite (split_getline newline s).
  destruct (getline newline s) as [(l & rest)|]; [|reflexivity]. cbn [skipn]. apply IH.
Qed.
Lemma read_ok : forall types offset sep s,
  read_csv_file stod nan_cast types offset sep (Some s) = read_table sep types (skipn (Z.to_nat offset) (split newline s)).
Proof.
  intros types offset sep s. unfold read_csv_file. rewrite read_lines_table by lia. now rewrite skip_lines_split.
Qed.

(** ** Rows *)
Lemma read_row_made : forall ws types fs, made make types ws fs -> read_row types ws = Val (Some fs).
Proof.
  induction ws as [|w ws IH]; intros types fs M; cbn [read_row].
  - destruct fs; [reflexivity|contradiction].
  - destruct fs as [|f fs]; [contradiction|]. destruct types as [|t types]; [contradiction|]. cbn [made] in M.
    destruct M as (E & M). rewrite E. cbn [bind]. rewrite (IH _ _ M). reflexivity.
Qed.
Lemma read_row_inv : forall ws types r, read_row types ws = Val r ->
  match r with
  | Some fs => made make types ws fs
  | None => (length types < length ws)%nat
  end.
Proof.
  induction ws as [|w ws IH]; intros types r H; cbn [read_row] in H.
  - injection H as <-. exact I.
  - destruct types as [|t types].
    + injection H as <-. cbn. lia.
    + destruct (make w t) as [f|e| |] eqn:E; try discriminate. cbn [bind] in H.
      destruct (read_row types ws) as [r'|e| |] eqn:R; try discriminate. cbn [bind] in H. injection H as <-.
      specialize (IH _ _ R). destruct r' as [fs|]; cbn [option_map made].
      * auto.
      * cbn. lia.
Qed.
Lemma read_row_long : forall ws types fs ws', made make types ws fs -> length ws = length types -> ws' <> [] ->
  read_row types (ws ++ ws') = Val None.
Proof.
  induction ws as [|w ws IH]; intros types fs ws' M L N; cbn [app read_row].
  - destruct types; [|discriminate]. destruct ws'; [congruence|reflexivity].
  - destruct fs as [|f fs]; [contradiction|]. destruct types as [|t types]; [contradiction|]. cbn [made] in M.
    destruct M as (E & M). rewrite E. cbn [bind]. rewrite (IH types fs ws' M); [reflexivity|cbn in L; lia|trivial].
Qed.
Lemma read_row_exn : forall ws types types' fs w t ws' e, made make types ws fs -> length ws = length types ->
  make w t = Exn e -> read_row (types ++ t :: types') (ws ++ w :: ws') = Exn e.
Proof.
  induction ws as [|v ws IH]; intros types types' fs w t ws' e M L E; cbn [app read_row].
  - destruct types; [|discriminate]. cbn [app]. rewrite E. reflexivity.
  - destruct fs as [|f fs]; [contradiction|]. destruct types as [|u types]; [contradiction|]. cbn [made] in M.
    destruct M as (EV & M). cbn [app]. rewrite EV. cbn [bind].
    rewrite (IH types types' fs w t ws' e M); [reflexivity|cbn in L; lia|trivial].
Qed.
Lemma render_lines : forall sep rows, render sep newline rows = flat_map (fun l => l ++ [newline]) (map (join sep) rows).
Proof. intros sep rows. unfold render. induction rows as [|r rows IH]; [trivial|]. cbn. now rewrite IH. Qed.
Lemma clean_split : forall sep r, clean sep newline r -> split sep (join sep r) = r.
Proof.
  intros sep r (F & L). apply split_join; [|trivial]. eapply Forall_impl; [|exact F]. cbn. tauto.
Qed.
Lemma clean_line : forall sep r, sep <> newline -> clean sep newline r -> ~ In newline (join sep r).
Proof.
  intros sep r NE (F & L). apply join_no; [trivial|]. eapply Forall_impl; [|exact F]. cbn. tauto.
Qed.
Lemma read_table_app : forall sep types ls ls' tab, Forall2 (fun l fs => read_row types (split sep l) = Val (Some fs)) ls tab ->
  read_table sep types (ls ++ ls') = let* rest := read_table sep types ls' in Val (tab ++ rest).
Proof.
  intros sep types ls ls' tab F. induction F as [|l fs ls tab E F IH]; cbn [app read_table].
  - now destruct (read_table sep types ls').
  - rewrite E. cbn [bind]. rewrite IH. now destruct (read_table sep types ls').
Qed.

Section Rows.
Variables (types : list field_type) (sep : N) (rows : list (list str)) (tab : list row).
Hypothesis NE : sep <> newline.
Hypothesis CL : Forall (clean sep newline) rows.
Hypothesis MD : Forall2 (made make types) rows tab.
Lemma rows_good : Forall2 (fun l fs => read_row types (split sep l) = Val (Some fs)) (map (join sep) rows) tab.
Proof.
  clear NE. revert CL. induction MD as [|r fs rows tab M _ IH]; intros C; [constructor|]. inversion C; subst. cbn [map].
  constructor; [|inversion MD; auto]. rewrite clean_split by trivial. now apply read_row_made.
Qed.
Lemma rows_lines : forall rest, split newline (render sep newline rows ++ rest) = map (join sep) rows ++ split newline rest.
Proof.
  intros rest. rewrite render_lines. apply split_lines. rewrite Forall_forall in *. intros l I.
  apply in_map_iff in I. destruct I as (r & <- & I). apply clean_line; auto.
Qed.
Lemma read_app : forall rest, read_csv_file stod nan_cast types 0 sep (Some (render sep newline rows ++ rest)) =
  let* t := read_csv_file stod nan_cast types 0 sep (Some rest) in Val (tab ++ t).
Proof.
  intros rest. rewrite !read_ok. change (Z.to_nat 0) with O. cbn [skipn]. rewrite rows_lines.
  apply read_table_app. exact rows_good.
Qed.
Lemma round_trip : read_csv_file stod nan_cast types 0 sep (Some (render sep newline rows)) = Val tab.
Proof.
  pose proof (read_app []) as H. rewrite app_nil_r in H. rewrite H. cbn. now rewrite app_nil_r.
Qed.
(** The last newline may be missing. *)
Lemma round_trip_unterminated : forall last fs, clean sep newline last -> last <> [] -> made make types last fs ->
  read_csv_file stod nan_cast types 0 sep (Some (render sep newline rows ++ join sep last)) = Val (tab ++ [fs]).
Proof.
  intros lst fs C N M. rewrite read_app. rewrite read_ok. change (Z.to_nat 0) with O. cbn [skipn].
  assert (J : join sep lst <> []).
  { destruct C as (_ & [?|L]); [congruence|]. destruct lst as [|w lst]; [congruence|]. destruct lst as [|w2 lst]; [exact L|].
    change (join sep (w :: w2 :: lst)) with (w ++ sep :: join sep (w2 :: lst)). now destruct w. }
  rewrite split_end by (trivial; now apply clean_line). cbn [read_table].
  rewrite clean_split by trivial. rewrite (read_row_made _ _ _ M). reflexivity.
Qed.
(** A row with too many fields ends the reading. *)
Lemma too_long : forall ws fs ws' rest, clean sep newline (ws ++ ws') -> made make types ws fs -> length ws = length types ->
  ws' <> [] -> read_csv_file stod nan_cast types 0 sep (Some (render sep newline (rows ++ [ws ++ ws']) ++ rest)) = Val tab.
Proof.
  intros ws fs ws' rest C M L N. unfold render. rewrite flat_map_app. fold (render sep newline rows). rewrite <- app_assoc.
  rewrite read_app. rewrite read_ok. change (Z.to_nat 0) with O. cbn [skipn flat_map]. rewrite app_nil_r, <- app_assoc. cbn [app].
  rewrite split_hit by (now apply clean_line). cbn [read_table]. rewrite clean_split by trivial.
  rewrite (read_row_long _ _ _ _ M L N). cbn [bind]. now rewrite app_nil_r.
Qed.
(** A field that cannot be converted makes the whole call throw. *)
Lemma bad_field : forall ws fs w t types1 types2 ws' e rest, types = types1 ++ t :: types2 -> clean sep newline (ws ++ w :: ws') ->
  made make types1 ws fs -> length ws = length types1 -> make w t = Exn e ->
  read_csv_file stod nan_cast types 0 sep (Some (render sep newline (rows ++ [ws ++ w :: ws']) ++ rest)) = Exn e.
Proof.
  intros ws fs w t types1 types2 ws' e rest T C M L E. unfold render. rewrite flat_map_app. fold (render sep newline rows).
  rewrite <- app_assoc, read_app, read_ok. change (Z.to_nat 0) with O. cbn [skipn flat_map]. rewrite app_nil_r, <- app_assoc. cbn [app].
  rewrite split_hit by (now apply clean_line). cbn [read_table]. rewrite clean_split by trivial.
  rewrite T.
  pose proof (read_row_exn _ _ types2 _ _ _ ws' _ M L E) as R. unfold str in *. rewrite R. reflexivity.
Qed.
End Rows.

(** ** Offsets *)
Lemma skipped : forall types offset sep ls rest, Forall (fun l => ~ In newline l) ls -> length ls = Z.to_nat offset ->
  read_csv_file stod nan_cast types offset sep (Some (flat_map (fun l => l ++ [newline]) ls ++ rest)) =
  read_csv_file stod nan_cast types 0 sep (Some rest).
Proof.
  intros types offset sep ls rest F L. rewrite !read_ok, split_lines by trivial. change (Z.to_nat 0) with O. cbn [skipn].
  rewrite <- L, skipn_app, skipn_all, Nat.sub_diag. reflexivity.
Qed.
Lemma skipped_all : forall types offset sep ls, Forall (fun l => ~ In newline l) ls -> (length ls <= Z.to_nat offset)%nat ->
  read_csv_file stod nan_cast types offset sep (Some (flat_map (fun l => l ++ [newline]) ls)) = Val [].
Proof.
  intros types offset sep ls F L. rewrite read_ok. rewrite <- (app_nil_r (flat_map _ ls)), split_lines by trivial.
  cbn [split]. rewrite app_nil_r, skipn_all2 by trivial. reflexivity.
Qed.

(** ** Any file *)
Lemma read_table_inv : forall sep types lines tab, read_table sep types lines = Val tab ->
  exists used rest, lines = used ++ rest /\
    Forall2 (fun l fs => exists ws, splits_into sep l ws /\ made make types ws fs) used tab /\
    match rest with
    | [] => True
    | l :: _ => exists ws, splits_into sep l ws /\ (length types < length ws)%nat
    end.
Proof.
  intros sep types. induction lines as [|l lines IH]; intros tab H; cbn [read_table] in H.
  - injection H as <-. exists [], []. auto.
  - destruct (read_row types (split sep l)) as [r|e| |] eqn:R; try discriminate. cbn [bind] in H.
    apply read_row_inv in R. destruct r as [fs|].
    + destruct (read_table sep types lines) as [rest|e| |] eqn:T; try discriminate. cbn [bind] in H. injection H as <-.
      destruct (IH _ eq_refl) as (used & rest' & -> & F & A). exists (l :: used), rest'. split; [trivial|]. split; [|trivial].
      constructor; [|trivial]. exists (split sep l). split; [apply split_spec|trivial].
    + injection H as <-. exists [], (l :: lines). split; [trivial|]. split; [constructor|].
      exists (split sep l). split; [apply split_spec|trivial].
Qed.
Lemma any_file : forall types sep s tab, read_csv_file stod nan_cast types 0 sep (Some s) = Val tab ->
  exists used rest, splits_into newline s (used ++ rest) /\
    Forall2 (fun l fs => exists ws, splits_into sep l ws /\ made make types ws fs) used tab /\
    match rest with
    | [] => True
    | l :: _ => exists ws, splits_into sep l ws /\ (length types < length ws)%nat
    end.
Proof.
  intros types sep s tab H. rewrite read_ok in H. change (Z.to_nat 0) with O in H. cbn [skipn] in H.
  destruct (read_table_inv _ _ _ _ H) as (used & rest & E & F & A). exists used, rest.
  split; [|auto]. pose proof (split_spec newline s) as SP. unfold str in *. rewrite E in SP. exact SP.
Qed.

(** ** Fields *)
Lemma field_text : forall s t f, make s t = Val f -> string_ f = s.
Proof.
  intros s t f H. destruct t; cbn [make_field] in H.
  - injection H as <-. reflexivity.
  - destruct (stoi s); try discriminate. injection H as <-. reflexivity.
  - destruct (stod s); try discriminate. cbn [bind] in H. destruct nan_cast; try discriminate. injection H as <-. reflexivity.
Qed.
Lemma int_field : forall s f, make s INT = Val f -> get_int f = stoi s /\ get_double stod f = stod s.
Proof.
  intros s f H. cbn [make_field] in H. destruct (stoi s) as [i|e| |]; try discriminate. injection H as <-. auto.
Qed.
Lemma double_field : forall s f, make s DOUBLE = Val f -> get_double stod f = stod s /\ get_int f = nan_cast.
Proof.
  intros s f H. cbn [make_field] in H. destruct (stod s) as [d|e| |] eqn:E; try discriminate. cbn [bind] in H.
  destruct nan_cast as [i|e| |]; try discriminate. injection H as <-. unfold get_double, get_int. cbn. split; [|trivial].
  destruct d; trivial.
Qed.
Lemma str_field : forall s f, make s STR = Val f -> get_int f = UB /\ get_double stod f = UB.
Proof. intros s f H. injection H as <-. auto. Qed.
Lemma default_field : forall s f, field_of_string nan_cast s = Val f ->
  string_ f = s /\ get_double stod f = stod s /\ get_int f = nan_cast.
Proof.
  intros s f H. unfold field_of_string in H. destruct nan_cast as [i|e| |]; try discriminate. injection H as <-. auto.
Qed.
Lemma made_text : forall ws types fs, made make types ws fs -> map string_ fs = ws.
Proof.
  induction ws as [|w ws IH]; intros types fs M; destruct fs as [|f fs]; try contradiction; [trivial|].
  destruct types as [|t types]; [contradiction|]. destruct M as (E & M). cbn [map]. f_equal; eauto using field_text.
Qed.
Lemma table_text : forall types rows tab, Forall2 (made make types) rows tab -> map (map string_) tab = rows.
Proof.
  intros types rows tab F. induction F as [|r fs rows tab M F IH]; [trivial|]. cbn [map]. f_equal; eauto using made_text.
Qed.
End Csv.
