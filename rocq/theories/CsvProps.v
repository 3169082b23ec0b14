(** C75, C76: read_csv.h. *)
Require Import List Arith NArith ZArith Lia Bool.
Require Import Verif.Base Verif.Cint Verif.CsvModel Verif.CsvSpec Verif.CsvProofs.
Import ListNotations.
Local Ltac run := repeat (apply conj); (vm_compute; reflexivity).

(** C75: a table whose fields can be written and converted comes back. *)
Theorem C75_round_trip_partial : forall X stod nan_cast types sep rows (tab : list (list (field X))), sep <> newline ->
  Forall (clean sep newline) rows -> Forall2 (made (make_field stod nan_cast) types) rows tab ->
  read_csv_file stod nan_cast types 0 sep (Some (render sep newline rows)) = Val tab /\ map (map string_) tab = rows.
Proof.
  exact (fun X stod nan_cast types sep rows tab N C M =>
    conj (round_trip stod nan_cast types sep rows tab N C M) (table_text stod nan_cast types rows tab M)).
Qed.
Print Assumptions C75_round_trip_partial.
(** The newline at the end of the file may be missing. *)
Theorem C75_unterminated_partial : forall X stod nan_cast types sep rows (tab : list (list (field X))), sep <> newline ->
  Forall (clean sep newline) rows -> Forall2 (made (make_field stod nan_cast) types) rows tab ->
  forall last fs, clean sep newline last -> last <> [] -> made (make_field stod nan_cast) types last fs ->
  read_csv_file stod nan_cast types 0 sep (Some (render sep newline rows ++ join sep last)) = Val (tab ++ [fs]).
Proof. exact (fun X => @round_trip_unterminated X). Qed.
Print Assumptions C75_unterminated_partial.
(** A row with more fields than described ends the reading, the rows before are kept. *)
Theorem C75_too_many_fields : forall X stod nan_cast types sep rows (tab : list (list (field X))), sep <> newline ->
  Forall (clean sep newline) rows -> Forall2 (made (make_field stod nan_cast) types) rows tab ->
  forall ws fs ws' rest, clean sep newline (ws ++ ws') -> made (make_field stod nan_cast) types ws fs ->
  length ws = length types -> ws' <> [] ->
  read_csv_file stod nan_cast types 0 sep (Some (render sep newline (rows ++ [ws ++ ws']) ++ rest)) = Val tab.
Proof. exact (fun X => @too_long X). Qed.
Print Assumptions C75_too_many_fields.
(** A field that cannot be converted makes the call throw. *)
Theorem C75_bad_field_throws : forall X stod nan_cast types sep rows (tab : list (list (field X))), sep <> newline ->
  Forall (clean sep newline) rows -> Forall2 (made (make_field stod nan_cast) types) rows tab ->
  forall ws fs w t types1 types2 ws' e rest, types = types1 ++ t :: types2 -> clean sep newline (ws ++ w :: ws') ->
  made (make_field stod nan_cast) types1 ws fs -> length ws = length types1 -> make_field (X := X) stod nan_cast w t = Exn e ->
  read_csv_file stod nan_cast types 0 sep (Some (render sep newline (rows ++ [ws ++ w :: ws']) ++ rest)) = Exn e.
Proof. exact (fun X => @bad_field X). Qed.
Print Assumptions C75_bad_field_throws.
(** The lines before the offset are skipped, whatever they are. *)
Theorem C75_offset : forall X (stod : str -> outcome (double X)) nan_cast types offset sep ls rest,
  Forall (fun l => ~ In newline l) ls -> length ls = Z.to_nat offset ->
  read_csv_file stod nan_cast types offset sep (Some (flat_map (fun l => l ++ [newline]) ls ++ rest)) =
  read_csv_file stod nan_cast types 0 sep (Some rest).
Proof. exact (fun X => @skipped X). Qed.
Print Assumptions C75_offset.
Theorem C75_offset_beyond_the_end : forall X (stod : str -> outcome (double X)) nan_cast types offset sep ls,
  Forall (fun l => ~ In newline l) ls -> (length ls <= Z.to_nat offset)%nat ->
  read_csv_file stod nan_cast types offset sep (Some (flat_map (fun l => l ++ [newline]) ls)) = Val [].
Proof. exact (fun X => @skipped_all X). Qed.
Print Assumptions C75_offset_beyond_the_end.
Theorem C75_no_file : forall X (stod : str -> outcome (double X)) nan_cast types offset sep,
  read_csv_file stod nan_cast types offset sep None = Val [].
Proof. exact (fun X stod nan_cast types offset sep => eq_refl). Qed.
Print Assumptions C75_no_file.
(** Any file that is read: its lines, up to the first one with too many fields,
    give the rows, and each line is its fields joined (up to a separator at the
    end). *)
Theorem C75_nothing_lost : forall X stod nan_cast types sep s (tab : list (list (field X))),
  read_csv_file stod nan_cast types 0 sep (Some s) = Val tab ->
  exists used rest, splits_into newline s (used ++ rest) /\
    Forall2 (fun l fs => exists ws, splits_into sep l ws /\ made (make_field stod nan_cast) types ws fs) used tab /\
    match rest with
    | [] => True
    | l :: _ => exists ws, splits_into sep l ws /\ (length types < length ws)%nat
    end.
Proof. exact (fun X => @any_file X). Qed.
Print Assumptions C75_nothing_lost.

(** For the cases: doubles are integers, read by stoi. *)
Local Definition stod (s : str) : outcome (double Z) := let* x := stoi s in Val (Num x).
Local Definition texts (r : outcome (list (list (field Z)))) := let* t := r in Val (map (map string_) t).
(** "ab,7,3\n,12,-5\n\nx\n" *)
Example C75_case :
  let rows := [[[97; 98]; [55]; [51]]; [[]; [49; 50]; [45; 53]]; []; [[120]]]%N in
  let types := [STR; INT; DOUBLE] in
  Forall (clean 44 newline) rows /\
  render 44 newline rows = [97; 98; 44; 55; 44; 51; 10; 44; 49; 50; 44; 45; 53; 10; 10; 120; 10]%N /\
  (exists tab, Forall2 (made (make_field stod (Val (-2147483648)%Z)) types) rows tab) /\
  texts (read_csv_file stod (Val (-2147483648)%Z) types 0 44 (Some (render 44 newline rows))) = Val rows /\
  texts (read_csv_file stod (Val (-2147483648)%Z) types 3 44 (Some (render 44 newline rows))) = Val [[[120%N]]] /\
  texts (read_csv_file stod (Val (-2147483648)%Z) [STR; INT] 0 44 (Some (render 44 newline ([[97]; [55]] :: rows)%N)))
    = Val [[[97]; [55]]]%N /\
  texts (read_csv_file stod UB [INT] 0 44 (Some (render 44 newline rows))) = Exn InvalidArgument.
Proof.
  cbv zeta. split.
  { repeat constructor; cbn; try (intros H; decompose [or] H; first [discriminate|contradiction]); auto; right; discriminate. }
  split; [run|]. split.
  { let t := eval vm_compute in (match read_csv_file stod (Val (-2147483648)%Z) [STR; INT; DOUBLE] 0 44
      (Some [97; 98; 44; 55; 44; 51; 10; 44; 49; 50; 44; 45; 53; 10; 10; 120; 10]%N) with Val t => t | _ => [] end) in exists t.
    repeat (constructor; [cbn [made]; repeat (split; [vm_compute; reflexivity|]); exact I|]). constructor. }
  run.
Qed.
(** Not every table: an empty last field is lost. *)
Theorem C75_empty_last_field_refuted : exists rows, Forall (Forall (fun w => ~ In 44%N w /\ ~ In newline w)) rows /\
  texts (read_csv_file stod UB [STR; STR] 0 44 (Some (render 44 newline rows))) = Val [[[97]]; []]%N /\
  rows = [[[97]; []]; [[]]]%N.
Proof.
  exists [[[97]; []]; [[]]]%N. split; [|run].
  repeat constructor; cbn; try (intros H; decompose [or] H; first [discriminate|contradiction]); auto.
Qed.
Print Assumptions C75_empty_last_field_refuted.

(** C76: the text is always right; the getters that fit the type are right, and
    get_double of an INT field. *)
Theorem C76_text : forall X (stod : str -> outcome (double X)) nan_cast s t f,
  make_field stod nan_cast s t = Val f -> string_ f = s.
Proof. exact (fun X => @field_text X). Qed.
Print Assumptions C76_text.
Theorem C76_int_field : forall X (stod : str -> outcome (double X)) nan_cast s f, make_field stod nan_cast s INT = Val f ->
  get_int f = stoi s /\ get_double stod f = stod s.
Proof. exact (fun X => @int_field X). Qed.
Print Assumptions C76_int_field.
Theorem C76_double_field_partial : forall X (stod : str -> outcome (double X)) nan_cast s f,
  make_field stod nan_cast s DOUBLE = Val f -> get_double stod f = stod s /\ get_int f = nan_cast.
Proof. exact (fun X => @double_field X). Qed.
Print Assumptions C76_double_field_partial.
Theorem C76_default_field_partial : forall X (stod : str -> outcome (double X)) nan_cast s f,
  field_of_string nan_cast s = Val f -> string_ f = s /\ get_double stod f = stod s /\ get_int f = nan_cast.
Proof. exact (fun X => @default_field X). Qed.
Print Assumptions C76_default_field_partial.
(** What stoi makes of a numeral, with and without a sign. *)
Theorem C76_numerals : forall s x, numeral s x ->
  (fits 32 x -> stoi s = Val x) /\ (fits 32 (- x) -> stoi (45%N :: s) = Val (- x)%Z).
Proof. exact (fun s x N => conj (stoi_positive s x N) (stoi_negative s x N)). Qed.
Print Assumptions C76_numerals.
Example C76_case : numeral [52; 50]%N 42 /\ stoi [52; 50]%N = Val 42%Z /\ stoi [32; 43; 55; 120]%N = Val 7%Z /\
  stoi [120]%N = Exn InvalidArgument /\ stoi [50; 49; 52; 55; 52; 56; 51; 54; 52; 56]%N = Exn OutOfRange /\
  (let* f := make_field stod (Val 0%Z) [52; 50]%N INT in get_int f) = Val 42%Z /\
  (let* f := make_field stod (Val 0%Z) [52; 50]%N DOUBLE in get_double stod f) = Val (Num 42%Z).
Proof. split; [split; [discriminate|split; [repeat constructor; lia|reflexivity]]|run]. Qed.
(** The numbers of a STR field are never initialised; a DOUBLE field has no int:
    making one casts a NaN to int, and where that does not fail (INT_MIN on x86)
    get_int returns it for every text. *)
Theorem C76_str_field_is_UB : forall X (stod : str -> outcome (double X)) nan_cast s f,
  make_field stod nan_cast s STR = Val f -> get_int f = UB /\ get_double stod f = UB.
Proof. exact (fun X => @str_field X). Qed.
Print Assumptions C76_str_field_is_UB.
Theorem C76_numbers_refuted : exists s x, stoi s = Val x /\ make_field stod UB s DOUBLE = UB /\
  (let* f := make_field stod (Val (imin 32)) s DOUBLE in get_int f) = Val (imin 32) /\ x <> imin 32 /\
  (let* f := make_field stod UB s STR in get_int f) = UB.
Proof. exists [55%N], 7%Z. repeat split; try (vm_compute; reflexivity). vm_compute. discriminate. Qed.
Print Assumptions C76_numbers_refuted.
