(** Model of tools/read_csv.h.  A text is the list of its bytes.  [X] are the
    double values other than NaN; what std::stod makes of a text is a parameter. *)
Require Import List Arith NArith ZArith Bool.
Require Import Verif.Base Verif.Cint.
Import ListNotations.

Definition str := list N.
Definition newline : N := 10.

(** read_csv.h:17-21: CSV_FIELD_TYPE *)
Inductive field_type := STR | INT | DOUBLE.

(** std::stoi: strtol in base 10 (white space, sign, digits, the rest ignored);
    nothing converted is std::invalid_argument, too large std::out_of_range. *)
Fixpoint skip_space (s : str) : str :=
  match s with
  | c :: r => if ((9 <=? c) && (c <=? 13) || (c =? 32))%N then skip_space r else s
  | [] => []
  end.
Fixpoint digits (s : str) (acc : Z) : Z :=
  match s with
  | c :: r => if ((48 <=? c) && (c <=? 57))%N then digits r (acc * 10 + (Z.of_N c - 48)) else acc
  | [] => acc
  end.
Definition starts_with_digit (s : str) : bool :=
  match s with c :: _ => ((48 <=? c) && (c <=? 57))%N | [] => false end.
Definition stoi (s : str) : outcome Z :=
  let s := skip_space s in
  let (negative, s) := match s with
    | c :: r => if (c =? 45)%N then (true, r) else if (c =? 43)%N then (false, r) else (false, s)
    | [] => (false, s)
    end in
  if starts_with_digit s then
    let x := digits s 0 in
    let x := if negative then (- x)%Z else x in
    if fitsb 32 x then Val x else Exn OutOfRange
  else Exn InvalidArgument.

Section Csv.
Context {X : Type}.
Inductive double := NaN | Num (x : X).
Variable stod : str -> outcome double.
(** static_cast<int>(std::nan("")): undefined in the language; x86 gives INT_MIN. *)
Variable nan_cast : outcome Z.

(** read_csv.h:78-83: the members; None is an uninitialised one. *)
Record field := { text : str; type : field_type; idata : option Z; fdata : option double }.
(** read_csv.h:33-37: generic_field_t(s) *)
Definition field_of_string (s : str) : outcome field :=
  let* i := nan_cast in
  Val {| text := s; type := STR; idata := Some i; fdata := Some NaN |}.
(** read_csv.h:39-54 (and make_field, 27-31): generic_field_t(s, t) *)
Definition make_field (s : str) (t : field_type) : outcome field :=
  match t with
  | INT => let* i := stoi s in Val {| text := s; type := t; idata := Some i; fdata := Some NaN |}
  | DOUBLE =>
      let* d := stod s in
      let* i := nan_cast in
      Val {| text := s; type := t; idata := Some i; fdata := Some d |}
  | STR => Val {| text := s; type := t; idata := None; fdata := None |}
  end.
(** read_csv.h:56-59: string *)
Definition string_ (f : field) : str := text f.
(** read_csv.h:61-67: get_int; std::isnan of an int is false *)
Definition get_int (f : field) : outcome Z :=
  match idata f with None => UB | Some i => Val i end.
(** read_csv.h:69-75: get_double *)
Definition get_double (f : field) : outcome double :=
  match fdata f with
  | None => UB
  | Some NaN => stod (text f)
  | Some d => Val d
  end.

(** std::getline(stream, line, delim): None if nothing was left to extract; the
    delimiter is extracted but not kept. *)
Fixpoint until (delim : N) (s : str) : str * str :=
  match s with
  | [] => ([], [])
  | c :: r => if (c =? delim)%N then ([], r) else let (w, rest) := until delim r in (c :: w, rest)
  end.
Definition getline (delim : N) (s : str) : option (str * str) :=
  match s with [] => None | _ => Some (until delim s) end.

(** read_csv.h:122-134: the fields of a line; None is the early return *)
Fixpoint read_fields (fuel : nat) (separator : N) (descriptor : list field_type) (split : str) (n : nat)
  : outcome (option (list field)) :=
  match fuel with
  | O => NoFuel
  | S fuel =>
      match getline separator split with
      | None => Val (Some [])
      | Some (f, split) =>
          match nth_error descriptor n with
          | Some t =>
              let* f := make_field f t in
              let* r := read_fields fuel separator descriptor split (S n) in
              Val (option_map (cons f) r)
          | None => Val None
          end
      end
  end.
(** read_csv.h:117-136: the lines of the file *)
Fixpoint read_lines (fuel : nat) (separator : N) (descriptor : list field_type) (s : str)
  : outcome (list (list field)) :=
  match fuel with
  | O => NoFuel
  | S fuel =>
      match getline newline s with
      | None => Val []
      | Some (line, s) =>
          let* r := read_fields (S (length line)) separator descriptor line 0 in
          match r with
          | None => Val []
          | Some vline =>
              let* rest := read_lines fuel separator descriptor s in
              Val (vline :: rest)
          end
      end
  end.
(** read_csv.h:116: skips the first lines *)
Fixpoint skip_lines (count : nat) (s : str) : str :=
  match count with
  | O => s
  | S count => match getline newline s with None => [] | Some (_, s) => skip_lines count s end
  end.
(** read_csv.h:109-139: read_csv_file; None is a file that cannot be opened.  The
    descriptor has fewer than 2^31 entries. *)
Definition read_csv_file (descriptor : list field_type) (start_offset : Z) (separator : N) (file : option str)
  : outcome (list (list field)) :=
  match file with
  | None => Val []
  | Some s =>
      let s := skip_lines (Z.to_nat start_offset) s in
      read_lines (S (length s)) separator descriptor s
  end.
End Csv.
Arguments double X : clear implicits.
Arguments field X : clear implicits.
