(** Model of tools/delimiters.h and of reading words with operator>> through it.
    A byte is a number below 256. *)
Require Import List Arith NArith ZArith Bool.
Require Import Verif.Base.
Import ListNotations.

Definition str := list N.

Section Token.
(** Whether char is signed (it is on x86), and whether the ctype functions accept
    the negative values of char other than EOF, as glibc does; the C standard
    makes that undefined. *)
Variables char_signed lenient : bool.

(** static_cast<char>(ii) *)
Definition char_of (ii : N) : Z :=
  if char_signed && (128 <=? ii)%N then (Z.of_N ii - 256)%Z else Z.of_N ii.
(** A ctype function of <cctype> applied to a char (promoted to int). *)
Definition ctype (class : Z -> bool) (c : Z) : outcome bool :=
  if (-1 <=? c)%Z || lenient then Val (class c) else UB.
Definition between (a b c : Z) : bool := ((a <=? c) && (c <=? b))%Z.
(** The classes in the "C" locale. *)
Definition isupper := between 65 90.
Definition islower := between 97 122.
Definition isdigit := between 48 57.
Definition isalpha c := isupper c || islower c.
Definition isalnum c := isalpha c || isdigit c.
(** delimiters.h:14-18: alpha_filter_t *)
Definition alpha_filter := ctype isalpha.
(** delimiters.h:25-29: alpha_num_filter_t *)
Definition alpha_num_filter := ctype isalnum.
(** delimiters.h:36-40: lower_filter_t *)
Definition lower_filter := ctype islower.
(** delimiters.h:47-51: upper_filter_t *)
Definition upper_filter := ctype isupper.
(** delimiters.h:58-62: digit_filter_t *)
Definition digit_filter := ctype isdigit.

(** delimiters.h:98-106: get_table; the static table starts with zeros (no space);
    true stands for std::ctype_base::space. *)
Fixpoint table_loop (fuel : nat) (filter : Z -> outcome bool) (ii : nat) (rc : list bool) : outcome (list bool) :=
  match fuel with
  | O => Val rc
  | S fuel =>
      let* accepted := filter (char_of (N.of_nat ii)) in
      table_loop fuel filter (S ii) (if accepted then rc else set_nth rc ii true)
  end.
Definition get_table (filter : Z -> outcome bool) : outcome (list bool) :=
  table_loop 256 filter 0 (repeat false 256).

(** std::ctype<char>::is(space, c): the table at static_cast<unsigned char>(c) *)
Definition space (table : list bool) (c : N) : bool := nth (N.to_nat c) table false.
(** operator>>(istream&, string&): skips white space ... *)
Fixpoint skip (table : list bool) (s : str) : str :=
  match s with
  | [] => []
  | c :: r => if space table c then skip table r else s
  end.
(** ... and takes characters up to the next one or to the end. *)
Fixpoint take (table : list bool) (s : str) : str * str :=
  match s with
  | [] => ([], [])
  | c :: r => if space table c then ([], s) else let (w, rest) := take table r in (c :: w, rest)
  end.
(** while (stream >> word): fails when nothing was taken. *)
Fixpoint read_words (fuel : nat) (table : list bool) (s : str) : outcome (list str) :=
  match fuel with
  | O => NoFuel
  | S fuel =>
      let (w, rest) := take table (skip table s) in
      match w with
      | [] => Val []
      | _ => let* ws := read_words fuel table rest in Val (w :: ws)
      end
  end.
(** A stream with the text [s], imbued with custom_delimiter_t<Filter>, read to
    the end. *)
Definition words (filter : Z -> outcome bool) (s : str) : outcome (list str) :=
  let* table := get_table filter in read_words (S (length s)) table s.
End Token.
