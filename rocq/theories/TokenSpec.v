(** Specification for delimiters.h. *)
Require Import List NArith Bool.
Import ListNotations.

(** [ws] are the maximal runs of accepted characters of [s]. *)
Inductive runs (accepts : N -> bool) : list N -> list (list N) -> Prop :=
| runs_end : forall gap, Forall (fun c => accepts c = false) gap -> runs accepts gap []
| runs_word : forall gap w s ws, Forall (fun c => accepts c = false) gap ->
    w <> [] -> Forall (fun c => accepts c = true) w -> match s with [] => True | c :: _ => accepts c = false end ->
    runs accepts s ws -> runs accepts (gap ++ w ++ s) (w :: ws).
(** ABCDEFGHIJKLMNOPQRSTUVWXYZ, abcdefghijklmnopqrstuvwxyz, 0123456789 in ASCII *)
Definition upper_case : list N := [65; 66; 67; 68; 69; 70; 71; 72; 73; 74; 75; 76; 77; 78; 79; 80; 81; 82; 83; 84; 85; 86; 87; 88; 89; 90]%N.
Definition lower_case : list N :=
  [97; 98; 99; 100; 101; 102; 103; 104; 105; 106; 107; 108; 109; 110; 111; 112; 113; 114; 115; 116; 117; 118; 119; 120; 121; 122]%N.
Definition digit_chars : list N := [48; 49; 50; 51; 52; 53; 54; 55; 56; 57]%N.
Definition member (l : list N) (c : N) : bool := existsb (N.eqb c) l.
