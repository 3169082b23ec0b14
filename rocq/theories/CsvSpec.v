(** Specification for read_csv.h. *)
Require Import List NArith ZArith Bool.
Require Import Verif.Base.
Import ListNotations.

Fixpoint join (sep : N) (ws : list (list N)) : list N :=
  match ws with
  | [] => []
  | [w] => w
  | w :: r => w ++ sep :: join sep r
  end.
(** A file with one line per row. *)
Definition render (sep newline : N) (rows : list (list (list N))) : list N :=
  flat_map (fun row => join sep row ++ [newline]) rows.
(** Fields that can be written: without separator and newline, the last one of a
    row not empty. *)
Definition clean (sep newline : N) (row : list (list N)) : Prop :=
  Forall (fun w => ~ In sep w /\ ~ In newline w) row /\ (row = [] \/ last row [] <> []).
(** [fs] are the fields of [row], each made from its text and its type. *)
Fixpoint made {T F} (make : list N -> T -> outcome F) (types : list T) (row : list (list N)) (fs : list F)
  {struct row} : Prop :=
  match row, fs with
  | [], [] => True
  | w :: row, f :: fs => match types with t :: types => make w t = Val f /\ made make types row fs | [] => False end
  | _, _ => False
  end.
(** Splitting: the texts joined again are the whole, up to one separator at the end. *)
Definition splits_into (sep : N) (s : list N) (ws : list (list N)) : Prop :=
  Forall (fun w => ~ In sep w) ws /\ (s = join sep ws \/ ws <> [] /\ s = join sep ws ++ [sep]).
(** A decimal numeral. *)
Definition numeral (s : list N) (x : Z) : Prop :=
  s <> [] /\ Forall (fun c => (48 <= c <= 57)%N) s /\ x = fold_left (fun a c => a * 10 + (Z.of_N c - 48))%Z s 0%Z.
