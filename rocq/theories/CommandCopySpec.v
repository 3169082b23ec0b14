(** Specification for programs that copy command managers. *)
Require Import List Arith NArith Bool.
Require Import Verif.Base Verif.CommandModel Verif.CommandSpec Verif.CommandCopyModel.
Import ListNotations.

(** The commands a program stores, in all managers. *)
Fixpoint all_stored (l : list act) : list N :=
  match l with [] => [] | Call _ (Store p) :: l => p :: all_stored l | _ :: l => all_stored l end.
(** The commands that managers hold. *)
Definition held_by (m : option (list N * list N)) : list N :=
  match m with Some (f, g) => f ++ g | None => [] end.
Definition all_held (w : world) : list N := concat (map held_by (managers w)).
Definition holds (w : world) (i : nat) (p : N) : Prop :=
  exists m, nth_error (managers w) i = Some m /\ In p (held_by m).
(** A program without copies and undo that uses only managers that are there; [there]: which of those
    constructed so far are. *)
Fixpoint single_owner (there : list bool) (l : list act) : Prop :=
  match l with
  | [] => True
  | New :: l => single_owner (there ++ [true]) l
  | Call i c :: l => nth_error there i = Some true /\ c <> Undo /\ single_owner there l
  | Destroy i :: l => nth_error there i = Some true /\ single_owner (set_nth there i false) l
  | _ => False
  end.
Definition assigns_to (i : nat) (a : act) : Prop := match a with Assign k _ => k = i | _ => False end.
Definition destroyed (w : world) (i : nat) : Prop := nth_error (managers w) i = Some None.
