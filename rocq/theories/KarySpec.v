(** Specification of the k-ary nodes. *)
Require Import List NArith Arith.
Require Import Verif.Base Verif.KaryModel.
Import ListNotations.

Section Spec.
Context {V : Type}.

(** The identities of a node and of all nodes below it. *)
Fixpoint ids (n : knode V) : list nat :=
  match n with
  | KN i _ _ s => i :: concat (map (fun c => match c with Some c => ids c | None => [] end) s)
  end.
(** All identities that are attached to something the program owns. *)
Definition attached (s : state V) : list nat :=
  concat (map (fun r => match r with Some n => ids n | None => [] end) (roots s)).

(** No node at or below [n] has more than [m] slots. *)
Fixpoint narrow (m : nat) (n : knode V) : Prop :=
  match n with
  | KN _ _ _ s => length s <= m /\
      fold_right (fun c P => match c with Some c => narrow m c /\ P | None => P end) True s
  end.

(** The parent pointer of [n] is [p], that of its children is [n], and so on. *)
Fixpoint linked (p : option nat) (n : knode V) : Prop :=
  match n with
  | KN i q _ s => q = p /\
      fold_right (fun c P => match c with Some c => linked (Some i) c /\ P | None => P end) True s
  end.

(** What every owned root satisfies. *)
Definition each_root (P : knode V -> Prop) (s : state V) : Prop :=
  forall h n, nth_error (roots s) h = Some (Some n) -> P n.

(** Calls of replace_at stay below the maximum. *)
Definition in_range (m : N) (o : op V) : Prop :=
  match o with KCall _ _ (CReplaceAt p _) => (p < m)%N | _ => True end.

(** The child in slot [i]: none if the slot is null or beyond the end. *)
Definition slot (l : list (option (knode V))) (i : nat) : option (knode V) :=
  match nth_error l i with Some (Some c) => Some c | _ => None end.
(** [n'] is [n] except for what is in slot [p]. *)
Definition same_but (n n' : knode V) (p : nat) : Prop :=
  id_of n' = id_of n /\ parent_of n' = parent_of n /\ value_of n' = value_of n /\
  forall j, j <> p -> slot (slots_of n') j = slot (slots_of n) j.
End Spec.
