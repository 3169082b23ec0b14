(** Specification of the iterators of k-ary nodes. *)
Require Import List NArith Bool Arith.
Require Import Verif.Base Verif.KaryModel Verif.KarySpec Verif.KaryIterModel.
Import ListNotations.

Section Spec.
Context {V : Type}.
Variable max_node_size : N.
Variable grow : nat -> nat -> nat -> nat.
Notation knode := (knode V).
Notation kst := (kst V).

(** All addresses of a program's nodes. *)
Definition fids (ns : list knode) : list nat := flat_map ids ns.
(** The pointers in the vector of a node. *)
Definition pointers (n : knode) : list (option nat) := map (option_map id_of) (slots_of n).

(** The vector of node [n] at [x]: a stamp for every position and the end. *)
Definition fitting (s : kst) (x : nat) (n : knode) : Prop :=
  exists v, nth_error (vecs s) x = Some v /\ length (stamps v) = S (length (slots_of n)) /\
    Forall (fun t => t < tick s) (stamps v).
(** What every reachable state satisfies. *)
Definition sound (s : kst) : Prop :=
  NoDup (fids (roots s)) /\ Forall (fun x => x < fresh s) (fids (roots s)) /\
  Forall (linked None) (roots s) /\ Forall (narrow (N.to_nat max_node_size)) (roots s) /\
  length (vecs s) = fresh s /\ forall x n, fsub x (roots s) = Some n -> fitting s x n.

(** A program got here. *)
Definition reached (s : kst) : Prop := exists os, krun max_node_size grow kstart os = Val s.
(** The node is there. *)
Definition live (s : kst) (a : nat) : Prop := In a (fids (roots s)).

(** Does an iterator survive a call?  Appending elements up to a size. *)
Definition after_append (v : vec) (size size' pos : nat) : bool := (size' <=? cap v) && (pos <? size).
Definition null_slot (n : knode) : bool :=
  existsb (fun c => match c with None => true | Some _ => false end) (slots_of n).
(** A call on the node of the iterator. *)
Definition after_call (n : knode) (v : vec) (c : call V) (pos : nat) : bool :=
  let size := length (slots_of n) in
  let push := if (N.of_nat size <? max_node_size)%N then after_append v size (S size) pos else true in
  let write p :=
    if (p <? N.of_nat size)%N then true
    else if (p <? max_node_size)%N then after_append v size (S (N.to_nat p)) pos else true in
  match c with
  | CAdd _ => push
  | CInsertNull _ => if null_slot n then true else push
  | CInsertAt p _ | CReplaceAt p _ => write p
  | CDelete p => if (p <? N.of_nat size)%N then pos <? N.to_nat p else true
  | CClear => false
  | CExtract _ | CSetValue _ => true
  end.
(** The nodes that a call on a node deletes. *)
Definition deleted (n : knode) (c : call V) : list nat :=
  match c with
  | CDelete p => match slot (slots_of n) (N.to_nat p) with Some c => ids c | None => [] end
  | CClear => flat_map (fun c => match c with Some c => ids c | None => [] end) (slots_of n)
  | _ => []
  end.
Definition survives (s : kst) (o : kop V) (it : iter) : Prop :=
  match o with
  | KMake _ => True
  | KDestroy a => forall n, fsub a (roots s) = Some n -> ~ In (inode it) (ids n)
  | KCallOn a c =>
      forall n v, fsub a (roots s) = Some n -> nth_error (vecs s) a = Some v ->
      if Nat.eqb (inode it) a then after_call n v c (ipos it) = true
      else ~ In (inode it) (deleted n c)
  end.

(** The calls after which every iterator of the node is as good as before. *)
Definition in_place (n : knode) (c : call V) : Prop :=
  match c with
  | CExtract _ | CSetValue _ => True
  | CInsertNull _ => null_slot n = true
  | CInsertAt p _ | CReplaceAt p _ => (p < N.of_nat (length (slots_of n)))%N
  | _ => False
  end.

(** A body of a loop over the children of [a] that leaves the vector of [a] as it
    is: it may change what is in the slots, and everything else but [a] itself. *)
Definition leaves (a : nat) (body : body_t) : Prop :=
  forall past s n c, sound s -> fsub a (roots s) = Some n -> In c (pointers n) ->
  exists s', body past s c = Val s' /\ sound s' /\ live s' a /\ nth_error (vecs s') a = nth_error (vecs s) a.
(** ... and does not change what is in the slots either. *)
Definition keeps_pointers (a : nat) (body : @body_t V) : Prop :=
  forall past s n c s' n', sound s -> fsub a (roots s) = Some n -> In c (pointers n) -> body past s c = Val s' ->
  fsub a (roots s') = Some n' -> pointers n' = pointers n.
(** Operations that leave the vector of [a] as it is. *)
Definition spares (s : kst) (a : nat) (o : kop V) : Prop :=
  match o with
  | KMake _ => True
  | KDestroy b => forall m, fsub b (roots s) = Some m -> ~ In a (ids m)
  | KCallOn b c =>
      forall m, fsub b (roots s) = Some m -> if Nat.eqb b a then in_place m c else ~ In a (deleted m c)
  end.
(** The calls that are defined for every node. *)
Definition in_range (c : call V) : Prop :=
  match c with CReplaceAt p _ => (p < max_node_size)%N | _ => True end.

(** The turns of a loop: turn [k] finds [c] in slot [k], then the body runs. *)
Inductive turns (a : nat) (body : @body_t V) : list nat -> list (option nat) -> kst -> list (option nat) -> kst -> Prop :=
| turns_nil past s : turns a body [] past s [] s
| turns_cons k ks past s c n s1 cs s2 : fsub a (roots s) = Some n -> nth_error (pointers n) k = Some c ->
    body past s c = Val s1 -> turns a body ks (past ++ [c]) s1 cs s2 ->
    turns a body (k :: ks) past s (c :: cs) s2.

(** Bodies of loops over the children of [a]. *)
Definition calls_on (a : nat) (c : call V) : body_t :=
  fun _ s _ => let* (s, _) := kcall max_node_size grow s a c in Val s.
(** A call on the child at hand, if there is one, in turn [t]. *)
Definition on_child (f : nat -> call V) : body_t :=
  fun past s c =>
    match c with
    | Some x => let* (s, _) := kcall max_node_size grow s x (f (length past)) in Val s
    | None => Val s
    end.
(** Extract the child at hand. *)
Definition extracts (a : nat) : @body_t V :=
  fun past s _ => let* (s, _) := kcall max_node_size grow s a (CExtract (N.of_nat (length past))) in Val s.
(** Delete child number [g t] in turn [t]. *)
Definition deletes (a : nat) (g : nat -> nat) : @body_t V :=
  fun past s _ => let* (s, _) := kcall max_node_size grow s a (CDelete (N.of_nat (g (length past)))) in Val s.
(** Every second element. *)
Fixpoint every_second {A} (l : list A) : list A :=
  match l with x :: _ :: l => x :: every_second l | l => l end.
End Spec.
