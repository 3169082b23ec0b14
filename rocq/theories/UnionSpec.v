(** Specification of disjoint sets.

    Two views: the equivalence generated by the joined pairs ([linked]), and a
    naive "label array" machine ([lrun]) that keeps the representative of every
    element explicitly, has no ranks, no path compression and no evaluation
    orders. *)
Require Import List NArith Bool Arith.
Require Import Verif.Base Verif.UnionModel.
Import ListNotations.

(** Reflexive, symmetric, transitive closure of the joined pairs. *)
Inductive linked {A : Type} (P : list (A * A)) : A -> A -> Prop :=
| linked_refl x : linked P x x
| linked_pair a b : In (a, b) P -> linked P a b
| linked_sym a b : linked P a b -> linked P b a
| linked_trans a b c : linked P a b -> linked P b c -> linked P a c.

(** Number of elements and list of (valid) joined pairs after a history that
    starts with [n] elements. *)
Fixpoint universe (n : nat) (ops : list uop) : nat :=
  match ops with
  | [] => n
  | UResize m :: ops => universe (Nat.max n m) ops
  | _ :: ops => universe n ops
  end.

Fixpoint joined (n : nat) (ops : list uop) : list (nat * nat) :=
  match ops with
  | [] => []
  | UResize m :: ops => joined (Nat.max n m) ops
  | UJoin _ _ a b :: ops =>
      if (a <? n) && (b <? n) then (a, b) :: joined n ops else joined n ops
  | _ :: ops => joined n ops
  end.

(** All sizes asked for are 64-bit numbers. *)
Definition uop_ok (o : uop) : Prop :=
  match o with UResize m => (N.of_nat m < two64)%N | _ => True end.

(** ** Label arrays *)
Definition weight (L : list nat) (r : nat) : nat := count_occ Nat.eq_dec L r.
Definition relabel (from to : nat) (L : list nat) : list nat :=
  map (fun l => if l =? from then to else l) L.
Definition own_label (L : list nat) (x : nat) : bool :=
  match nth_error L x with Some l => l =? x | None => false end.
Definition classes (L : list nat) : nat :=
  length (filter (own_label L) (seq 0 (length L))).

Definition ljoin (L : list nat) (a b : nat) : list nat * bool :=
  match nth_error L a, nth_error L b with
  | Some ra, Some rb =>
      if ra =? rb then (L, false)
      else if weight L ra <=? weight L rb then (relabel ra rb L, true)
      else (relabel rb ra L, true)
  | _, _ => (L, false)
  end.

Definition lsame (L : list nat) (a b : nat) : bool :=
  match nth_error L a, nth_error L b with
  | Some ra, Some rb => ra =? rb
  | _, _ => false
  end.

Definition lsize (L : list nat) (x : nat) : N :=
  match nth_error L x with Some r => N.of_nat (weight L r) | None => 0%N end.

Definition lgrow (L : list nat) (n : nat) : list nat :=
  L ++ seq (length L) (n - length L).

Definition lstep (L : list nat) (o : uop) : list nat * uout :=
  match o with
  | UJoin _ _ a b => let (L', r) := ljoin L a b in (L', VBool r)
  | USame _ a b => (L, VBool (lsame L a b))
  | UFind x => (L, VId (nth_error L x))
  | USizeOf x => (L, VNum (lsize L x))
  | UResize n => (lgrow L n, VBool (length L <? n))
  | UExists x => (L, VBool (x <? length L))
  | UDisjoint => (L, VNum (N.of_nat (classes L)))
  | UAcorn => (L, VNum (N.of_nat (length L)))
  end.

Fixpoint lrun (L : list nat) (ops : list uop) : list nat * list uout :=
  match ops with
  | [] => (L, [])
  | o :: ops => let (L', r) := lstep L o in
                let (L'', rs) := lrun L' ops in (L'', r :: rs)
  end.

(** ** Elements *)
Section Elements.
Context {T : Type} (teq : forall a b : T, {a = b} + {a <> b}).

Definition tin (e : T) (l : list T) : bool := if in_dec teq e l then true else false.

(** Elements inserted and element pairs joined by a history. *)
Fixpoint members (l : list T) (ops : list (eop T)) : list T :=
  match ops with
  | [] => l
  | EInsert e :: ops => members (if tin e l then l else l ++ [e]) ops
  | _ :: ops => members l ops
  end.

Fixpoint ejoined (l : list T) (ops : list (eop T)) : list (T * T) :=
  match ops with
  | [] => []
  | EInsert e :: ops => ejoined (if tin e l then l else l ++ [e]) ops
  | EJoin _ _ a b :: ops =>
      if tin a l && tin b l then (a, b) :: ejoined l ops else ejoined l ops
  | _ :: ops => ejoined l ops
  end.

(** Naive machine: the list of elements in order of insertion and the label
    array of their positions. *)
Fixpoint position (e : T) (l : list T) : option nat :=
  match l with
  | [] => None
  | e' :: l => if teq e e' then Some 0 else option_map S (position e l)
  end.

Definition elstep (s : list T * list nat) (o : eop T) : (list T * list nat) * uout :=
  let (M, L) := s in
  match o with
  | EInsert e => if tin e M then (s, VBool false)
                 else ((M ++ [e], L ++ [length L]), VBool true)
  | EJoin _ _ a b =>
      match position a M, position b M with
      | Some i, Some j => let (L', r) := ljoin L i j in ((M, L'), VBool r)
      | _, _ => (s, VBool false)
      end
  | ESame _ a b =>
      match position a M, position b M with
      | Some i, Some j => (s, VBool (lsame L i j))
      | _, _ => (s, VBool false)
      end
  | EFind e => (s, VId match position e M with Some i => nth_error L i | None => None end)
  | ESizeOf e => (s, VNum match position e M with Some i => lsize L i | None => 0%N end)
  | EExists e => (s, VBool (tin e M))
  | EExistsSet i => (s, VBool (i <? length M))
  | EDisjoint => (s, VNum (N.of_nat (classes L)))
  | EAcorn => (s, VNum (N.of_nat (length M)))
  end.

Fixpoint elrun (s : list T * list nat) (ops : list (eop T)) : (list T * list nat) * list uout :=
  match ops with
  | [] => (s, [])
  | o :: ops => let (s', r) := elstep s o in
                let (s'', rs) := elrun s' ops in (s'', r :: rs)
  end.

End Elements.

(** The same calls, possibly with other evaluation orders. *)
Definition same_call (o o' : uop) : Prop :=
  match o, o' with
  | UJoin _ _ a b, UJoin _ _ a' b' => a = a' /\ b = b'
  | USame _ a b, USame _ a' b' => a = a' /\ b = b'
  | _, _ => o = o'
  end.
Definition same_ecall {T} (o o' : eop T) : Prop :=
  match o, o' with
  | EJoin _ _ a b, EJoin _ _ a' b' => a = a' /\ b = b'
  | ESame _ a b, ESame _ a' b' => a = a' /\ b = b'
  | _, _ => o = o'
  end.
