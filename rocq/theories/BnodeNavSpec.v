(** Specification of programs over binary nodes: a list of trees, each with its
    root first; nodes are known by their addresses. *)
Require Import List NArith Bool Arith.
Require Import Verif.Base Verif.BnodeModel Verif.BnodeSpec Verif.BnodeNavModel.
Import ListNotations.

Section Spec.
Context {V : Type}.
Notation atree := (atree V).
Notation forest := (list atree).

(** The part of a tree below and including the node [a]; the tree with that part
    replaced. *)
Fixpoint sub (a : nat) (t : atree) : option atree :=
  match t with
  | ALeaf => None
  | ANode b v l r =>
      if Nat.eqb a b then Some t
      else match sub a l with Some u => Some u | None => sub a r end
  end.
Fixpoint put (a : nat) (u t : atree) : atree :=
  match t with
  | ALeaf => ALeaf
  | ANode b v l r => if Nat.eqb a b then u else ANode b v (put a u l) (put a u r)
  end.

(** The same for a forest. *)
Fixpoint fsub (a : nat) (ts : forest) : option atree :=
  match ts with
  | [] => None
  | t :: ts => match sub a t with Some u => Some u | None => fsub a ts end
  end.
Definition fput (a : nat) (u : atree) (ts : forest) : forest := map (put a u) ts.
Definition nodes (ts : forest) : list nat := flat_map addrs ts.
Definition fset (a : nat) (v : V) (ts : forest) : forest :=
  match fsub a ts with Some u => fput a (set_val u v) ts | None => ts end.

Definition is_root (a : nat) (ts : forest) : Prop := exists t, In t ts /\ root t = Some a.
Definition has_root (a : nat) (t : atree) : bool :=
  match root t with Some b => Nat.eqb a b | None => false end.
Definition value_at (ts : forest) (a : nat) (v : V) : Prop :=
  exists l r, fsub a ts = Some (ANode a v l r).
Definition count (t : atree) : N :=
  ((match child false t with ALeaf => 0 | _ => 1 end) + (match child true t with ALeaf => 0 | _ => 1 end))%N.

(** What a program has to respect: it uses nodes that exist; only roots are
    destroyed or moved from; a copy or move assignment takes its source from
    another tree or another branch. *)
Definition legal (ts : forest) (o : nop V) : Prop :=
  match o with
  | NNew _ => True
  | NCopyNew b => In b (nodes ts)
  | NMoveNew b => is_root b ts
  | NDestroy a => is_root a ts
  | NAdd a _ _ | NDelete a _ | NClear a | NSwap a _ | NSet a _
  | NChild a _ | NHas a _ | NCount a | NParent a | NHasParent a | NGet a => In a (nodes ts)
  | NSwapWith a b => In a (nodes ts) /\ In b (nodes ts)
  | NAssign a b => exists u w, fsub a ts = Some u /\ fsub b ts = Some w /\ apart u w
  | NMove a b => exists t, In t ts /\ root t = Some b /\ In a (nodes ts) /\ ~ In a (addrs t)
  end.

(** What a call answers and makes of the forest. *)
Definition after (ts : forest) (o : nop V) (r : reply V) (ts' : forest) : Prop :=
  match o with
  | NNew v => exists x, ~ In x (nodes ts) /\ r = RNode x /\ ts' = ANode x v ALeaf ALeaf :: ts
  | NCopyNew b => exists x u t, fsub b ts = Some u /\ root t = Some x /\ alike u t /\
      (forall y, In y (addrs t) -> ~ In y (nodes ts)) /\ r = RNode x /\ ts' = t :: ts
  | NMoveNew b => exists x w bl br, In (ANode b w bl br) ts /\ ~ In x (nodes ts) /\ r = RNode x /\
      ts' = ANode x w bl br :: fput b (ANode b w ALeaf ALeaf) ts
  | NDestroy a => r = RUnit /\ ts' = filter (fun t => negb (has_root a t)) ts
  | NAdd a dir v => exists u, fsub a ts = Some u /\
      match child dir u with
      | ALeaf => exists x, ~ In x (nodes ts) /\ r = RBool true /\
          ts' = fput a (set_child dir u (ANode x v ALeaf ALeaf)) ts
      | _ => r = RBool false /\ ts' = ts
      end
  | NDelete a dir => exists u, fsub a ts = Some u /\
      r = RBool (match child dir u with ALeaf => false | _ => true end) /\
      ts' = fput a (set_child dir u ALeaf) ts
  | NClear a => exists u, fsub a ts = Some u /\ r = RUnit /\
      ts' = fput a (set_child true (set_child false u ALeaf) ALeaf) ts
  | NSwap a dir => exists v l r', fsub a ts = Some (ANode a v l r') /\ r = RUnit /\
      match child dir (ANode a v l r') with
      | ALeaf => ts' = ts
      | ANode c w cl cr => ts' = fput a (set_val (set_child dir (ANode a v l r') (ANode c v cl cr)) w) ts
      end
  | NSwapWith a b => exists v w, value_at ts a v /\ value_at ts b w /\ r = RUnit /\
      ts' = fset a w (fset b v ts)
  | NSet a v => r = RUnit /\ ts' = fset a v ts
  | NAssign a b => exists w t, fsub b ts = Some w /\ root t = Some a /\ alike w t /\
      (forall y, In y (addrs t) -> y = a \/ ~ In y (nodes ts)) /\ r = RUnit /\ ts' = fput a t ts
  | NMove a b => exists w bl br, In (ANode b w bl br) ts /\ r = RUnit /\
      ts' = fput a (ANode a w bl br) (fput b (ANode b w ALeaf ALeaf) ts)
  | NChild a dir => exists u, fsub a ts = Some u /\ ts' = ts /\
      r = match root (child dir u) with Some c => RNode c | None => RThrow end
  | NHas a dir => exists u, fsub a ts = Some u /\ ts' = ts /\
      r = RBool (match child dir u with ALeaf => false | _ => true end)
  | NCount a => exists u, fsub a ts = Some u /\ ts' = ts /\ r = RNum (count u)
  | NParent a => ts' = ts /\
      ((is_root a ts /\ r = RThrow) \/
       exists b u dir, fsub b ts = Some u /\ root (child dir u) = Some a /\ r = RNode b)
  | NHasParent a => ts' = ts /\
      ((is_root a ts /\ r = RBool false) \/
       (r = RBool true /\ exists b u dir, fsub b ts = Some u /\ root (child dir u) = Some a))
  | NGet a => ts' = ts /\ exists v, value_at ts a v /\ r = RVal v
  end.

(** The program respects the rules, whatever answers it gets. *)
Fixpoint fair (ts : forest) (p : prog V) : Prop :=
  match p with
  | Stop => True
  | Call o k => legal ts o /\ forall r ts', after ts o r ts' -> fair ts' (k r)
  end.

(** A play of the specification. *)
Inductive play : forest -> list (nop V * reply V) -> forest -> Prop :=
| play_nil ts : play ts [] ts
| play_cons ts o r ts1 rs ts2 : after ts o r ts1 -> play ts1 rs ts2 -> play ts ((o, r) :: rs) ts2.

(** The heap holds exactly the forest: every live node is in one tree, with its
    parent; roots have none. *)
Definition holds (h : heap V) (ts : forest) : Prop :=
  (forall t, In t ts -> has h None t) /\ NoDup (nodes ts) /\
  forall x n, nth_error h x = Some (Some n) -> In x (nodes ts).

End Spec.
