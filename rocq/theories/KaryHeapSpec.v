(** Specification of programs over k-ary nodes with assignments: a list of trees, each
    with its root first (KaryModel.v); every node knows a parent, which need not be
    the node above it. *)
Require Import List NArith Bool Arith.
Require Import Verif.Base Verif.KaryModel Verif.KarySpec Verif.KaryIterModel Verif.KaryIterSpec Verif.KaryHeapModel.
Import ListNotations.

Section Spec.
Context {V : Type}.
Variable max_node_size : N.
Variable veq : V -> V -> bool.
Variable moved_from : V -> V.
Notation knode := (knode V).
Notation forest := (list knode).
Notation heap := (list (option (hnode V))).

(** What a node has in memory; all nodes of a tree. *)
Definition in_memory (n : knode) : hnode V := mkH (parent_of n) (value_of n) (pointers n).
Fixpoint below (n : knode) : list knode :=
  match n with
  | KN i p v s => n :: flat_map (fun c => match c with Some c => below c | None => [] end) s
  end.
Definition nodes (ts : forest) : list knode := flat_map below ts.

(** The heap holds exactly the forest: the live nodes are the nodes of the trees,
    each in one place only. *)
Definition holds (h : heap) (ts : forest) : Prop :=
  NoDup (fids ts) /\
  forall x m, nth_error h x = Some (Some m) <-> exists n, In n (nodes ts) /\ id_of n = x /\ in_memory n = m.

Definition is_root (a : nat) (ts : forest) : Prop := In a (map id_of ts).
Definition childless (n : knode) : Prop := Forall (fun c => c = None) (slots_of n).

(** What a program has to respect: it uses nodes that exist, destroys roots only,
    and asks for a parent only if that node is there; replace_at in range; a copy
    takes a node without children to one without children; a move goes to a node
    without children that is not at or below the source. *)
Definition legal (ts : forest) (o : hop V) : Prop :=
  match o with
  | HNew _ => True
  | HDestroy a => is_root a ts
  | HCall a c => In a (fids ts) /\ in_range max_node_size c
  | HSwap a b => In a (fids ts) /\ In b (fids ts)
  | HAssign a b => exists u w, fsub a ts = Some u /\ fsub b ts = Some w /\ (a = b \/ childless u /\ childless w)
  | HMove a b => exists u w, fsub a ts = Some u /\ fsub b ts = Some w /\ childless u /\ ~ In a (ids w)
  | HParent a => exists u, fsub a ts = Some u /\ forall p, parent_of u = Some p -> In p (fids ts)
  | HHas a _ | HCount a | HChild a _ | HFirst a | HLast a | HFind a _ | HHasParent a | HGet a => In a (fids ts)
  end.

Definition answered {A} (r : outcome A) (f : A -> reply V) (o : reply V) : Prop :=
  match r with Val x => o = f x | Exn e => o = RThrow e | _ => False end.
Definition reply_of (a : answer) (handed : option knode) : reply V :=
  match a with
  | ANone => RUnit
  | ABool b => RBool b
  | ANode _ => RHanded (option_map id_of handed)
  | AExn e => RThrow e
  end.

(** What a call answers and makes of the forest.  Member calls do to the tree what
    they do in KaryModel.v (properties C48-C51); a new node gets an unused
    address. *)
Definition after (ts : forest) (o : hop V) (r : reply V) (ts' : forest) : Prop :=
  match o with
  | HNew v => exists x, ~ In x (fids ts) /\ r = RNode x /\ ts' = ts ++ [new_node x None v]
  | HDestroy a => r = RUnit /\ ts' = filter (fun n => negb (Nat.eqb a (id_of n))) ts
  | HCall a c => exists u x u' ans handed gone x', fsub a ts = Some u /\ ~ In x (fids ts) /\
      do_call max_node_size x c u = Val (u', (ans, handed, gone, x')) /\
      r = reply_of ans handed /\ ts' = fput a u' ts ++ match handed with Some m => [m] | None => [] end
  | HSwap a b => exists u w u', fsub a ts = Some u /\ fsub b ts = Some w /\
      (let ts1 := fput b (set_value w (value_of u)) ts in
       fsub a ts1 = Some u' /\ r = RUnit /\ ts' = fput a (set_value u' (value_of w)) ts1)
  | HAssign a b => exists w, fsub b ts = Some w /\ r = RUnit /\
      ts' = if Nat.eqb a b then ts else fput a (KN a (parent_of w) (value_of w) (slots_of w)) ts
  | HMove a b => exists w, fsub b ts = Some w /\ r = RUnit /\
      ts' = fput a (KN a (parent_of w) (value_of w) (slots_of w)) (fput b (KN b (parent_of w) (moved_from (value_of w)) []) ts)
  | HHas a p => exists u, fsub a ts = Some u /\ r = RBool (has_child u p) /\ ts' = ts
  | HCount a => exists u, fsub a ts = Some u /\ r = RNum (children_count u) /\ ts' = ts
  | HChild a p => exists u, fsub a ts = Some u /\ answered (child u p) (fun c => RNode (id_of c)) r /\ ts' = ts
  | HFirst a => exists u, fsub a ts = Some u /\ answered (first u) (fun c => RNode (id_of c)) r /\ ts' = ts
  | HLast a => exists u, fsub a ts = Some u /\ answered (last u) (fun c => RNode (id_of c)) r /\ ts' = ts
  | HFind a v => exists u, fsub a ts = Some u /\ r = RFound (find veq u v) /\ ts' = ts
  | HHasParent a => exists u, fsub a ts = Some u /\ ts' = ts /\
      r = RBool (match parent_of u with Some _ => true | None => false end)
  | HParent a => exists u, fsub a ts = Some u /\ ts' = ts /\
      r = match parent_of u with Some p => RNode p | None => RThrow NullNode end
  | HGet a => exists u, fsub a ts = Some u /\ ts' = ts /\ r = RVal (value_of u)
  end.

(** The program respects the rules, whatever answers it gets. *)
Fixpoint fair (ts : forest) (p : prog V) : Prop :=
  match p with
  | Stop => True
  | Call o k => legal ts o /\ forall r ts', after ts o r ts' -> fair ts' (k r)
  end.
(** A play of the specification. *)
Inductive play : forest -> list (hop V * reply V) -> forest -> Prop :=
| play_nil ts : play ts [] ts
| play_cons ts o r ts1 rs ts2 : after ts o r ts1 -> play ts1 rs ts2 -> play ts ((o, r) :: rs) ts2.

(** Operations that keep the parents right: no assignment but from a node without
    children and parent to a root, and of a node to itself. *)
Definition keeps_parents (ts : forest) (o : hop V) : Prop :=
  match o with
  | HAssign a b => a = b \/ forall w, fsub b ts = Some w -> childless w /\ parent_of w = None /\ is_root a ts
  | HMove a b => forall w, fsub b ts = Some w -> childless w /\ parent_of w = None /\ is_root a ts
  | _ => True
  end.

(** A fair program whose operations all keep the parents right. *)
Fixpoint careful (ts : forest) (p : prog V) : Prop :=
  match p with
  | Stop => True
  | Call o k => legal ts o /\ keeps_parents ts o /\ forall r ts', after ts o r ts' -> careful ts' (k r)
  end.

(** The same calls whatever is answered. *)
Definition script (l : list (hop V)) : prog V := fold_right (fun o p => Call o (fun _ => p)) Stop l.

(** The live nodes of a heap. *)
Definition live_in (h : heap) (x : nat) : Prop := exists m, nth_error h x = Some (Some m).
(** All nodes strictly below. *)
Definition descendants (n : knode) : list nat :=
  flat_map (fun c => match c with Some c => ids c | None => [] end) (slots_of n).
End Spec.
