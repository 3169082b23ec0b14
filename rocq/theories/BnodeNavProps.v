(** Theorems about programs over binary nodes (C127). *)
Require Import List NArith Bool Arith Lia.
Require Import Verif.Base Verif.BnodeModel Verif.BnodeSpec Verif.BnodeNavModel Verif.BnodeNavSpec
  Verif.BnodeNavProofs.
Import ListNotations.

(** A program that respects the rules never meets undefined behaviour, runs to
    its end, gets the answers of the specification, and leaves a heap that holds
    exactly the trees of the specification: nothing leaked, no node in two
    trees. *)
Theorem C127_programs : forall {V} (v0 : V) (p : prog V) h ts, holds h ts -> fair ts p ->
  exists h' rs ts', nrun v0 h p = Val (h', rs) /\ holds h' ts' /\ play ts rs ts'.
Proof. exact (fun V v0 => @run_ok V v0). Qed.
Print Assumptions C127_programs.

Theorem C127_start : forall {V}, @holds V [] [].
Proof. exact (fun V => @holds_nil V). Qed.
Print Assumptions C127_start.

(** After any such program: the nodes of the trees are the live nodes. *)
Theorem C127_no_leak : forall {V} (h : heap V) ts a, holds h ts ->
  (In a (nodes ts) <-> exists n, nth_error h a = Some (Some n)).
Proof. exact (fun V => @live_iff V). Qed.
Print Assumptions C127_no_leak.

(** x.left().parent() is x, and the other child is another node. *)
Theorem C127_child_then_parent : forall {V} (h : heap V) ts a dir c, holds h ts -> In a (nodes ts) ->
  child_of h a dir = Val c -> In c (nodes ts) /\ parent_of h c = Val a /\ child_of h a (negb dir) <> Val c.
Proof. exact (fun V => @child_parent V). Qed.
Print Assumptions C127_child_then_parent.

(** The parent of x has x as a child. *)
Theorem C127_parent_then_child : forall {V} (h : heap V) ts a p, holds h ts -> In a (nodes ts) ->
  parent_of h a = Val p -> In p (nodes ts) /\ exists dir, child_of h p dir = Val a.
Proof. exact (fun V => @parent_child V). Qed.
Print Assumptions C127_parent_then_child.

(** The accessors throw exactly when the has_ members say false; roots and no
    other nodes are without parent. *)
Theorem C127_children_or_exception : forall {V} (h : heap V) ts a dir, holds h ts -> In a (nodes ts) ->
  (has_child h a dir = Val true /\ exists c, child_of h a dir = Val c) \/
  (has_child h a dir = Val false /\ child_of h a dir = Exn NullNode).
Proof. exact (fun V => @has_child_iff V). Qed.
Print Assumptions C127_children_or_exception.
Theorem C127_parent_or_exception : forall {V} (h : heap V) ts a, holds h ts -> In a (nodes ts) ->
  (has_parent h a = Val true /\ exists c, parent_of h a = Val c) \/
  (has_parent h a = Val false /\ parent_of h a = Exn NullNode /\ is_root a ts).
Proof. exact (fun V => @has_parent_iff V). Qed.
Print Assumptions C127_parent_or_exception.

(** Following parent() ends at the root of the node's own tree. *)
Theorem C127_climbing : forall {V} (h : heap V) ts a n, holds h ts -> In a (nodes ts) -> length h <= n ->
  exists t rt, In t ts /\ In a (addrs t) /\ root t = Some rt /\ climb n h a = Val rt.
Proof. exact (fun V => @climb_ok V). Qed.
Print Assumptions C127_climbing.

(** A node that is moved from forgets its parent but stays its child: after
    [m = std::move(t.left())] t still has its left child, whose parent() throws. *)
Theorem C127_moving_from_a_child_refuted : exists (h : heap nat) ts t m c h',
  holds h ts /\ child_of h t false = Val c /\ parent_of h c = Val t /\ ~ In m [t; c] /\
  nstep 0 h (NMove m c) = Val (h', RUnit) /\
  child_of h' t false = Val c /\ has_parent h' c = Val false /\ parent_of h' c = Exn NullNode.
Proof.
  exists [Some (mkB None 1 (Some 1) None); Some (mkB (Some 0) 2 None None); Some (mkB None 3 None None)],
    [ANode 0 1 (ANode 1 2 ALeaf ALeaf) ALeaf; ANode 2 3 ALeaf ALeaf], 0, 2, 1. eexists.
  split.
  { split; [|split].
    - intros t [<-|[<-|[]]]; cbn; auto.
    - repeat constructor; cbn; intuition congruence.
    - intros [|[|[|x]]] n E; cbn; auto. now destruct x. }
  split; [reflexivity|]. split; [reflexivity|]. split; [cbn; intuition congruence|].
  split; [vm_compute; reflexivity|]. split; [reflexivity|]. split; reflexivity.
Qed.
Print Assumptions C127_moving_from_a_child_refuted.

(** A program that respects the rules: it builds a tree, walks, moves the tree to
    another node and destroys the first node. *)
Definition c127 : prog nat :=
  Call (NNew 1) (fun r => match r with
  | RNode x => Call (NAdd x false 2) (fun _ => Call (NChild x false) (fun r => match r with
    | RNode y => Call (NParent y) (fun _ => Call (NMoveNew x) (fun r => match r with
      | RNode z => Call (NSwap z false) (fun _ => Call (NGet y) (fun _ => Call (NDestroy x) (fun _ =>
          Call (NParent y) (fun _ => Stop))))
      | _ => Stop end))
    | _ => Stop end))
  | _ => Stop end).

Example C127_case : fair [] c127 /\ exists h,
  nrun 0 [] c127 = Val (h, [(NNew 1, RNode 0); (NAdd 0 false 2, RBool true); (NChild 0 false, RNode 1);
    (NParent 1, RNode 0); (NMoveNew 0, RNode 2); (NSwap 2 false, RUnit); (NGet 1, RVal 1);
    (NDestroy 0, RUnit); (NParent 1, RNode 2)]) /\
  holds h [ANode 2 2 (ANode 1 1 ALeaf ALeaf) ALeaf] /\ climb 3 h 1 = Val 2.
Proof.
  split.
  - unfold c127. cbn [fair legal after]. split; [easy|].
    intros _ _ (x & _ & -> & ->). cbn [fair legal after nodes flat_map addrs fsub sub].
    rewrite Nat.eqb_refl. split; [now left|].
    intros r ts' (u & [= <-] & E). cbn [child] in E. destruct E as (y & Y & -> & ->).
    assert (XY : x <> y) by (intros ->; apply Y; now left). clear Y.
    cbn [fput map put set_child]. rewrite Nat.eqb_refl.
    cbn [fair legal after nodes flat_map addrs fsub sub]. rewrite Nat.eqb_refl. split; [now left|].
    intros r ts' (u & [= <-] & -> & ->). cbn [child root].
    cbn [fair legal after nodes flat_map addrs app]. split; [right; now left|].
    intros r ts' (-> & _). split; [eexists; split; [now left|reflexivity]|].
    intros r' ts' (z & w & bl & br & [[= <- <- <-]|[]] & Z & -> & ->).
    cbn [fput map put]. rewrite Nat.eqb_refl.
    assert (ZX : z <> x) by (intros ->; apply Z; now left).
    assert (ZY : z <> y) by (intros ->; apply Z; right; now left). clear Z.
    cbn [fair legal after nodes flat_map addrs app fsub sub]. rewrite Nat.eqb_refl. split; [now left|].
    intros r9 ts9 (v & l & r'' & [= <- <- <-] & -> & ->). cbn [child set_child set_val fput map put].
    rewrite Nat.eqb_refl. destruct (Nat.eqb_spec z x); [easy|].
    cbn [nodes flat_map addrs app]. split; [right; now left|].
    intros r0 ts'' (-> & _). split; [eexists; split; [right; now left|reflexivity]|].
    intros r1 ts3 (_ & ->). cbn [filter has_root root]. unfold has_root. cbn [root].
    rewrite Nat.eqb_refl. destruct (Nat.eqb_spec x z); [congruence|]. cbn. split; auto.
  - eexists. split; [vm_compute; reflexivity|]. split; [|reflexivity].
    split; [|split].
    + intros t [<-|[]]; cbn; auto.
    + repeat constructor; cbn; intuition congruence.
    + intros [|[|[|x]]] n E; cbn in *; auto; [congruence|]. now destruct x.
Qed.
