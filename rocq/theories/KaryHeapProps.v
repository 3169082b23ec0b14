(** Property C134: programs over k-ary nodes with assignments, on a heap. *)
Require Import List NArith Bool Arith Lia Permutation.
Require Import Verif.Base Verif.KaryModel Verif.KarySpec Verif.KaryProofs Verif.KaryIterModel Verif.KaryIterSpec Verif.KaryIterProofs
  Verif.KaryHeapModel Verif.KaryHeapSpec Verif.KaryHeapProofs.
Import ListNotations.

(** Programs that respect the rules run as the forest says; at the end nothing is
    lost: destroying the roots, in any order, leaves no node. *)
Theorem C134_programs :
  forall (V : Type) (max : N), (max < two64)%N -> forall (veq : V -> V -> bool) (moved_from : V -> V) (p : prog V) h ts,
  holds h ts -> fair max veq moved_from ts p ->
  exists h' rs ts', hrun max veq moved_from h p = Val (h', rs) /\ play max veq moved_from ts rs ts' /\ holds h' ts' /\
    forall l, Permutation l (map id_of ts') -> exists h2, destroy_all h' l = Val h2 /\ forall x, ~ live_in h2 x.
Proof. exact @run_clean. Qed.
Print Assumptions C134_programs.
Theorem C134_start : forall V, holds (V := V) [] [].
Proof. exact @holds_nil. Qed.
Print Assumptions C134_start.
Theorem C134_live : forall V h (ts : list (knode V)) x, holds h ts -> (live_in h x <-> In x (fids ts)).
Proof. exact @live_iff. Qed.
Print Assumptions C134_live.

Definition five_lt : (5 < two64)%N := eq_refl.
(** Two nodes; the second gets a child and goes to the first, then it is destroyed. *)
Definition moving : prog nat :=
  Call (HNew 5) (fun r => match r with RNode a =>
  Call (HNew 7) (fun r => match r with RNode b =>
  Call (HCall b (CAdd 9)) (fun _ => Call (HMove a b) (fun _ => Call (HDestroy b) (fun _ => Stop)))
  | _ => Stop end) | _ => Stop end).
Ltac eqbs := repeat (cbn in *; rewrite ?Nat.eqb_refl in *; repeat match goal with H : ?a <> ?b |- _ => rewrite (proj2 (Nat.eqb_neq a b) H) in * end).
Example C134_programs_case :
  fair 5 Nat.eqb (fun _ => 0) [] moving /\
  hrun 5 Nat.eqb (fun _ => 0) [] moving =
    Val ([Some (mkH None 7 [Some 2]); None; Some (mkH (Some 1) 9 [])],
         [(HNew 5, RNode 0); (HNew 7, RNode 1); (HCall 1 (CAdd 9), RBool true); (HMove 0 1, RUnit); (HDestroy 1, RUnit)]).
Proof.
  split; [|vm_compute; reflexivity]. unfold moving. cbn [fair]. split; [exact Logic.I|]. intros r ts (a & _ & -> & ->).
  cbn [fair]. split; [exact Logic.I|]. intros r ts (b & Nb & -> & ->).
  assert (NE : b <> a) by (cbn in Nb; intuition congruence). assert (NE' : a <> b) by congruence.
  cbn [fair app]. split; [cbn; auto|]. intros r ts (u & x & u' & ans & hd & gone & x' & Eu & Nx & C & _ & ->).
  unfold new_node in *. eqbs. injection Eu as <-. cbn in C. injection C as <- <- <- <- <-.
  assert (Xa : x <> a) by intuition congruence. assert (Xb : x <> b) by intuition congruence.
  eqbs. split.
  - do 2 eexists. split; [reflexivity|]. split; [reflexivity|]. split; [constructor|]. cbn. intuition congruence.
  - intros r1 ts1 (w & Ew & -> & ->). eqbs. injection Ew as <-. eqbs. split; [|auto]. unfold is_root. cbn. auto.
Qed.

(** parent() is right as long as only nodes without children and parent are
    assigned, to roots. *)
Theorem C134_parents :
  forall (V : Type) (max : N), (max < two64)%N -> forall (veq : V -> V -> bool) (moved_from : V -> V) (p : prog V) h ts,
  holds h ts -> Forall (linked None) ts -> careful max veq moved_from ts p ->
  exists h' rs ts', hrun max veq moved_from h p = Val (h', rs) /\ holds h' ts' /\ play max veq moved_from ts rs ts' /\ Forall (linked None) ts'.
Proof. exact @careful_run. Qed.
Print Assumptions C134_parents.
Theorem C134_parents_right :
  forall (V : Type) (ts : list (knode V)), Forall (linked None) ts -> forall m, In m (nodes ts) ->
  match parent_of m with
  | None => In m ts
  | Some p => exists w, In w (nodes ts) /\ id_of w = p /\ In (Some m) (slots_of w)
  end.
Proof. exact @parents_right. Qed.
Print Assumptions C134_parents_right.
Example C134_parents_case :
  careful 5 Nat.eqb (fun _ => 0) [] (script [HNew 5]) /\
  forall a b, a <> b -> careful 5 Nat.eqb (fun _ => 0) [new_node a None 5; KN b None 7 [None]] (script [HAssign a b; HMove b a]).
Proof.
  split; [cbn; auto|]. intros a b NE. assert (NE' : b <> a) by congruence. unfold new_node. cbn [script fold_right careful].
  split; [|split].
  - do 2 eexists. eqbs. split; [reflexivity|]. split; [reflexivity|]. right. split; repeat constructor.
  - right. eqbs. intros w [= <-]. repeat split; [repeat constructor|]. unfold is_root. cbn. auto.
  - intros r ts (w & Ew & -> & ->). eqbs. injection Ew as <-. eqbs. split; [|split; [|auto]].
    + do 2 eexists. split; [reflexivity|]. split; [reflexivity|]. split; [repeat constructor|]. cbn. intuition congruence.
    + intros w [= <-]. repeat split; [repeat constructor|]. unfold is_root. cbn. auto.
Qed.
(** Children that were moved still know the source as their parent. *)
Theorem C134_moved_parents_refuted :
  exists l : list (hop nat),
    hrun 5 Nat.eqb (fun _ => 0) [] (script (l ++ [HParent 2])) = UB /\
    (exists h rs, hrun 5 Nat.eqb (fun _ => 0) [] (script l) = Val (h, rs) /\ live_in h 0 /\ live_in h 2 /\ hchild h 0 0 = Val 2).
Proof.
  exists [HNew 5; HNew 7; HCall 1 (CAdd 9); HMove 0 1; HDestroy 1]. split; [vm_compute; reflexivity|].
  do 2 eexists. split; [vm_compute; reflexivity|]. split; [eexists; vm_compute; reflexivity|]. split; [eexists; vm_compute; reflexivity|]. vm_compute. reflexivity.
Qed.
Print Assumptions C134_moved_parents_refuted.

(** The assignments that break the rules, all of them.  [a = std::move(b)] loses the
    nodes below [a] that were not below [b]; if [a] is below [b] it makes a ring, and
    all that was below [b] is lost. *)
Theorem C134_move :
  forall (V : Type) (moved_from : V -> V) h ts a b u w l, holds h ts -> fsub a ts = Some u -> fsub b ts = Some w -> a <> b ->
  Permutation l (map id_of ts) ->
  exists h1 h2, hmove moved_from h a b = Val h1 /\ destroy_all h1 l = Val h2 /\
    forall x, live_in h2 x <-> if in_dec Nat.eq_dec a (ids w) then In x (descendants w) else In x (descendants u) /\ ~ In x (descendants w).
Proof. exact @move_leaves. Qed.
Print Assumptions C134_move.
(** [a = b] loses nodes in the same way if [b] has no children or is below [a] ... *)
Theorem C134_copy :
  forall (V : Type) h (ts : list (knode V)) a b u w l, holds h ts -> fsub a ts = Some u -> fsub b ts = Some w -> a <> b ->
  childless w \/ In b (ids u) -> Permutation l (map id_of ts) ->
  exists h1 h2, hassign h a b = Val h1 /\ destroy_all h1 l = Val h2 /\
    forall x, live_in h2 x <-> In x (descendants u) /\ ~ In x (descendants w).
Proof. exact @assign_leaves. Qed.
Print Assumptions C134_copy.
(** ... and deletes a node twice in all other cases. *)
Theorem C134_copy_twice :
  forall (V : Type) h (ts : list (knode V)) a b u w l, holds h ts -> fsub a ts = Some u -> fsub b ts = Some w ->
  ~ In b (ids u) -> ~ childless w -> Permutation l (map id_of ts) ->
  exists h1, hassign h a b = Val h1 /\ destroy_all h1 l = UB.
Proof. exact @assign_twice. Qed.
Print Assumptions C134_copy_twice.

(** Two roots, 0 with the children 2 and 3, 1 with the child 4, and 5 below 2. *)
Definition some_nodes : list (hop nat) :=
  [HNew 10; HNew 11; HCall 0 (CAdd 12); HCall 0 (CAdd 13); HCall 1 (CAdd 14); HCall 2 (CAdd 15)].
Definition some_forest : list (knode nat) :=
  [KN 0 None 10 [Some (KN 2 (Some 0) 12 [Some (KN 5 (Some 2) 15 [])]); Some (KN 3 (Some 0) 13 [])]; KN 1 None 11 [Some (KN 4 (Some 1) 14 [])]].
Definition some_heap : list (option (hnode nat)) :=
  [Some (mkH None 10 [Some 2; Some 3]); Some (mkH None 11 [Some 4]); Some (mkH (Some 0) 12 [Some 5]);
   Some (mkH (Some 0) 13 []); Some (mkH (Some 1) 14 []); Some (mkH (Some 2) 15 [])].
Example C134_case :
  (exists rs, hrun 5 Nat.eqb (fun _ => 0) [] (script some_nodes) = Val (some_heap, rs)) /\ holds some_heap some_forest /\
  fsub 0 some_forest <> None /\ fsub 1 some_forest <> None /\ fsub 2 some_forest <> None /\ Forall (linked None) some_forest.
Proof.
  split; [eexists; vm_compute; reflexivity|]. split; [|repeat split; try discriminate; repeat constructor].
  apply holds_hold. split; [cbn; repeat constructor; cbn; intuition congruence|].
  intros x m. split.
  - intros E. do 6 (destruct x as [|x]; [injection E as <-; cbn; repeat (first [left; reflexivity|right])|]). destruct x; discriminate.
  - intros I. cbn in I. repeat (destruct I as [[= <- <-]|I]; [reflexivity|]). easy.
Qed.
Definition live_now (h : list (option (hnode nat))) : list nat :=
  filter (fun x => match nth_error h x with Some (Some _) => true | _ => false end) (seq 0 (length h)).
Definition afterwards (o : hop nat) (l : list nat) : outcome (list nat) :=
  let* (h, _) := hstep 5 Nat.eqb (fun _ => 0) some_heap o in let* h := destroy_all h l in Val (live_now h).
Example C134_move_case :
  afterwards (HMove 0 1) [0; 1] = Val [2; 3; 5] /\ afterwards (HMove 0 2) [1; 0] = Val [2; 3] /\
  afterwards (HMove 5 0) [0; 1] = Val [2; 3; 5] /\ afterwards (HMove 3 1) [0; 1] = Val [].
Proof. repeat split; vm_compute; reflexivity. Qed.
Example C134_copy_case :
  afterwards (HAssign 1 3) [0; 1] = Val [4] /\ afterwards (HAssign 0 2) [0; 1] = Val [2; 3] /\ afterwards (HAssign 0 5) [0; 1] = Val [2; 3; 5].
Proof. repeat split; vm_compute; reflexivity. Qed.
Example C134_copy_twice_case :
  afterwards (HAssign 0 1) [0; 1] = UB /\ afterwards (HAssign 0 1) [1; 0] = UB /\ afterwards (HAssign 5 0) [0; 1] = UB.
Proof. repeat split; vm_compute; reflexivity. Qed.

(** What a user would expect of the assignments. *)
Theorem C134_assigning_a_value_refuted :
  exists h (ts : list (knode nat)) a b w h1 h2, holds h ts /\ fsub b ts = Some w /\ childless w /\
    hassign h a b = Val h1 /\ destroy_all h1 (map id_of ts) = Val h2 /\ exists x, live_in h2 x.
Proof.
  exists some_heap, some_forest, 1, 3. do 3 eexists. split; [exact (proj1 (proj2 C134_case))|]. split; [vm_compute; reflexivity|]. split; [constructor|].
  split; [vm_compute; reflexivity|]. split; [vm_compute; reflexivity|]. exists 4. eexists. vm_compute. reflexivity.
Qed.
Print Assumptions C134_assigning_a_value_refuted.
Theorem C134_copying_refuted :
  exists h (ts : list (knode nat)) a b h1, holds h ts /\ is_root a ts /\ is_root b ts /\ a <> b /\
    hassign h a b = Val h1 /\ destroy_all h1 (map id_of ts) = UB.
Proof.
  exists some_heap, some_forest, 0, 1. eexists. split; [exact (proj1 (proj2 C134_case))|]. split; [cbn; auto|]. split; [cbn; auto|]. split; [discriminate|].
  split; vm_compute; reflexivity.
Qed.
Print Assumptions C134_copying_refuted.
(** [root = std::move(root.child(0))] *)
Theorem C134_lifting_a_child_refuted :
  exists h (ts : list (knode nat)) a b h1 h2, holds h ts /\ is_root a ts /\ hchild h a 0 = Val b /\
    hmove (fun _ => 0) h a b = Val h1 /\ destroy_all h1 (map id_of ts) = Val h2 /\ live_in h2 b.
Proof.
  exists some_heap, some_forest, 0, 2. do 2 eexists. split; [exact (proj1 (proj2 C134_case))|]. split; [cbn; auto|]. split; [vm_compute; reflexivity|].
  split; [vm_compute; reflexivity|]. split; [vm_compute; reflexivity|]. eexists. vm_compute. reflexivity.
Qed.
Print Assumptions C134_lifting_a_child_refuted.
