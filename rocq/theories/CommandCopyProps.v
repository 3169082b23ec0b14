(** C154: command managers that are copied. *)
Require Import List Arith NArith Bool Lia Permutation.
Require Import Verif.Base Verif.CommandModel Verif.CommandSpec Verif.CommandCopyModel Verif.CommandCopySpec Verif.CommandCopyProofs.
Import ListNotations.

(** Any number of managers, none copied, no undo, no command stored twice: the program is defined and
    each command is deleted once or held once. *)
Theorem C154_single_owner : forall l, single_owner [] l -> NoDup (objects (all_stored l)) ->
  exists w, acts nothing l = Val w /\ Permutation (gone w ++ objects (all_held w)) (objects (all_stored l)).
Proof. exact single_start. Qed.
Print Assumptions C154_single_owner.
(** Once all are destroyed, each command was deleted once. *)
Theorem C154_all_deleted : forall l w, single_owner [] l -> NoDup (objects (all_stored l)) -> acts nothing l = Val w ->
  (forall i, i < length (managers w) -> destroyed w i) -> Permutation (gone w) (objects (all_stored l)).
Proof. exact single_end. Qed.
Print Assumptions C154_all_deleted.
(** No program throws or hangs: it is defined or undefined. *)
Theorem C154_outcomes : forall l w, acts w l = UB \/ exists w', acts w l = Val w'.
Proof. exact total_acts. Qed.
Print Assumptions C154_outcomes.
(** A manager with a command was copied.  Whatever follows, with any calls of any managers, further
    copies and assignments to others, no defined execution ends both. *)
Theorem C154_copied : forall w i p w1, p <> 0%N -> holds w i p -> do_act w (Copy i) = Val w1 ->
  let j := length (managers w) in
  forall l w2, Forall (fun a => ~ assigns_to i a /\ ~ assigns_to j a) l -> acts w1 l = Val w2 -> ~ (destroyed w2 i /\ destroyed w2 j).
Proof. exact copy_ends. Qed.
Print Assumptions C154_copied.
(** The same for a manager with a command that was assigned. *)
Theorem C154_assigned : forall w i j p w1, p <> 0%N -> i <> j -> holds w j p -> do_act w (Assign i j) = Val w1 ->
  forall l w2, Forall (fun a => ~ assigns_to i a /\ ~ assigns_to j a) l -> acts w1 l = Val w2 -> ~ (destroyed w2 i /\ destroyed w2 j).
Proof. exact assign_ends. Qed.
Print Assumptions C154_assigned.
(** The commands the target alone held are never deleted, unless they are stored again. *)
Theorem C154_lost : forall w i j p w1, p <> 0%N -> holds w i p -> (forall k, k <> i -> ~ holds w k p) -> ~ In p (gone w) -> i <> j ->
  do_act w (Assign i j) = Val w1 ->
  forall l w2, ~ In p (all_stored l) -> acts w1 l = Val w2 -> ~ In p (gone w2) /\ forall k, ~ holds w2 k p.
Proof. exact assign_leaks. Qed.
Print Assumptions C154_lost.
(** Assigning a manager to itself changes nothing. *)
Theorem C154_itself : forall w i w1, do_act w (Assign i i) = Val w1 -> w1 = w.
Proof. exact assign_self. Qed.
Print Assumptions C154_itself.

Local Definition two : list act := [New; New; Call 0 (Store 7); Call 1 (Store 8); Call 0 (Store 0); Call 0 Redo]%N.
Local Definition w2 : world := {| managers := [Some ([7; 0], []); Some ([8], [])]; gone := [] |}%N.
Example C154_case : single_owner [] (two ++ [Destroy 1; Destroy 0]) /\ NoDup (objects (all_stored (two ++ [Destroy 1; Destroy 0]))) /\
  acts nothing two = Val w2 /\
  acts nothing (two ++ [Destroy 1; Destroy 0]) = Val {| managers := [None; None]; gone := [8; 7]%N |}.
Proof.
  split; [repeat split; discriminate|]. split; [repeat constructor; cbn; lia|]. split; reflexivity.
Qed.
(** A copy, after which one of the two ends. *)
Example C154_copied_case : holds w2 0 7%N /\ length (managers w2) = 2 /\
  acts w2 [Copy 0; Destroy 0; Call 2 (Store 9%N); New] =
    Val {| managers := [None; Some ([8], []); Some ([7; 0; 9], []); Some ([], [])]; gone := [7] |}%N /\
  acts w2 [Copy 0; Destroy 0; Call 2 (Store 9%N); New; Destroy 2] = UB /\
  (exists w, do_act w2 (Copy 0) = Val w).
Proof. split; [exists (Some ([7; 0], []))%N; split; [reflexivity|now left]|]. repeat split; try reflexivity. now eexists. Qed.
Example C154_assigned_case : holds w2 1 8%N /\ holds w2 0 7%N /\ (forall k, k <> 0 -> ~ holds w2 k 7%N) /\ ~ In 7%N (gone w2) /\
  acts w2 [Assign 0 1; Destroy 0] = Val {| managers := [None; Some ([8], [])]; gone := [8] |}%N /\
  acts w2 [Assign 0 1; Destroy 0; Destroy 1] = UB /\ acts w2 [Assign 0 0] = Val w2.
Proof.
  split; [exists (Some ([8], []))%N; split; [reflexivity|now left]|]. split; [exists (Some ([7; 0], []))%N; split; [reflexivity|now left]|].
  split; [|now repeat split].
  intros k N (m & M & K). destruct k as [|[|k]]; [congruence| |destruct k; discriminate]. injection M as <-. destruct K as [K|[]]; discriminate.
Qed.
(** Managers without commands may be copied; so may those whose copy is overwritten before its end. *)
Example C154_empty_case : acts nothing [New; Copy 0; Destroy 0; Destroy 1] = Val {| managers := [None; None]; gone := [] |} /\
  acts w2 [New; Copy 0; Assign 3 2; Destroy 0; Destroy 1; Destroy 2; Destroy 3] =
    Val {| managers := [None; None; None; None]; gone := [7; 8] |}%N.
Proof. split; reflexivity. Qed.
(** A copy is a manager of its own: it can be used and destroyed as the other. *)
Theorem C154_copies_are_independent_refuted : exists p, p <> 0%N /\
  (exists w, acts nothing [New; Call 0 (Store p); Copy 0] = Val w) /\
  acts nothing [New; Call 0 (Store p); Copy 0; Destroy 1; Destroy 0] = UB.
Proof. exists 7%N. split; [discriminate|]. split; [now eexists|reflexivity]. Qed.
Print Assumptions C154_copies_are_independent_refuted.
(** A manager deletes what it holds before it takes over what another holds. *)
Theorem C154_assignment_deletes_refuted : exists p, p <> 0%N /\
  acts nothing [New; New; Call 0 (Store p); Assign 0 1; Destroy 0; Destroy 1] = Val {| managers := [None; None]; gone := [] |}.
Proof. exists 7%N. split; [discriminate|reflexivity]. Qed.
Print Assumptions C154_assignment_deletes_refuted.
(** A manager that is moved from gives its commands away, as in a vector of managers that grows. *)
Theorem C154_moves_refuted : exists p w, p <> 0%N /\ acts nothing [New; Call 0 (Store p); Copy 0; Destroy 0] = Val w /\
  holds w 1 p /\ In p (gone w) /\ do_act w (Destroy 1) = UB.
Proof.
  exists 7%N, {| managers := [None; Some ([7], [])]; gone := [7] |}%N. split; [discriminate|]. split; [reflexivity|].
  split; [exists (Some ([7], []))%N; split; [reflexivity|now left]|]. split; [now left|reflexivity].
Qed.
Print Assumptions C154_moves_refuted.
