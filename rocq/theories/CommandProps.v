(** C79: command.h. *)
Require Import List Arith NArith Lia Bool Permutation.
Require Import Verif.Base Verif.CommandModel Verif.CommandSpec Verif.CommandProofs.
Import ListNotations.
Local Ltac run := repeat (apply conj); (vm_compute; reflexivity).

(** Where the missing return of store does nothing: the last 1024 commands are
    kept, the older ones were deleted, oldest first, and every answer is null.  Null
    pointers may be stored, any number of times. *)
Theorem C79_bounded_partial : forall cs, NoDup (objects (stored cs)) -> ~ late_undo cs ->
  exists s dropped, run true cs start = Val (s, repeat 0%N (length cs)) /\ second s = [] /\
    keeps_last 1024 (stored cs) dropped (first s) /\ deleted s = objects dropped.
Proof. exact program_ok. Qed.
Print Assumptions C79_bounded_partial.
(** Each command is deleted once by the end of the manager. *)
Theorem C79_deleted_once_partial : forall cs, NoDup (objects (stored cs)) -> ~ late_undo cs ->
  exists d, (let* (s, _) := run true cs start in destroy s) = Val d /\ Permutation d (objects (stored cs)).
Proof. exact program_destroy. Qed.
Print Assumptions C79_deleted_once_partial.
(** Undo never works: with a command stored it is undefined, whatever was stored. *)
Theorem C79_undo_is_UB : forall cs, late_undo cs -> run true cs start = UB.
Proof. exact program_undo. Qed.
Print Assumptions C79_undo_is_UB.
(** By the language alone every program that stores a command is undefined. *)
Theorem C79_store_is_UB : forall cs, stored cs <> [] -> run false cs start = UB.
Proof. exact program_strict. Qed.
Print Assumptions C79_store_is_UB.

Local Definition calls : list call := [Undo; Store 7; Redo; Store 0; Store 8; Store 0; Dispose]%N.
Example C79_case : NoDup (objects (stored calls)) /\ ~ late_undo calls /\ late_undo (calls ++ [Undo]) /\
  run true calls start = Val ({| first := [7; 0; 8; 0]; second := []; deleted := [] |}, [0; 0; 0; 0; 0; 0; 0])%N /\
  (let* (s, _) := run true calls start in destroy s) = Val [8; 7]%N.
Proof.
  split; [repeat constructor; cbn; lia|]. split.
  { intros (a & b & E & S). destruct a as [|c a]; [now destruct S|]. injection E as <- E.
    do 6 (destruct a as [|c a]; [discriminate|]; injection E as <- E). destruct a; discriminate. }
  split; [exists calls, []; split; [reflexivity|discriminate]|]. run.
Qed.
(** Clipping: 1025 commands, the first is deleted. *)
Example C79_clip_case : let ps := map N.of_nat (seq 1 1025) in
  match run true (map Store ps) start with
  | Val (s, _) => deleted s = [1]%N /\ first s = tl ps
  | _ => False
  end.
Proof. vm_compute. split; reflexivity. Qed.
(** A history gives the stored command back; the manager does not. *)
Theorem C79_undo_redo_refuted : exists p, p <> 0%N /\
  option_map snd (h_undo (h_store p {| done := []; undone := [] |})) = Some p /\
  (forall lenient, run lenient [Store p; Undo] start = UB) /\
  (match h_undo (h_store p {| done := []; undone := [] |}) with
   | Some (h, _) => option_map snd (h_redo h) = Some p | None => False end).
Proof. exists 7%N. split; [discriminate|]. split; [reflexivity|]. split; [|reflexivity]. now intros []. Qed.
Print Assumptions C79_undo_redo_refuted.
(** A command stored twice is deleted twice. *)
Theorem C79_stored_twice_refuted : exists p, p <> 0%N /\
  (let* (s, _) := run true [Store p; Store p] start in destroy s) = UB.
Proof. exists 7%N. split; [discriminate|]. reflexivity. Qed.
Print Assumptions C79_stored_twice_refuted.
