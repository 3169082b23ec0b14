(** C155: pointer_comparison of message_queue.h. *)
Require Import List Arith NArith Bool Lia Permutation.
Require Import Verif.Base Verif.PointerOrderModel Verif.PointerOrderSpec Verif.PointerOrderProofs.
Require Verif.MsgQueueModel Verif.MsgQueueSpec.
Import ListNotations.

(** If the objects are ordered as std::priority_queue requires, so are the pointers to objects. *)
Theorem C155_strict_weak : forall (T : Type) (transform : T -> T -> bool),
  strict_weak (fun _ : T => True) (fun x y => transform x y = true) ->
  forall mem, strict_weak (points mem) (fun p q => shared_order transform mem p q = Val true).
Proof. exact @order_strict_weak. Qed.
Print Assumptions C155_strict_weak.
(** The order of two pointers is that of their objects, for both kinds of pointers; *)
Theorem C155_objects : forall (T : Type) (transform : T -> T -> bool) mem p q x y, points_to mem p x -> points_to mem q y ->
  shared_order transform mem p q = Val (transform x y) /\ unique_order transform mem p q = Val (transform x y).
Proof. exact @order_is. Qed.
Print Assumptions C155_objects.
(** undefined if one has none. *)
Theorem C155_empty : forall (T : Type) (transform : T -> T -> bool) mem p q, ~ points mem p \/ ~ points mem q ->
  shared_order transform mem p q = UB /\ unique_order transform mem p q = UB.
Proof. exact @order_UB. Qed.
Print Assumptions C155_empty.
(** Pointers to shared pointers are ordered as these, *)
Theorem C155_slots : forall (T : Type) (transform : T -> T -> bool) mem slots s1 s2 p q, deref slots s1 = Val p -> deref slots s2 = Val q ->
  slot_order transform mem slots s1 s2 = shared_order transform mem p q.
Proof. exact @slot_is. Qed.
Print Assumptions C155_slots.
(** and undefined if there is none. *)
Theorem C155_no_slot : forall (T : Type) (transform : T -> T -> bool) mem slots s1 s2, deref slots s1 = UB \/ deref slots s2 = UB ->
  slot_order transform mem slots s1 s2 = UB.
Proof. exact @slot_UB. Qed.
Print Assumptions C155_no_slot.
(** Whatever a container does with the order, it does with the pointers as it would with the objects. *)
Theorem C155_as_objects : forall (T : Type) (transform : T -> T -> bool) R mem (c : call pointer R) (d : call T R),
  alike (points_to mem) c d ->
  perform (shared_order transform mem) c = perform (fun x y => Val (transform x y)) d.
Proof. exact @as_objects. Qed.
Print Assumptions C155_as_objects.
Theorem C155_defined : forall (T : Type) (transform : T -> T -> bool) R mem (c : call pointer R), about (points mem) c ->
  exists r, perform (shared_order transform mem) c = Val r.
Proof. exact @defined_call. Qed.
Print Assumptions C155_defined.
(** A call is undefined exactly if it comes to compare a pointer without object; one that
    compares nothing, as the push to an empty queue, is defined with such a pointer, too. *)
Theorem C155_undefined : forall (T : Type) (transform : T -> T -> bool) R mem answer (c : call pointer R),
  (forall p q x y, points_to mem p x -> points_to mem q y -> answer p q = transform x y) ->
  (perform (shared_order transform mem) c = UB <-> exists p q, In (p, q) (asks answer c) /\ (~ points mem p \/ ~ points mem q)).
Proof. exact @undefined_call. Qed.
Print Assumptions C155_undefined.
(** Changes of objects that are not in the queue are not noticed. *)
Theorem C155_others : forall (T : Type) (transform : T -> T -> bool) R mem a x (c : call pointer R), about (fun p => p <> Some a) c ->
  perform (shared_order transform (written mem a x)) c = perform (shared_order transform mem) c.
Proof. exact @written_other. Qed.
Print Assumptions C155_others.
(** A message sent twice is not before itself. *)
Theorem C155_twice : forall (T : Type) (transform : T -> T -> bool), (forall x, transform x x = false) ->
  forall mem p, points mem p -> shared_order transform mem p p = Val false.
Proof. exact @same_object. Qed.
Print Assumptions C155_twice.
(** A message queue with this order, in any execution in which the objects do not change: each message
    taken has a greatest object of those waiting. *)
Theorem C155_greatest_first : forall (T : Type) (transform : T -> T -> bool) mem select n sched (s : MsgQueueModel.state pointer) l1 m l2 x,
  (forall ws w, nth_error ws (select ws) = Some w -> forall v, In v ws -> shared_order transform mem w v <> Val true) ->
  MsgQueueModel.run select sched (MsgQueueModel.init n) = Some s -> MsgQueueModel.log s = l1 ++ MsgQueueModel.Took m :: l2 ->
  points_to mem m x ->
  exists waiting, Permutation (MsgQueueSpec.received l2) (map fst (MsgQueueSpec.gone l2) ++ waiting) /\ In m waiting /\
    forall p y, In p waiting -> points_to mem p y -> transform x y = false.
Proof. exact @queue_order. Qed.
Print Assumptions C155_greatest_first.

Local Definition mem3 : nat -> option nat := fun a => nth_error [5; 9; 7; 9] a.
(** The place of the greatest of three. *)
Local Definition greatest3 {A} (x y z : A) : call A nat :=
  Ask x y (fun b => Ask (if b then y else x) z (fun b2 => Answer (if b2 then 2 else if b then 1 else 0))).
Example C155_case : strict_weak (fun _ : nat => True) (fun x y => Nat.ltb x y = true) /\
  points_to mem3 (Some 0) 5 /\ points_to mem3 (Some 1) 9 /\ ~ points mem3 None /\ ~ points mem3 (Some 4) /\
  shared_order Nat.ltb mem3 (Some 0) (Some 1) = Val true /\ shared_order Nat.ltb mem3 (Some 1) (Some 3) = Val false /\
  unique_order Nat.ltb mem3 (Some 1) (Some 2) = Val false /\ shared_order Nat.ltb mem3 (Some 1) None = UB /\
  slot_order Nat.ltb mem3 (fun a => nth_error [Some 2; None; Some 1] a) (Some 0) (Some 2) = Val true /\
  slot_order Nat.ltb mem3 (fun a => nth_error [Some 2; None; Some 1] a) (Some 0) (Some 1) = UB /\
  slot_order Nat.ltb mem3 (fun a => nth_error [Some 2; None; Some 1] a) (Some 0) None = UB.
Proof.
  split. { split; [|split]; intros *; rewrite !Nat.ltb_lt; lia. }
  split; [now exists 0|]. split; [now exists 1|]. split; [intros (x & a & E & _); discriminate|].
  split; [intros (x & a & E & M); injection E as <-; discriminate|]. repeat split.
Qed.
Example C155_calls_case : alike (points_to mem3) (greatest3 (Some 0) (Some 1) (Some 2)) (greatest3 5 9 7) /\
  about (points mem3) (greatest3 (Some 0) (Some 1) (Some 2)) /\ about (fun p => p <> Some 3) (greatest3 (Some 0) (Some 1) (Some 2)) /\
  perform (shared_order Nat.ltb mem3) (greatest3 (Some 0) (Some 1) (Some 2)) = Val 1 /\
  perform (shared_order Nat.ltb mem3) (greatest3 (Some 0) None (Some 2)) = UB /\
  perform (shared_order Nat.ltb mem3) (Answer [@None nat]) = Val [None] /\
  perform (shared_order Nat.ltb (written mem3 2 10)) (greatest3 (Some 0) (Some 1) (Some 2)) = Val 2.
Proof.
  assert (P0 : points_to mem3 (Some 0) 5) by now exists 0. assert (P1 : points_to mem3 (Some 1) 9) by now exists 1. assert (P2 : points_to mem3 (Some 2) 7) by now exists 2.
  split; [constructor; trivial; intros [|]; constructor; trivial; intros; constructor|].
  split. { constructor; try (eexists; eassumption). intros [|]; constructor; try (eexists; eassumption); intros; constructor. }
  split; [constructor; try discriminate; intros [|]; constructor; try discriminate; intros; constructor|]. repeat split.
Qed.
(** The answers of [C155_undefined]. *)
Example C155_undefined_case : let answer := fun p q => match shared_order Nat.ltb mem3 p q with Val b => b | _ => false end in
  (forall p q x y, points_to mem3 p x -> points_to mem3 q y -> answer p q = Nat.ltb x y) /\
  asks answer (greatest3 (Some 0) (Some 1) None) = [(Some 0, Some 1); (Some 1, None)].
Proof. split; [|reflexivity]. intros p q x y P Q. now rewrite (proj1 (order_is Nat.ltb _ _ _ _ _ P Q)). Qed.

(** A queue of pointers: the objects 5, 9 and 7 are sent, 9 and 7 are processed first. *)
Local Definition key (p : pointer) : nat := match deref mem3 p with Val x => S x | _ => 0 end.
Local Fixpoint top_at (q : list nat) : nat * nat :=
  match q with
  | [] => (0, 0)
  | x :: q => let (v, i) := top_at q in if v <? x then (x, 0) else (v, S i)
  end.
Local Definition top (q : list pointer) : nat := snd (top_at (map key q)).
Local Lemma top_ok : forall q m, nth_error q (snd (top_at q)) = Some m -> m = fst (top_at q) /\ forall x, In x q -> x <= m.
Proof.
  assert (B : forall q x, In x q -> x <= fst (top_at q)).
  { induction q as [|y q IH]; intros x I1; [destruct I1|]. cbn -[Nat.ltb]. destruct (top_at q) as [v i]. cbn [fst] in IH.
    destruct (Nat.ltb_spec v y); cbn [fst]; destruct I1 as [<-|I1]; try lia; specialize (IH _ I1); lia. }
  assert (E : forall q m, nth_error q (snd (top_at q)) = Some m -> m = fst (top_at q)).
  { induction q as [|y q IH]; intros m; [discriminate|]. cbn -[Nat.ltb]. destruct (top_at q) as [v i]. cbn [fst snd] in IH.
    destruct (Nat.ltb_spec v y); cbn; [intros K; now injection K as <-|apply IH]. }
  intros q m N. split; [now apply E|]. intros x I1. rewrite (E q m N). now apply B.
Qed.
Local Definition recv (i : nat) (m : pointer) : list (MsgQueueModel.action pointer) :=
  MsgQueueModel.Begin i (MsgQueueModel.Receive m) :: repeat (MsgQueueModel.Next i) 4.
Local Definition sched : list (MsgQueueModel.action pointer) :=
  recv 0 (Some 0) ++ recv 1 (Some 1) ++ recv 0 (Some 2) ++ [MsgQueueModel.Start] ++ repeat MsgQueueModel.Work 18.
Example C155_queue_case :
  (forall ws w, nth_error ws (top ws) = Some w -> forall v, In v ws -> shared_order Nat.ltb mem3 w v <> Val true) /\
  match MsgQueueModel.run top sched (MsgQueueModel.init 2) with
  | Some s => MsgQueueSpec.processed (MsgQueueModel.log s) = [Some 1; Some 2]
  | None => False
  end.
Proof.
  split; [|vm_compute; reflexivity]. intros ws w N v I1 E.
  assert (N' : nth_error (map key ws) (top ws) = Some (key w)) by (rewrite nth_error_map, N; reflexivity).
  destruct (top_ok _ _ N') as (_ & B). specialize (B (key v) (in_map key _ _ I1)). unfold key, shared_order in *.
  destruct (deref mem3 w) as [x| | |]; try discriminate. destruct (deref mem3 v) as [y| | |]; try discriminate. cbn [bind] in E. injection E as E. apply Nat.ltb_lt in E. lia.
Qed.
(** The place of a waiting message is not what it was when it came: its object may change. *)
Theorem C155_changes_refuted : exists (mem : nat -> option nat) p q a x, points mem p /\ points mem q /\ q = Some a /\
  shared_order Nat.ltb mem p q = Val true /\ shared_order Nat.ltb (written mem a x) p q = Val false /\
  shared_order Nat.ltb (written mem a x) q p = Val true.
Proof.
  exists mem3, (Some 0), (Some 1), 1, 2. split; [now exists 5, 0|]. split; [now exists 9, 1|]. repeat split.
Qed.
Print Assumptions C155_changes_refuted.
(** Empty pointers are in order, before or after all others. *)
Theorem C155_null_refuted : exists (mem : nat -> option nat) p, points mem p /\
  shared_order Nat.ltb mem None p = UB /\ shared_order Nat.ltb mem p None = UB /\ shared_order Nat.ltb mem None None = UB.
Proof. exists mem3, (Some 0). split; [now exists 5, 0|]. repeat split. Qed.
Print Assumptions C155_null_refuted.
