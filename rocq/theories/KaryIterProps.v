(** Properties C131 and C132: iterators of k-ary nodes and loops over the children
    (structures/tree.h). *)
Require Import List NArith Bool Arith Lia.
Require Import Verif.Base Verif.KaryModel Verif.KarySpec Verif.KaryIterModel Verif.KaryIterSpec Verif.KaryIterProofs.
Import ListNotations.

(** libstdc++ doubles the capacity unless more is needed. *)
Definition doubling (cap size needed : nat) : nat := Nat.max (2 * size) needed.
(** Node 0 has the children 1, null, 3; node 1 has the child 4; width at most 5. *)
Definition iter_calls : list (kop nat) :=
  [KMake 70; KCallOn 0 (CAdd 71); KCallOn 0 (CAdd 72); KCallOn 0 (CAdd 73);
   KCallOn 1 (CInsertAt 0%N 74); KCallOn 0 (CExtract 1%N); KDestroy 2].
Definition iter_state : kst nat :=
  Eval vm_compute in match krun 5 doubling kstart iter_calls with Val s => s | _ => kstart end.
Example iter_reached : reached 5 doubling iter_state /\
  exists n v, fsub 0 (roots iter_state) = Some n /\ nth_error (vecs iter_state) 0 = Some v /\
    pointers n = [Some 1; None; Some 3] /\ cap v = 4.
Proof. split; [exists iter_calls; vm_compute; reflexivity|]. do 2 eexists. repeat (apply conj); vm_compute; reflexivity. Qed.
Lemma five : (5 < two64)%N.
Proof. reflexivity. Qed.

(** C131 *)
Theorem C131_reached_states :
  forall (V : Type) (max : N), (max < two64)%N -> forall (grow : nat -> nat -> nat -> nat) (s : kst V),
  reached max grow s -> sound max s.
Proof. exact @reached_sound. Qed.
Print Assumptions C131_reached_states.

Theorem C131_positions :
  forall (V : Type) (max : N), (max < two64)%N -> forall (s : kst V) (a : nat) (n : knode V),
  sound max s -> fsub a (roots s) = Some n -> exists its : list iter,
  length its = S (length (slots_of n)) /\
  (exists b, nth_error its 0 = Some b /\ begin_ s a = Val b) /\
  (exists e, nth_error its (length (slots_of n)) = Some e /\ end_ s a = Val e) /\
  (forall p it, nth_error its p = Some it -> good s it = true /\
     deref s it = match nth_error (pointers n) p with Some c => Val c | None => UB end /\
     next s it = match nth_error its (S p) with Some i => Val i | None => UB end /\
     prev s it = match p with O => UB | S q => match nth_error its q with Some i => Val i | None => UB end end) /\
  forall p q i j, nth_error its p = Some i -> nth_error its q = Some j -> differs s i j = Val (negb (p =? q)).
Proof. exact @positions. Qed.
Print Assumptions C131_positions.

Theorem C131_calls_defined :
  forall (V : Type) (max : N), (max < two64)%N -> forall (grow : nat -> nat -> nat -> nat) (s : kst V) (a : nat) (c : call V),
  sound max s ->
  (live s a /\ in_range max c -> exists s' r, kcall max grow s a c = Val (s', r)) /\
  (~ live s a \/ ~ in_range max c -> kcall max grow s a c = UB).
Proof. exact @kcall_defined. Qed.
Print Assumptions C131_calls_defined.

Theorem C131_what_invalidates :
  forall (V : Type) (max : N), (max < two64)%N -> forall (grow : nat -> nat -> nat -> nat)
         (s : kst V) (o : kop V) (s' : kst V) r (it : iter),
  sound max s -> good s it = true -> kstep max grow s o = Val (s', r) ->
  (good s' it = true <-> survives max s o it).
Proof. exact @survive. Qed.
Print Assumptions C131_what_invalidates.

Theorem C131_never_valid_again :
  forall (V : Type) (max : N), (max < two64)%N -> forall (grow : nat -> nat -> nat -> nat)
         (ops later : list (kop V)) (s s1 s2 : kst V) (it : iter),
  sound max s -> good s it = true -> krun max grow s ops = Val s1 -> good s1 it = false ->
  krun max grow s1 later = Val s2 ->
  good s2 it = false /\ deref s2 it = UB /\ next s2 it = UB /\ prev s2 it = UB /\ forall j, differs s2 it j = UB.
Proof. exact @never_again. Qed.
Print Assumptions C131_never_valid_again.

Theorem C131_spared :
  forall (V : Type) (max : N), (max < two64)%N -> forall (grow : nat -> nat -> nat -> nat)
         (s : kst V) (a : nat) (o : kop V) (s' : kst V) r,
  sound max s -> live s a -> spares s a o -> kstep max grow s o = Val (s', r) ->
  live s' a /\ forall it, inode it = a -> good s' it = good s it.
Proof. exact @spared. Qed.
Print Assumptions C131_spared.

(** auto it = n.begin(); n.add_child(8); n.add_child(9);  the vector moves, although
    the child is still there. *)
Theorem C131_valid_while_the_child_lives_refuted :
  exists (s s1 s2 : kst nat) r1 r2 it,
    reached 5 doubling s /\ begin_ s 0 = Val it /\ deref s it = Val (Some 1) /\
    kcall 5 doubling s 0 (CAdd 8) = Val (s1, r1) /\ deref s1 it = Val (Some 1) /\
    kcall 5 doubling s1 0 (CAdd 9) = Val (s2, r2) /\ deref s2 it = UB /\
    exists i2, begin_ s2 0 = Val i2 /\ deref s2 i2 = Val (Some 1).
Proof.
  exists iter_state. do 5 eexists. split; [apply iter_reached|].
  split; [vm_compute; reflexivity|]. split; [vm_compute; reflexivity|]. split; [vm_compute; reflexivity|].
  split; [vm_compute; reflexivity|]. split; [vm_compute; reflexivity|]. split; [vm_compute; reflexivity|].
  eexists. split; vm_compute; reflexivity.
Qed.
Print Assumptions C131_valid_while_the_child_lives_refuted.

(** Deleting child 1: the iterator at 0 survives, the one at 2 does not; node 1's do. *)
Example C131_case :
  sound 5 iter_state /\ exists i0 i2 j s' r,
    begin_ iter_state 0 = Val i0 /\ end_ iter_state 0 = Val i2 /\ begin_ iter_state 1 = Val j /\
    kstep 5 doubling iter_state (KCallOn 0 (CDelete 1%N)) = Val (s', r) /\
    good s' i0 = true /\ good s' i2 = false /\ deref s' j = Val (Some 4) /\
    spares iter_state 1 (KCallOn 0 (CDelete 1%N)).
Proof.
  split; [exact (reached_sound 5 five doubling _ (proj1 iter_reached))|]. do 5 eexists.
  split; [vm_compute; reflexivity|]. split; [vm_compute; reflexivity|]. split; [vm_compute; reflexivity|].
  split; [vm_compute; reflexivity|]. split; [vm_compute; reflexivity|]. split; [vm_compute; reflexivity|].
  split; [vm_compute; reflexivity|]. vm_compute. intros m [= <-]. auto.
Qed.

(** C132 *)
Theorem C132_undisturbed_loops :
  forall (V : Type) (max : N), (max < two64)%N -> forall (a : nat) (body : body_t) (fuel : nat) (s : kst V) (n : knode V),
  leaves max a body -> sound max s -> fsub a (roots s) = Some n -> length (slots_of n) <= fuel ->
  (exists s' cs, loop fuel body s a = Val (s', cs) /\ turns a body (seq 0 (length (slots_of n))) [] s cs s') /\
  (exists s' cs, loop_range fuel body s a = Val (s', cs) /\ turns a body (seq 0 (length (slots_of n))) [] s cs s') /\
  (exists s' cs, loop_reversed fuel body s a = Val (s', cs) /\ turns a body (rev (seq 0 (length (slots_of n)))) [] s cs s').
Proof. exact @undisturbed. Qed.
Print Assumptions C132_undisturbed_loops.

Theorem C132_every_child_once :
  forall (V : Type) (max : N), (max < two64)%N -> forall (a : nat) (body : body_t) (fuel : nat) (s : kst V) (n : knode V),
  leaves max a body -> keeps_pointers max a body -> sound max s -> fsub a (roots s) = Some n -> length (slots_of n) <= fuel ->
  (exists s', loop fuel body s a = Val (s', pointers n)) /\
  (exists s', loop_range fuel body s a = Val (s', pointers n)) /\
  (exists s', loop_reversed fuel body s a = Val (s', rev (pointers n))).
Proof. exact @loops_fixed. Qed.
Print Assumptions C132_every_child_once.

Theorem C132_calls_on_the_child_at_hand :
  forall (V : Type) (max : N), (max < two64)%N -> forall (grow : nat -> nat -> nat -> nat)
         (a : nat) (f : nat -> call V), (forall t, in_range max (f t)) ->
  leaves max a (on_child max grow f) /\ keeps_pointers max a (on_child max grow f).
Proof. exact @on_child_leaves. Qed.
Print Assumptions C132_calls_on_the_child_at_hand.

Theorem C132_extracting_every_child :
  forall (V : Type) (max : N), (max < two64)%N -> forall (grow : nat -> nat -> nat -> nat)
         (s : kst V) (a : nat) (n : knode V) (fuel : nat),
  sound max s -> fsub a (roots s) = Some n -> length (slots_of n) <= fuel ->
  (exists s' n', loop fuel (extracts max grow a) s a = Val (s', pointers n) /\ sound max s' /\
     fsub a (roots s') = Some n' /\ pointers n' = repeat None (length (slots_of n))) /\
  (exists s' n', loop_range fuel (extracts max grow a) s a = Val (s', pointers n) /\ sound max s' /\
     fsub a (roots s') = Some n' /\ pointers n' = repeat None (length (slots_of n))).
Proof. exact @loop_extracts. Qed.
Print Assumptions C132_extracting_every_child.

Theorem C132_deleting_the_next_child :
  forall (V : Type) (max : N), (max < two64)%N -> forall (grow : nat -> nat -> nat -> nat)
         (s : kst V) (a : nat) (n : knode V) (fuel : nat),
  sound max s -> fsub a (roots s) = Some n -> length (slots_of n) <= fuel ->
  exists s' n', loop fuel (deletes max grow a S) s a = Val (s', every_second (pointers n)) /\ sound max s' /\
     fsub a (roots s') = Some n' /\ pointers n' = every_second (pointers n).
Proof. exact @loop_second. Qed.
Print Assumptions C132_deleting_the_next_child.

Theorem C132_adding_in_the_loop :
  forall (V : Type) (max : N), (max < two64)%N -> forall (grow : nat -> nat -> nat -> nat)
         (s : kst V) (a : nat) (n : knode V) (v : vec) (x : V) (fuel : nat),
  sound max s -> fsub a (roots s) = Some n -> nth_error (vecs s) a = Some v -> 0 < length (slots_of n) -> N.to_nat max <= fuel ->
  (N.to_nat max <= cap v \/ length (slots_of n) = N.to_nat max ->
     exists s' n', loop fuel (calls_on max grow a (CAdd x)) s a = Val (s', pointers n') /\ sound max s' /\
       fsub a (roots s') = Some n' /\ length (slots_of n') = N.to_nat max /\
       firstn (length (slots_of n)) (pointers n') = pointers n) /\
  (cap v < N.to_nat max /\ length (slots_of n) < N.to_nat max -> loop fuel (calls_on max grow a (CAdd x)) s a = UB).
Proof. exact @loop_adds. Qed.
Print Assumptions C132_adding_in_the_loop.

Theorem C132_adding_in_a_range_for :
  forall (V : Type) (max : N), (max < two64)%N -> forall (grow : nat -> nat -> nat -> nat)
         (s : kst V) (a : nat) (n : knode V) (x : V) (fuel : nat),
  sound max s -> fsub a (roots s) = Some n -> 0 < length (slots_of n) < N.to_nat max ->
  loop_range (S fuel) (calls_on max grow a (CAdd x)) s a = UB.
Proof. exact @range_adds. Qed.
Print Assumptions C132_adding_in_a_range_for.

Theorem C132_breaking_the_loop :
  forall (V : Type) (max : N), (max < two64)%N -> forall (grow : nat -> nat -> nat -> nat)
         (s : kst V) (a : nat) (n : knode V) (v : vec) (body : body_t) (c : call V) (fuel : nat),
  sound max s -> fsub a (roots s) = Some n -> nth_error (vecs s) a = Some v -> 0 < length (slots_of n) ->
  (forall x, body [] s x = (let* (s, _) := kcall max grow s a c in Val s)) ->
  (after_call max n v c 0 = false -> loop (S fuel) body s a = UB /\ loop_range (S fuel) body s a = UB) /\
  (after_call max n v c (length (slots_of n)) = false -> loop_reversed (S fuel) body s a = UB).
Proof. exact @broken_loop. Qed.
Print Assumptions C132_breaking_the_loop.

Theorem C132_deleting_the_child_at_hand :
  forall (V : Type) (max : N), (max < two64)%N -> forall (grow : nat -> nat -> nat -> nat)
         (s : kst V) (a : nat) (n : knode V) (g : nat -> nat) (fuel : nat),
  sound max s -> fsub a (roots s) = Some n -> 0 < length (slots_of n) ->
  (g 0 = 0 -> loop (S fuel) (deletes max grow a g) s a = UB /\ loop_range (S fuel) (deletes max grow a g) s a = UB) /\
  (g 0 < length (slots_of n) -> loop_reversed (S fuel) (deletes max grow a g) s a = UB).
Proof. exact @deleting_current. Qed.
Print Assumptions C132_deleting_the_child_at_hand.

(** int i = 0; for (auto c : n) n.delete_child(i++);  and the same from behind. *)
Theorem C132_children_can_be_deleted_in_a_loop_refuted :
  exists s : kst nat, reached 5 doubling s /\
    loop 9 (deletes 5 doubling 0 (fun t => t)) s 0 = UB /\
    loop_reversed 9 (deletes 5 doubling 0 (fun t => 2 - t)) s 0 = UB /\
    loop_range 9 (calls_on 5 doubling 0 CClear) s 0 = UB.
Proof. exists iter_state. split; [apply iter_reached|]. repeat (apply conj); vm_compute; reflexivity. Qed.
Print Assumptions C132_children_can_be_deleted_in_a_loop_refuted.

(** for (auto it = n.begin(); it != n.end(); ++it) n.add_child(8);  with room for 4
    children and width 5. *)
Theorem C132_children_can_be_added_in_a_loop_refuted :
  exists s : kst nat, reached 5 doubling s /\
    loop 9 (calls_on 5 doubling 0 (CAdd 8)) s 0 = UB /\ loop_range 9 (calls_on 5 doubling 0 (CAdd 8)) s 0 = UB.
Proof. exists iter_state. split; [apply iter_reached|]. repeat (apply conj); vm_compute; reflexivity. Qed.
Print Assumptions C132_children_can_be_added_in_a_loop_refuted.

(** With width 4 the loop meets its own new child; and what the theorems say of [iter_state]. *)
Example C132_case :
  sound 5 iter_state /\ sound 4 iter_state /\
  (exists s', loop 9 (calls_on 4 doubling 0 (CAdd 8)) iter_state 0 = Val (s', [Some 1; None; Some 3; Some 5])) /\
  (exists s', loop 9 (deletes 5 doubling 0 S) iter_state 0 = Val (s', [Some 1; Some 3])) /\
  (exists s', loop_reversed 9 (on_child 5 doubling (fun _ => CAdd 9)) iter_state 0 = Val (s', [Some 3; None; Some 1])) /\
  (exists s', loop 9 (extracts 5 doubling 0) iter_state 0 = Val (s', [Some 1; None; Some 3])) /\
  (forall t : nat, in_range 5 (CAdd t)).
Proof.
  split; [exact (reached_sound 5 five doubling _ (proj1 iter_reached))|].
  split; [refine (reached_sound 4 _ doubling _ _); [reflexivity|exists iter_calls; vm_compute; reflexivity]|].
  split; [eexists; vm_compute; reflexivity|]. split; [eexists; vm_compute; reflexivity|].
  split; [eexists; vm_compute; reflexivity|]. split; [eexists; vm_compute; reflexivity|]. intros t. exact Logic.I.
Qed.
