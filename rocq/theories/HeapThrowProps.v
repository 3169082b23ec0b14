(** C153: the array heap (heap.h) with moves that throw. *)
Require Import List Arith NArith Bool Permutation.
Require Import Verif.Base Verif.HeapModel Verif.HeapThrowModel Verif.HeapThrowSpec Verif.HeapThrowProofs.
Import ListNotations.
Local Open Scope N_scope.
Local Ltac run := repeat (apply conj); (vm_compute; reflexivity).

(** C153. A swap that returns, or throws std::out_of_range, did what it does when nothing throws (C54);
    the second changes nothing. *)
Theorem C153_swap_returned : forall T (hollow : T -> T) h o sc h' a sc',
  t_swap_op hollow h o sc = (h', a, sc') ->
  (a = Done -> as_before h o = Val h') /\ (a = Outside -> as_before h o = Exn OutOfRange /\ h' = h).
Proof. exact @swap_returned. Qed.
Print Assumptions C153_swap_returned.
Theorem C153_swap_quiet : forall T (hollow : T -> T) h o sc h' a sc', Forall (eq Fine) sc ->
  t_swap_op hollow h o sc = (h', a, sc') -> a <> Threw.
Proof. exact @swap_op_fine. Qed.
Print Assumptions C153_swap_quiet.
(** Whatever throws, and whatever it leaves, no other element is touched. *)
Theorem C153_swap_others : forall T (hollow : T -> T) h pos sc h' a sc',
  t_swap hollow h pos sc = (h', a, sc') -> same_but (fun k => k = pos \/ k = parent_of pos) h h'.
Proof. exact @swap_others. Qed.
Print Assumptions C153_swap_others.
(** If a move that throws leaves things as they were: a swap that throws changed nothing, or the element is
    lost and its parent in place, or the element is lost and its parent in its place. *)
Theorem C153_swap_threw : forall T (hollow : T -> T) h pos sc h' sc', Forall clean sc ->
  t_swap hollow h pos sc = (h', Threw, sc') ->
  exists x y, cell h pos = Some x /\ cell h (parent_of pos) = Some y /\
    (h' = h \/ h' = set_nth h (N.to_nat pos) (hollow x) \/
     h' = set_nth (set_nth h (N.to_nat pos) y) (N.to_nat (parent_of pos)) (hollow y)).
Proof. exact @swap_threw. Qed.
Print Assumptions C153_swap_threw.
(** Over a whole history of swaps no more elements are lost than exceptions were thrown; in the place of
    each is an element that was moved from. *)
Theorem C153_swaps_loss : forall T (hollow : T -> T) ops h sc, Forall clean sc ->
  let (h', l) := t_swaps hollow h ops sc in
  length h' = length h /\
  exists lost got, exchanged_for lost got h h' /\ length got = length lost /\
    Forall (fun y => exists x, y = hollow x) got /\ (length lost <= length (filter threw l))%nat.
Proof. exact @swaps_loss. Qed.
Print Assumptions C153_swaps_loss.
(** set_left, set_right and set_root: what returns did what C54 says and took the value; at() that throws changed
    nothing; an element operation that throws leaves the array, or the array grown by default elements, but for
    the position itself; if it leaves source and target as they were, also there, and the caller keeps the value. *)
Theorem C153_sets : forall T (d : T) (hollow : T -> T) h x sc h' x' a sc',
  (forall pos, pos < 2 ^ 61 -> t_set_left d hollow h pos x sc = (h', x', a, sc') ->
     ends_well d hollow h x sc (left_child_of pos) (set_left d h pos x) h' x' a) /\
  (forall pos, pos < 2 ^ 61 - 1 -> t_set_right d hollow h pos x sc = (h', x', a, sc') ->
     ends_well d hollow h x sc (right_child_of pos) (set_right d h pos x) h' x' a) /\
  (t_set_root hollow h x sc = (h', x', a, sc') -> ends_well d hollow h x sc 0 (set_root h x) h' x' a).
Proof. exact @sets_end. Qed.
Print Assumptions C153_sets.

Definition stop : fault nat := Fail None None.
(** Moved-from elements are 0. *)
Example C153_case :
  let hollow := fun _ : nat => 0%nat in
  Forall clean [Fine; stop; Fine; Fine; Fine; stop; stop] /\
  t_swaps hollow [1;2;3;4;5]%nat [Swap 4; SwapLeft 0; SwapRight 1; Swap 9; Swap 1; SwapLeft 7; Swap 2] [Fine; stop; Fine; Fine; stop; stop] =
    ([3;0;1;4;0]%nat, [Threw; Threw; Threw; Outside; Done; Done; Done]) /\
  t_swap hollow [1;2;3]%nat 2 [stop] = ([1;2;3]%nat, Threw, []) /\
  t_swap hollow [1;2;3]%nat 2 [Fine; stop] = ([1;2;0]%nat, Threw, []) /\
  t_swap hollow [1;2;3]%nat 2 [Fine; Fine; stop] = ([0;2;1]%nat, Threw, []) /\
  t_swap hollow [1;2;3]%nat 2 [Fine; Fail (Some 7%nat) (Some 8%nat)] = ([7;2;8]%nat, Threw, []) /\
  t_set_left 9%nat hollow [1;2;3]%nat 2 6%nat [Fine; stop] = ([1;2;3;9;9;9;9;9;9;9;9;9]%nat, 6%nat, Threw, []) /\
  t_set_left 9%nat hollow [1;2;3]%nat 1 6%nat [] = ([1;2;3]%nat, 6%nat, Outside, []) /\
  t_set_right 9%nat hollow [1;2;3]%nat 0 6%nat [] = ([1;2;6]%nat, 0%nat, Done, []) /\
  t_set_root hollow [1;2;3]%nat 6%nat [stop] = ([1;2;3]%nat, 6%nat, Threw, []).
Proof. cbv zeta. split; [repeat (apply Forall_cons; [exact I|]); apply Forall_nil|]. run. Qed.
(** Refuted: a swap that throws leaves the heap as it was, or at least the same elements. *)
Theorem C153_swap_strong_refuted : exists (hollow : nat -> nat) h pos sc h' sc', Forall clean sc /\
  t_swap hollow h pos sc = (h', Threw, sc') /\ ~ Permutation h h'.
Proof.
  exists (fun _ => 0%nat), [1;2]%nat, 1, [Fine; stop], [1;0]%nat, []. split; [repeat constructor|]. split; [reflexivity|].
  intros P. assert (In 2%nat [1;0]%nat) as [|[|[]]] by (apply (Permutation_in _ P); cbn; auto); discriminate.
Qed.
Print Assumptions C153_swap_strong_refuted.
(** The same for elements whose move is a copy: the parent is there twice. *)
Theorem C153_swap_copies_refuted : exists h pos sc h' sc', Forall clean sc /\
  t_swap (fun x : nat => x) h pos sc = (h', Threw, sc') /\ h = [1;2]%nat /\ h' = [1;1]%nat.
Proof. exists [1;2]%nat, 1, [Fine; Fine; stop], [1;1]%nat, []. split; [repeat constructor|]. repeat split. Qed.
Print Assumptions C153_swap_copies_refuted.
(** Refuted: a set_left that throws leaves the size as it was. *)
Theorem C153_set_strong_refuted : exists (d : nat) hollow h pos x sc h' x' sc', Forall clean sc /\
  t_set_left d hollow h pos x sc = (h', x', Threw, sc') /\ length h <> length h'.
Proof.
  exists 9%nat, (fun _ => 0%nat), [1;2;3]%nat, 2, 6%nat, [Fine; stop], [1;2;3;9;9;9;9;9;9;9;9;9]%nat, 6%nat, [].
  split; [repeat constructor|]. split; [reflexivity|discriminate].
Qed.
Print Assumptions C153_set_strong_refuted.
