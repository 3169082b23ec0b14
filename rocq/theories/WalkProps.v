(** C115: in_order of k-ary trees (tree.h) in several threads, or started by the
    callback of another one.  [start l]: for each traversal its callback and tree. *)
Require Import List Arith NArith Bool.
Require Import Verif.Base Verif.TraverseModel Verif.TraverseSpec Verif.TraverseProofs Verif.WalkModel Verif.WalkSpec Verif.WalkProofs.
Import ListNotations.
Local Ltac run := repeat (apply conj); (vm_compute; reflexivity).

(** A traversal alone makes the calls of C47 and C97. *)
Theorem C115_alone : forall V f (t : ktree V) sched s h n, run sched (start [(f, t)]) = Some s -> nth_error (threads s) 0 = Some h ->
  at_ h = Done n -> exists b, kin_order f t [] = (made h, n, b).
Proof. exact @alone_exact. Qed.
Print Assumptions C115_alone.
(** With others it ends, too: there is a bound on the number of its steps that
    depends on the tree only, and until it is done it can always make another one. *)
Theorem C115_ends : forall V (t : ktree V), exists most, forall l sched s i f, run sched (start l) = Some s ->
  nth_error l i = Some (f, t) -> count_occ Nat.eq_dec sched i <= most /\
  exists h, nth_error (threads s) i = Some h /\ ((exists n, at_ h = Done n) \/ step i s <> None).
Proof. exact @walks_end. Qed.
Print Assumptions C115_ends.

(** The trees 1(2, 3) and 4(5); the callbacks never answer true, except that of the
    second tree on 4. *)
Local Definition k2 : ktree nat := KNode 2 [].
Local Definition k3 : ktree nat := KNode 3 [].
Local Definition k1 : ktree nat := KNode 1 [Some k2; Some k3].
Local Definition k5 : ktree nat := KNode 5 [].
Local Definition k4 : ktree nat := KNode 4 [Some k5].
Local Definition on (v : nat) (past : list (ktree nat)) (t : ktree nat) : bool := Nat.eqb (kvalue t) v.
Local Definition end_of (o : option (state nat)) : state nat := match o with Some s => s | None => start [] end.
Local Definition two := [(never, k1); (on 4, k4)].
(** The second traversal runs to its end in the callback of the first on node 2, that
    is in the same thread or in another one: the first ends after that call. *)
Local Definition s1 : state nat := end_of (run (repeat 0 4 ++ repeat 1 10 ++ repeat 0 3) (start two)).
Theorem C115_cut_off_refuted : exists (t u : ktree nat) f a b c s h g n m,
  run (repeat 0 a ++ repeat 1 b ++ repeat 0 c) (start [(never, t); (f, u)]) = Some s /\
  threads s = [h; g] /\ at_ h = Done n /\ at_ g = Done m /\ fits t /\ kin t <> made h.
Proof.
  exists k1, k4, (on 4), 4, 10, 3, s1. eexists _, _, _, _. split; [vm_compute; reflexivity|]. split; [vm_compute; reflexivity|].
  split; [vm_compute; reflexivity|]. split; [vm_compute; reflexivity|]. split; [repeat split|discriminate].
Qed.
Print Assumptions C115_cut_off_refuted.
(** A traversal that is told to stop goes on if another one begins at that moment. *)
Local Definition s2 : state nat := end_of (run (repeat 0 8 ++ [1] ++ repeat 0 9) (start [(on 1, k1); (never, k4)])).
Theorem C115_goes_on_refuted : exists (t u : ktree nat) f sched s h g n p x q,
  run sched (start [(f, t); (never, u)]) = Some s /\ threads s = [h; g] /\ at_ h = Done n /\
  made h = p ++ x :: q /\ f p x = true /\ slots_of x <> [] /\ q <> [].
Proof.
  exists k1, k4, (on 1), (repeat 0 8 ++ [1] ++ repeat 0 9), s2. eexists _, _, _, [k2], k1, [k3].
  do 5 (split; [vm_compute; reflexivity|]). split; discriminate.
Qed.
Print Assumptions C115_goes_on_refuted.
(** Two traversals in two threads are a data race, whatever their callbacks answer:
    both begin with a write of the static variable. *)
Theorem C115_race_refuted : forall V f g (t u : ktree V), exists sched s x y, run sched (start [(f, t); (g, u)]) = Some s /\
  threads s = [x; y] /\ races (accesses (at_ x)) (accesses (at_ y)).
Proof.
  intros V f g t u. exists [], (start [(f, t); (g, u)]), (begin f t), (begin g u). split; [reflexivity|]. split; [reflexivity|].
  exists true, true. cbn. auto.
Qed.
Print Assumptions C115_race_refuted.
(** What holds if the accesses are taken one after the other: as long as no callback
    answers true, every traversal makes the calls it makes alone, *)
Theorem C115_undisturbed_partial : forall V (l : list ((list (ktree V) -> ktree V -> bool) * ktree V)) sched s,
  run sched (start l) = Some s -> (forall i h, nth_error (threads s) i = Some h -> unbroken (cb h) (made h)) ->
  forall i f t h n, nth_error l i = Some (f, t) -> nth_error (threads s) i = Some h -> at_ h = Done n ->
  kin_order f t [] = (made h, n, false).
Proof. exact @undisturbed. Qed.
Print Assumptions C115_undisturbed_partial.
(** which are all of them if the callbacks never answer true. *)
Theorem C115_complete_partial : forall V (l : list (ktree V)) sched s, run sched (start (map (pair never) l)) = Some s ->
  forall i t h n, nth_error l i = Some t -> nth_error (threads s) i = Some h -> at_ h = Done n -> fits t ->
  made h = kin t /\ n = kcount t.
Proof. exact @complete. Qed.
Print Assumptions C115_complete_partial.
(** Three traversals, two of the same tree, in turns. *)
Local Definition three := [(@never (ktree nat), k1); (never, k4); (never, k1)].
Local Definition turns : list nat := concat (repeat [0; 1; 2] 11) ++ concat (repeat [2; 0] 6).
Local Definition s3 : state nat := end_of (run turns (start three)).
Example C115_case : run turns (start three) = Some s3 /\ fits k1 /\ fits k4 /\ flag s3 = false /\
  map (fun h => (made h, at_ h)) (threads s3) = [([k2; k1; k3], Done 3); ([k5; k4], Done 2); ([k2; k1; k3], Done 3)] /\
  run (repeat 0 10) (start [(on 4, k4)]) = Some (end_of (run (repeat 0 10) (start [(on 4, k4)]))) /\
  map at_ (threads (end_of (run (repeat 0 10) (start [(on 4, k4)])))) = [Done 2].
Proof. split; [vm_compute; reflexivity|]. split; [repeat split|]. split; [repeat split|]. run. Qed.
