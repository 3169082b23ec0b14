(** Proofs about pointer_comparison. *)
Require Import List Arith NArith Bool Lia Permutation.
Require Import Verif.Base Verif.PointerOrderModel Verif.PointerOrderSpec.
Require Verif.MsgQueueModel Verif.MsgQueueSpec Verif.MsgQueueProofs.
Import ListNotations.

Section Proofs.
Context {T : Type}.
Variable transform : T -> T -> bool.
Implicit Types (mem : nat -> option T) (p q : pointer).
Lemma deref_points : forall mem p x, deref mem p = Val x <-> points_to mem p x.
Proof.
  intros mem p x. unfold deref, points_to. split.
  - destruct p as [a|]; [|discriminate]. intros E. exists a. destruct (mem a); [|discriminate]. injection E as ->. auto.
  - intros (a & -> & ->). reflexivity.
Qed.
Lemma deref_not : forall mem p, ~ points mem p -> deref mem p = UB.
Proof.
  intros mem p N. unfold deref. destruct p as [a|]; [|reflexivity]. destruct (mem a) as [x|] eqn:E; [|reflexivity]. destruct N. exists x, a. auto.
Qed.
Lemma points_dec : forall mem p, points mem p \/ ~ points mem p.
Proof.
  intros mem [a|]; [|right; intros (x & a & E & _); discriminate]. destruct (mem a) as [x|] eqn:E.
  - left. exists x, a. auto.
  - right. intros (x & b & Q & M). injection Q as <-. congruence.
Qed.
Lemma order_is : forall mem p q x y, points_to mem p x -> points_to mem q y ->
  shared_order transform mem p q = Val (transform x y) /\ unique_order transform mem p q = Val (transform x y).
Proof.
  intros mem p q x y P Q. apply deref_points in P, Q. unfold shared_order, unique_order. now rewrite P, Q.
Qed.
Lemma order_UB : forall mem p q, ~ points mem p \/ ~ points mem q ->
  shared_order transform mem p q = UB /\ unique_order transform mem p q = UB.
Proof.
  intros mem p q N. unfold shared_order, unique_order. destruct (points_dec mem p) as [(x & P)|NP].
  - apply deref_points in P. rewrite P. cbn [bind]. rewrite (deref_not mem q); [auto|]. destruct N as [N|N]; [|trivial]. destruct N. exists x. now apply deref_points.
  - rewrite (deref_not mem p NP). auto.
Qed.
Lemma slot_is : forall mem slots s1 s2 p q, deref slots s1 = Val p -> deref slots s2 = Val q ->
  slot_order transform mem slots s1 s2 = shared_order transform mem p q.
Proof.
  intros mem slots s1 s2 p q E1 E2. unfold slot_order, shared_order. rewrite E1, E2. cbn [bind]. reflexivity.
Qed.
Lemma slot_UB : forall mem slots s1 s2, deref slots s1 = UB \/ deref slots s2 = UB -> slot_order transform mem slots s1 s2 = UB.
Proof.
  intros mem slots s1 s2 [E|E]; unfold slot_order; [now rewrite E|]. rewrite E.
  unfold deref at 1. destruct s1 as [a|]; [|reflexivity]. destruct (slots a) as [p|]; [|reflexivity]. cbn [bind].
  unfold deref. destruct p as [b|]; [|reflexivity]. now destruct (mem b).
Qed.
Lemma order_strict_weak : strict_weak (fun _ : T => True) (fun x y => transform x y = true) ->
  forall mem, strict_weak (points mem) (fun p q => shared_order transform mem p q = Val true).
Proof.
  intros (I1 & T1 & E1) mem.
  assert (K : forall p q x y, points_to mem p x -> points_to mem q y -> (shared_order transform mem p q = Val true <-> transform x y = true)).
  { intros p q x y P Q. rewrite (proj1 (order_is _ _ _ _ _ P Q)). split; [intros E; now injection E|now intros ->]. }
  split; [|split].
  - intros p (x & P). rewrite (K _ _ _ _ P P). now apply I1.
  - intros p q r (x & P) (y & Q) (z & R). rewrite (K _ _ _ _ P Q), (K _ _ _ _ Q R), (K _ _ _ _ P R). now apply T1.
  - intros p q r (x & P) (y & Q) (z & R). rewrite (K _ _ _ _ P Q), (K _ _ _ _ Q R), (K _ _ _ _ P R), (K _ _ _ _ Q P), (K _ _ _ _ R Q), (K _ _ _ _ R P). now apply E1.
Qed.
(** A call on pointers is the call on the objects. *)
Lemma as_objects : forall R mem (c : call pointer R) (d : call T R), alike (points_to mem) c d ->
  perform (shared_order transform mem) c = perform (fun x y => Val (transform x y)) d.
Proof.
  intros R mem c d A. induction A as [r|p q x y next next' P Q _ IH]; [reflexivity|]. cbn [perform].
  rewrite (proj1 (order_is _ _ _ _ _ P Q)). cbn [bind]. apply IH.
Qed.
Lemma defined_call : forall R mem (c : call pointer R), about (points mem) c -> exists r, perform (shared_order transform mem) c = Val r.
Proof.
  intros R mem c A. induction A as [r|p q next (x & P) (y & Q) _ IH]; [now eexists|]. cbn [perform].
  rewrite (proj1 (order_is _ _ _ _ _ P Q)). cbn [bind]. apply IH.
Qed.
(** It is undefined exactly if it asks about a pointer without object. *)
Lemma undefined_call : forall R mem answer (c : call pointer R),
  (forall p q x y, points_to mem p x -> points_to mem q y -> answer p q = transform x y) ->
  (perform (shared_order transform mem) c = UB <-> exists p q, In (p, q) (asks answer c) /\ (~ points mem p \/ ~ points mem q)).
Proof.
  intros R mem answer c H. induction c as [r|p q next IH]; cbn [perform asks].
  - split; [discriminate|intros (p & q & [] & _)].
  - destruct (points_dec mem p) as [(x & P)|NP]; [destruct (points_dec mem q) as [(y & Q)|NQ]|].
    + rewrite (proj1 (order_is _ _ _ _ _ P Q)). cbn [bind]. rewrite (H _ _ _ _ P Q), IH. split.
      * intros (p' & q' & I1 & N). exists p', q'. split; [now right|trivial].
      * intros (p' & q' & [E|I1] & N); [|now exists p', q']. injection E as <- <-. destruct N as [N|N]; destruct N; eexists; eassumption.
    + rewrite (proj1 (order_UB mem p q (or_intror NQ))). split; [intros _; exists p, q; split; [now left|now right]|reflexivity].
    + rewrite (proj1 (order_UB mem p q (or_introl NP))). split; [intros _; exists p, q; split; [now left|now left]|reflexivity].
Qed.
(** Objects that nobody asks about may change. *)
Lemma written_other : forall R mem a x (c : call pointer R), about (fun p => p <> Some a) c ->
  perform (shared_order transform (written mem a x)) c = perform (shared_order transform mem) c.
Proof.
  intros R mem a x c A.
  assert (D : forall p, p <> Some a -> deref (written mem a x) p = deref mem p).
  { intros [b|] N; [|reflexivity]. unfold deref, written. destruct (Nat.eqb_spec a b) as [->|_]; [congruence|reflexivity]. }
  induction A as [r|p q next P Q _ IH]; [reflexivity|]. cbn [perform].
  assert (E : shared_order transform (written mem a x) p q = shared_order transform mem p q) by (unfold shared_order; now rewrite !D by trivial).
  rewrite E. destruct (shared_order transform mem p q) as [b| | |]; cbn [bind]; auto.
Qed.
(** Pointers to the same object are never told apart. *)
Lemma same_object : (forall x, transform x x = false) -> forall mem p, points mem p -> shared_order transform mem p p = Val false.
Proof. intros I1 mem p (x & P). rewrite (proj1 (order_is _ _ _ _ _ P P)). now rewrite I1. Qed.
(** The message queue. *)
Lemma queue_order : forall mem select n sched (s : MsgQueueModel.state pointer) l1 m l2 x,
  (forall ws w, nth_error ws (select ws) = Some w -> forall v, In v ws -> shared_order transform mem w v <> Val true) ->
  MsgQueueModel.run select sched (MsgQueueModel.init n) = Some s -> MsgQueueModel.log s = l1 ++ MsgQueueModel.Took m :: l2 ->
  points_to mem m x ->
  exists waiting, Permutation (MsgQueueSpec.received l2) (map fst (MsgQueueSpec.gone l2) ++ waiting) /\ In m waiting /\
    forall p y, In p waiting -> points_to mem p y -> transform x y = false.
Proof.
  intros mem select n sched s l1 m l2 x G E L P.
  destruct (MsgQueueProofs.greatest_ok select (fun p q => match shared_order transform mem p q with Val true => true | _ => false end) n sched s l1 m l2) as (ws & W1 & W2 & W3); trivial.
  - intros ws w N v I1. specialize (G ws w N v I1). destruct (shared_order transform mem w v) as [[|]| | |]; congruence.
  - exists ws. split; [trivial|]. split; [trivial|]. intros p y I1 Q. specialize (W3 p I1). rewrite (proj1 (order_is _ _ _ _ _ P Q)) in W3. now destruct (transform x y).
Qed.
End Proofs.
