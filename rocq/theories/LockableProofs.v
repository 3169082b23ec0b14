(** Proofs about the model of safe.h. *)
Require Import List Bool.
Require Import Verif.LockableModel.

Lemma construct_value : forall (V : Type) (copy move : V -> V * V) (d : V) a v,
  (forall x, fst (copy x) = x /\ snd (copy x) = x) -> (forall x, fst (move x) = x) ->
  value (fst (construct copy move a v)) = v /\ held (fst (construct copy move a v)) = None /\
  held (construct_default d) = None /\ value (construct_default d) = d /\
  (a <> Rvalue -> a <> LockableRvalue -> snd (construct copy move a v) = v).
Proof.
  intros V copy move d a v C M. specialize (C v). specialize (M v).
  destruct a; cbn; unfold construct_any, construct_const, construct_rvalue; destruct (copy v), (move v); cbn in *; intuition congruence.
Qed.
Lemma assign_value : forall (V : Type) (copy move : V -> V * V) b x v,
  (forall x, fst (copy x) = x /\ snd (copy x) = x) -> (forall x, fst (move x) = x) ->
  value (fst (assign copy move b x v)) = v /\ held (fst (assign copy move b x v)) = held x /\
  snd (assign copy move b x v) = if b then snd (move v) else v.
Proof.
  intros V copy move b x v C M. specialize (C v). specialize (M v).
  destruct b; cbn; unfold assign_rvalue, assign_const; destruct (copy v), (move v); cbn in *; intuition congruence.
Qed.
