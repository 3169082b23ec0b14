(** Specification of the segment tree with a transform that throws. *)
Require Import List NArith ZArith.
Require Import Verif.Base Verif.SegmentModel Verif.SegmentSpec Verif.SegmentBracketSpec Verif.SegmentThrowModel.
Import ListNotations.
Local Open Scope N_scope.

(** As [fair], with enough fuel for the nodes of the tree. *)
Definition throw_fair {T U} (required : N -> N) (fuel : nat) (o : op T U) : Prop :=
  fair fuel o /\
  match o with ORebuild v _ => forall n, n <= sizeN v -> required n < 2 ^ N.of_nat fuel | _ => True end.
(** Operations of the transform that throw leave the nodes as they were. *)
Definition clean {R U} (sc : @script R U) : Prop :=
  Forall (fun m => match m with Some (Dirty _ _ _) => False | _ => True end) sc.
(** [propagate] leaves the value of the node; the children take in the pending update. *)
Definition keeps_value {T R U} (tr : transform T R U) : Prop :=
  forall s e n l r, fst (fst (fst (propagate tr s e n l r))) = fst n.

(** What the pending updates of a node do to the elements, whatever its value is: a leaf takes in
    [f], an inner node's pending update does what it did before and then [f]. *)
Definition passes {R U} (den : U -> N -> R -> R) (f : N -> R -> R) (s e : N) (c c' : R * U) : Prop :=
  (s = e -> fst c' = f s (fst c)) /\
  (s < e -> forall i x, s <= i <= e -> den (snd c') i x = f i (den (snd c) i x)).
Record composes {T R U} (tr : transform T R U) (den : U -> N -> R -> R) : Prop := {
  cp_inactive : forall u, active tr u = false -> forall i x, den u i x = x;
  cp_apply : forall s e c u, s <= e -> active tr u = true ->
    (s = e \/ active tr (snd c) = false \/ criteria tr s e c = true) -> passes den (den u) s e c (apply tr s e c u);
  cp_propagate : forall s e n l r n' l' r', s < e -> active tr (snd n) = true ->
    propagate tr s e n l r = (n', l', r') ->
    active tr (snd n') = false /\
    passes den (den (snd n)) s ((s + e) / 2) l l' /\
    passes den (den (snd n)) ((s + e) / 2 + 1) e r r'
}.

(** What is known of the elements of a tree whose transform may throw. *)
Inductive knowledge (R : Type) : Type := Unbuilt | Known (xs : list R) | Lost.
Arguments Unbuilt {R}.
Arguments Known {R} xs.
Arguments Lost {R}.
Section Spec.
Context {T R U : Type}.
Variable tr : transform T R U.
Variable den : U -> N -> R -> R.
(** Some elements of the range [a..b] have taken in the update, the others are as they were. *)
Definition some_changed (u : U) (a b : N) (xs ys : list R) : Prop :=
  length ys = length xs /\
  forall i, i < sizeN xs ->
    element tr ys i = element tr xs i \/ (a <= i <= b /\ element tr ys i = den u i (element tr xs i)).
(** [fits a o r a']: with the knowledge [a] the call [o] may end with [r], which leaves [a']. *)
Definition fits (a : knowledge R) (o : op T U) (r : ended (answer R)) (a' : knowledge R) : Prop :=
  match o, r, a with
  | ORebuild v k, Returned x, _ => x = ADone /\ a' = Known (leaves tr (firstn (N.to_nat k) v))
  | ORebuild _ _, Thrown, Unbuilt => a' = Unbuilt
  | ORebuild _ _, Thrown, _ => a' = Lost
  | _, _, Lost => a' = Lost
  | _, _, Unbuilt => r = Returned (AExn NotBuilt) /\ a' = Unbuilt
  | OQuery s e, _, Known xs =>
      let n := sizeN xs in
      a' = Known xs /\
      forall x, r = Returned x -> clamp n s = clamp n e -> x = AValue (element tr xs (clamp n s))
  | OUpdate s e u, Returned _, Known xs =>
      let n := sizeN xs in a' = Known (change_range (den u) 0 (clamp n (N.min s e)) (clamp n (N.max s e)) xs)
  | OUpdate s e u, Thrown, Known xs =>
      let n := sizeN xs in
      exists ys, a' = Known ys /\ some_changed u (clamp n (N.min s e)) (clamp n (N.max s e)) xs ys
  end.
Fixpoint explains (a : knowledge R) (ops : list (op T U)) (l : list (ended (answer R))) : Prop :=
  match ops, l with
  | [], [] => True
  | o :: ops, r :: l => exists a', fits a o r a' /\ explains a' ops l
  | _, _ => False
  end.
End Spec.
(** Only queries throw. *)
Definition queries_throw {T R U} (ops : list (op T U)) (l : list (ended (answer R))) : Prop :=
  Forall2 (fun o r => r = Thrown -> match o with OQuery _ _ => True | _ => False end) ops l.

(** Means of integers with "add to the range": the calls [ops], where [n] points go well and the next
    one throws; the size, whether the tree is built, and what the calls answered. *)
Definition play (n : nat) (m : mishap (Z * Z)) (ops : list (op Z Z)) : outcome (N * bool * list (ended (answer Z))) :=
  let* (t, l) := t_run range_mean (fun n => 4 * n) 9 empty_tree ops (repeat None n ++ [Some m]) in Val (size t, built_heap t, l).
