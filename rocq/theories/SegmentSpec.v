(** Specification of the segment tree: a plain array of leaf values. *)
Require Import List Arith NArith ZArith Bool.
Require Import Verif.Base Verif.SegmentModel.
Import ListNotations.
Local Open Scope N_scope.

Section Lists.
Context {R : Type}.
(** All elements joined from left to right ([d] for no elements). *)
Definition total (join : R -> R -> R) (d : R) (xs : list R) : R :=
  match xs with [] => d | x :: r => fold_left join r x end.
(** The elements at the positions a..b of an array that starts at position s. *)
Fixpoint sub (s a b : N) (xs : list R) : list R :=
  match xs with
  | [] => []
  | x :: r => if (a <=? s) && (s <=? b) then x :: sub (s + 1) a b r else sub (s + 1) a b r
  end.
(** The array with [f] applied to the elements at the positions a..b. *)
Fixpoint change_range (f : N -> R -> R) (s a b : N) (xs : list R) : list R :=
  match xs with
  | [] => []
  | x :: r => (if (a <=? s) && (s <=? b) then f s x else x) :: change_range f (s + 1) a b r
  end.
End Lists.

Section Spec.
Context {T R U : Type}.
Variable tr : transform T R U.

(** [den u i x]: what the update [u] makes of the element [x] at position [i]. *)
Variable den : U -> N -> R -> R.

(** A content that takes in the elementwise change [f] over the range s..e: a
    leaf's value is changed; an inner node's value becomes the join of the changed
    elements and its pending update does what it did before and then [f]. *)
Definition absorbs (f : N -> R -> R) (s e : N) (c c' : R * U) : Prop :=
  (s = e -> fst c' = f s (fst c)) /\
  (s < e -> forall xs, sizeN xs = e - s + 1 -> fst c = total (join tr) (no_value tr) xs ->
     fst c' = total (join tr) (no_value tr) (change_range f s s e xs) /\
     forall i x, s <= i <= e -> den (snd c') i x = f i (den (snd c) i x)).

(** The laws a transform has to obey; [may s e c] tells when [apply] is called. *)
Record lawful_when (may : N -> N -> R * U -> Prop) : Prop := {
  law_assoc : forall x y z, join tr x (join tr y z) = join tr (join tr x y) z;
  law_inactive : forall u, active tr u = false -> forall i x, den u i x = x;
  law_no_update : active tr (no_update tr) = false;
  law_apply : forall s e c u, s <= e -> active tr u = true ->
    may s e c -> absorbs (den u) s e c (apply tr s e c u);
  law_propagate : forall s e n l r n' l' r', s < e -> active tr (snd n) = true ->
    propagate tr s e n l r = (n', l', r') ->
    active tr (snd n') = false /\
    absorbs (den (snd n)) s ((s + e) / 2) l l' /\
    absorbs (den (snd n)) ((s + e) / 2 + 1) e r r'
}.

(** [apply] is for leaves, for nodes that meet the criteria, and for nodes
    without pending update. *)
Definition lawful : Prop :=
  lawful_when (fun s e c => s = e \/ active tr (snd c) = false \/ criteria tr s e c = true).
(** What segment_tree.h:521-528 promises: [apply] is for leaves and for nodes that
    meet the criteria. *)
Definition lawful_as_documented : Prop :=
  lawful_when (fun s e c => s = e \/ criteria tr s e c = true).

(** The array of leaf values of a vector. *)
Definition leaves (v : list T) : list R :=
  map (fun p => build_leaf tr (fst p) (N.of_nat (snd p))) (combine v (seq 0 (length v))).
(** The plain array: [None] before anything was built. *)
Definition array := option (list R).
Definition clamp (n s : N) : N := N.min s (n - 1).
Definition spec_step (a : array) (o : op T U) : array * answer R :=
  match o, a with
  | ORebuild v k, _ =>
      let v := firstn (N.to_nat k) v in
      (match v with [] => a | _ => Some (leaves v) end, ADone)
  | _, None => (a, AExn NotBuilt)
  | OQuery s e, Some xs =>
      let lo := clamp (sizeN xs) (N.min s e) in
      let hi := clamp (sizeN xs) (N.max s e) in
      (a, AValue (total (join tr) (no_value tr) (sub 0 lo hi xs)))
  | OUpdate s e u, Some xs =>
      let lo := clamp (sizeN xs) (N.min s e) in
      let hi := clamp (sizeN xs) (N.max s e) in
      let xs := change_range (den u) 0 lo hi xs in
      (Some xs, AValue (total (join tr) (no_value tr) (sub 0 lo hi xs)))
  end.
(** From a call on, as on a plain array. *)
Fixpoint spec_run (a : array) (ops : list (op T U)) : array * list (answer R) :=
  match ops with
  | [] => (a, [])
  | o :: r => let (a, x) := spec_step a o in let (a, l) := spec_run a r in (a, x :: l)
  end.
End Spec.

(** The cells of the heap that a range of [n] elements at cell [pos] takes: the left
    half, the larger one, is at [2 pos + 1], the right half at [2 pos + 2]. *)
Inductive takes : N -> N -> N -> Prop :=
| takes_one pos n : takes pos n pos
| takes_left pos n q : 1 < n -> takes (2 * pos + 1) (n - n / 2) q -> takes pos n q
| takes_right pos n q : 1 < n -> takes (2 * pos + 2) (n / 2) q -> takes pos n q.
(** What the floating-point size computation must give: room for all cells. *)
Definition room (n size : N) : Prop := forall q, takes 0 n q -> q < size.
Definition enough (required : N -> N) : Prop := forall n, 0 < n < 2 ^ 60 -> room n (required n).
(** A computation of 4n with a relative error of at most 2^-31. *)
Definition close_to_4n (required : N -> N) : Prop :=
  forall n, 0 < n < 2 ^ 60 -> 4 * n * (2 ^ 31 - 1) <= required n * 2 ^ 31.

(** Sizes below 2^60 (a node takes at least 16 bytes); rebuilding only from
    something. *)
Definition fair {T U} (fuel : nat) (o : op T U) : Prop :=
  match o with
  | ORebuild v k => v <> [] /\ 0 < k /\ sizeN v < 2 ^ 60 /\ (length v <= fuel)%nat
  | _ => True
  end.

(** Three transforms a user could write, for the examples.  Sums with "add u to
    the range": *)
Definition add_to (s e : N) (c : Z * Z) (u : Z) : Z * Z :=
  (fst c + u * (Z.of_N (e - s) + 1), snd c + u)%Z.
Definition range_add : transform Z Z Z :=
  mkTransform Z Z Z Z.add (fun _ _ _ => true)
    (fun s e n l r => ((fst n, 0%Z), add_to s ((s + e) / 2) l (snd n), add_to ((s + e) / 2 + 1) e r (snd n)))
    add_to (fun x _ => x) (fun u => negb (Z.eqb u 0)) 0%Z 0%Z.
(** Minima with "set the range to z": *)
Definition set_to (c : Z * option Z) (u : option Z) : Z * option Z :=
  match u with None => c | Some z => (z, Some z) end.
Definition range_set : transform Z Z (option Z) :=
  mkTransform Z Z (option Z) Z.min (fun _ _ _ => false)
    (fun s e n l r => ((fst n, None), set_to l (snd n), set_to r (snd n)))
    (fun _ _ c u => set_to c u) (fun x _ => x) (fun u => match u with None => false | _ => true end) None 0%Z.
(** Sums with "add u", where an update is only ever applied to single elements
    (the criteria is false for every inner node): *)
Definition leafwise_add : transform Z Z Z :=
  mkTransform Z Z Z Z.add (fun _ _ _ => false)
    (fun s e n l r => ((fst n, 0%Z), add_to s ((s + e) / 2) l (snd n), add_to ((s + e) / 2 + 1) e r (snd n)))
    (fun s e c u => if s =? e then (fst c + u, snd c)%Z else c)
    (fun x _ => x) (fun u => negb (Z.eqb u 0)) 0%Z 0%Z.
Definition den_add (u : Z) (i : N) (x : Z) : Z := (x + u)%Z.
Definition den_set (u : option Z) (i : N) (x : Z) : Z := match u with None => x | Some z => z end.
