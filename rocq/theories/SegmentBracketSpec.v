(** Specification of the segment tree with updates when the join is not associative: a plain array
    whose ranges are joined with fixed brackets. *)
Require Import List Arith NArith ZArith Bool.
Require Import Verif.Base Verif.SegmentModel Verif.SegmentSpec Verif.SegmentOrderSpec.
Import ListNotations.
Local Open Scope N_scope.

(** The brackets around the positions a..b within the positions s..e, which are halved until a half
    is a single position; [fuel] halvings suffice. *)
Fixpoint shape (fuel : nat) (s e a b : N) : bracket :=
  match fuel with
  | O => One s
  | S fuel =>
      let c := (s + e) / 2 in
      if s =? e then One s
      else if b <=? c then shape fuel s c a b
      else if c <? a then shape fuel (c + 1) e a b
      else Two (shape fuel s c a c) (shape fuel (c + 1) e (c + 1) b)
  end.
Definition brackets (s e a b : N) : bracket := shape (N.to_nat (e - s)) s e a b.
Definition whole (s e : N) : bracket := brackets s e s e.

Section Spec.
Context {T R U : Type}.
Variable tr : transform T R U.
(** [den u i x]: what the update [u] makes of the element [x] at position [i]. *)
Variable den : U -> N -> R -> R.

(** As [absorbs] of SegmentSpec, with the brackets of the tree. *)
Definition takes_in (f : N -> R -> R) (s e : N) (c c' : R * U) : Prop :=
  (s = e -> fst c' = f s (fst c)) /\
  (s < e -> forall X, fst c = eval (join tr) X (whole s e) ->
     fst c' = eval (join tr) (fun i => f i (X i)) (whole s e) /\
     forall i x, s <= i <= e -> den (snd c') i x = f i (den (snd c) i x)).
(** The laws of [lawful] without associativity. *)
Record bracket_lawful : Prop := {
  bl_inactive : forall u, active tr u = false -> forall i x, den u i x = x;
  bl_no_update : active tr (no_update tr) = false;
  bl_apply : forall s e c u, s <= e -> active tr u = true ->
    (s = e \/ active tr (snd c) = false \/ criteria tr s e c = true) -> takes_in (den u) s e c (apply tr s e c u);
  bl_propagate : forall s e n l r n' l' r', s < e -> active tr (snd n) = true ->
    propagate tr s e n l r = (n', l', r') ->
    active tr (snd n') = false /\
    takes_in (den (snd n)) s ((s + e) / 2) l l' /\
    takes_in (den (snd n)) ((s + e) / 2 + 1) e r r'
}.

Definition element (xs : list R) (i : N) : R := nth (N.to_nat i) xs (no_value tr).
Definition joined (xs : list R) (s e : N) : R :=
  let n := sizeN xs in eval (join tr) (element xs) (brackets 0 (n - 1) (clamp n (N.min s e)) (clamp n (N.max s e))).
(** The calls on a plain array; [None] before anything was built. *)
Definition bracket_step (a : option (list R)) (o : op T U) : option (list R) * answer R :=
  match o, a with
  | ORebuild v k, _ => (Some (leaves tr (firstn (N.to_nat k) v)), ADone)
  | _, None => (a, AExn NotBuilt)
  | OQuery s e, Some xs => (a, AValue (joined xs s e))
  | OUpdate s e u, Some xs =>
      let n := sizeN xs in
      let xs := change_range (den u) 0 (clamp n (N.min s e)) (clamp n (N.max s e)) xs in
      (Some xs, AValue (joined xs s e))
  end.
Fixpoint bracket_run (a : option (list R)) (ops : list (op T U)) : option (list R) * list (answer R) :=
  match ops with
  | [] => (a, [])
  | o :: r => let (a, x) := bracket_step a o in let (a, l) := bracket_run a r in (a, x :: l)
  end.
End Spec.

(** Transforms a user could write.  The mean of two means, rounded down, with "add u to the range": *)
Definition mean (x y : Z) : Z := ((x + y) / 2)%Z.
Definition raise (c : Z * Z) (u : Z) : Z * Z := (fst c + u, snd c + u)%Z.
Definition range_mean : transform Z Z Z :=
  mkTransform Z Z Z mean (fun _ _ _ => true)
    (fun s e n l r => ((fst n, 0%Z), raise l (snd n), raise r (snd n)))
    (fun _ _ c u => raise c u) (fun x _ => x) (fun u => negb (Z.eqb u 0)) 0%Z 0%Z.
(** Differences with "multiply the range by u": *)
Definition scale (c : Z * Z) (u : Z) : Z * Z := (fst c * u, snd c * u)%Z.
Definition range_minus : transform Z Z Z :=
  mkTransform Z Z Z Z.sub (fun _ _ _ => true)
    (fun s e n l r => ((fst n, 1%Z), scale l (snd n), scale r (snd n)))
    (fun _ _ c u => scale c u) (fun x _ => x) (fun u => negb (Z.eqb u 1)) 1%Z 0%Z.
Definition den_mul (u : Z) (i : N) (x : Z) : Z := (x * u)%Z.
(** Any join with "set the range to z": *)
Definition assign {R} (j : R -> R -> R) (d : R) : transform R R (option R) :=
  mkTransform R R (option R) j (fun _ _ _ => true)
    (fun s e n l r => match snd n with Some z => ((fst n, None), (z, Some z), (z, Some z)) | None => (n, l, r) end)
    (fun _ _ c u => match u with Some z => (z, Some z) | None => c end)
    (fun x _ => x) (fun u => match u with Some _ => true | None => false end) None d.
Definition den_assign {R} (u : option R) (i : N) (x : R) : R := match u with Some z => z | None => x end.
(** Against the laws: means with "multiply the range by u", which rounding does not allow. *)
Definition scaled_mean : transform Z Z Z :=
  mkTransform Z Z Z mean (fun _ _ _ => true)
    (fun s e n l r => ((fst n, 1%Z), scale l (snd n), scale r (snd n)))
    (fun _ _ c u => scale c u) (fun x _ => x) (fun u => negb (Z.eqb u 1)) 1%Z 0%Z.
