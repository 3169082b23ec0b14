(** Specification of the segment tree when the join is not associative: which joins an answer is
    made of. *)
Require Import List Arith NArith ZArith Bool.
Require Import Floats.SpecFloat.
Require Import Verif.Base Verif.Cint Verif.SegmentModel Verif.SegmentSpec Verif.DoubleModel Verif.DoubleSpec.
Import ListNotations.
Local Open Scope N_scope.

(** A way to put brackets around the elements at some positions. *)
Inductive bracket : Type := One (i : N) | Two (l r : bracket).
(** The positions from left to right, the joins one inside the other, and the value. *)
Fixpoint flatten (t : bracket) : list N :=
  match t with One i => [i] | Two l r => flatten l ++ flatten r end.
Fixpoint depth (t : bracket) : N :=
  match t with One _ => 0 | Two l r => 1 + N.max (depth l) (depth r) end.
Fixpoint eval {R} (join : R -> R -> R) (x : N -> R) (t : bracket) : R :=
  match t with One i => x i | Two l r => join (eval join x l) (eval join x r) end.
(** The positions lo, lo + 1, ..., hi. *)
Definition from_to (lo hi : N) : list N := map (fun i => lo + N.of_nat i) (seq 0 (S (N.to_nat (hi - lo)))).
(** No update changes anything. *)
Definition read_only {T R U} (tr : transform T R U) : Prop := forall u, active tr u = false.
(** The value of the leaf at position [i]. *)
Definition leaf_at {T R U} (tr : transform T R U) (v : list T) (i : N) : R :=
  nth (N.to_nat i) (leaves tr v) (no_value tr).
(** The calls build(v, k); query(s, e) on whatever tree give the answer [r]; the query changes
    nothing. *)
Definition answers {T R U} (tr : transform T R U) (v : list T) (k s e : N) (r : R) : Prop :=
  forall required, enough required -> forall fuel t0, (length v <= fuel)%nat ->
  exists t, build tr required fuel t0 v k = Val t /\ query tr fuel t s e = Val (t, r).

(** For every transform and every [n] elements the answer to a query of lo..hi is the value of
    the bracketing [b]. *)
Definition always (n lo hi : N) (b : bracket) : Prop := forall T R U (tr : transform T R U), read_only tr ->
  forall v k s e, let w := firstn (N.to_nat k) v in sizeN w = n -> sizeN v < 2 ^ 60 ->
  clamp n (N.min s e) = lo -> clamp n (N.max s e) = hi ->
  answers tr v k s e (eval (join tr) (leaf_at tr w) b).

(** Three transforms a user could write.  Sums of doubles; *)
Definition double_sum : transform double double unit :=
  mkTransform double double unit dadd (fun _ _ _ => true) (fun _ _ n l r => (n, l, r)) (fun _ _ n _ => n)
    (fun x _ => x) (fun _ => false) tt (S754_zero false).
(** minima of doubles with std::min (math_operation.h:120-130); *)
Definition dmin (a b : double) : double := if dlt b a then b else a.
Definition double_min : transform double double unit :=
  mkTransform double double unit dmin (fun _ _ _ => true) (fun _ _ n l r => (n, l, r)) (fun _ _ n _ => n)
    (fun x _ => x) (fun _ => false) tt (S754_zero false).
(** sums of signed integers of [b] bits, where [None] is what an overflow leaves behind. *)
Definition checked_sum (b : Z) : transform Z (option Z) unit :=
  mkTransform Z (option Z) unit
    (fun x y => match x, y with
                | Some x, Some y => match chk b (x + y)%Z with Val z => Some z | _ => None end
                | _, _ => None
                end)
    (fun _ _ _ => true) (fun _ _ n l r => (n, l, r)) (fun _ _ n _ => n)
    (fun x _ => Some x) (fun _ => false) tt (Some 0%Z).

(** Sums of elements and of their magnitudes. *)
Definition zsum (l : list Z) : Z := fold_right Z.add 0%Z l.
Definition magnitudes (l : list double) : Z := zsum (map (fun x => Z.abs (units x)) l).
(** No node of the tree holds the result of an overflow. *)
Definition calm (t : tree (option Z) unit) : Prop := Forall (fun n => value n <> None) (heap t).
(** Every sum of neighbours is a value of the type. *)
Definition all_sums_fit (b : Z) (v : list Z) : Prop :=
  forall a w c, v = a ++ w ++ c -> fits b (zsum w).
Definition sums_small (v : list Z) : Prop := forall a w c, v = a ++ w ++ c -> small (zsum w).
(** [r] is the sum of [w] up to 2^-52 of the magnitudes for each level of a tree of [n] elements. *)
Definition nearly (n : N) (w : list double) (r : double) : Prop :=
  (2 ^ 52 * Z.abs (units r - zsum (map units w)) <= Z.of_N (N.log2_up n) * magnitudes w)%Z.
