(** What a user expects of a cache after an exception. *)
Require Import List NArith Bool.
Require Import Verif.Base Verif.LruModel Verif.LruSpec.
Import ListNotations.

Section Spec.
Context {K : Type} (keq : forall a b : K, {a = b} + {a <> b}).

(** From here on the cache answers every sequence of calls as a recency list
    with the keys it shows now. *)
Definition usable (c : cache K) : Prop :=
  forall ops : list (cop K),
  match rrun keq (mkR (values c) (capacity c) (clipped c) (last_operation c)) ops with
  | None => crun keq c ops = UB
  | Some (_, rs) => exists c', crun keq c ops = Val (c', rs)
  end.

(** Two caches show the same keys in the same order and have the same
    capacity. *)
Definition same_contents (c c' : cache K) : Prop :=
  values c' = values c /\ capacity c' = capacity c /\
  forall k, contains keq c' k = contains keq c k.

(** Nothing throws. *)
Definition never (fs : list bool) : Prop := Forall (fun b => b = false) fs.
End Spec.

(** What is known of the double arithmetic of cache.h:190: below 2^58 the
    product fits into size_t and is not below the capacity, from 2^59 on it
    does not fit (59 * 2^58 < 2^64 < 60 * 2^59). *)
Definition computed (needed : N -> option N) : Prop :=
  (forall n, (1 <= n < 2 ^ 58)%N -> exists m, needed n = Some m /\ (n <= m)%N) /\
  (forall n, (2 ^ 59 <= n)%N -> needed n = None).

(** The exact product, rounded down, as an instance. *)
Definition needed_floor (n : N) : option N :=
  let m := (n * (1 + N.log2 n))%N in
  if (m <? two64)%N then Some m else None.

(** The lookup and the list of the cache do not agree about key [k]. *)
Definition disagree {K} (keq : forall a b : K, {a = b} + {a <> b}) (c : cache K) (k : K) : Prop :=
  contains keq c k <> mem keq k (values c).
