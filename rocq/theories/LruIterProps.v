(** Properties C125 and C126: iterators of and loops over the LRU cache
    (structures/cache.h). *)
Require Import List NArith Bool Arith.
Require Import Verif.Base Verif.LruModel Verif.LruSpec Verif.LruProofs
  Verif.LruIterModel Verif.LruIterSpec Verif.LruIterProofs.
Import ListNotations.

(** A cache of capacity 3 with the keys 6, 5, 4. *)
Definition iter_calls : list (cop nat) :=
  [CAdd 1; CIndex 2; CAdd 3; CFind 1; CIndex 4; CRemove 3; CAdd 5; CAdd 5; CAdd 6].
Definition iter_cache : cache nat :=
  Eval vm_compute in match crun Nat.eq_dec (mkC 3 0 false [] [] 0) iter_calls with
                     | Val (c, _) => c | _ => mkC 3 0 false [] [] 0 end.
Example iter_reached : reached Nat.eq_dec iter_cache /\ values iter_cache = [6; 5; 4].
Proof.
  split; [|reflexivity]. eexists (mkC 3 0 false [] [] 0), iter_calls, _. split.
  - right. exists 3%N. reflexivity.
  - vm_compute. reflexivity.
Qed.

(** A cache of capacity 9 with the keys 3, 2, 1. *)
Definition wide_cache : cache nat :=
  Eval vm_compute in match crun Nat.eq_dec (mkC 9 0 false [] [] 0) [CAdd 1; CAdd 2; CAdd 3] with
                     | Val (c, _) => c | _ => mkC 9 0 false [] [] 0 end.
Example wide_reached : reached Nat.eq_dec wide_cache /\ values wide_cache = [3; 2; 1].
Proof.
  split; [|reflexivity]. eexists (mkC 9 0 false [] [] 0), [CAdd 1; CAdd 2; CAdd 3], _. split.
  - right. exists 9%N. reflexivity.
  - vm_compute. reflexivity.
Qed.

(** C125 *)
Theorem C125_what_invalidates :
  forall (K : Type) (keq : forall a b : K, {a = b} + {a <> b}) (c : cache K) (o : cop K)
         (c' : cache K) (r : cout K) (discarded : list K) (i : node_id) (k : K),
  reached keq c -> deref c (At i) = Val k -> cstep keq c o = Val (c', r, discarded) ->
  (ends (values c) k o discarded -> deref c' (At i) = UB) /\
  (~ ends (values c) k o discarded -> deref c' (At i) = Val k).
Proof. exact @what_invalidates. Qed.
Print Assumptions C125_what_invalidates.

Theorem C125_never_valid_again :
  forall (K : Type) (keq : forall a b : K, {a = b} + {a <> b}) (c : cache K) (i : node_id) (k : K)
         (ops : list (cop K)) (c1 : cache K) rs (later : list (cop K)) (c2 : cache K) rs',
  reached keq c -> deref c (At i) = Val k ->
  crun keq c ops = Val (c1, rs) -> crun keq c1 later = Val (c2, rs') ->
  (deref c1 (At i) = Val k \/ deref c1 (At i) = UB) /\
  (deref c1 (At i) = UB -> deref c2 (At i) = UB).
Proof. exact @never_valid_again. Qed.
Print Assumptions C125_never_valid_again.

Theorem C125_find_answers_the_front :
  forall (K : Type) (keq : forall a b : K, {a = b} + {a <> b}) (c : cache K) (k : K)
         (c' : cache K) (b : bool) (r : option K),
  reached keq c -> find keq c k = Val (c', (b, r)) -> b = true -> deref c' (begin_ c') = Val k.
Proof. exact @found_iterator. Qed.
Print Assumptions C125_find_answers_the_front.

(** const auto& x = cache[5]; cache[6]; cache[5]; then x dangles although 5 was
    never removed. *)
Theorem C125_valid_while_present_refuted :
  exists (c c1 c2 c3 : cache nat) k1 k2 k3 i,
    reached Nat.eq_dec c /\
    index Nat.eq_dec c 5 = Val (c1, k1, []) /\ begin_ c1 = At i /\ deref c1 (At i) = Val 5 /\
    index Nat.eq_dec c1 6 = Val (c2, k2, []) /\ deref c2 (At i) = Val 5 /\
    index Nat.eq_dec c2 5 = Val (c3, k3, []) /\ contains Nat.eq_dec c3 5 = true /\
    deref c3 (At i) = UB.
Proof.
  exists iter_cache. do 3 eexists. exists 5, 6, 5. eexists. split; [apply iter_reached|].
  repeat (apply conj); vm_compute; reflexivity.
Qed.
Print Assumptions C125_valid_while_present_refuted.

Example C125_case : reached Nat.eq_dec iter_cache /\ deref iter_cache (At 5) = Val 5 /\
  exists c' r, cstep Nat.eq_dec iter_cache (CAdd 7) = Val (c', r, [4]) /\
    ~ ends (values iter_cache) 5 (CAdd 7) [4] /\ ends (values iter_cache) 4 (CAdd 7) [4] /\
    deref c' (At 5) = Val 5 /\ deref c' (At 4) = UB.
Proof.
  split; [apply iter_reached|]. split; [reflexivity|]. do 2 eexists. split; [vm_compute; reflexivity|].
  split; [intros [[X|[]]|[X|[X|[[X|X] _]]]]; discriminate|]. split; [left; left; reflexivity|].
  split; vm_compute; reflexivity.
Qed.

(** C126 *)
Theorem C126_const_loops :
  forall (K : Type) (keq : forall a b : K, {a = b} + {a <> b}) (c : cache K)
         (body : K -> list (cop K)) (fuel : nat),
  reached keq c -> (forall k, Forall const_call (body k)) -> length (values c) <= fuel ->
  for_each keq fuel c (begin_ c) body = Val (c, values c).
Proof. exact @const_loop_visits. Qed.
Print Assumptions C126_const_loops.

Theorem C126_const_reversed_loops :
  forall (K : Type) (keq : forall a b : K, {a = b} + {a <> b}) (c : cache K)
         (body : K -> list (cop K)) (fuel : nat),
  reached keq c -> (forall k, Forall const_call (body k)) -> length (values c) <= fuel ->
  for_each_reversed keq fuel c (end_ c) body = Val (c, rev (values c)).
Proof. exact @const_reversed_loop_visits. Qed.
Print Assumptions C126_const_reversed_loops.

Theorem C126_loops_that_add :
  forall (K : Type) (keq : forall a b : K, {a = b} + {a <> b}) (c : cache K)
         (new_keys : K -> list K) (fuel : nat),
  reached keq c -> length (values c) <= fuel ->
  (csize c + sizeN (flat_map new_keys (values c)) <= capacity c)%N ->
  exists c' extra,
    for_each keq fuel c (begin_ c) (fun k => map CAdd (new_keys k)) = Val (c', values c) /\
    values c' = extra ++ values c /\
    (forall k, In k (values c') <-> In k (values c) \/ In k (flat_map new_keys (values c))).
Proof. exact @loop_that_adds. Qed.
Print Assumptions C126_loops_that_add.

Theorem C126_loops_that_look_up :
  forall (K : Type) (keq : forall a b : K, {a = b} + {a <> b}) (c : cache K) (fuel : nat),
  reached keq c -> 2 <= fuel ->
  for_each keq fuel c (begin_ c) (fun k => [CFind k]) =
  if (2 <=? csize c)%N then UB else Val (c, values c).
Proof. exact @loop_that_looks_up. Qed.
Print Assumptions C126_loops_that_look_up.

Theorem C126_loops_that_remove :
  forall (K : Type) (keq : forall a b : K, {a = b} + {a <> b}) (c : cache K) (fuel : nat),
  reached keq c -> values c <> [] -> 1 <= fuel ->
  for_each keq fuel c (begin_ c) (fun k => [CRemove k]) = UB.
Proof. exact @loop_that_removes. Qed.
Print Assumptions C126_loops_that_remove.

Theorem C126_reversed_loops_that_look_up :
  forall (K : Type) (keq : forall a b : K, {a = b} + {a <> b}) (c : cache K) (fuel : nat),
  reached keq c -> length (values c) <= fuel ->
  exists c', for_each_reversed keq fuel c (end_ c) (fun k => [CFind k]) =
             Val (c', met_backwards keq (length (values c)) (values c)) /\
    length (met_backwards keq (length (values c)) (values c)) = length (values c) /\
    forall l y z, values c = l ++ [y; z] ->
      ~ In y (met_backwards keq (length (values c)) (values c)).
Proof. exact @reversed_loop_that_looks_up. Qed.
Print Assumptions C126_reversed_loops_that_look_up.

(** Looking every key up in a loop: undefined forwards, backwards the key 5 is
    never met and 6 twice. *)
Theorem C126_every_key_once_refuted :
  exists (c c' : cache nat), reached Nat.eq_dec c /\ values c = [6; 5; 4] /\
    for_each Nat.eq_dec 3 c (begin_ c) (fun k => [CFind k]) = UB /\
    for_each_reversed Nat.eq_dec 3 c (end_ c) (fun k => [CFind k]) = Val (c', [4; 6; 6]) /\
    values c' = [6; 4; 5].
Proof.
  exists iter_cache. eexists. split; [apply iter_reached|].
  repeat (apply conj); vm_compute; reflexivity.
Qed.
Print Assumptions C126_every_key_once_refuted.

(** A loop that adds to a full cache discards the keys it has not met yet, and
    finally the one it stands on. *)
Theorem C126_loops_that_add_refuted :
  exists (c : cache nat), reached Nat.eq_dec c /\ values c = [6; 5; 4] /\
    for_each Nat.eq_dec 3 c (begin_ c) (fun k => map CAdd [k + 10]) = UB.
Proof.
  exists iter_cache. split; [apply iter_reached|]. split; vm_compute; reflexivity.
Qed.
Print Assumptions C126_loops_that_add_refuted.

Example C126_case : reached Nat.eq_dec wide_cache /\
  (csize wide_cache + sizeN (flat_map (fun k => [S k; S (S k)]) (values wide_cache)) <= capacity wide_cache)%N /\
  Forall (@const_call nat) [CContains 3; CLeastRecent] /\
  exists c', for_each Nat.eq_dec 3 wide_cache (begin_ wide_cache) (fun k => map CAdd [k + 1; k + 2])
             = Val (c', [3; 2; 1]) /\ values c' = [5; 4; 3; 2; 1].
Proof.
  split; [apply wide_reached|]. split; [vm_compute; discriminate|].
  split; [repeat constructor|]. eexists. split; vm_compute; reflexivity.
Qed.
