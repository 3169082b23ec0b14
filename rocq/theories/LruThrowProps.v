(** Exceptions out of the LRU cache (C118) and its capacity (C119). *)
Require Import List NArith Bool Arith Lia.
Require Import Verif.Base Verif.LruModel Verif.LruSpec Verif.LruProofs
  Verif.LruThrowModel Verif.LruThrowSpec Verif.LruThrowProofs.
Import ListNotations.

(** ** C118: exceptions *)
Theorem C118_returning_calls :
  forall (K : Type) (keq : forall a b : K, {a = b} + {a <> b}) (needed : N -> option N)
         (x : rcache K) (o : cop K) (fs : list bool),
  match tstep keq needed x o fs with
  | Done x' r log _ => cstep keq (base x) o = Val (base x', r, log)
  | Threw _ _ => True
  | Undef => cstep keq (base x) o = UB \/
      exists n, o = CSetCap n /\ (max_capacity x < n)%N /\ needed n = None
  | Long => cstep keq (base x) o = NoFuel
  end.
Proof. exact @step_agrees. Qed.
Print Assumptions C118_returning_calls.

Theorem C118_program_without_exceptions :
  forall (K : Type) (keq : forall a b : K, {a = b} + {a <> b}) (needed : N -> option N)
         (ops : list (cop K * list bool)) (x x' : rcache K) rs,
  trun keq needed x ops = Val (x', rs) -> Forall (fun r => fst r <> None) rs ->
  exists rs', crun keq (base x) (map fst ops) = Val (base x', rs') /\
    rs = map (fun r => (Some (fst r), snd r)) rs'.
Proof. exact @program_agrees. Qed.
Print Assumptions C118_program_without_exceptions.

Theorem C118_only_faults_throw :
  forall (K : Type) (keq : forall a b : K, {a = b} + {a <> b}) (needed : N -> option N)
         (x : rcache K) (o : cop K) (fs : list bool),
  never fs -> match tstep keq needed x o fs with Threw _ _ => False | _ => True end.
Proof. exact @never_throws. Qed.
Print Assumptions C118_only_faults_throw.

(** If the first thing that can throw does, and it is not the hook, nothing
    has happened. *)
Theorem C118_first_point_partial :
  forall (K : Type) (keq : forall a b : K, {a = b} + {a <> b}) (needed : N -> option N)
         (x : rcache K) (o : cop K) (fs : list bool) (x' : rcache K),
  reached keq (base x) -> tstep keq needed x o (true :: fs) = Threw x' [] ->
  usable keq (base x') /\ same_contents keq (base x) (base x') /\
  clipped (base x') = clipped (base x) /\
  (last_operation (base x') = last_operation (base x) \/ exists k, o = CIndex k).
Proof. exact @first_point. Qed.
Print Assumptions C118_first_point_partial.

Theorem C118_one_key_affected :
  forall (K : Type) (keq : forall a b : K, {a = b} + {a <> b}) (needed : N -> option N)
         (x : rcache K) (o : cop K) (fs : list bool) (x' : rcache K) (log : list K),
  reached keq (base x) -> tstep keq needed x o fs = Threw x' log ->
  NoDup (values (base x')) /\
  forall k1 k2, disagree keq (base x') k1 -> disagree keq (base x') k2 -> k1 = k2.
Proof. exact @one_key_affected. Qed.
Print Assumptions C118_one_key_affected.

(** A hook that throws: calling clip() again discards the same key a second
    time and reaches the state the call would have reached. *)
Theorem C118_hook_retry :
  forall (K : Type) (keq : forall a b : K, {a = b} + {a <> b}) (needed : N -> option N)
         (x : rcache K) (o : cop K) (fs : list bool) (x' : rcache K) (log : list K)
         (c : cache K) (r : cout K) (full : list K),
  reached keq (base x) -> tstep keq needed x o fs = Threw x' log -> log <> [] ->
  cstep keq (base x) o = Val (c, r, full) ->
  exists pre b rest x'',
    log = pre ++ [b] /\ full = pre ++ b :: rest /\
    tstep keq needed x' CClip [] = Done x'' AUnit (b :: rest) [] /\
    usable keq (base x'') /\ values (base x'') = values c /\ capacity (base x'') = capacity c.
Proof. exact @hook_retry. Qed.
Print Assumptions C118_hook_retry.

Theorem C118_clear_repairs :
  forall (K : Type) (keq : forall a b : K, {a = b} + {a <> b}) (c : cache K),
  usable keq (clear c) /\ values (clear c) = [] /\ capacity (clear c) = capacity c /\
  forall k, contains keq (clear c) k = false.
Proof. exact @clear_repairs. Qed.
Print Assumptions C118_clear_repairs.

(** A lookup that fails to allocate destroys the element and keeps the
    dangling iterator. *)
Theorem C118_find_dangles :
  forall (K : Type) (keq : forall a b : K, {a = b} + {a <> b}) (needed : N -> option N)
         (x : rcache K) (k : K) (fs : list bool),
  reached keq (base x) -> contains keq (base x) k = true -> hd_error (values (base x)) <> Some k ->
  exists x', tstep keq needed x (CFind k) (false :: true :: fs) = Threw x' [] /\
    contains keq (base x') k = true /\ values (base x') = without keq k (values (base x)) /\
    find keq (base x') k = UB /\ remove keq (base x') k = UB /\ index keq (base x') k = UB.
Proof. exact @find_dangles. Qed.
Print Assumptions C118_find_dangles.

(** An add that fails at the map leaves a key that is listed, is not found,
    cannot be removed and can be added a second time. *)
Theorem C118_add_lost :
  forall (K : Type) (keq : forall a b : K, {a = b} + {a <> b}) (needed : N -> option N)
         (x : rcache K) (k : K) (fs : list bool),
  reached keq (base x) -> contains keq (base x) k = false ->
  exists x' c1 c2 log, tstep keq needed x (CAdd k) (false :: true :: fs) = Threw x' [] /\
    contains keq (base x') k = false /\ values (base x') = k :: values (base x) /\
    remove keq (base x') k = Val c1 /\ values c1 = k :: values (base x) /\
    last_operation c1 = false /\
    add keq (base x') k = Val (c2, log) /\
    values c2 = keep (capacity (base x)) (k :: k :: values (base x)).
Proof. exact @add_lost. Qed.
Print Assumptions C118_add_lost.

(** A hook that throws leaves one key too many. *)
Theorem C118_discard_lost :
  forall (K : Type) (keq : forall a b : K, {a = b} + {a <> b}) (needed : N -> option N)
         (x : rcache K) (k : K) (l : list K) (lru : K) (fs : list bool),
  reached keq (base x) -> contains keq (base x) k = false ->
  csize (base x) = capacity (base x) -> values (base x) = l ++ [lru] ->
  exists x', tstep keq needed x (CAdd k) (false :: false :: true :: fs) = Threw x' [lru] /\
    values (base x') = k :: l ++ [lru] /\ csize (base x') = (capacity (base x') + 1)%N /\
    least_recent (base x') = Val lru /\ contains keq (base x') lru = false.
Proof. exact @discard_lost. Qed.
Print Assumptions C118_discard_lost.

(** Two keys in a cache of three; looking the older one up runs out of memory
    once; the next lookup is undefined. *)
Theorem C118_usable_after_exception_refuted :
  exists (ops : list (cop nat * list bool)) x,
    trun Nat.eq_dec needed_floor rcache_default (map (fun o => (fst o, [])) ops) = Val x /\
    trun Nat.eq_dec needed_floor rcache_default ops = UB.
Proof.
  exists [(CSetCap 3%N, []); (CAdd 4, []); (CAdd 7, []); (CFind 4, [false; true]); (CFind 4, [])].
  eexists. split; vm_compute; reflexivity.
Qed.
Print Assumptions C118_usable_after_exception_refuted.

Definition case_x : rcache nat :=
  mkX (mkC 3 0 true [(9, 2); (7, 1); (4, 0)] [(2, 9); (1, 7); (0, 4)] 3) 1024.

Lemma case_x_reached : reached Nat.eq_dec (base case_x).
Proof.
  exists cache_default, [CSetCap 3%N; CAdd 4; CAdd 7; CAdd 9]. eexists. split; [left; reflexivity|].
  vm_compute. reflexivity.
Qed.

Example C118_case :
  reached Nat.eq_dec (base case_x) /\ values (base case_x) = [9; 7; 4] /\
  never [false; false] /\
  (exists x', tstep Nat.eq_dec needed_floor case_x (CAdd 5) [true] = Threw x' []) /\
  contains Nat.eq_dec (base case_x) 4 = true /\ hd_error (values (base case_x)) <> Some 4 /\
  contains Nat.eq_dec (base case_x) 5 = false /\ csize (base case_x) = capacity (base case_x) /\
  (exists x' c full, tstep Nat.eq_dec needed_floor case_x (CSetCap 1%N) [false; true] = Threw x' [4; 7] /\
     cstep Nat.eq_dec (base case_x) (CSetCap 1%N) = Val (c, AUnit, full) /\ values c = [9]) /\
  (exists x' rs, trun Nat.eq_dec needed_floor case_x [(CAdd 5, [false; false]); (CFind 7, [])] = Val (x', rs) /\
     Forall (fun r => fst r <> None) rs).
Proof.
  split; [exact case_x_reached|]. split; [reflexivity|]. split; [repeat constructor|].
  split; [eexists; vm_compute; reflexivity|]. split; [reflexivity|]. split; [discriminate|].
  split; [reflexivity|]. split; [reflexivity|]. split.
  - eexists; eexists; eexists. split; [vm_compute; reflexivity|]. split; vm_compute; reflexivity.
  - eexists; eexists. split; [vm_compute; reflexivity|]. repeat constructor; discriminate.
Qed.

(** ** C119: every capacity can be asked for *)
Theorem C119_any_capacity_partial :
  forall (K : Type) (keq : forall a b : K, {a = b} + {a <> b}) (needed : N -> option N)
         (x : rcache K) (n : N),
  computed needed -> (n < 2 ^ 58)%N -> reached keq (base x) ->
  exists x', tstep keq needed x (CSetCap n) [] = Done x' AUnit (dropped n (values (base x))) [] /\
    values (base x') = keep n (values (base x)) /\ capacity (base x') = n /\ reached keq (base x').
Proof. exact @any_capacity. Qed.
Print Assumptions C119_any_capacity_partial.

Theorem C119_reserve_fails :
  forall (K : Type) (keq : forall a b : K, {a = b} + {a <> b}) (needed : N -> option N)
         (x : rcache K) (n : N) (fs : list bool) (x' : rcache K),
  reached keq (base x) -> tstep keq needed x (CSetCap n) (true :: fs) = Threw x' [] ->
  base x' = base x /\
  (computed needed -> (n < 2 ^ 58)%N -> (csize (base x) <= n)%N ->
   forall fs', exists x'', tstep keq needed x' (CSetCap n) fs' = Done x'' AUnit [] fs' /\
     values (base x'') = values (base x) /\ capacity (base x'') = n /\
     max_capacity x'' = max_capacity x').
Proof. exact @reserve_fails. Qed.
Print Assumptions C119_reserve_fails.

Theorem C119_unlimited_is_undefined :
  forall (K : Type) (keq : forall a b : K, {a = b} + {a <> b}) (needed : N -> option N) (n : N),
  computed needed -> (2 ^ 59 <= n)%N -> forall fs,
  rcache_of keq needed n fs = Undef /\ tstep keq needed rcache_default (CSetCap n) fs = Undef.
Proof. exact @unlimited_new. Qed.
Print Assumptions C119_unlimited_is_undefined.

(** numeric_limits<size_t>::max() as "no limit". *)
Theorem C119_every_capacity_refuted :
  exists n, (n < two64)%N /\
    forall needed, computed needed -> rcache_of Nat.eq_dec needed n [] = Undef.
Proof.
  exists (two64 - 1)%N. split; [reflexivity|]. intros needed C.
  apply (unlimited_new Nat.eq_dec needed (two64 - 1) C). vm_compute. discriminate.
Qed.
Print Assumptions C119_every_capacity_refuted.

Example C119_case :
  computed needed_floor /\ reached Nat.eq_dec (base case_x) /\
  (exists x', tstep Nat.eq_dec needed_floor case_x (CSetCap 5000%N) [true] = Threw x' [] /\
     max_capacity x' = 65000%N /\ (csize (base case_x) <= 5000)%N).
Proof.
  split; [exact needed_floor_computed|]. split; [exact case_x_reached|].
  eexists. split; [vm_compute; reflexivity|]. split; [reflexivity|]. vm_compute. discriminate.
Qed.
