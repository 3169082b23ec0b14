(** Properties C11-C19 of the LRU cache (structures/cache.h). *)
Require Import List NArith Bool Arith Permutation.
Require Import Verif.Base Verif.LruModel Verif.LruSpec Verif.LruProofs.
Import ListNotations.

(** A concrete history used below: capacity 3, five keys, overflow, removal. *)
Definition case_calls : list (cop nat) :=
  [CAdd 1; CIndex 2; CAdd 3; CFind 1; CIndex 4; CRemove 3; CAdd 5; CAdd 5; CAdd 6].
Definition case_start : cache nat := mkC 3 0 false [] [] 0.
Definition case_cache : cache nat :=
  Eval vm_compute in match crun Nat.eq_dec case_start case_calls with
                     | Val (c, _) => c | _ => case_start end.

Example case_reached : reached Nat.eq_dec case_cache /\ values case_cache = [6; 5; 4].
Proof.
  split; [|reflexivity]. eexists case_start, case_calls, _. split.
  - right. exists 3%N. reflexivity.
  - vm_compute. reflexivity.
Qed.

(** C11 *)
Theorem C11_capacity_never_exceeded :
  forall (K : Type) (keq : forall a b : K, {a = b} + {a <> b}) (c : cache K),
  reached keq c -> (csize c <= capacity c)%N.
Proof. exact (fun K keq c R => proj1 (reached_size keq c R)). Qed.
Print Assumptions C11_capacity_never_exceeded.

Example C11_case : reached Nat.eq_dec case_cache /\ csize case_cache = 3%N /\ capacity case_cache = 3%N.
Proof. split; [apply case_reached|split; reflexivity]. Qed.

(** C12 *)
Theorem C12_no_duplicates_and_lookup_agrees :
  forall (K : Type) (keq : forall a b : K, {a = b} + {a <> b}) (c : cache K),
  reached keq c ->
  NoDup (values c) /\ csize c = sizeN (values c) /\
  forall k, contains keq c k = true <-> In k (values c).
Proof. exact (fun K keq c R => proj2 (reached_size keq c R)). Qed.
Print Assumptions C12_no_duplicates_and_lookup_agrees.

Example C12_case : reached Nat.eq_dec case_cache /\
  contains Nat.eq_dec case_cache 5 = true /\ contains Nat.eq_dec case_cache 1 = false.
Proof. split; [apply case_reached|split; reflexivity]. Qed.

(** C13: every history gives the answers, discard calls, contents and capacity
    of the recency list [rrun] (LruSpec.v), and is undefined exactly where that
    is. *)
Theorem C13_behaves_as_recency_list :
  forall (K : Type) (keq : forall a b : K, {a = b} + {a <> b}) (c0 : cache K)
         (ops : list (cop K)) (n : N),
  started keq c0 -> capacity c0 = n ->
  match rrun keq (mkR [] n 0%N false) ops with
  | None => crun keq c0 ops = UB
  | Some (s', rs) => exists c', crun keq c0 ops = Val (c', rs) /\ values c' = keys s' /\
      capacity c' = cap s'
  end.
Proof. exact @history_refines. Qed.
Print Assumptions C13_behaves_as_recency_list.

(** The two ways to start: default (capacity 1024) or with a capacity. *)
Theorem C13_constructors :
  forall (K : Type) (keq : forall a b : K, {a = b} + {a <> b}) (n : N),
  capacity (@cache_default K) = 1024%N /\ values (@cache_default K) = [] /\
  exists c, cache_of keq n = Val c /\ capacity c = n /\ values c = [].
Proof. exact @constructors. Qed.
Print Assumptions C13_constructors.

Example C13_case : started Nat.eq_dec case_start /\
  option_map snd (rrun Nat.eq_dec (mkR [] 3%N 0%N false) [CAdd 1; CAdd 2; CAdd 3; CFind 1; CAdd 4; CValues])
  = Some [(AUnit, []); (AUnit, []); (AUnit, []); (AFound true (Some 1), []);
          (AUnit, [2]); (AKeys [4; 1; 3], [])].
Proof. split; [right; exists 3%N; reflexivity|reflexivity]. Qed.

(** C14 *)
Theorem C14_most_recently_used_distinct_keys :
  forall (K : Type) (keq : forall a b : K, {a = b} + {a <> b}) (n : N) (accesses : list K),
  (1 <= n)%N ->
  exists c c' rs, cache_of keq n = Val c /\
    crun keq c (map CIndex accesses) = Val (c', rs) /\
    values c' = firstn (N.to_nat n) (most_recent_distinct keq (rev accesses)).
Proof. exact @index_only_contents. Qed.
Print Assumptions C14_most_recently_used_distinct_keys.

Example C14_case : firstn 2 (most_recent_distinct Nat.eq_dec (rev [7; 8; 7; 9; 7])) = [7; 9].
Proof. reflexivity. Qed.

(** C15: keys in = keys still there + discarded + removed/cleared, with
    multiplicity; and each batch of discards is the tail of the list, least
    recent first, in add, operator[], clip and set_capacity only. *)
Theorem C15_every_key_accounted_once :
  forall (K : Type) (keq : forall a b : K, {a = b} + {a <> b}) (c : cache K)
         (h : list (entry K)) (c' : cache K),
  reached keq c -> chistory keq c h c' ->
  Permutation (flat_map (new_keys keq) h ++ values c)
              (values c' ++ flat_map log h ++ flat_map (taken_keys keq) h).
Proof. exact @history_account. Qed.
Print Assumptions C15_every_key_accounted_once.

Theorem C15_discards_least_recent_first :
  forall (K : Type) (keq : forall a b : K, {a = b} + {a <> b}) (c : cache K)
         (o : cop K) (c' : cache K) (r : cout K) (l : list K),
  reached keq c -> cstep keq c o = Val (c', r, l) -> l <> [] ->
  new_keys keq (mkE (values c) o l) ++ values c = values c' ++ rev l /\
  match o with CAdd _ | CIndex _ | CClip | CSetCap _ => True | _ => False end.
Proof. exact @discards_lru_first. Qed.
Print Assumptions C15_discards_least_recent_first.

Example C15_case : reached Nat.eq_dec case_cache /\
  exists c' h, chistory Nat.eq_dec case_cache h c' /\
    flat_map log h = [4; 5] /\ flat_map (taken_keys Nat.eq_dec) h = [6].
Proof.
  split; [apply case_reached|]. eexists; eexists. split.
  - eapply (ch_cons Nat.eq_dec case_cache (CAdd 7)); [vm_compute; reflexivity|].
    eapply (ch_cons Nat.eq_dec _ (CRemove 6)); [vm_compute; reflexivity|].
    eapply (ch_cons Nat.eq_dec _ (CSetCap 1)); [vm_compute; reflexivity|].
    apply ch_nil.
  - split; reflexivity.
Qed.

(** C16 *)
Theorem C16_reports_tell_the_truth :
  forall (K : Type) (keq : forall a b : K, {a = b} + {a <> b}) (c : cache K)
         (o : cop K) (c' : cache K) (r : cout K) (l : list K),
  reached keq c -> cstep keq c o = Val (c', r, l) ->
  last_operation c' = match o with
    | CAdd k | CIndex k => negb (contains keq c k)
    | CRemove k => contains keq c k
    | _ => last_operation c end /\
  clipped c' = match o with
    | CAdd k | CIndex k => if contains keq c k then clipped c else sizeN l
    | CClip | CSetCap _ => sizeN l
    | _ => clipped c end.
Proof. exact @reports. Qed.
Print Assumptions C16_reports_tell_the_truth.

Example C16_case : reached Nat.eq_dec case_cache /\
  exists c' r, cstep Nat.eq_dec case_cache (CSetCap 1) = Val (c', r, [4; 5]) /\ clipped c' = 2%N.
Proof. split; [apply case_reached|]. eexists; eexists; split; vm_compute; reflexivity. Qed.

(** C17: right for every capacity but 0, where it is undefined behaviour. *)
Theorem C17_index_returns_the_key_partial :
  forall (K : Type) (keq : forall a b : K, {a = b} + {a <> b}) (c : cache K) (k : K),
  reached keq c -> (capacity c <> 0)%N ->
  exists c' log, index keq c k = Val (c', k, log) /\ most_recent c' = Val k.
Proof. exact @index_returns_key. Qed.
Print Assumptions C17_index_returns_the_key_partial.

Theorem C17_index_capacity_zero_is_ub :
  forall (K : Type) (keq : forall a b : K, {a = b} + {a <> b}) (c : cache K) (k : K),
  reached keq c -> capacity c = 0%N -> index keq c k = UB.
Proof. exact @index_capacity_zero. Qed.
Print Assumptions C17_index_capacity_zero_is_ub.

Theorem C17_index_returns_the_key_refuted :
  exists (c : cache nat) k, reached Nat.eq_dec c /\ index Nat.eq_dec c k = UB.
Proof.
  exists (mkC 0 1 true [] [] 1), 8. split; [|vm_compute; reflexivity].
  exists (mkC 0 0 false [] [] 0), [CAdd 7]. eexists. split; [right; exists 0%N; reflexivity|].
  vm_compute. reflexivity.
Qed.
Print Assumptions C17_index_returns_the_key_refuted.

Example C17_case : reached Nat.eq_dec case_cache /\ (capacity case_cache <> 0)%N.
Proof. split; [apply case_reached|discriminate]. Qed.

(** C18: a copy shows the same contents, but looking up, indexing or removing
    any key that it contains is undefined. *)
Theorem C18_copy_observers_partial :
  forall (K : Type) (keq : forall a b : K, {a = b} + {a <> b}) (c : cache K) (k : K),
  values (copy c) = values c /\ csize (copy c) = csize c /\ capacity (copy c) = capacity c /\
  contains keq (copy c) k = contains keq c k /\
  last_operation (copy c) = last_operation c /\ clipped (copy c) = clipped c.
Proof. exact @copy_observers. Qed.
Print Assumptions C18_copy_observers_partial.

Theorem C18_copy_lookup_is_ub :
  forall (K : Type) (keq : forall a b : K, {a = b} + {a <> b}) (c : cache K) (k : K),
  reached keq c -> contains keq c k = true ->
  contains keq (copy c) k = true /\ values (copy c) = values c /\
  find keq (copy c) k = UB /\ remove keq (copy c) k = UB /\ index keq (copy c) k = UB.
Proof. exact @copy_find_ub. Qed.
Print Assumptions C18_copy_lookup_is_ub.

Theorem C18_copy_usable_refuted :
  exists (c : cache nat) k c' r, reached Nat.eq_dec c /\
    find Nat.eq_dec c k = Val (c', (true, Some r)) /\ find Nat.eq_dec (copy c) k = UB.
Proof.
  exists case_cache, 5. eexists; eexists. split; [apply case_reached|].
  split; vm_compute; reflexivity.
Qed.
Print Assumptions C18_copy_usable_refuted.

(** The moved-from cache is an empty cache of the same capacity. *)
Theorem C18_moved_from_is_empty_partial :
  forall (K : Type) (keq : forall a b : K, {a = b} + {a <> b}) (c : cache K) (ops : list (cop K)),
  reached keq c ->
  match rrun keq (mkR [] (capacity c) (clipped c) (last_operation c)) ops with
  | None => crun keq (snd (move c)) ops = UB
  | Some (s', rs) => exists c', crun keq (snd (move c)) ops = Val (c', rs)
  end.
Proof. exact @move_source. Qed.
Print Assumptions C18_moved_from_is_empty_partial.

Example C18_case : reached Nat.eq_dec case_cache /\ contains Nat.eq_dec case_cache 4 = true.
Proof. split; [apply case_reached|reflexivity]. Qed.

(** C19: remove() with a reference to any of the cache's own elements is a
    use after free. *)
Theorem C19_remove_own_reference_is_ub :
  forall (K : Type) (keq : forall a b : K, {a = b} + {a <> b}) (c : cache K) (it : node_id) (k : K),
  reached keq c -> In (it, k) (klist c) -> remove_ref keq c it = UB.
Proof. exact @own_reference_ub. Qed.
Print Assumptions C19_remove_own_reference_is_ub.

Theorem C19_remove_own_reference_refuted :
  exists (c : cache nat) it k, reached Nat.eq_dec c /\ In (it, k) (klist c) /\
    least_recent c = Val k /\ remove_ref Nat.eq_dec c it = UB.
Proof.
  exists case_cache, 4, 4. split; [apply case_reached|].
  split; [vm_compute; tauto|]. split; vm_compute; reflexivity.
Qed.
Print Assumptions C19_remove_own_reference_refuted.
