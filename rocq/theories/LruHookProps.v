(** C120: overrides of on_discard that call the cache (structures/cache.h). *)
Require Import List NArith Bool Arith Lia.
Require Import Verif.Base Verif.LruModel Verif.LruSpec Verif.LruProofs
  Verif.LruThrowSpec Verif.LruHookModel Verif.LruHookSpec Verif.LruHookProofs.
Import ListNotations.

(** A hook that only looks changes nothing. *)
Theorem C120_reading_hooks :
  forall (K : Type) (keq : forall a b : K, {a = b} + {a <> b})
         (hook : cache K -> K -> list (cop K)) (c : cache K) (o : cop K) (fuel : nat),
  reading_hook hook -> reached keq c -> length (values c) < fuel ->
  hcall keq hook fuel c o = cstep keq c o.
Proof. exact @reading_hooks. Qed.
Print Assumptions C120_reading_hooks.

(** A hook that also looks up and removes keeps the cache sound. *)
Theorem C120_modest_hooks_partial :
  forall (K : Type) (keq : forall a b : K, {a = b} + {a <> b})
         (hook : cache K -> K -> list (cop K)) (c : cache K) (o : cop K) (fuel : nat),
  modest_hook hook -> reached keq c ->
  match o with CAdd _ | CClip | CSetCap _ => True | _ => False end ->
  length (values c) < fuel ->
  exists c' log, hcall keq hook fuel c o = Val (c', AUnit, log) /\ usable keq c' /\
    capacity c' = match o with CSetCap n => n | _ => capacity c end /\ (csize c' <= capacity c')%N /\
    NoDup log /\
    incl (values c' ++ log) (match o with CAdd k => k :: values c | _ => values c end) /\
    (forall k, In k log -> ~ In k (values c')) /\
    (match o with CAdd k => contains keq c k = false | _ => True end -> clipped c' = sizeN log).
Proof. exact @modest_hooks. Qed.
Print Assumptions C120_modest_hooks_partial.

(** A hook that puts the discarded key back, or that calls clip, never returns. *)
Theorem C120_putting_back_never_returns :
  forall (K : Type) (keq : forall a b : K, {a = b} + {a <> b}) (c : cache K) (k : K)
         (f : K -> list (cop K)),
  (forall b, f b = [CAdd b] \/ f b = [CClip]) ->
  contains keq c k = false -> csize c = capacity c ->
  forall fuel, hcall keq (always f) fuel c (CAdd k) = NoFuel.
Proof. exact @endless. Qed.
Print Assumptions C120_putting_back_never_returns.

Theorem C120_clearing_is_undefined :
  forall (K : Type) (keq : forall a b : K, {a = b} + {a <> b}) (c : cache K) (k : K)
         (f : K -> list (cop K)),
  (forall b, f b = [CClear]) ->
  contains keq c k = false -> csize c = capacity c ->
  forall fuel, fuel <> 0 -> hcall keq (always f) fuel c (CAdd k) = UB.
Proof. exact @clearing. Qed.
Print Assumptions C120_clearing_is_undefined.

(** A hook that adds another key: the least recent key is reported twice, and a
    third key vanishes unreported and is still claimed to be there. *)
Theorem C120_adding_another_key :
  forall (K : Type) (keq : forall a b : K, {a = b} + {a <> b}) (c : cache K) (k z : K)
         (p : list K) (b2 b1 : K) (fuel : nat),
  reached keq c -> csize c = capacity c -> values c = p ++ [b2; b1] ->
  contains keq c k = false -> contains keq c z = false -> k <> z ->
  exists c' b,
    hcall keq (always (fun _ => [CAdd z])) (3 + fuel) c (CAdd k) = Val (c', AUnit, [b1; b1; b2]) /\
    values c' ++ [b] = z :: k :: p /\
    contains keq c' b = true /\ ~ In b (values c') /\
    find keq c' b = UB /\ remove keq c' b = UB.
Proof. exact @adding_another. Qed.
Print Assumptions C120_adding_another_key.

Definition case_h : cache nat :=
  mkC 3 0 true [(9, 2); (7, 1); (4, 0)] [(2, 9); (1, 7); (0, 4)] 3.

Lemma case_h_reached : reached Nat.eq_dec case_h.
Proof.
  exists cache_default, [CSetCap 3%N; CAdd 4; CAdd 7; CAdd 9]. eexists. split; [left; reflexivity|].
  vm_compute. reflexivity.
Qed.

(** The cache stays usable whatever the hook does: the key just added, 5, is
    there, until another hooked call is made. *)
Theorem C120_any_hook_refuted :
  exists (c c' : cache nat) (hook : cache nat -> nat -> list (cop nat)) log,
    reached Nat.eq_dec c /\ hcall Nat.eq_dec hook 9 c (CAdd 5) = Val (c', AUnit, log) /\
    contains Nat.eq_dec c' 9 = true /\ values c' = [6; 5] /\ find Nat.eq_dec c' 9 = UB.
Proof.
  exists case_h. eexists. exists (always (fun _ => [CAdd 6])). eexists.
  split; [exact case_h_reached|]. split; [vm_compute; reflexivity|]. repeat split; vm_compute; reflexivity.
Qed.
Print Assumptions C120_any_hook_refuted.

(** operator[] needs the key to be still there: a modest hook that removes the
    newest key makes it undefined. *)
Theorem C120_index_refuted :
  exists (c : cache nat) (hook : cache nat -> nat -> list (cop nat)),
    reached Nat.eq_dec c /\ modest_hook hook /\ (capacity c = 3)%N /\
    hcall Nat.eq_dec hook 9 c (CIndex 5) = UB.
Proof.
  exists case_h, (always (fun _ => [CRemove 5])).
  split; [exact case_h_reached|]. split; [intros c k; repeat constructor|].
  split; vm_compute; reflexivity.
Qed.
Print Assumptions C120_index_refuted.

Example C120_case :
  reached Nat.eq_dec case_h /\ csize case_h = capacity case_h /\ values case_h = [9] ++ [7; 4] /\
  contains Nat.eq_dec case_h 5 = false /\ contains Nat.eq_dec case_h 6 = false /\
  modest_hook (fun (c : cache nat) k => [CFind (k + 3); CRemove (k + 5); CSize]) /\
  reading_hook (fun (c : cache nat) k => [CContains k; CValues; CLeastRecent]) /\
  (exists c', hcall Nat.eq_dec (fun c k => [CFind (k + 3); CRemove (k + 5); CSize]) 9 case_h (CSetCap 1%N)
     = Val (c', AUnit, [4]) /\ values c' = [7] /\ clipped c' = 1%N).
Proof.
  split; [exact case_h_reached|]. repeat (split; [reflexivity|]).
  split; [intros c k; repeat constructor|]. split; [intros c k; repeat constructor|].
  eexists. split; [vm_compute; reflexivity|]. split; vm_compute; reflexivity.
Qed.
