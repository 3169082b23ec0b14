(** structures/cache.h once more, now with the exceptions that can leave its
    member functions and with the reservation of buckets.

    A call is given a list of booleans, one for every point of the call at
    which something can throw: memory allocation, the copy of a key and the
    hook on_discard.  [true] means that this point throws; when the list is
    used up nothing throws any more.  Hashing and comparing keys, erasing and
    clearing never throw.  std::list::push_front and the insertion of
    unordered_map::operator[] have no effect when they throw.

    [needed n] is what cache.h:190 stores for the capacity n, that is
    capacity * (1 + std::log2(capacity)) computed in double and converted to
    size_t; [None]: the value does not fit, the conversion is undefined. *)
Require Import List NArith Bool Arith.
Require Import Verif.Base Verif.LruModel.
Import ListNotations.

(** How a call ends: it returns an answer (with the calls of on_discard and
    the points not used), or an exception leaves the given state behind, or
    the behaviour is undefined; [Long]: the fuel of a loop did not suffice. *)
Inductive ending (K S A : Type) : Type :=
| Done (s : S) (a : A) (log : list K) (rest : list bool)
| Threw (s : S) (log : list K)
| Undef
| Long.
Arguments Done {K S A}.
Arguments Threw {K S A}.
Arguments Undef {K S A}.
Arguments Long {K S A}.

Section LruThrow.
Context {K : Type} (keq : forall a b : K, {a = b} + {a <> b}) (needed : N -> option N).
Notation cache := (cache K).

(** A point that can throw. *)
Definition point {S A} (fs : list bool) (thrown : ending K S A)
    (go_on : list bool -> ending K S A) : ending K S A :=
  match fs with
  | [] => go_on []
  | true :: _ => thrown
  | false :: fs => go_on fs
  end.

(** cache.h:317-322 with [_max_capacity]. *)
Record rcache : Type := mkX { base : cache; max_capacity : N }.

(** cache.h:307-315.  Line 310 copies the key, line 312 allocates a node and
    copies; the map entry of line 313 exists already. *)
Definition tmove_to_front (c : cache) (it : node_id) (fs : list bool)
  : ending K cache unit :=
  match klist c with
  | (j, _) :: _ =>
      if Nat.eqb it j then Done c tt [] fs else
      match list_deref (klist c) it with
      | None => Undef
      | Some key =>
          point fs (Threw c []) (fun fs =>
          let c1 := mkC (max_elements c) (clipped_values c) (last_result c)
                        (kmap c) (list_erase (klist c) it) (fresh c) in
          point fs (Threw c1 []) (fun fs =>
          Done (mkC (max_elements c) (clipped_values c) (last_result c)
                    (map_set keq (kmap c) key (fresh c))
                    ((fresh c, key) :: klist c1) (S (fresh c))) tt [] fs))
      end
  | [] => Undef
  end.

(** cache.h:63-73 *)
Definition tfind (c : cache) (k : K) (fs : list bool)
  : ending K cache (bool * option K) :=
  match map_find keq (kmap c) k with
  | None => Done c (false, None) [] fs
  | Some it =>
      match tmove_to_front c it fs with
      | Done c' _ log fs => Done c' (true, option_map snd (hd_error (klist c'))) log fs
      | Threw c' log => Threw c' log
      | Undef => Undef
      | Long => Long
      end
  end.

(** cache.h:152-163: on_discard is called after the map entry is gone and
    before the list node is.  A call of on_discard is logged even if it throws. *)
Fixpoint tclip_loop (fuel : nat) (c : cache) (log : list K) (fs : list bool)
  : ending K cache unit :=
  if (max_elements c <? csize c)%N then
    match fuel with
    | O => Long
    | S fuel =>
        match rev (klist c) with
        | [] => Undef
        | (_, back) :: _ =>
            let c1 := mkC (max_elements c) (clipped_values c) (last_result c)
                          (map_erase keq (kmap c) back) (klist c) (fresh c) in
            point fs (Threw c1 (log ++ [back])) (fun fs =>
            tclip_loop fuel
              (mkC (max_elements c) (clipped_values c + 1)%N (last_result c)
                   (kmap c1) (removelast (klist c)) (fresh c))
              (log ++ [back]) fs)
        end
    end
  else Done c tt log fs.

Definition tclip (c : cache) (fs : list bool) : ending K cache unit :=
  tclip_loop (length (klist c))
    (mkC (max_elements c) 0 (last_result c) (kmap c) (klist c) (fresh c)) [] fs.

(** cache.h:135-145: line 139 allocates and copies, line 140 inserts. *)
Definition tadd (c : cache) (k : K) (fs : list bool) : ending K cache unit :=
  let ok := negb (contains keq c k) in
  if ok then
    point fs (Threw c []) (fun fs =>
    let c1 := mkC (max_elements c) (clipped_values c) (last_result c)
                  (kmap c) ((fresh c, k) :: klist c) (S (fresh c)) in
    point fs (Threw c1 []) (fun fs =>
    match tclip (mkC (max_elements c) (clipped_values c) (last_result c)
                     (map_set keq (kmap c) k (fresh c)) (klist c1) (fresh c1)) fs with
    | Done c' _ log fs => Done (set_last c' ok) tt log fs
    | e => e
    end))
  else Done (set_last c ok) tt [] fs.

(** cache.h:81-90 *)
Definition tindex (c : cache) (k : K) (fs : list bool) : ending K cache K :=
  let found c1 log fs :=
    match tfind c1 k fs with
    | Done _ (_, None) _ _ => Undef (* dereference of a singular iterator *)
    | Done c2 (_, Some k') log' fs => Done c2 k' (log ++ log') fs
    | Threw c2 log' => Threw c2 (log ++ log')
    | Undef => Undef
    | Long => Long
    end in
  if contains keq c k then found (set_last c false) [] fs
  else match tadd c k fs with
       | Done c1 _ log fs => found c1 log fs
       | Threw c1 log => Threw c1 log
       | Undef => Undef
       | Long => Long
       end.

(** cache.h:187-196: line 191 allocates the buckets. *)
Definition tset_capacity (x : rcache) (n : N) (fs : list bool) : ending K rcache unit :=
  let c := base x in
  let clipped m fs :=
    match tclip (mkC n (clipped_values c) (last_result c) (kmap c) (klist c) (fresh c)) fs with
    | Done c' a log fs => Done (mkX c' m) a log fs
    | Threw c' log => Threw (mkX c' m) log
    | Undef => Undef
    | Long => Long
    end in
  if (max_capacity x <? n)%N then
    match needed n with
    | None => Undef
    | Some m => point fs (Threw (mkX c m) []) (clipped m)
    end
  else clipped (max_capacity x) fs.

(** cache.h:30 and 41-43; an exception of the constructor leaves no object. *)
Definition rcache_default : rcache := mkX cache_default 1024.
Definition rcache_of (n : N) (fs : list bool) : ending K rcache unit :=
  tset_capacity (mkX cache_default 0) n fs.

(** The public interface; the calls not above cannot throw. *)
Definition tstep (x : rcache) (o : cop K) (fs : list bool) : ending K rcache (cout K) :=
  let lift {A} (e : ending K cache A) (f : A -> cout K) :=
    match e with
    | Done c a log fs => Done (mkX c (max_capacity x)) (f a) log fs
    | Threw c log => Threw (mkX c (max_capacity x)) log
    | Undef => Undef
    | Long => Long
    end in
  match o with
  | CFind k => lift (tfind (base x) k fs) (fun r => AFound (fst r) (snd r))
  | CIndex k => lift (tindex (base x) k fs) (fun k => AKey k)
  | CAdd k => lift (tadd (base x) k fs) (fun _ => AUnit)
  | CClip => lift (tclip (base x) fs) (fun _ => AUnit)
  | CSetCap n =>
      match tset_capacity x n fs with
      | Done x' _ log fs => Done x' AUnit log fs
      | Threw x' log => Threw x' log
      | Undef => Undef
      | Long => Long
      end
  | CContains _ | CRemove _ | CClear | CSize | CCapacity | CValues
  | CClipped | CLast | CEmpty | CMostRecent | CLeastRecent =>
      match cstep keq (base x) o with
      | Val (c, r, log) => Done (mkX c (max_capacity x)) r log fs
      | UB => Undef
      | _ => Long
      end
  end.

(** A program that catches what its calls throw: the answers, [None] for a
    call that threw. *)
Fixpoint trun (x : rcache) (ops : list (cop K * list bool))
  : outcome (rcache * list (option (cout K) * list K)) :=
  match ops with
  | [] => Val (x, [])
  | (o, fs) :: ops =>
      match tstep x o fs with
      | Done x' r log _ => let* (x'', rs) := trun x' ops in Val (x'', (Some r, log) :: rs)
      | Threw x' log => let* (x'', rs) := trun x' ops in Val (x'', (None, log) :: rs)
      | Undef => UB
      | Long => NoFuel
      end
  end.
End LruThrow.
Arguments rcache : clear implicits.
