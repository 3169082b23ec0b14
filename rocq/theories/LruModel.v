(** Model of structures/cache.h (class cache_t, an LRU cache).

    std::list nodes carry an identity, so that the iterators stored in the map
    can dangle: an iterator is a node identity, using one that is not in the
    list is undefined behaviour.  The unordered_map is an association list with
    at most one entry per key.  [reserve] and [_max_capacity] (cache.h:189-192)
    only steer rehashing and are left out. *)
Require Import List NArith Bool Arith.
Require Import Verif.Base.
Import ListNotations.

Section Lru.
Context {K : Type} (keq : forall a b : K, {a = b} + {a <> b}).

Definition node_id := nat.

(** cache.h:317-322; [fresh] is the identity of the next list node. *)
Record cache : Type := mkC {
  max_elements   : N;
  clipped_values : N;
  last_result    : bool;
  kmap           : list (K * node_id);
  klist          : list (node_id * K);
  fresh          : node_id
}.

(** unordered_map: lookup, insertion/overwriting, erasure. *)
Fixpoint map_find (m : list (K * node_id)) (k : K) : option node_id :=
  match m with
  | [] => None
  | (k', i) :: m => if keq k k' then Some i else map_find m k
  end.

Definition map_erase (m : list (K * node_id)) (k : K) : list (K * node_id) :=
  filter (fun e => if keq k (fst e) then false else true) m.

Definition map_set (m : list (K * node_id)) (k : K) (i : node_id) :=
  (k, i) :: map_erase m k.

(** std::list: dereference and erase through an iterator. *)
Fixpoint list_deref (l : list (node_id * K)) (i : node_id) : option K :=
  match l with
  | [] => None
  | (j, k) :: l => if Nat.eqb i j then Some k else list_deref l i
  end.

Fixpoint list_erase (l : list (node_id * K)) (i : node_id) : list (node_id * K) :=
  match l with
  | [] => []
  | (j, k) :: l => if Nat.eqb i j then l else (j, k) :: list_erase l i
  end.

(** cache.h:30 and 317-322: default constructed cache. *)
Definition cache_default : cache := mkC 1024 0 false [] [] 0.

(** cache.h:49-52 *)
Definition contains (c : cache) (k : K) : bool :=
  match map_find (kmap c) k with Some _ => true | None => false end.

(** cache.h:259-262, 278-281, 202-205, 229-232, 169-181 *)
Definition csize (c : cache) : N := sizeN (klist c).
Definition is_empty (c : cache) : bool := (csize c =? 0)%N.
Definition capacity (c : cache) : N := max_elements c.
Definition values (c : cache) : list K := map snd (klist c).
Definition clipped (c : cache) : N := clipped_values c.
Definition last_operation (c : cache) : bool := last_result c.

(** cache.h:307-315.  [UB]: the iterator refers to an erased node or to a node
    of another list (erasing such a node through [_list] is undefined). *)
Definition move_to_front (c : cache) (it : node_id) : outcome cache :=
  match klist c with
  | (j, _) :: _ =>
      if Nat.eqb it j then Val c else
      match list_deref (klist c) it with
      | None => UB
      | Some key =>
          Val (mkC (max_elements c) (clipped_values c) (last_result c)
                   (map_set (kmap c) key (fresh c))
                   ((fresh c, key) :: list_erase (klist c) it)
                   (S (fresh c)))
      end
  | [] => UB (* dereferencing an iterator although the list is empty *)
  end.

(** cache.h:63-73; the returned iterator is given by the key it refers to
    ([_list.begin()]), [None] is the singular iterator. *)
Definition find (c : cache) (k : K) : outcome (cache * (bool * option K)) :=
  match map_find (kmap c) k with
  | None => Val (c, (false, None))
  | Some it =>
      let* c' := move_to_front c it in
      Val (c', (true, option_map snd (hd_error (klist c'))))
  end.

(** cache.h:152-163: the loop of [clip]; [log] collects the calls of
    on_discard.  on_discard itself (an overridable hook) is assumed not to
    call back into the cache. *)
Fixpoint clip_loop (fuel : nat) (c : cache) (log : list K)
  : outcome (cache * list K) :=
  if (max_elements c <? csize c)%N then
    match fuel with
    | O => NoFuel
    | S fuel =>
        match rev (klist c) with
        | [] => UB (* back() of an empty list *)
        | (_, back) :: _ =>
            clip_loop fuel
              (mkC (max_elements c) (clipped_values c + 1)%N (last_result c)
                   (map_erase (kmap c) back) (removelast (klist c)) (fresh c))
              (log ++ [back])
        end
    end
  else Val (c, log).

Definition clip (c : cache) : outcome (cache * list K) :=
  clip_loop (length (klist c))
    (mkC (max_elements c) 0 (last_result c) (kmap c) (klist c) (fresh c)) [].

Definition set_last (c : cache) (b : bool) : cache :=
  mkC (max_elements c) (clipped_values c) b (kmap c) (klist c) (fresh c).

(** cache.h:135-145 *)
Definition add (c : cache) (k : K) : outcome (cache * list K) :=
  let ok := negb (contains c k) in
  if ok then
    let* (c', log) := clip (mkC (max_elements c) (clipped_values c) (last_result c)
                    (map_set (kmap c) k (fresh c))
                    ((fresh c, k) :: klist c) (S (fresh c))) in
    Val (set_last c' ok, log)
  else Val (set_last c ok, []).

(** cache.h:81-90; dereferences the iterator of [find]. *)
Definition index (c : cache) (k : K) : outcome (cache * K * list K) :=
  let* (c1, log) := (if negb (contains c k) then add c k
                     else Val (set_last c false, [])) in
  let* (c2, (_, r)) := find c1 k in
  match r with
  | None => UB (* dereference of a singular iterator *)
  | Some k' => Val (c2, k', log)
  end.

(** cache.h:187-196 *)
Definition set_capacity (c : cache) (n : N) : outcome (cache * list K) :=
  clip (mkC n (clipped_values c) (last_result c) (kmap c) (klist c) (fresh c)).

(** cache.h:41-43 *)
Definition cache_of (n : N) : outcome cache :=
  let* (c, _) := set_capacity cache_default n in Val c.

(** cache.h:241-253, the key being independent of the cache's own storage. *)
Definition remove (c : cache) (k : K) : outcome cache :=
  match map_find (kmap c) k with
  | None => Val (set_last c false)
  | Some it =>
      match list_deref (klist c) it with
      | None => UB
      | Some _ =>
          Val (mkC (max_elements c) (clipped_values c) true
                   (map_erase (kmap c) k) (list_erase (klist c) it) (fresh c))
      end
  end.

(** cache.h:211-223: front()/back() of an empty std::list are undefined. *)
Definition most_recent (c : cache) : outcome K :=
  match klist c with [] => UB | (_, k) :: _ => Val k end.
Definition least_recent (c : cache) : outcome K :=
  match rev (klist c) with [] => UB | (_, k) :: _ => Val k end.

(** cache.h:241-253 called with a reference to the key stored in node [it] of
    the cache (as returned by most_recent(), least_recent(), values(), find()):
    line 246 reads the key again after the node was destroyed in line 245. *)
Definition remove_ref (c : cache) (it : node_id) : outcome cache :=
  match list_deref (klist c) it with
  | None => UB (* the reference dangles already *)
  | Some k =>
      match map_find (kmap c) k with
      | None => Val (set_last c false)
      | Some it' =>
          match list_deref (klist c) it' with
          | None => UB
          | Some _ =>
              match list_deref (list_erase (klist c) it') it with
              | None => UB (* key refers to the erased node *)
              | Some k' =>
                  Val (mkC (max_elements c) (clipped_values c) true
                           (map_erase (kmap c) k') (list_erase (klist c) it') (fresh c))
              end
          end
      end
  end.

(** cache.h:268-272 *)
Definition clear (c : cache) : cache :=
  mkC (max_elements c) (clipped_values c) (last_result c) [] [] (fresh c).

(** cache.h:31: the defaulted copy constructor copies the list (new nodes) and
    the map (old iterators).  *)
Fixpoint renumber (i : node_id) (l : list (node_id * K)) : list (node_id * K) :=
  match l with
  | [] => []
  | (_, k) :: l => (i, k) :: renumber (S i) l
  end.

Definition copy (c : cache) : cache :=
  mkC (max_elements c) (clipped_values c) (last_result c)
      (kmap c) (renumber (fresh c) (klist c)) (fresh c + length (klist c)).

(** cache.h:32: the defaulted move constructor: (target, moved-from source).
    List nodes keep their identity, so the iterators stay valid. *)
Definition move (c : cache) : cache * cache :=
  (c, mkC (max_elements c) (clipped_values c) (last_result c) [] [] (fresh c)).

(** Public interface as a machine; the second component of the answer is the
    list of on_discard calls. *)
Inductive cop : Type :=
| CContains (k : K) | CFind (k : K) | CIndex (k : K) | CAdd (k : K)
| CClip | CSetCap (n : N) | CRemove (k : K) | CClear
| CSize | CCapacity | CValues | CClipped | CLast | CEmpty
| CMostRecent | CLeastRecent.

Inductive cout : Type :=
| AUnit | ABool (b : bool) | AKey (k : K) | ANum (n : N) | AKeys (l : list K)
| AFound (b : bool) (k : option K).

Definition cstep (c : cache) (o : cop) : outcome (cache * cout * list K) :=
  match o with
  | CContains k => Val (c, ABool (contains c k), [])
  | CFind k => let* (c', (b, r)) := find c k in Val (c', AFound b r, [])
  | CIndex k => let* (c', r, log) := index c k in Val (c', AKey r, log)
  | CAdd k => let* (c', log) := add c k in Val (c', AUnit, log)
  | CClip => let* (c', log) := clip c in Val (c', AUnit, log)
  | CSetCap n => let* (c', log) := set_capacity c n in Val (c', AUnit, log)
  | CRemove k => let* c' := remove c k in Val (c', AUnit, [])
  | CClear => Val (clear c, AUnit, [])
  | CSize => Val (c, ANum (csize c), [])
  | CCapacity => Val (c, ANum (capacity c), [])
  | CValues => Val (c, AKeys (values c), [])
  | CClipped => Val (c, ANum (clipped c), [])
  | CLast => Val (c, ABool (last_operation c), [])
  | CEmpty => Val (c, ABool (is_empty c), [])
  | CMostRecent => let* k := most_recent c in Val (c, AKey k, [])
  | CLeastRecent => let* k := least_recent c in Val (c, AKey k, [])
  end.

Fixpoint crun (c : cache) (ops : list cop)
  : outcome (cache * list (cout * list K)) :=
  match ops with
  | [] => Val (c, [])
  | o :: ops =>
      let* (c', r, log) := cstep c o in
      let* (c'', rs) := crun c' ops in
      Val (c'', (r, log) :: rs)
  end.

End Lru.
Arguments cache : clear implicits.
Arguments cop : clear implicits.
Arguments cout : clear implicits.
