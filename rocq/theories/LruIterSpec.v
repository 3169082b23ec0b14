(** Specification of iterators and loops over the LRU cache. *)
Require Import List NArith Bool.
Require Import Verif.Base Verif.LruModel Verif.LruSpec.
Import ListNotations.

Section Spec.
Context {K : Type} (keq : forall a b : K, {a = b} + {a <> b}).

(** A call that ends the life of iterators and references to the key [k] of a
    cache with the keys [l]: the key leaves the cache, or it is looked up while
    it is not the most recent one. *)
Definition ends (l : list K) (k : K) (o : cop K) (discarded : list K) : Prop :=
  In k discarded \/ o = CRemove k \/ o = CClear \/
  ((o = CFind k \/ o = CIndex k) /\ hd_error l <> Some k).

(** Calls of const member functions. *)
Definition const_call (o : cop K) : Prop :=
  match o with
  | CContains _ | CSize | CCapacity | CValues | CClipped | CLast | CEmpty
  | CMostRecent | CLeastRecent => True
  | _ => False
  end.

(** The keys met by walking backwards through a list from the place [d] when
    every key met goes to the front at once. *)
Fixpoint met_backwards (d : nat) (l : list K) : list K :=
  match d with
  | O => []
  | S d =>
      match nth_error l d with
      | None => []
      | Some k => k :: met_backwards d (k :: without keq k l)
      end
  end.

End Spec.
