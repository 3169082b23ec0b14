(** Specification of an LRU cache: a list of keys, most recently used first,
    plus a capacity and two report registers. *)
Require Import List NArith Bool.
Require Import Verif.Base Verif.LruModel.
Import ListNotations.

Section Spec.
Context {K : Type} (keq : forall a b : K, {a = b} + {a <> b}).

Record recency : Type := mkR {
  keys : list K;
  cap  : N;
  rep_clipped : N;
  rep_last : bool
}.

Definition mem (k : K) (l : list K) : bool := if in_dec keq k l then true else false.
Definition without (k : K) (l : list K) : list K := List.remove keq k l.

(** Keep the first [n] keys; the others are dropped, last first. *)
Definition keep (n : N) (l : list K) : list K := firstn (N.to_nat n) l.
Definition dropped (n : N) (l : list K) : list K := rev (skipn (N.to_nat n) l).

(** Expected answer of one call; [None]: undefined behaviour. *)
Definition rstep (s : recency) (o : cop K) : option (recency * cout K * list K) :=
  let '(mkR l n cl la) := s in
  match o with
  | CContains k => Some (s, ABool (mem k l), [])
  | CFind k =>
      if mem k l then Some (mkR (k :: without k l) n cl la, AFound true (Some k), [])
      else Some (s, AFound false None, [])
  | CIndex k =>
      if mem k l then Some (mkR (k :: without k l) n cl false, AKey k, [])
      else if N.eqb n 0 then None
      else Some (mkR (keep n (k :: l)) n (sizeN (dropped n (k :: l))) true,
                 AKey k, dropped n (k :: l))
  | CAdd k =>
      if mem k l then Some (mkR l n cl false, AUnit, [])
      else Some (mkR (keep n (k :: l)) n (sizeN (dropped n (k :: l))) true,
                 AUnit, dropped n (k :: l))
  | CClip => Some (mkR (keep n l) n (sizeN (dropped n l)) la, AUnit, dropped n l)
  | CSetCap m => Some (mkR (keep m l) m (sizeN (dropped m l)) la, AUnit, dropped m l)
  | CRemove k => Some (mkR (without k l) n cl (mem k l), AUnit, [])
  | CClear => Some (mkR [] n cl la, AUnit, [])
  | CSize => Some (s, ANum (sizeN l), [])
  | CCapacity => Some (s, ANum n, [])
  | CValues => Some (s, AKeys l, [])
  | CClipped => Some (s, ANum cl, [])
  | CLast => Some (s, ABool la, [])
  | CEmpty => Some (s, ABool (match l with [] => true | _ => false end), [])
  | CMostRecent => match l with [] => None | k :: _ => Some (s, AKey k, []) end
  | CLeastRecent => match rev l with [] => None | k :: _ => Some (s, AKey k, []) end
  end.

Fixpoint rrun (s : recency) (ops : list (cop K))
  : option (recency * list (cout K * list K)) :=
  match ops with
  | [] => Some (s, [])
  | o :: ops =>
      match rstep s o with
      | None => None
      | Some (s', r, log) =>
          match rrun s' ops with
          | None => None
          | Some (s'', rs) => Some (s'', (r, log) :: rs)
          end
      end
  end.

(** Keys of an access string, most recent first, each once. *)
Fixpoint most_recent_distinct (accesses : list K) : list K :=
  match accesses with
  | [] => []
  | k :: older => k :: without k (most_recent_distinct older)
  end.

(** Bookkeeping of one call made when the cache held [before] and the hook
    was called with [log]. *)
Record entry : Type := mkE { before : list K; call : cop K; log : list K }.

Definition new_keys (e : entry) : list K :=
  match call e with
  | CAdd k | CIndex k => if mem k (before e) then [] else [k]
  | _ => []
  end.

Definition taken_keys (e : entry) : list K :=
  match call e with
  | CRemove k => if mem k (before e) then [k] else []
  | CClear => before e
  | _ => []
  end.

End Spec.
Arguments entry : clear implicits.
Arguments recency : clear implicits.
