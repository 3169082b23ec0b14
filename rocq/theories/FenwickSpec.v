(** Specification of a Fenwick tree: a plain list of elements.  Element number
    [p] (1-based, as in the API) is [nth_error l (p-1)].  Independent of the
    helpers of FenwickModel (only the interface types [fop], [fout] and the
    operation record are shared). *)
Require Import List Arith NArith ZArith Bool.
Require Import Verif.Base Verif.FenwickModel.
Import ListNotations.

(** Elements number lo+1 .. hi. *)
Definition slice {T} (l : list T) (lo hi : nat) : list T :=
  firstn (hi - lo) (skipn lo l).

(** Largest power of two dividing [p]. *)
Fixpoint lowbit_pos (p : positive) : positive :=
  match p with
  | xH => xH
  | xO q => xO (lowbit_pos q)
  | xI _ => xH
  end.
Definition lowbit (p : N) : N :=
  match p with N0 => 0%N | Npos q => Npos (lowbit_pos q) end.

Section Spec.
Context {T : Type} (tr : transform T).

(** Combination of a list of elements, left to right. *)
Definition combine_all (l : list T) : T := fold_right (f_op tr) (f_null tr) l.

(** Replace element number [p] (1-based) by [g] of it. *)
Definition change (l : list T) (p : nat) (g : T -> T) : list T :=
  map (fun ix => if Nat.eqb (fst ix) p then g (snd ix) else snd ix)
      (combine (seq 1 (length l)) l).

(** Abstract states: unbuilt, built on the elements [l], or shrunk to size 0
    (the one state in which a query is undefined behaviour). *)
Inductive astate : Type := Unbuilt | Built (l : list T) | Collapsed.

Definition take (n : N) (l : list T) : list T :=
  if N.ltb n (sizeN l) then firstn (N.to_nat n) l else l.

(** Combination of the elements between two positions, clamped. *)
Definition range_value (l : list T) (s e : N) : T :=
  let n := sizeN l in
  let lo := N.min (N.min s e) n in
  let hi := N.min (N.max s e) n in
  combine_all (slice l (N.to_nat (lo - 1)) (N.to_nat hi)).

(** The combination stored at [at(p)]. *)
Definition block_value (l : list T) (p : N) : T :=
  combine_all (slice l (N.to_nat (p - lowbit p)) (N.to_nat p)).

(** Expected effect and result of one call; [None] is undefined behaviour. *)
Definition sstep (a : astate) (o : fop T) : option (astate * fout T) :=
  match o, a with
  | ORebuild input n, _ => Some (Built (take n input), RUnit)
  | OUpdate p v, Built l =>
      if N.ltb p (sizeN l + 1)
      then Some (Built (change l (N.to_nat p) (fun x => f_op tr x v)), RBool true)
      else Some (a, RBool false)
  | OUpdate _ _, Collapsed => Some (a, RBool false)
  | OUpdate _ _, Unbuilt => Some (a, RExn NotBuilt)
  | OSet p v, Built l =>
      if (N.leb 1 p && N.leb p (sizeN l))%bool
      then Some (Built (change l (N.to_nat p) (fun _ => v)), RBool true)
      else Some (a, RBool false)
  | OSet _ _, Collapsed => Some (a, RBool false)
  | OSet _ _, Unbuilt => Some (a, RExn NotBuilt)
  | OQuery s e, Built l => Some (a, RVal (range_value l s e))
  | OQuery _ _, Collapsed => None
  | OQuery _ _, Unbuilt => Some (a, RExn NotBuilt)
  | OAt p, Built l =>
      if N.leb p (sizeN l) then Some (a, RVal (block_value l p))
      else Some (a, RExn OutOfRange)
  | OAt _, _ => Some (a, RExn OutOfRange)
  | OResize m, Built l =>
      if N.eqb m 0 then Some (Collapsed, RUnit)
      else Some (Built (take (m - 1) l), RUnit)
  | OResize _, _ => Some (a, RUnit)
  | OSize, Built l => Some (a, RSize (sizeN l + 1))
  | OSize, _ => Some (a, RSize 0)
  | OIsBuilt, Unbuilt => Some (a, RBool false)
  | OIsBuilt, _ => Some (a, RBool true)
  | OMoveOut, _ => Some (Unbuilt, RUnit)
  end.

Fixpoint srun (a : astate) (ops : list (fop T)) : option (astate * list (fout T)) :=
  match ops with
  | [] => Some (a, [])
  | o :: ops =>
      match sstep a o with
      | None => None
      | Some (a', r) =>
          match srun a' ops with
          | None => None
          | Some (a'', rs) => Some (a'', r :: rs)
          end
      end
  end.

(** Laws of the element operation on the admissible elements [D]. *)
Record fenwick_laws (D : T -> Prop) : Prop := {
  l_null    : D (f_null tr);
  l_closed  : forall a b, D a -> D b -> D (f_op tr a b);
  l_comm    : forall a b, D a -> D b -> f_op tr a b = f_op tr b a;
  l_assoc   : forall a b c, D a -> D b -> D c ->
              f_op tr a (f_op tr b c) = f_op tr (f_op tr a b) c;
  l_unit    : forall a, D a -> f_op tr (f_null tr) a = a;
  l_cancel  : forall a b, D a -> D b -> f_discard tr (f_op tr a b) a = Some b;
  l_falsy   : forall a b, D a -> D b -> f_truthy tr a = false -> f_op tr a b = b;
  l_zero    : f_truthy tr (f_zero tr) = false
}.

(** [v] can replace every element: "v minus x" exists. *)
Definition reachable_value (D : T -> Prop) (v : T) : Prop :=
  forall x, D x -> exists d, f_discard tr v x = Some d /\ D d /\ f_op tr x d = v.

(** Well-formed calls: vectors fit the address space, values are admissible. *)
Definition fop_ok (D : T -> Prop) (o : fop T) : Prop :=
  match o with
  | ORebuild input _ => Forall D input /\ (sizeN input + 1 < two64)%N
  | OUpdate _ v => D v
  | OSet _ v => D v /\ reachable_value D v
  | _ => True
  end.

End Spec.
Arguments astate : clear implicits.
Arguments Unbuilt {T}.
Arguments Built {T} _.
Arguments Collapsed {T}.
