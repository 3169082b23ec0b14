(** Specification for missing_element.h. *)
Require Import List Arith ZArith QArith.
Require Import Verif.Cint.
Import ListNotations.
Local Open Scope Z_scope.

(** The positions 0..n without m. *)
Definition without (n m : nat) : list nat := seq 0 m ++ seq (S m) (n - m).
(** A progression of n+1 terms without the term at position m. *)
Definition arithmetic_term (lower factor : Z) (i : nat) : Z := lower + Z.of_nat i * factor.
Definition geometric_term (lower factor : Z) (i : nat) : Z := lower * factor ^ Z.of_nat i.
Definition float_term (lower factor : Q) (i : nat) : Q := Nat.iter i (fun x => x * factor)%Q lower.
Definition arithmetic_gap (lower factor : Z) (n m : nat) : list Z := map (arithmetic_term lower factor) (without n m).
Definition geometric_gap (lower factor : Z) (n m : nat) : list Z := map (geometric_term lower factor) (without n m).
Definition float_gap (lower factor : Q) (n m : nat) : list Q := map (float_term lower factor) (without n m).

(** All n+1 terms are representable. *)
Definition representable (b : Z) (term : nat -> Z) (n : nat) : Prop := forall i, (i <= n)%nat -> fits b (term i).

(** The arguments of the arithmetic search: all terms are representable, and the
    products the code computes in 64 bits too (automatic below 64 bits). *)
Definition sane (b lower factor : Z) (n : nat) : Prop :=
  0 < b <= 64 /\ factor <> 0 /\ representable b (arithmetic_term lower factor) n /\
  representable 64 (arithmetic_term 0 factor) n.

(** The arguments of the geometric search; [power] is the floating-point product,
    required to be exact on the terms. *)
Definition sane_geometric (b : Z) (power : Z -> Z -> nat -> Z) (lower factor : Z) (n : nat) : Prop :=
  lower <> 0 /\ 2 <= Z.abs factor /\ representable b (geometric_term lower factor) n /\
  forall i, (i <= n)%nat -> power lower factor i = geometric_term lower factor i.

(** lower, lower+1, ... : k values. *)
Definition upto (lower : Z) (k : nat) : list Z := map (fun i => lower + Z.of_nat i) (seq 0 k).

(** Occurrences. *)
Definition occurrences (x : Z) (l : list Z) : nat := count_occ Z.eq_dec l x.
