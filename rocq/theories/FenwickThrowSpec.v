(** Calls of a Fenwick tree that stay within the memory of a 64-bit machine. *)
Require Import NArith List.
Require Import Verif.Base Verif.FenwickModel.
Local Open Scope N_scope.

(** Vectors have fewer than 2^64 - 1 elements and the tree is not shrunk to nothing (querying such
    a tree is undefined, C01). *)
Definition call_fits {T} (o : fop T) : Prop :=
  match o with ORebuild input _ => sizeN input + 1 < two64 | OResize m => m <> 0 | _ => True end.
