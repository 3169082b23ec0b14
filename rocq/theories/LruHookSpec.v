(** Which overrides of on_discard the cache is made for. *)
Require Import List NArith Bool.
Require Import Verif.Base Verif.LruModel.
Import ListNotations.

(** Calls that neither add keys nor discard nor clear. *)
Definition modest {K} (o : cop K) : Prop :=
  match o with
  | CAdd _ | CIndex _ | CClip | CSetCap _ | CClear => False
  | _ => True
  end.

Definition modest_hook {K} (hook : cache K -> K -> list (cop K)) : Prop :=
  forall c k, Forall modest (hook c k).

(** An override that makes the same calls every time. *)
Definition always {K} (f : K -> list (cop K)) : cache K -> K -> list (cop K) := fun _ k => f k.

(** Calls that only look. *)
Definition reading {K} (o : cop K) : Prop :=
  match o with CFind _ | CRemove _ => False | _ => modest o end.

Definition reading_hook {K} (hook : cache K -> K -> list (cop K)) : Prop :=
  forall c k, Forall reading (hook c k).
