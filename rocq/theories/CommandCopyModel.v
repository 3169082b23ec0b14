(** Model of structures/command.h for programs with any number of managers that may also copy them.

    command_manager_t declares a destructor (command.h:13-16) and nothing else of that kind, so the
    compiler provides a copy constructor and a copy assignment, which copy the two deques of raw
    pointers (command.h:79-81), and no moves: a manager that is moved from is copied.  A manager is
    the number of its construction; using one that is not there is UB.  Programs with store are
    looked at where its missing return does nothing (CommandModel, [lenient]).  Left out: the
    failure of allocations. *)
Require Import List Arith NArith Bool.
Require Import Verif.Base Verif.CommandModel.
Import ListNotations.

(** command.h:79-81: the managers constructed so far, [None] for those destroyed, and what was deleted
    by all of them. *)
Record world := { managers : list (option (list N * list N)); gone : list N }.
Definition nothing : world := {| managers := []; gone := [] |}.

Inductive act :=
| New
| Call (i : nat) (c : call)
| Copy (i : nat)        (* a new manager, copied or moved from manager [i] *)
| Assign (i j : nat)    (* manager [i] = manager [j], copied or moved *)
| Destroy (i : nat).

Definition alive (w : world) (i : nat) : outcome (list N * list N) :=
  match nth_error (managers w) i with Some (Some m) => Val m | _ => UB end.
Definition with_gone (m : list N * list N) (d : list N) : state := {| first := fst m; second := snd m; deleted := d |}.
(** command.h:18-52: the members; command.h:13-16: the destructor; the rest is implicit. *)
Definition do_act (w : world) (a : act) : outcome world :=
  match a with
  | New => Val {| managers := managers w ++ [Some ([], [])]; gone := gone w |}
  | Call i c =>
      let* m := alive w i in
      let* (s, _) := step true c (with_gone m (gone w)) in
      Val {| managers := set_nth (managers w) i (Some (first s, second s)); gone := deleted s |}
  | Copy i =>
      let* m := alive w i in
      Val {| managers := managers w ++ [Some m]; gone := gone w |}
  | Assign i j =>
      let* _ := alive w i in
      let* m := alive w j in
      Val {| managers := set_nth (managers w) i (Some m); gone := gone w |}
  | Destroy i =>
      let* m := alive w i in
      let* d := destroy (with_gone m (gone w)) in
      Val {| managers := set_nth (managers w) i None; gone := d |}
  end.
Fixpoint acts (w : world) (l : list act) : outcome world :=
  match l with [] => Val w | a :: l => let* w := do_act w a in acts w l end.
