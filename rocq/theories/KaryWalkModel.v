(** Traversals of k-ary trees (structures/tree.h) whose callback uses the nodes:
    the loops with their iterators over the current vectors (KaryIterModel.v). *)
Require Import List NArith Bool Arith.
Require Import Verif.Base Verif.KaryModel Verif.KaryIterModel.
Import ListNotations.

Section Walk.
Context {V : Type}.
Notation kst := (kst V).
(** std::function<bool(node_type_t&)>: sees the earlier calls, the state and the
    node; answers whether to stop.  It does not start a traversal itself (for that
    see WalkModel.v). *)
Variable cb : list nat -> kst -> nat -> outcome (kst * bool).
(** The turns that a loop over children is given here; the code has no such
    bound. *)
Variable width : nat.

(** func( *this); the calls are recorded. *)
Definition visit (s : kst) (past : list nat) (a : nat) : outcome (kst * list nat * bool) :=
  let* (s, stop) := cb past s a in Val (s, past ++ [a], stop).

(** tree.h:739-744, 758-763: the loop over the children of pre_order and pos_order,
    from [it] on. *)
Fixpoint each (turns : nat) (walk : kst -> list nat -> nat -> outcome (kst * list nat * nat))
  (s : kst) (past : list nat) (it : iter) (visited : nat) : outcome (kst * list nat * nat) :=
  let* e := end_ s (inode it) in
  let* d := differs s it e in
  if d then
    match turns with
    | O => NoFuel
    | S turns =>
        let* ptr := deref s it in
        let* (s, past, n) := match ptr with Some c => walk s past c | None => Val (s, past, 0) end in
        let* it := next s it in
        each turns walk s past it (visited + n)
    end
  else Val (s, past, visited).

(** tree.h:736-748 *)
Fixpoint pre_order (fuel : nat) (s : kst) (past : list nat) (a : nat) : outcome (kst * list nat * nat) :=
  match fuel with
  | O => NoFuel
  | S fuel =>
      let* (s, past, stop) := visit s past a in
      if stop : bool then Val (s, past, 1)
      else let* it := begin_ s a in each width (pre_order fuel) s past it 1
  end.

(** tree.h:755-766: the answer of the callback is not used. *)
Fixpoint pos_order (fuel : nat) (s : kst) (past : list nat) (a : nat) : outcome (kst * list nat * nat) :=
  match fuel with
  | O => NoFuel
  | S fuel =>
      let* it := begin_ s a in
      let* (s, past, visited) := each width (pos_order fuel) s past it 1 in
      let* (s, past, _) := visit s past a in
      Val (s, past, visited)
  end.

(** tree.h:712-726: the loop of in_order; last result: recursion_break. *)
Fixpoint in_loop (turns : nat) (walk : kst -> list nat -> nat -> outcome (kst * list nat * nat * bool))
  (a : nat) (s : kst) (past : list nat) (it : iter) (calls : N) (visited : nat) : outcome (kst * list nat * nat * bool) :=
  let* e := end_ s (inode it) in
  let* d := differs s it e in
  if d then
    match turns with
    | O => NoFuel
    | S turns =>
        let* ptr := deref s it in
        let* (s, past, n, brk) := match ptr with Some c => walk s past c | None => Val (s, past, 0, false) end in
        if brk : bool then Val (s, past, visited + n, true)
        else if (calls =? 0)%N then
          let* it := next s it in in_loop turns walk a s past it (wsub calls 1) (visited + n)
        else
          let* (s, past, stop) := visit s past a in
          if stop : bool then Val (s, past, visited + n, true)
          else let* it := next s it in in_loop turns walk a s past it (wsub calls 1) (visited + n)
    end
  else Val (s, past, visited, false).
(** tree.h:702-730 *)
Fixpoint in_order (fuel : nat) (s : kst) (past : list nat) (a : nat) : outcome (kst * list nat * nat * bool) :=
  match fuel with
  | O => NoFuel
  | S fuel =>
      let* n := size s a in
      match n with
      | O => let* (s, past, _) := visit s past a in Val (s, past, 1, false)
      | _ =>
          let* it := begin_ s a in
          in_loop width (in_order fuel) a s past it (N.max (wsub (N.of_nat n) 1) 1) 1
      end
  end.

(** tree.h:843-846: a copy of the vector; the null pointers are skipped
    (tree.h:1075-1079, 1135-1140). *)
Definition children (s : kst) (a : nat) : outcome (list nat) :=
  let* n := node s a in
  Val (flat_map (fun c => match c with Some c => [id_of c] | None => [] end) (slots_of n)).
(** tree.h:1064-1084 *)
Fixpoint bfs (fuel : nat) (s : kst) (queue : list nat) (past : list nat) (visited : nat) : outcome (kst * list nat * nat) :=
  match queue with
  | [] => Val (s, past, visited)
  | a :: queue =>
      match fuel with
      | O => NoFuel
      | S fuel =>
          let* (s, past, stop) := visit s past a in
          let* cs := children s a in
          if stop : bool then Val (s, past, S visited) else bfs fuel s (queue ++ cs) past (S visited)
      end
  end.
(** tree.h:1122-1144: a stack, its top is the head; the children are pushed last to
    first. *)
Fixpoint dfs (fuel : nat) (s : kst) (stack : list nat) (past : list nat) (visited : nat) : outcome (kst * list nat * nat) :=
  match stack with
  | [] => Val (s, past, visited)
  | a :: stack =>
      match fuel with
      | O => NoFuel
      | S fuel =>
          let* (s, past, stop) := visit s past a in
          let* cs := children s a in
          if stop : bool then Val (s, past, S visited) else dfs fuel s (cs ++ stack) past (S visited)
      end
  end.
End Walk.

(** Callbacks: what a user writes, not code of the repository. *)
Section Callbacks.
Context {V : Type}.
Variable max_node_size : N.
Variable grow : nat -> nat -> nat -> nat.
Notation kst := (kst V).

(** A callback that uses the node it got: any calls of its members, each decided by
    the answers of the earlier ones, then the answer.  A node that a call hands back
    is deleted at once if [drop]. *)
Inductive body : Type := Answer (b : bool) | Do (c : call V) (drop : bool) (k : answer * option nat -> body).
Definition drops (drop : bool) (s : kst) (handed : option nat) : outcome kst :=
  match handed with Some x => if drop then kdestroy s x else Val s | None => Val s end.
Fixpoint run_body (s : kst) (a : nat) (p : body) : outcome (kst * bool) :=
  match p with
  | Answer b => Val (s, b)
  | Do c drop k =>
      let* (s, r) := kcall max_node_size grow s a c in
      let* s := drops drop s (snd r) in
      run_body s a (k r)
  end.
(** The body may depend on the calls made before. *)
Definition own (f : list nat -> nat -> body) (past : list nat) (s : kst) (a : nat) : outcome (kst * bool) :=
  run_body s a (f past a).

(** The first slot of [n] that holds [a]. *)
Fixpoint index_of (a : nat) (l : list (option (knode V))) : nat :=
  match l with
  | Some c :: l => if Nat.eqb (id_of c) a then 0 else S (index_of a l)
  | None :: l => S (index_of a l)
  | [] => 0
  end.
(** delete n.parent().extract_child(the slot of n), if n has a parent. *)
Definition extract_self (past : list nat) (s : kst) (a : nat) : outcome (kst * bool) :=
  let* n := node s a in
  match parent_of n with
  | None => Val (s, false)
  | Some p =>
      let* m := node s p in
      let* (s, r) := kcall max_node_size grow s p (CExtract (N.of_nat (index_of a (slots_of m)))) in
      let* s := drops true s (snd r) in
      Val (s, false)
  end.
(** n.parent().delete_child(the slot of n), if n has a parent. *)
Definition delete_self (past : list nat) (s : kst) (a : nat) : outcome (kst * bool) :=
  let* n := node s a in
  match parent_of n with
  | None => Val (s, false)
  | Some p =>
      let* m := node s p in
      let* (s, r) := kcall max_node_size grow s p (CDelete (N.of_nat (index_of a (slots_of m)))) in
      Val (s, false)
  end.
End Callbacks.
Arguments body : clear implicits.
