(** Model of in_order of k-ary nodes (tree.h:701-729, const: 773-803) run by several
    threads, or started again by a callback, on any trees with nodes of one type:
    the variable [recursion_break] is static, one for all of them.  A step is one
    access of that variable, one call of the callback, one turn of the loop, or a
    call or return of in_order.  A callback that starts another traversal is a
    schedule in which that one runs from begin to end in the middle of the step of
    the callback, that is right after it. *)
Require Import List Arith NArith Bool.
Require Import Verif.Base Verif.TraverseModel.
Import ListNotations.

Section Walk.
Context {V : Type}.
Notation ktree := (ktree V).

(** tree.h:701-729: the local variables of a call on a node with slots; [rest]: the
    slots that the iterator [it] has still to visit. *)
Record frame := { node : ktree; rest : list (option ktree); calls : N; visited : nat }.
Inductive pc :=
  | Enter (t : ktree)  (* 702-706: the call, before recursion_break = false *)
  | Leaf (t : ktree)   (* 709 *)
  | For                (* 712-714 *)
  | Back (n : nat)     (* 715: the call for a slot or the whole traversal returned n *)
  | Test               (* 716 *)
  | Own                (* 720-721: calls--, func( *this) *)
  | Store (b : bool)   (* 721: recursion_break = b *)
  | Check              (* 721: if (recursion_break) *)
  | Done (n : nat).
(** A traversal: its callback, the calls of it made so far, the open calls of
    in_order. *)
Record thread := { cb : list ktree -> ktree -> bool; made : list ktree; stack : list frame; at_ : pc }.
Definition begin (f : list ktree -> ktree -> bool) (t : ktree) : thread :=
  {| cb := f; made := []; stack := []; at_ := Enter t |}.
Definition go (p : pc) (h : thread) : thread := {| cb := cb h; made := made h; stack := stack h; at_ := p |}.
Definition set_stack (l : list frame) (h : thread) : thread := {| cb := cb h; made := made h; stack := l; at_ := at_ h |}.
Definition call (t : ktree) (h : thread) : thread :=
  {| cb := cb h; made := made h ++ [t]; stack := stack h; at_ := at_ h |}.

(** tree.h:701-729: the next step of a traversal, given the static variable; None
    if it is over. *)
Definition walk (h : thread) (flag : bool) : option (thread * bool) :=
  match at_ h, stack h with
  | Enter t, l =>
      match slots_of t with
      | [] => Some (go (Leaf t) h, false)
      | s => Some (go For (set_stack ({| node := t; rest := s; calls := N.max (wsub (sizeN s) 1) 1; visited := 1 |} :: l) h), false)
      end
  | Leaf t, _ => Some (go (Back 1) (call t h), flag)
  | For, f :: l =>
      match rest f with
      | [] => Some (go (Back (visited f)) (set_stack l h), flag)
      | c :: s =>
          let h := set_stack ({| node := node f; rest := s; calls := calls f; visited := visited f |} :: l) h in
          Some (go (match c with Some c => Enter c | None => Own end) h, flag)
      end
  | Back n, [] => Some (go (Done n) h, flag)
  | Back n, f :: l =>
      Some (go Test (set_stack ({| node := node f; rest := rest f; calls := calls f; visited := visited f + n |} :: l) h), flag)
  | Test, f :: l => if flag then Some (go (Back (visited f)) (set_stack l h), flag) else Some (go Own h, flag)
  | Own, f :: l =>
      let h' := set_stack ({| node := node f; rest := rest f; calls := wsub (calls f) 1; visited := visited f |} :: l) h in
      if (calls f =? 0)%N then Some (go For h', flag)
      else Some (go (Store (cb h (made h) (node f))) (call (node f) h'), flag)
  | Store b, _ => Some (go Check h, b)
  | Check, f :: l => if flag then Some (go (Back (visited f)) (set_stack l h), flag) else Some (go For h, flag)
  | _, _ => None
  end.
(** Which accesses of the static variable the next step makes: false reads, true
    writes. *)
Definition accesses (p : pc) : list bool :=
  match p with Enter _ | Store _ => [true] | Test | Check => [false] | _ => [] end.

(** All traversals and the static variable; a schedule says whose step is next. *)
Record state := { threads : list thread; flag : bool }.
Definition step (i : nat) (s : state) : option state :=
  match nth_error (threads s) i with
  | None => None
  | Some h =>
      match walk h (flag s) with
      | None => None
      | Some (h, b) => Some {| threads := set_nth (threads s) i h; flag := b |}
      end
  end.
Fixpoint run (sched : list nat) (s : state) : option state :=
  match sched with
  | [] => Some s
  | i :: sched => match step i s with Some s => run sched s | None => None end
  end.
(** tree.h:703: at the begin of the program the variable is false. *)
Definition start (l : list ((list ktree -> ktree -> bool) * ktree)) : state :=
  {| threads := map (fun x => begin (fst x) (snd x)) l; flag := false |}.
End Walk.
Arguments frame V : clear implicits.
Arguments pc V : clear implicits.
Arguments thread V : clear implicits.
Arguments state V : clear implicits.
