(** The vectors of k-ary nodes and their iterators (structures/tree.h): begin(),
    end(), rbegin() and rend() while the nodes are used.

    Nodes are those of KaryModel.v and known by their identity (address).  Beside
    them there is, for each node, what its [std::vector] tells iterators apart
    by: a stamp for every position, the one past the end included.  A call that
    invalidates an iterator gives its position a new stamp; an iterator remembers
    the stamp it was made with.  What a call invalidates is what the C++ standard
    says of push_back, resize, erase and clear. *)
Require Import List NArith Bool Arith.
Require Import Verif.Base Verif.KaryModel.
Import ListNotations.

Section Iter.
Context {V : Type}.
(** tree.h:228: template parameter max_node_size. *)
Variable max_node_size : N.
(** The capacity that a vector with this capacity and size gets when it has to
    hold more elements; the standard leaves it to the implementation. *)
Variable grow : nat -> nat -> nat -> nat.
Notation knode := (knode V).
Notation call := (call V).

(** tree.h:848: [_children] without its contents, which are in the node. *)
Record vec : Type := mkVec { stamps : list nat; cap : nat }.
(** The nodes that a program owns, the next address, the vectors by address, the
    next stamp. *)
Record kst : Type := mkK { roots : list knode; fresh : nat; vecs : list vec; tick : nat }.

(** The node with address [a] at or below [n]; [n] with that node replaced. *)
Fixpoint sub (a : nat) (n : knode) : option knode :=
  match n with
  | KN i _ _ s =>
      if Nat.eqb a i then Some n
      else
        (fix each (s : list (option knode)) : option knode :=
           match s with
           | [] => None
           | None :: s => each s
           | Some c :: s => match sub a c with Some m => Some m | None => each s end
           end) s
  end.
Fixpoint put (a : nat) (m : knode) (n : knode) : knode :=
  match n with
  | KN i p v s => if Nat.eqb a i then m else KN i p v (map (option_map (put a m)) s)
  end.
Fixpoint fsub (a : nat) (ns : list knode) : option knode :=
  match ns with
  | [] => None
  | n :: ns => match sub a n with Some m => Some m | None => fsub a ns end
  end.
Definition fput (a : nat) (m : knode) (ns : list knode) : list knode := map (put a m) ns.

(** Using a node; one that was deleted is not there any more. *)
Definition node (s : kst) (a : nat) : outcome knode :=
  match fsub a (roots s) with Some n => Val n | None => UB end.
Definition vector (s : kst) (a : nat) : outcome vec :=
  let* _ := node s a in
  match nth_error (vecs s) a with Some v => Val v | None => UB end.

(** std::vector, what is left of the iterators: appending up to a size
    (push_back, tree.h:308, and resize, tree.h:356, 393) invalidates all of them if
    the capacity does not suffice, the past-the-end one otherwise; erase
    (tree.h:416) invalidates from the position on; clear (tree.h:463) all. *)
Definition appended (t : nat) (size size' : nat) (v : vec) : vec :=
  if size' <=? cap v
  then mkVec (firstn size (stamps v) ++ seq t (S size' - size)) (cap v)
  else mkVec (seq t (S size')) (grow (cap v) size size').
Definition erased (t : nat) (size p : nat) (v : vec) : vec :=
  mkVec (firstn p (stamps v) ++ seq t (size - p)) (cap v).
Definition cleared (t : nat) (v : vec) : vec := mkVec [t] (cap v).

(** The vector of a node after a member call that made [n'] of [n]. *)
Definition vec_after (t : nat) (c : call) (n n' : knode) (v : vec) : vec :=
  let size := length (slots_of n) in
  let size' := length (slots_of n') in
  match c with
  | CClear => cleared t v
  | CDelete p => if (p <? N.of_nat size)%N then erased t size (N.to_nat p) v else v
  | _ => if size <? size' then appended t size size' v else v
  end.

(** tree.h:848: the vector of a new node is empty. *)
Definition new_vec (t : nat) : vec := mkVec [t] 0.

(** A member call on the node with address [a] (KaryModel.do_call; tree.h:304-464,
    94-107); second result: the answer and the node handed back, which the caller
    owns from then on. *)
Definition kcall (s : kst) (a : nat) (c : call) : outcome (kst * (answer * option nat)) :=
  let* n := node s a in
  let* v := vector s a in
  let* (n', (ans, handed, _, i)) := do_call max_node_size (fresh s) c n in
  let t := tick s + S (length (slots_of n')) in
  Val (mkK (fput a n' (roots s) ++ match handed with Some m => [m] | None => [] end)
           i
           (set_nth (vecs s) a (vec_after (tick s) c n n' v) ++ repeat (new_vec t) (i - fresh s))
           (S t),
       (ans, option_map id_of handed)).
(** tree.h:250-257: a new node that the program owns. *)
Definition knew (s : kst) (v : V) : kst * nat :=
  (mkK (roots s ++ [new_node (fresh s) None v]) (S (fresh s)) (vecs s ++ [new_vec (tick s)]) (S (tick s)),
   fresh s).
(** tree.h:293-296: destroying an owned node and everything below it. *)
Definition owned (s : kst) (a : nat) : bool := existsb (fun n => Nat.eqb a (id_of n)) (roots s).
Definition kdestroy (s : kst) (a : nat) : outcome kst :=
  if owned s a
  then Val (mkK (filter (fun n => negb (Nat.eqb a (id_of n))) (roots s)) (fresh s) (vecs s) (tick s))
  else UB.

(** ** Iterators *)

(** An iterator into the vector of a node: the position and the stamp it had. *)
Record iter : Type := mkI { inode : nat; ipos : nat; istamp : nat }.
Definition good (s : kst) (it : iter) : bool :=
  match vector s (inode it) with
  | Val v => match nth_error (stamps v) (ipos it) with Some t => Nat.eqb t (istamp it) | None => false end
  | _ => false
  end.
Definition at_pos (s : kst) (a p : nat) : outcome iter :=
  let* v := vector s a in
  match nth_error (stamps v) p with Some t => Val (mkI a p t) | None => UB end.
Definition size (s : kst) (a : nat) : outcome nat := let* n := node s a in Val (length (slots_of n)).
(** tree.h:618-621, 636-639: begin() and cbegin() *)
Definition begin_ (s : kst) (a : nat) : outcome iter := at_pos s a 0.
(** tree.h:627-630, 645-648: end() and cend() *)
Definition end_ (s : kst) (a : nat) : outcome iter := let* n := size s a in at_pos s a n.

(** The operations of the iterators; an invalidated one must not be used. *)
Definition deref (s : kst) (it : iter) : outcome (option nat) :=
  if good s it then
    let* n := node s (inode it) in
    match nth_error (slots_of n) (ipos it) with Some c => Val (option_map id_of c) | None => UB end
  else UB.
Definition next (s : kst) (it : iter) : outcome iter :=
  if good s it then
    let* n := size s (inode it) in
    if ipos it <? n then at_pos s (inode it) (S (ipos it)) else UB
  else UB.
Definition prev (s : kst) (it : iter) : outcome iter :=
  if good s it then match ipos it with O => UB | S p => at_pos s (inode it) p end else UB.
Definition differs (s : kst) (i j : iter) : outcome bool :=
  if good s i && good s j && Nat.eqb (inode i) (inode j) then Val (negb (Nat.eqb (ipos i) (ipos j))) else UB.

(** ** Loops: what a user writes over tree.h:618-683 *)

(** The body of a loop gets the pointer [*it], the child or null, and the pointers
    of the turns before. *)
Definition body_t : Type := list (option nat) -> kst -> option nat -> outcome kst.

(** for (auto it = n.begin(); it != n.end(); ++it) body( *it);  last result: the
    pointers. *)
Fixpoint for_each (fuel : nat) (body : body_t) (s : kst) (it : iter) (past : list (option nat))
  : outcome (kst * list (option nat)) :=
  let* e := end_ s (inode it) in
  let* d := differs s it e in
  if d then
    match fuel with
    | O => NoFuel
    | S fuel =>
        let* c := deref s it in
        let* s := body past s c in
        let* it := next s it in
        for_each fuel body s it (past ++ [c])
    end
  else Val (s, past).
(** The same from rbegin() to rend() (tree.h:654-683); a reverse iterator is its
    base and stands for the element before it. *)
Fixpoint for_each_reversed (fuel : nat) (body : body_t) (s : kst) (base : iter) (past : list (option nat))
  : outcome (kst * list (option nat)) :=
  let* b := begin_ s (inode base) in
  let* d := differs s base b in
  if d then
    match fuel with
    | O => NoFuel
    | S fuel =>
        let* it := prev s base in
        let* c := deref s it in
        let* s := body past s c in
        let* base := prev s base in
        for_each_reversed fuel body s base (past ++ [c])
    end
  else Val (s, past).

(** for (auto c : n) body(c);  the range for takes begin() and end() once. *)
Fixpoint range_for (fuel : nat) (body : body_t) (s : kst) (it last : iter) (past : list (option nat))
  : outcome (kst * list (option nat)) :=
  let* d := differs s it last in
  if d then
    match fuel with
    | O => NoFuel
    | S fuel =>
        let* c := deref s it in
        let* s := body past s c in
        let* it := next s it in
        range_for fuel body s it last (past ++ [c])
    end
  else Val (s, past).
Definition loop (fuel : nat) (body : body_t) (s : kst) (a : nat) : outcome (kst * list (option nat)) :=
  let* it := begin_ s a in for_each fuel body s it [].
Definition loop_reversed (fuel : nat) (body : body_t) (s : kst) (a : nat) : outcome (kst * list (option nat)) :=
  let* it := end_ s a in for_each_reversed fuel body s it [].
Definition loop_range (fuel : nat) (body : body_t) (s : kst) (a : nat) : outcome (kst * list (option nat)) :=
  let* it := begin_ s a in let* e := end_ s a in range_for fuel body s it e [].

(** ** Programs: any calls, each decided by the answers of the earlier ones *)
Inductive kop : Type := KCallOn (a : nat) (c : call) | KMake (v : V) | KDestroy (a : nat).
Definition kstep (s : kst) (o : kop) : outcome (kst * (answer * option nat)) :=
  match o with
  | KCallOn a c => kcall s a c
  | KMake v => let (s, a) := knew s v in Val (s, (ANone, Some a))
  | KDestroy a => let* s := kdestroy s a in Val (s, (ANone, None))
  end.
Fixpoint krun (s : kst) (os : list kop) : outcome kst :=
  match os with
  | [] => Val s
  | o :: os => let* (s, _) := kstep s o in krun s os
  end.
Definition kstart : kst := mkK [] 0 [] 0.
End Iter.
Arguments kst : clear implicits.
Arguments kop : clear implicits.
