(** Model of the traversals of structures/tree.h and structures/binary_tree.h with a callback that
    may throw.  As in TraverseModel a callback decides on the node and on all calls made before it;
    [None]: it throws.  A traversal returns the calls made, oldest first, and the number it returns
    in the code, [None] if the exception passes through.  Simplified: the queue, the stack and the
    call stack have memory enough. *)
Require Import List NArith Bool Arith.
Require Import Verif.Base Verif.TraverseModel.
Import ListNotations.

Section Traverse.
Context {V : Type}.
Notation btree := (btree V).
Notation ktree := (ktree V).

(** *** Binary nodes *)
Section Binary.
Variable cb : list btree -> btree -> option bool.
(** binary_tree.h:315-327 (const: 372-384) *)
Fixpoint t_in_order (t : btree) (past : list btree) : list btree * option nat :=
  match t with
  | BLeaf => (past, Some 0)
  | BNode v l r =>
      match t_in_order l past with
      | (past, None) => (past, None)
      | (past, Some n) =>
          match cb past t with
          | None => (past ++ [t], None)
          | Some true => (past ++ [t], Some (1 + n))
          | Some false =>
              match t_in_order r (past ++ [t]) with
              | (past, None) => (past, None)
              | (past, Some m) => (past, Some (1 + n + m))
              end
          end
      end
  end.
(** binary_tree.h:334-346 (const: 391-403) *)
Fixpoint t_pre_order (t : btree) (past : list btree) : list btree * option nat :=
  match t with
  | BLeaf => (past, Some 0)
  | BNode v l r =>
      match cb past t with
      | None => (past ++ [t], None)
      | Some true => (past ++ [t], Some 1)
      | Some false =>
          match t_pre_order l (past ++ [t]) with
          | (past, None) => (past, None)
          | (past, Some n) =>
              match t_pre_order r past with
              | (past, None) => (past, None)
              | (past, Some m) => (past, Some (1 + n + m))
              end
          end
      end
  end.
(** binary_tree.h:353-364 (const: 410-421) *)
Fixpoint t_pos_order (t : btree) (past : list btree) : list btree * option nat :=
  match t with
  | BLeaf => (past, Some 0)
  | BNode v l r =>
      match t_pos_order l past with
      | (past, None) => (past, None)
      | (past, Some n) =>
          match t_pos_order r past with
          | (past, None) => (past, None)
          | (past, Some m) => (past ++ [t], match cb past t with None => None | Some _ => Some (1 + n + m) end)
          end
      end
  end.
End Binary.

(** *** k-ary nodes *)
Section Kary.
Variable cb : list ktree -> ktree -> option bool.
(** tree.h:701-729 (const: 773-803).  [flag] is the static variable [recursion_break], which
    outlives the call; line 706 (778) resets it, line 721 (793) stores an answer, if there is one. *)
Fixpoint t_kin_order (t : ktree) (past : list ktree) (flag : bool) : list ktree * option nat * bool :=
  match t with
  | KNode v slots =>
      let flag := false in
      match slots with
      | [] => (past ++ [t], match cb past t with None => None | Some _ => Some 1 end, flag)
      | _ =>
          (fix loop (s : list (option ktree)) (calls : N) (past : list ktree) (visited : nat) (flag : bool)
             : list ktree * option nat * bool :=
             match s with
             | [] => (past, Some visited, flag)
             | c :: s =>
                 let own (past : list ktree) (visited : nat) (flag : bool) :=
                   if (calls =? 0)%N then loop s (wsub calls 1) past visited flag
                   else
                     match cb past t with
                     | None => (past ++ [t], None, flag)
                     | Some true => (past ++ [t], Some visited, true)
                     | Some false => loop s (wsub calls 1) (past ++ [t]) visited false
                     end in
                 match c with
                 | None => own past visited flag
                 | Some c =>
                     match t_kin_order c past flag with
                     | (past, None, flag) => (past, None, flag)
                     | (past, Some n, flag) =>
                         if flag then (past, Some (visited + n), flag) else own past (visited + n) flag
                     end
                 end
             end) slots (N.max (wsub (sizeN slots) 1) 1) past 1 flag
      end
  end.
(** tree.h:736-748 (const: 810-822) *)
Fixpoint t_kpre_order (t : ktree) (past : list ktree) : list ktree * option nat :=
  match t with
  | KNode v slots =>
      match cb past t with
      | None => (past ++ [t], None)
      | Some true => (past ++ [t], Some 1)
      | Some false =>
          (fix loop (s : list (option ktree)) (past : list ktree) (visited : nat) :=
             match s with
             | [] => (past, Some visited)
             | None :: s => loop s past visited
             | Some c :: s =>
                 match t_kpre_order c past with
                 | (past, None) => (past, None)
                 | (past, Some n) => loop s past (visited + n)
                 end
             end) slots (past ++ [t]) 1
      end
  end.
(** tree.h:755-768 (const: 829-841) *)
Fixpoint t_kpos_order (t : ktree) (past : list ktree) : list ktree * option nat :=
  match t with
  | KNode v slots =>
      match
        (fix loop (s : list (option ktree)) (past : list ktree) (visited : nat) :=
           match s with
           | [] => (past, Some visited)
           | None :: s => loop s past visited
           | Some c :: s =>
               match t_kpos_order c past with
               | (past, None) => (past, None)
               | (past, Some n) => loop s past (visited + n)
               end
           end) slots past 1
      with
      | (past, None) => (past, None)
      | (past, Some visited) => (past ++ [t], match cb past t with None => None | Some _ => Some visited end)
      end
  end.
(** tree.h:1064-1084 (const: 1093-1113) *)
Fixpoint t_bfs_loop (fuel : nat) (queue : list ktree) (past : list ktree) (visited : nat)
  : outcome (list ktree * option nat) :=
  match queue with
  | [] => Val (past, Some visited)
  | node :: queue =>
      match fuel with
      | O => NoFuel
      | S fuel =>
          match cb past node with
          | None => Val (past ++ [node], None)
          | Some true => Val (past ++ [node], Some (S visited))
          | Some false => t_bfs_loop fuel (queue ++ kids node) (past ++ [node]) (S visited)
          end
      end
  end.
(** tree.h:1122-1144 (const: 1153-1175) *)
Fixpoint t_dfs_loop (fuel : nat) (stack : list ktree) (past : list ktree) (visited : nat)
  : outcome (list ktree * option nat) :=
  match stack with
  | [] => Val (past, Some visited)
  | node :: stack =>
      match fuel with
      | O => NoFuel
      | S fuel =>
          match cb past node with
          | None => Val (past ++ [node], None)
          | Some true => Val (past ++ [node], Some (S visited))
          | Some false =>
              t_dfs_loop fuel (fold_left (fun st c => c :: st) (rev (kids node)) stack) (past ++ [node]) (S visited)
          end
      end
  end.
(** tree.h:1064-1084, 1122-1144: an empty tree calls nothing. *)
Definition t_bfs (root : option ktree) : outcome (list ktree * option nat) :=
  match root with None => Val ([], Some 0) | Some t => t_bfs_loop (knodes t) [t] [] 0 end.
Definition t_dfs (root : option ktree) : outcome (list ktree * option nat) :=
  match root with None => Val ([], Some 0) | Some t => t_dfs_loop (knodes t) [t] [] 0 end.
End Kary.
End Traverse.
