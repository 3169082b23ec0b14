(** Models of classic/sequences/subarray.h and subset.h.  A range is the list of
    its elements; [b] is the number of bits of number_t, a signed integer type of
    at least int's rank (max_sum_of over doubles is in DoubleModel.v);
    std::unordered_map is an association list with one entry per key. *)
Require Import List Arith NArith ZArith Bool.
Require Import Verif.Base Verif.Cint.
Import ListNotations.
Local Open Scope Z_scope.

Section Sub.
Variable b : Z.

Definition lookup {A} (m : list (Z * A)) (k : Z) : option A :=
  option_map snd (find (fun p => fst p =? k) m).
(** operator[] with assignment: replaces or inserts. *)
Definition assign {A} (m : list (Z * A)) (k : Z) (v : A) : list (Z * A) :=
  (k, v) :: filter (fun p => negb (fst p =? k)) m.

(** subarray.h:37-52: the loop of max_length_of_sum; [ii] is the distance of [it]
    from [first].  [ii - res->second] is not negative: second < ii. *)
Fixpoint length_loop (l : list Z) (ii : nat) (sum required_sum : Z) (first_occurrence : list (Z * nat))
  (max_length : nat) : outcome nat :=
  match l with
  | [] => Val max_length
  | x :: l =>
      let* sum := chk b (sum + x) in
      if sum =? required_sum then length_loop l (S ii) sum required_sum first_occurrence (ii + 1)
      else
        let* key := chk b (sum - required_sum) in
        match lookup first_occurrence key with
        | Some second =>
            length_loop l (S ii) sum required_sum first_occurrence (Nat.max max_length (ii - second))
        | None =>
            if (required_sum =? 0) || match lookup first_occurrence sum with None => true | Some _ => false end
            then length_loop l (S ii) sum required_sum (assign first_occurrence sum ii) max_length
            else length_loop l (S ii) sum required_sum first_occurrence max_length
        end
  end.
(** subarray.h:28-55: max_length_of_sum *)
Definition max_length_of_sum (l : list Z) (required_sum : Z) : outcome nat :=
  length_loop l 0 0 required_sum [] 0.

(** subarray.h:68-71: the loop of max_sum_of *)
Fixpoint sum_loop (l : list Z) (current_max max_sum : Z) : outcome Z :=
  match l with
  | [] => Val max_sum
  | x :: l =>
      let* s := chk b (current_max + x) in
      let current_max := Z.max x s in
      sum_loop l current_max (Z.max current_max max_sum)
  end.
(** subarray.h:62-73: max_sum_of *)
Definition max_sum_of (l : list Z) : outcome Z :=
  match l with
  | [] => Val 0
  | first :: _ => sum_loop l first first
  end.

(** subset.h:20: sum_cache_t *)
Definition cache := list (list (Z * N)).
(** [right_first]: which of the two recursive calls is evaluated first, which the
    language leaves open.  Whether cache[ii][sum] is inserted before or after them
    (subset.h:58-61) makes no difference: they only touch entries after [ii]. *)
Variable right_first : bool.
(** subset.h:40-66: sum_of_subsets with a cache; [l] are the elements from [it]
    on, [ii] the distance of [it] from [first]. *)
Fixpoint sum_of_subsets (l : list Z) (ii : nat) (sum : Z) (c : cache) : outcome (cache * N) :=
  match l with
  | [] => Val (c, if sum =? 0 then 1%N else 0%N)
  | x :: l =>
      match nth_error c ii with
      | None => UB
      | Some m =>
          match lookup m sum with
          | Some result => Val (c, result)
          | None =>
              let* (c, result) :=
                if right_first then
                  let* s := chk b (sum - x) in
                  let* (c, with_x) := sum_of_subsets l (S ii) s c in
                  let* (c, without_x) := sum_of_subsets l (S ii) sum c in
                  Val (c, wadd without_x with_x)
                else
                  let* (c, without_x) := sum_of_subsets l (S ii) sum c in
                  let* s := chk b (sum - x) in
                  let* (c, with_x) := sum_of_subsets l (S ii) s c in
                  Val (c, wadd without_x with_x) in
              match nth_error c ii with
              | None => UB
              | Some m => Val (set_nth c ii (assign m sum result), result)
              end
          end
      end
  end.
(** subset.h:28-33: sum_of_subsets with its own cache *)
Definition sum_of_subsets_fresh (l : list Z) (sum : Z) : outcome N :=
  let* (_, result) := sum_of_subsets l 0 sum (repeat [] (length l)) in Val result.
(** Calls that share a cache. *)
Fixpoint sums_of_subsets (l : list Z) (sums : list Z) (c : cache) : outcome (cache * list N) :=
  match sums with
  | [] => Val (c, [])
  | s :: r =>
      let* (c, x) := sum_of_subsets l 0 s c in
      let* (c, xs) := sums_of_subsets l r c in
      Val (c, x :: xs)
  end.
End Sub.
