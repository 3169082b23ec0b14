(** Proofs about the traversals. *)
Require Import List NArith Bool Arith Lia Permutation.
Require Import Verif.Base Verif.AvlModel Verif.TraverseModel Verif.TraverseSpec.
Import ListNotations.

Lemma sub_app {A} (a b c d : list A) : sub a b -> sub c d -> sub (a ++ c) (b ++ d).
Proof. induction 1; cbn; auto; intros; constructor; auto. Qed.
Lemma sub_nil_l {A} (l : list A) : sub [] l.
Proof. induction l; constructor; auto. Qed.
Lemma sub_refl {A} (l : list A) : sub l l.
Proof. induction l; constructor; auto. Qed.
Lemma sub_length {A} (l m : list A) : sub l m -> length l <= length m.
Proof. induction 1; cbn; lia. Qed.
Lemma sub_len_eq {A} (l m : list A) : sub l m -> length l = length m -> l = m.
Proof.
  induction 1; cbn; intros E; auto; [f_equal; auto|]. apply sub_length in H. lia.
Qed.

Section B.
Context {V : Type}.
Notation btree := (btree V).

Lemma count_in (t : btree) : length (inorder t) = bcount t.
Proof. induction t; [reflexivity|]. cbn [inorder bcount]. rewrite !app_length. cbn. lia. Qed.
Lemma count_pre (t : btree) : length (preorder t) = bcount t.
Proof. induction t; [reflexivity|]. cbn [preorder bcount]. rewrite !app_length. cbn. lia. Qed.
Lemma count_post (t : btree) : length (postorder t) = bcount t.
Proof. induction t; [reflexivity|]. cbn [postorder bcount]. rewrite !app_length. cbn. lia. Qed.

Lemma in_order_gen cb (t : btree) : forall past, exists tr,
  in_order cb t past = (past ++ tr, length tr) /\ sub tr (inorder t).
Proof.
  induction t as [|v l IHl r IHr]; intros past.
  - exists []. rewrite app_nil_r. split; [reflexivity|constructor].
  - cbn [in_order]. destruct (IHl past) as (tl & -> & Sl). destruct (cb (past ++ tl) (BNode v l r)).
    + exists (tl ++ [BNode v l r]). rewrite app_assoc, app_length. cbn [length]. split; [f_equal; lia|].
      cbn [inorder]. apply sub_app; [assumption|]. cbn. constructor. apply sub_nil_l.
    + destruct (IHr ((past ++ tl) ++ [BNode v l r])) as (tr & -> & Sr).
      exists (tl ++ [BNode v l r] ++ tr). rewrite !app_assoc, !app_length. cbn [length]. split; [f_equal; lia|].
      cbn [inorder]. rewrite <- app_assoc. apply sub_app; [assumption|]. cbn. constructor. assumption.
Qed.

Lemma pre_order_gen cb (t : btree) : forall past, exists tr,
  pre_order cb t past = (past ++ tr, length tr) /\ sub tr (preorder t).
Proof.
  induction t as [|v l IHl r IHr]; intros past.
  - exists []. rewrite app_nil_r. split; [reflexivity|constructor].
  - cbn [pre_order]. destruct (cb past (BNode v l r)).
    + exists [BNode v l r]. split; [reflexivity|]. cbn. constructor. apply sub_nil_l.
    + destruct (IHl (past ++ [BNode v l r])) as (tl & -> & Sl). destruct (IHr ((past ++ [BNode v l r]) ++ tl)) as (tr & -> & Sr).
      exists (BNode v l r :: tl ++ tr). split.
      * f_equal; [rewrite <- !app_assoc; reflexivity|]. cbn. rewrite app_length. lia.
      * cbn [preorder app]. constructor. apply sub_app; assumption.
Qed.

Lemma pos_order_gen cb (t : btree) : forall past,
  pos_order cb t past = (past ++ postorder t, bcount t).
Proof.
  induction t as [|v l IHl r IHr]; intros past; cbn [pos_order postorder bcount].
  - rewrite app_nil_r. reflexivity.
  - rewrite IHl, IHr. f_equal; [rewrite <- !app_assoc; reflexivity|lia].
Qed.

Lemma in_order_never (t : btree) : forall past, in_order never t past = (past ++ inorder t, bcount t).
Proof.
  induction t as [|v l IHl r IHr]; intros past; cbn [in_order inorder bcount].
  - rewrite app_nil_r. reflexivity.
  - rewrite IHl. unfold never at 1. rewrite IHr. f_equal; [rewrite <- !app_assoc; reflexivity|lia].
Qed.
Lemma pre_order_never (t : btree) : forall past, pre_order never t past = (past ++ preorder t, bcount t).
Proof.
  induction t as [|v l IHl r IHr]; intros past; cbn [pre_order preorder bcount].
  - rewrite app_nil_r. reflexivity.
  - unfold never at 1. rewrite IHl, IHr. f_equal; [rewrite <- !app_assoc; reflexivity|lia].
Qed.

Lemma binary_traversals (t : btree) :
  in_order never t [] = (inorder t, bcount t) /\ pre_order never t [] = (preorder t, bcount t) /\
  pos_order never t [] = (postorder t, bcount t) /\
  length (inorder t) = bcount t /\ length (preorder t) = bcount t /\ length (postorder t) = bcount t.
Proof.
  rewrite in_order_never, pre_order_never, pos_order_gen, count_in, count_pre, count_post. cbn [app]. auto 6.
Qed.

(** Callbacks that look at the node only. *)
Lemma filter_nil {A} (f : A -> bool) l : (forall x, In x l -> f x = false) -> filter f l = [].
Proof.
  induction l as [|x l IH]; intros H; [reflexivity|]. cbn. rewrite (H x) by (left; reflexivity). apply IH. intros y I. apply H. right. assumption.
Qed.
Lemma keep_anc (g : btree * bool -> bool) a anc (t : btree) : g a = true -> In a anc ->
  filter (fun x => negb (existsb g (fst x))) (pre_anc anc t) = [] /\ filter (fun x => negb (existsb g (fst x))) (in_anc anc t) = [].
Proof.
  intros Ga. revert anc. induction t as [|v l IHl r IHr]; intros anc I; [split; reflexivity|].
  assert (E : existsb g anc = true) by (apply existsb_exists; eauto).
  cbn [pre_anc in_anc]. destruct (IHl ((BNode v l r, false) :: anc)) as [A1 A2]; [right; assumption|].
  destruct (IHr ((BNode v l r, true) :: anc)) as [B1 B2]; [right; assumption|].
  rewrite !filter_app, A1, A2, B1, B2. cbn. rewrite E. auto.
Qed.

Lemma pre_order_pure f (t : btree) : forall anc past, existsb (fun a => f (fst a)) anc = false ->
  pre_order (fun _ x => f x) t past =
    let tr := map snd (filter (fun x => negb (existsb (fun a => f (fst a)) (fst x))) (pre_anc anc t)) in (past ++ tr, length tr).
Proof.
  induction t as [|v l IHl r IHr]; intros anc past E; cbn [pre_order pre_anc].
  - cbn. rewrite app_nil_r. reflexivity.
  - cbn zeta. cbn [app filter fst]. rewrite E. cbn [negb map snd]. rewrite filter_app, map_app. destruct (f (BNode v l r)) eqn:F.
    + destruct (keep_anc (fun a => f (fst a)) (BNode v l r, false) ((BNode v l r, false) :: anc) l) as [-> _]; [exact F|left; reflexivity|].
      destruct (keep_anc (fun a => f (fst a)) (BNode v l r, true) ((BNode v l r, true) :: anc) r) as [-> _]; [exact F|left; reflexivity|].
      reflexivity.
    + rewrite (IHl ((BNode v l r, false) :: anc)) by (cbn; rewrite F; exact E). cbv beta iota zeta.
      rewrite (IHr ((BNode v l r, true) :: anc)) by (cbn; rewrite F; exact E). cbv beta iota zeta.
      rewrite <- !app_assoc. f_equal. cbn [length]. rewrite app_length. lia.
Qed.

Lemma in_order_pure f (t : btree) : forall anc past, existsb (fun a => snd a && f (fst a)) anc = false ->
  in_order (fun _ x => f x) t past =
    let tr := map snd (filter (fun x => negb (existsb (fun a => snd a && f (fst a)) (fst x))) (in_anc anc t)) in (past ++ tr, length tr).
Proof.
  induction t as [|v l IHl r IHr]; intros anc past E; cbn [in_order in_anc].
  - cbn. rewrite app_nil_r. reflexivity.
  - cbn zeta. rewrite !filter_app, !map_app. cbn [filter fst]. rewrite E. cbn [negb map snd].
    rewrite (IHl ((BNode v l r, false) :: anc)) by (cbn; exact E). cbv beta iota zeta.
    destruct (f (BNode v l r)) eqn:F.
    + destruct (keep_anc (fun a => snd a && f (fst a)) (BNode v l r, true) ((BNode v l r, true) :: anc) r) as [_ ->]; [exact F|left; reflexivity|].
      cbn [map]. rewrite !app_nil_r, <- !app_assoc. f_equal. rewrite app_length. cbn [length]. lia.
    + rewrite (IHr ((BNode v l r, true) :: anc)) by (cbn; rewrite F; exact E). cbv beta iota zeta.
      rewrite <- !app_assoc. f_equal. rewrite !app_length. cbn [length]. lia.
Qed.

Lemma anc_lists (t : btree) : forall anc, map snd (pre_anc anc t) = preorder t /\ map snd (in_anc anc t) = inorder t.
Proof.
  induction t as [|v l IHl r IHr]; intros anc; [split; reflexivity|]. cbn [pre_anc in_anc preorder inorder].
  rewrite !map_app. destruct (IHl ((BNode v l r, false) :: anc)) as [-> ->]. destruct (IHr ((BNode v l r, true) :: anc)) as [-> ->].
  split; reflexivity.
Qed.

Lemma binary_pruning f (t : btree) :
  fst (pre_order (fun _ x => f x) t []) =
    map snd (filter (fun x => negb (existsb (fun a => f (fst a)) (fst x))) (pre_anc [] t)) /\
  fst (in_order (fun _ x => f x) t []) =
    map snd (filter (fun x => negb (existsb (fun a => snd a && f (fst a)) (fst x))) (in_anc [] t)) /\
  map snd (pre_anc [] t) = preorder t /\ map snd (in_anc [] t) = inorder t.
Proof.
  rewrite (pre_order_pure f t []), (in_order_pure f t []) by reflexivity. destruct (anc_lists t []) as [-> ->]. auto.
Qed.

Lemma binary_stop cb (t : btree) :
  (exists tr, in_order cb t [] = (tr, length tr) /\ sub tr (inorder t)) /\
  (exists tr, pre_order cb t [] = (tr, length tr) /\ sub tr (preorder t)) /\
  pos_order cb t [] = (postorder t, bcount t).
Proof.
  split; [|split].
  - destruct (in_order_gen cb t []) as (tr & E & S). eauto.
  - destruct (pre_order_gen cb t []) as (tr & E & S). eauto.
  - apply pos_order_gen.
Qed.
End B.

Lemma of_btree_as_kary {V} (t : btree V) : of_btree t = as_kary t.
Proof. induction t; cbn; congruence. Qed.
Lemma as_kary_preorder {V} (t : btree V) k : as_kary t = Some k ->
  map kvalue (kpre k) = flat_map (fun s => match s with BNode v _ _ => [v] | BLeaf => [] end) (preorder t).
Proof.
  revert k. induction t as [|v l IHl r IHr]; intros k E; [discriminate|]. cbn in E. injection E as <-.
  cbn [kpre preorder map kvalue over_slots concat app flat_map]. f_equal. rewrite app_nil_r, map_app, flat_map_app.
  f_equal; [destruct l|destruct r]; try reflexivity; [apply IHl|apply IHr]; reflexivity.
Qed.

(** The values visited by in_order on an AVL tree are those of AvlModel.v. *)
Lemma avl_in_order {T} (t : tree T) :
  flat_map (fun s => match s with BNode v _ _ => [v] | BLeaf => [] end) (inorder (of_avl t)) = AvlModel.in_order t /\
  bcount (of_avl t) = AvlModel.visited t.
Proof.
  induction t as [|i p h v l [IHl1 IHl2] r [IHr1 IHr2]]; [split; reflexivity|].
  cbn [of_avl inorder bcount AvlModel.in_order AvlModel.visited]. rewrite !flat_map_app, IHl1, IHr1. cbn. split; [reflexivity|lia].
Qed.

Section K.
Context {V : Type}.
Notation ktree := (ktree V).

Lemma ktree_ind' (P : ktree -> Prop) :
  (forall v s, Forall (fun c => match c with Some t => P t | None => True end) s -> P (KNode v s)) ->
  forall t, P t.
Proof.
  intros H. fix IH 1. intros [v s]. apply H. induction s as [|[t|] s IHs]; constructor; auto.
Qed.

Lemma present_concat s : present s = concat (over_slots (V := V) (fun c => [c]) s).
Proof. unfold present, over_slots. rewrite flat_map_concat_map. reflexivity. Qed.
Lemma kids_children (t : ktree) : kids t = children t.
Proof. destruct t as [v s]. apply present_concat. Qed.

Lemma over_children {A} (f : ktree -> list A) s :
  concat (over_slots f s) = flat_map f (concat (over_slots (fun c => [c]) s)).
Proof.
  unfold over_slots. induction s as [|[c|] s IH]; [reflexivity| |exact IH].
  cbn [map concat]. rewrite IH. reflexivity.
Qed.

Lemma knodes_kcount (t : ktree) : knodes t = kcount t.
Proof.
  induction t as [v s IH] using ktree_ind'. cbn. f_equal.
  induction IH as [|c s Hc Hs IHs]; [reflexivity|]. cbn. rewrite IHs. destruct c; [rewrite Hc|]; reflexivity.
Qed.

Lemma kpre_children (t : ktree) : kpre t = t :: flat_map kpre (children t).
Proof. destruct t as [v s]. cbn. f_equal. apply over_children. Qed.
Lemma kcount_children (t : ktree) : kcount t = 1 + list_sum (map kcount (children t)).
Proof.
  destruct t as [v s]. cbn. f_equal. induction s as [|[c|] s IH]; cbn; auto.
Qed.
Lemma kdepth_children (t : ktree) : kdepth t = 1 + list_max (map kdepth (children t)).
Proof.
  destruct t as [v s]. cbn. f_equal. induction s as [|[c|] s IH]; cbn; auto.
Qed.
Lemma kcount_kpre (t : ktree) : length (kpre t) = kcount t.
Proof.
  induction t as [v s IH] using ktree_ind'. cbn. f_equal. unfold over_slots.
  induction IH as [|c s Hc Hs IHs]; [reflexivity|]. cbn. rewrite app_length, IHs. destruct c; [rewrite Hc|]; reflexivity.
Qed.
Lemma kcount_kpost (t : ktree) : length (kpost t) = kcount t.
Proof.
  induction t as [v s IH] using ktree_ind'. cbn. rewrite app_length. cbn. rewrite Nat.add_1_r. f_equal. unfold over_slots.
  induction IH as [|c s Hc Hs IHs]; [reflexivity|]. cbn. rewrite app_length, IHs. destruct c; [rewrite Hc|]; reflexivity.
Qed.

(** ** Recursive k-ary traversals *)
Fixpoint pre_loop (f : ktree -> list ktree -> list ktree * nat) (s : list (option ktree)) (past : list ktree) (visited : nat) :=
  match s with
  | [] => (past, visited)
  | None :: s => pre_loop f s past visited
  | Some c :: s => let (past, n) := f c past in pre_loop f s past (visited + n)
  end.
Lemma kpre_eq cb v s past : kpre_order cb (KNode v s) past =
  if cb past (KNode v s) then (past ++ [KNode v s], 1) else pre_loop (kpre_order cb) s (past ++ [KNode v s]) 1.
Proof.
  cbn [kpre_order]. destruct (cb past (KNode v s)); [reflexivity|].
  generalize (past ++ [KNode v s]) as q. generalize 1 as n.
  induction s as [|[c|] s IH]; intros n q; cbn; auto. destruct (kpre_order cb c q); auto.
Qed.
Lemma kpos_eq cb v s past : kpos_order cb (KNode v s) past =
  let (p, n) := pre_loop (kpos_order cb) s past 1 in (p ++ [KNode v s], n).
Proof.
  cbn [kpos_order]. generalize (KNode v s) as t. intros t. 
  assert (E : forall n q, (fix loop (s0 : list (option ktree)) (past0 : list ktree) (visited : nat) {struct s0} : list ktree * nat :=
       match s0 with
       | [] => (past0, visited)
       | Some c :: s1 => let (past1, n) := kpos_order cb c past0 in loop s1 past1 (visited + n)
       | None :: s1 => loop s1 past0 visited
       end) s q n = pre_loop (kpos_order cb) s q n).
  { induction s as [|[c|] s IH]; intros n q; cbn; auto. destruct (kpos_order cb c q); auto. }
  rewrite E. reflexivity.
Qed.

Lemma kpre_gen cb (t : ktree) : forall past, exists tr,
  kpre_order cb t past = (past ++ tr, length tr) /\ sub tr (kpre t).
Proof.
  induction t as [v s IH] using ktree_ind'. intros past. rewrite kpre_eq. destruct (cb past (KNode v s)).
  - exists [KNode v s]. split; [reflexivity|]. cbn. constructor. apply sub_nil_l.
  - assert (L : forall past n, exists tr, pre_loop (kpre_order cb) s past n = (past ++ tr, n + length tr) /\
        sub tr (concat (over_slots kpre s))).
    { induction IH as [|[c|] s Hc Hs IHs]; intros p n; cbn [pre_loop over_slots map concat].
      - exists []. rewrite app_nil_r, Nat.add_0_r. split; [reflexivity|constructor].
      - destruct (Hc p) as (t1 & -> & S1). destruct (IHs (p ++ t1) (n + length t1)) as (t2 & -> & S2).
        exists (t1 ++ t2). rewrite app_assoc, app_length, Nat.add_assoc. split; [reflexivity|apply sub_app; assumption].
      - cbn. apply IHs. }
    destruct (L (past ++ [KNode v s]) 1) as (tr & -> & S). exists (KNode v s :: tr).
    rewrite <- app_assoc. split; [reflexivity|]. cbn. constructor. exact S.
Qed.

Lemma kpre_never (t : ktree) : forall past, kpre_order never t past = (past ++ kpre t, kcount t).
Proof.
  induction t as [v s IH] using ktree_ind'. intros past. rewrite kpre_eq. unfold never at 1.
  assert (L : forall past n, pre_loop (kpre_order never) s past n =
      (past ++ concat (over_slots kpre s), n + list_sum (map (fun c => match c with Some c => kcount c | None => 0 end) s))).
  { induction IH as [|[c|] s Hc Hs IHs]; intros p n; cbn [pre_loop over_slots map concat list_sum fold_right].
    - rewrite app_nil_r, Nat.add_0_r. reflexivity.
    - rewrite Hc, IHs, app_assoc. f_equal. unfold list_sum. lia.
    - rewrite IHs. reflexivity. }
  rewrite L, <- app_assoc. reflexivity.
Qed.

Lemma kpos_gen cb (t : ktree) : forall past, kpos_order cb t past = (past ++ kpost t, kcount t).
Proof.
  induction t as [v s IH] using ktree_ind'. intros past. rewrite kpos_eq.
  assert (L : forall past n, pre_loop (kpos_order cb) s past n =
      (past ++ concat (over_slots kpost s), n + list_sum (map (fun c => match c with Some c => kcount c | None => 0 end) s))).
  { induction IH as [|[c|] s Hc Hs IHs]; intros p n; cbn [pre_loop over_slots map concat list_sum fold_right].
    - rewrite app_nil_r, Nat.add_0_r. reflexivity.
    - rewrite Hc, IHs, app_assoc. f_equal. unfold list_sum. lia.
    - rewrite IHs. reflexivity. }
  rewrite L, <- app_assoc. reflexivity.
Qed.

(** ** k-ary in-order *)
Section Kin.
Variable cb : list ktree -> ktree -> bool.

Fixpoint kin_loop (t : ktree) (s : list (option ktree)) (calls : N) (past : list ktree) (visited : nat)
  : list ktree * nat * bool :=
  match s with
  | [] => (past, visited, false)
  | c :: s =>
      let '(past, visited, brk) :=
        match c with
        | None => (past, visited, false)
        | Some c => let '(past, n, brk) := kin_order cb c past in (past, visited + n, brk)
        end in
      if brk then (past, visited, true)
      else if (calls =? 0)%N then kin_loop t s (wsub calls 1) past visited
      else if cb past t then (past ++ [t], visited, true)
      else kin_loop t s (wsub calls 1) (past ++ [t]) visited
  end.

Lemma kin_eq v s past : s <> [] -> kin_order cb (KNode v s) past =
  kin_loop (KNode v s) s (N.max (wsub (sizeN s) 1) 1) past 1.
Proof.
  intros NE. destruct s as [|c0 s0]; [congruence|]. cbn [kin_order].
  set (s := c0 :: s0). set (t := KNode v s). generalize (N.max (wsub (sizeN s) 1) 1) as k. generalize 1 as n.
  revert past. change (forall past n k, (fix loop (s1 : list (option ktree)) (calls : N) (past1 : list ktree) (visited : nat) {struct s1} : list ktree * nat * bool :=
     match s1 with
     | [] => (past1, visited, false)
     | c :: s2 => let '(past2, visited0, brk) := match c with Some c1 => let '(past2, n1, brk) := kin_order cb c1 past1 in (past2, visited + n1, brk) | None => (past1, visited, false) end in
          if brk then (past2, visited0, true)
          else if (calls =? 0)%N then loop s2 (wsub calls 1) past2 visited0
          else if cb past2 t then (past2 ++ [t], visited0, true) else loop s2 (wsub calls 1) (past2 ++ [t]) visited0
     end) s k past n = kin_loop t s k past n).
  generalize s as z. clear NE. intros z. induction z as [|c z IH]; intros past n k; [reflexivity|]. cbn [kin_loop].
  destruct (match c with Some c1 => let '(past2, n1, brk) := kin_order cb c1 past in (past2, n + n1, brk) | None => (past, n, false) end) as [[p m] b].
  destruct b; [reflexivity|]. destruct (k =? 0)%N; [apply IH|]. destruct (cb p t); [reflexivity|apply IH].
Qed.

Definition good (past tr : list ktree) (brk : bool) : Prop :=
  forall p x q, tr = p ++ x :: q -> slots_of x <> [] -> cb (past ++ p) x = true -> q = [] /\ brk = true.

Lemma good_nil past : good past [] false.
Proof. intros p x q E. destruct p; discriminate. Qed.

Lemma good_app past t1 t2 brk : good past t1 false -> good (past ++ t1) t2 brk -> good past (t1 ++ t2) brk.
Proof.
  intros G1 G2 p x q E NS C. apply app_eq_app in E. destruct E as (l & [[E1 E2]|[E1 E2]]).
  - destruct l as [|y l].
    + rewrite app_nil_r in E1. subst t1. cbn in E2. subst t2. apply (G2 [] x q); auto. rewrite app_nil_r. assumption.
    + cbn in E2. injection E2 as <- ->. subst t1. destruct (G1 p x l) as [_ Z]; auto. discriminate.
  - subst p t2. apply (G2 l x q); auto. rewrite <- app_assoc. assumption.
Qed.

Lemma good_stop past x : cb past x = true -> good past [x] true.
Proof. intros C p y q E _ _. destruct p as [|z p]; [injection E as <- <-; auto|]. destruct p; discriminate. Qed.
Lemma good_step past x : cb past x = false -> good past [x] false.
Proof.
  intros C p y q E _ D. destruct p as [|z p]; [injection E as <- <-|destruct p; discriminate].
  rewrite app_nil_r in D. congruence.
Qed.
Lemma good_leaf past x : slots_of x = [] -> good past [x] false.
Proof. intros C p y q E NS _. destruct p as [|z p]; [injection E as <- <-; congruence|destruct p; discriminate]. Qed.

Definition kin_list (t : ktree) (s : list (option ktree)) : list ktree :=
  match over_slots kin s with [] => [] | a :: l => a ++ concat (map (cons t) l) end.

Definition kin_ok (t : ktree) : Prop := forall past, fits t -> exists tr n brk,
  kin_order cb t past = (past ++ tr, n, brk) /\ sub tr (kin t) /\ good past tr brk.

Definition fits_slots (s : list (option ktree)) : Prop :=
  fold_right (fun c P => match c with Some c => fits c /\ P | None => P end) True s.

Lemma sub_app_nil {A} (a b c : list A) : sub a b -> sub a (b ++ c).
Proof. intros H. rewrite <- (app_nil_r a). apply sub_app; [assumption|apply sub_nil_l]. Qed.

Lemma wsub1_pos k : (0 < k)%N -> (k < two64)%N -> wsub k 1 = (k - 1)%N.
Proof.
  intros A B. unfold wsub. replace (k + two64 - 1)%N with ((k - 1) + 1 * two64)%N by lia.
  rewrite N.mod_add by (unfold two64; lia). apply N.mod_small. lia.
Qed.

(** The last slots: one call fewer than slots. *)
Lemma kin_loop_ok t s : slots_of t <> [] -> Forall (fun c => match c with Some c => kin_ok c | None => True end) s ->
  fits_slots s -> (N.of_nat (length s) < two64)%N -> s <> [] ->
  forall past visited, exists tr n brk,
  kin_loop t s (N.of_nat (length s) - 1) past visited = (past ++ tr, n, brk) /\ sub tr (kin_list t s) /\ good past tr brk.
Proof.
  intros NS F. induction F as [|c s Hc Hs IH]; intros FS B NE past visited; [congruence|]. clear NE.
  assert (C : exists t1 n1 b1, match c with
      | None => (past, visited, false)
      | Some c => let '(past, n, brk) := kin_order cb c past in (past, visited + n, brk) end = (past ++ t1, n1, b1) /\
      sub t1 (match c with Some c => kin c | None => [] end) /\ good past t1 b1).
  { destruct c as [c|].
    - cbn in FS. destruct FS as [FS _]. destruct (Hc past FS) as (t1 & n1 & b1 & -> & S1 & G1).
      exists t1, (visited + n1), b1. auto.
    - exists [], visited, false. rewrite app_nil_r. split; [reflexivity|]. split; [constructor|apply good_nil]. }
  destruct C as (t1 & n1 & b1 & E & S1 & G1). cbn [kin_loop]. rewrite E.
  assert (FS' : fits_slots s) by (cbn in FS; destruct c; tauto).
  unfold kin_list. cbn [over_slots map]. fold (over_slots kin s).
  destruct b1.
  - exists t1, n1, true. split; [reflexivity|]. split; [|assumption]. apply sub_app_nil. assumption.
  - destruct s as [|c2 s].
    + cbn [length N.of_nat]. change (Pos.of_succ_nat 0) with 1%positive. change ((1 - 1 =? 0)%N) with true. cbn [kin_loop].
      exists t1, n1, false. split; [reflexivity|]. cbn. rewrite app_nil_r. auto.
    + replace ((N.of_nat (length (c :: c2 :: s)) - 1 =? 0)%N) with false by (symmetry; apply N.eqb_neq; cbn [length]; lia).
      destruct (cb (past ++ t1) t) eqn:CB.
      * exists (t1 ++ [t]), n1, true. rewrite app_assoc. split; [reflexivity|]. split.
        -- apply sub_app; [assumption|]. cbn. constructor. apply sub_nil_l.
        -- apply good_app; [assumption|]. apply good_stop. assumption.
      * rewrite wsub1_pos by (cbn [length] in *; lia).
        replace (N.of_nat (length (c :: c2 :: s)) - 1 - 1)%N with (N.of_nat (length (c2 :: s)) - 1)%N by (cbn [length]; lia).
        destruct (IH FS') with (past := (past ++ t1) ++ [t]) (visited := n1) as (t2 & n2 & b2 & E2 & S2 & G2); [cbn [length] in *; lia|discriminate|].
        rewrite E2. exists (t1 ++ [t] ++ t2), n2, b2. split; [rewrite !app_assoc; reflexivity|]. split.
        -- apply sub_app; [assumption|]. cbn. constructor. exact S2.
        -- apply good_app; [assumption|]. apply good_app; [apply good_step; assumption|]. rewrite <- app_assoc in G2. rewrite <- app_assoc. exact G2.
Qed.

Lemma kin_gen (t : ktree) : kin_ok t.
Proof.
  induction t as [v s IH] using ktree_ind'. intros past F.
  destruct s as [|c s].
  - exists [KNode v []], 1, false. split; [reflexivity|]. split; [apply sub_refl|]. apply good_leaf. reflexivity.
  - cbn [fits] in F. destruct F as (B & FS). fold (fits_slots (c :: s)) in FS. rewrite kin_eq by discriminate.
    unfold sizeN. destruct s as [|c2 s].
    + change (N.max (wsub (N.of_nat (length [c])) 1) 1) with 1%N. set (t := KNode v [c]) in *.
      inversion IH as [|? ? Hc _]; subst. cbn [kin_loop].
      assert (C : exists t1 n1 b1, match c with
          | None => (past, 1, false)
          | Some c => let '(past, n, brk) := kin_order cb c past in (past, 1 + n, brk) end = (past ++ t1, n1, b1) /\
          sub t1 (match c with Some c => kin c | None => [] end) /\ good past t1 b1).
      { destruct c as [c|].
        - cbn in FS. destruct (Hc past (proj1 FS)) as (t1 & n1 & b1 & -> & S1 & G1). exists t1, (1 + n1), b1. auto.
        - exists [], 1, false. rewrite app_nil_r. split; [reflexivity|]. split; [constructor|apply good_nil]. }
      destruct C as (t1 & n1 & b1 & E & S1 & G1). rewrite E. change (kin t) with (match c with Some c => kin c | None => [] end ++ [t]).
      destruct b1.
      * exists t1, n1, true. split; [reflexivity|]. split; [apply sub_app_nil; assumption|assumption].
      * change ((1 =? 0)%N) with false. cbn match. destruct (cb (past ++ t1) t) eqn:CB.
        -- exists (t1 ++ [t]), n1, true. rewrite app_assoc. split; [reflexivity|]. split; [apply sub_app; [assumption|apply sub_refl]|].
           apply good_app; [assumption|apply good_stop; assumption].
        -- exists (t1 ++ [t]), n1, false. rewrite app_assoc. split; [reflexivity|]. split; [apply sub_app; [assumption|apply sub_refl]|].
           apply good_app; [assumption|apply good_step; assumption].
    + set (s0 := c :: c2 :: s) in *.
      replace (N.max (wsub (N.of_nat (length s0)) 1) 1) with (N.of_nat (length s0) - 1)%N.
      2:{ rewrite wsub1_pos by (subst s0; cbn [length] in *; lia). subst s0. cbn [length]. lia. }
      destruct (kin_loop_ok (KNode v s0) s0) with (past := past) (visited := 1) as (tr & n & b & E & S & G); auto; try discriminate.
      rewrite E. exists tr, n, b. auto.
Qed.
End Kin.

Lemma kin_never_loop t s : 
  Forall (fun c => match c with Some c => fits c -> forall past, kin_order never c past = (past ++ kin c, kcount c, false) | None => True end) s ->
  fits_slots s -> (N.of_nat (length s) < two64)%N -> s <> [] ->
  forall past visited,
  kin_loop never t s (N.of_nat (length s) - 1) past visited =
    (past ++ kin_list t s, visited + list_sum (map (fun c => match c with Some c => kcount c | None => 0 end) s), false).
Proof.
  intros F. induction F as [|c s Hc Hs IH]; intros FS B NE past visited; [congruence|]. clear NE.
  cbn [kin_loop].
  assert (C : match c with
      | None => (past, visited, false)
      | Some c => let '(past, n, brk) := kin_order never c past in (past, visited + n, brk) end =
      (past ++ match c with Some c => kin c | None => [] end, visited + match c with Some c => kcount c | None => 0 end, false)).
  { destruct c as [c|]; [|rewrite app_nil_r, Nat.add_0_r; reflexivity]. rewrite Hc; [reflexivity|]. apply FS. }
  rewrite C. clear C.
  assert (FS' : fits_slots s) by (cbn in FS; destruct c; tauto).
  unfold kin_list. cbn [over_slots map]. fold (over_slots (V := V) kin s). destruct s as [|c2 s].
  - change ((N.of_nat (length [c]) - 1 =? 0)%N) with true. cbn. rewrite app_nil_r. do 2 f_equal. lia.
  - replace ((N.of_nat (length (c :: c2 :: s)) - 1 =? 0)%N) with false by (symmetry; apply N.eqb_neq; cbn [length]; lia).
    unfold never at 1. rewrite wsub1_pos by (cbn [length] in *; lia).
    replace (N.of_nat (length (c :: c2 :: s)) - 1 - 1)%N with (N.of_nat (length (c2 :: s)) - 1)%N by (cbn [length]; lia).
    rewrite IH; [|assumption|cbn [length] in *; lia|discriminate].
    do 2 f_equal.
    + unfold kin_list. cbn [over_slots map concat]. rewrite <- !app_assoc. reflexivity.
    + cbn [list_sum fold_right map]. unfold list_sum. cbn. lia.
Qed.

Lemma kin_never (t : ktree) : fits t -> forall past, kin_order never t past = (past ++ kin t, kcount t, false).
Proof.
  induction t as [v s IH] using ktree_ind'. intros F past. destruct s as [|c s]; [reflexivity|].
  cbn [fits] in F. destruct F as (B & FS). fold (fits_slots (c :: s)) in FS. rewrite kin_eq by discriminate.
  unfold sizeN. destruct s as [|c2 s].
  - change (N.max (wsub (N.of_nat (length [c])) 1) 1) with 1%N. inversion IH as [|? ? Hc _]; subst. cbn [kin_loop].
    assert (C : match c with
        | None => (past, 1, false)
        | Some c => let '(past, n, brk) := kin_order never c past in (past, 1 + n, brk) end =
        (past ++ match c with Some c => kin c | None => [] end, 1 + match c with Some c => kcount c | None => 0 end, false)).
    { destruct c as [c|]; [|rewrite app_nil_r; reflexivity]. rewrite Hc; [reflexivity|]. apply FS. }
    rewrite C. change ((1 =? 0)%N) with false. unfold never at 1. cbn [kcount map list_sum fold_right].
    do 2 f_equal; [|lia]. change (kin (KNode v [c])) with (match c with Some c => kin c | None => [] end ++ [KNode v [c]]).
    rewrite app_assoc. reflexivity.
  - set (s0 := c :: c2 :: s) in *.
    replace (N.max (wsub (N.of_nat (length s0)) 1) 1) with (N.of_nat (length s0) - 1)%N.
    2:{ rewrite wsub1_pos by (subst s0; cbn [length] in *; lia). subst s0. cbn [length]. lia. }
    rewrite kin_never_loop; auto. discriminate.
Qed.

Lemma kary_traversals (t : ktree) :
  kpre_order never t [] = (kpre t, kcount t) /\ kpos_order never t [] = (kpost t, kcount t) /\
  length (kpre t) = kcount t /\ length (kpost t) = kcount t /\
  (fits t -> kin_order never t [] = (kin t, kcount t, false)).
Proof.
  rewrite kpre_never, kpos_gen, kcount_kpre, kcount_kpost. cbn [app]. repeat split.
  intros F. rewrite kin_never by assumption. reflexivity.
Qed.

Lemma kary_stop cb (t : ktree) :
  (exists tr, kpre_order cb t [] = (tr, length tr) /\ sub tr (kpre t)) /\
  kpos_order cb t [] = (kpost t, kcount t) /\
  (fits t -> exists tr n brk, kin_order cb t [] = (tr, n, brk) /\ sub tr (kin t) /\
     forall p x q, tr = p ++ x :: q -> slots_of x <> [] -> cb p x = true -> q = []).
Proof.
  split; [|split].
  - destruct (kpre_gen cb t []) as (tr & E & S). eauto.
  - apply kpos_gen.
  - intros F. destruct (kin_gen cb t [] F) as (tr & n & b & E & S & G). exists tr, n, b. split; [assumption|].
    split; [assumption|]. intros p x q H1 H2 H3. destruct (G p x q H1 H2 H3). assumption.
Qed.

(** ** Number of calls of in_order on one node *)
Lemma between_counts {A} (eqb : A -> bool) (x : A) l : eqb x = true -> Forall (fun a => filter eqb a = []) l ->
  length (filter eqb (between x l)) = Nat.max 1 (length l - 1).
Proof.
  intros E F. destruct l as [|a l]; [cbn; rewrite E; reflexivity|]. inversion F as [|? ? Fa Fl]; subst.
  destruct l as [|b l].
  - cbn [between]. rewrite filter_app, Fa. cbn. rewrite E. reflexivity.
  - assert (L : forall l, Forall (fun a => filter eqb a = []) l -> length (filter eqb (concat (map (cons x) l))) = length l).
    { clear -E. induction l as [|a l IH]; intros F; [reflexivity|]. inversion F; subst. cbn. rewrite E, filter_app. cbn.
      rewrite app_length, H1. cbn. auto. }
    cbn [between]. rewrite filter_app, Fa. cbn [app]. rewrite L by assumption. cbn. lia.
Qed.

(** ** Breadth first *)

Definition nodes_of (q : list ktree) : nat := list_sum (map kcount q).
Lemma nodes_app q1 q2 : nodes_of (q1 ++ q2) = nodes_of q1 + nodes_of q2.
Proof. unfold nodes_of. rewrite map_app, list_sum_app. reflexivity. Qed.
Lemma nodes_cons t q : nodes_of (t :: q) = S (nodes_of (children t)) + nodes_of q.
Proof. unfold nodes_of. cbn [map]. change (list_sum (kcount t :: map kcount q)) with (kcount t + list_sum (map kcount q)). rewrite kcount_children. reflexivity. Qed.
Lemma kcount_pos (t : ktree) : 1 <= kcount t.
Proof. rewrite kcount_children. lia. Qed.

Definition deep (n : nat) (q : list ktree) : Prop := Forall (fun t => kdepth t <= n) q.
Lemma deep_children n t : kdepth t <= S n -> deep n (children t).
Proof.
  rewrite kdepth_children. intros H. unfold deep. assert (L : list_max (map kdepth (children t)) <= n) by lia.
  apply list_max_le in L. rewrite Forall_map in L. exact L.
Qed.
Lemma kdepth_pos (t : ktree) : 1 <= kdepth t.
Proof. rewrite kdepth_children. lia. Qed.

Fixpoint lev (n : nat) (q : list ktree) : list ktree :=
  match n with 0 => [] | S n => q ++ lev n (flat_map children q) end.
Lemma lev_nil n : lev n [] = [].
Proof. induction n; cbn; auto. Qed.

Lemma lev_level n : forall q, lev n q = flat_map (fun k => flat_map (level k) q) (seq 0 n).
Proof.
  induction n as [|n IH]; intros q; [reflexivity|]. cbn [lev seq flat_map]. rewrite IH. f_equal.
  - induction q as [|t q IHq]; [reflexivity|]. cbn. f_equal. assumption.
  - rewrite <- seq_shift. rewrite !flat_map_concat_map, map_map. f_equal. apply map_ext. intros k.
    induction q as [|t q IHq]; [reflexivity|]. cbn [flat_map map concat]. rewrite flat_map_app, IHq. reflexivity.
Qed.

Lemma bfs_loop_ok cb : forall fuel q1 q2 n past,
  nodes_of (q1 ++ q2) <= fuel -> deep (S n) q1 -> deep n q2 ->
  exists tr, bfs_loop cb fuel (q1 ++ q2) past (length past) = Val (tr, length tr) /\
    tr = until_true cb past (q1 ++ lev n (q2 ++ flat_map children q1)).
Proof.
  induction fuel as [|fuel IH].
  - intros q1 q2 n past F _ _. assert (E : q1 ++ q2 = []).
    { destruct (q1 ++ q2) as [|t q] eqn:E; [reflexivity|]. rewrite nodes_cons in F. lia. }
    rewrite E. apply app_eq_nil in E. destruct E as [-> ->]. cbn [app flat_map]. rewrite lev_nil. cbn. eauto.
  - assert (CONS : forall t q1 q2 n past, nodes_of ((t :: q1) ++ q2) <= S fuel -> deep (S n) (t :: q1) -> deep n q2 ->
      exists tr, bfs_loop cb (S fuel) ((t :: q1) ++ q2) past (length past) = Val (tr, length tr) /\
        tr = until_true cb past ((t :: q1) ++ lev n (q2 ++ flat_map children (t :: q1)))).
    { intros t q1 q2 n past F D1 D2. cbn [app bfs_loop until_true]. inversion D1 as [|? ? Dt D1']; subst.
      assert (LP : length (past ++ [t]) = S (length past)) by (rewrite app_length; cbn; lia).
      destruct (cb past t).
      - exists (past ++ [t]). rewrite LP. auto.
      - rewrite <- LP, <- app_assoc, kids_children.
        destruct (IH q1 (q2 ++ children t) n (past ++ [t])) as (tr & E & U).
        + cbn [app] in F. rewrite nodes_cons in F. rewrite !nodes_app in *. lia.
        + assumption.
        + apply Forall_app. split; [assumption|]. apply deep_children. assumption.
        + exists tr. split; [assumption|]. rewrite U. cbn [flat_map]. rewrite <- app_assoc. reflexivity. }
    intros q1 q2 n past F D1 D2. destruct q1 as [|t q1]; [|apply CONS; assumption].
    cbn [app flat_map]. rewrite app_nil_r. destruct q2 as [|t q2].
    + rewrite lev_nil. cbn. eauto.
    + destruct n as [|n]; [inversion D2 as [|? ? Dt _]; subst; pose proof (kdepth_pos t); lia|].
      cbn [lev]. destruct (CONS t q2 [] n past) as (tr & E & U).
      * rewrite app_nil_r. exact F.
      * exact D2.
      * constructor.
      * rewrite app_nil_r in E. exists tr. auto.
Qed.

Lemma bfs_level_order cb (t : ktree) : exists tr,
  bfs cb (Some t) = Val (tr, length tr) /\ tr = until_true cb [] (level_order t).
Proof.
  unfold bfs. rewrite knodes_kcount.
  destruct (bfs_loop_ok cb (kcount t) [] [t] (kdepth t) []) as (tr & E & U).
  - unfold nodes_of. cbn. lia.
  - constructor.
  - repeat constructor.
  - exists tr. split; [exact E|]. rewrite U. cbn [app flat_map]. rewrite lev_level. unfold level_order. f_equal.
    rewrite !flat_map_concat_map. f_equal. apply map_ext. intros k. cbn. apply app_nil_r.
Qed.

(** ** Depth first *)
Lemma push_rev {A} (l st : list A) : fold_left (fun st c => c :: st) (rev l) st = l ++ st.
Proof.
  rewrite <- (fold_left_rev_right (fun c st => c :: st)), rev_involutive. induction l; cbn; congruence.
Qed.

Lemma dfs_loop_ok cb : forall fuel st past, nodes_of st <= fuel ->
  exists tr, dfs_loop cb fuel st past (length past) = Val (tr, length tr) /\
    tr = until_true cb past (flat_map kpre st).
Proof.
  induction fuel as [|fuel IH]; intros st past F.
  - destruct st as [|t st]; [cbn; eauto|]. rewrite nodes_cons in F. lia.
  - destruct st as [|t st]; [cbn; eauto|]. cbn [dfs_loop flat_map]. rewrite kpre_children. cbn [app until_true].
    assert (LP : length (past ++ [t]) = S (length past)) by (rewrite app_length; cbn; lia).
    destruct (cb past t).
    + exists (past ++ [t]). rewrite LP. auto.
    + rewrite push_rev, kids_children, <- LP. rewrite nodes_cons in F.
      destruct (IH (children t ++ st) (past ++ [t])) as (tr & E & U); [rewrite nodes_app; lia|].
      exists tr. split; [assumption|]. rewrite U, flat_map_app. reflexivity.
Qed.

Lemma dfs_pre_order cb (t : ktree) : exists tr,
  dfs cb (Some t) = Val (tr, length tr) /\ tr = until_true cb [] (kpre t).
Proof.
  unfold dfs. rewrite knodes_kcount. destruct (dfs_loop_ok cb (kcount t) [t] []) as (tr & E & U).
  - unfold nodes_of. cbn. lia.
  - exists tr. split; [exact E|]. rewrite U. cbn. rewrite app_nil_r. reflexivity.
Qed.

Lemma binary_bfs_dfs cb (t : btree V) :
  bfs cb (of_btree t) = Val (match as_kary t with None => [] | Some k => until_true cb [] (level_order k) end,
                             length (match as_kary t with None => [] | Some k => until_true cb [] (level_order k) end)) /\
  dfs cb (of_btree t) = Val (match as_kary t with None => [] | Some k => until_true cb [] (kpre k) end,
                             length (match as_kary t with None => [] | Some k => until_true cb [] (kpre k) end)).
Proof.
  rewrite of_btree_as_kary. destruct (as_kary t) as [k|]; [|split; reflexivity].
  destruct (bfs_level_order cb k) as (tr & -> & ->). destruct (dfs_pre_order cb k) as (tr & -> & ->). auto.
Qed.

(** Every node is in level order once: level order is a rearrangement of
    pre-order. *)
Lemma flat_map_perm {A B} (f g : A -> list B) l : (forall x, In x l -> Permutation (f x) (g x)) -> Permutation (flat_map f l) (flat_map g l).
Proof.
  induction l as [|x l IH]; intros H; [constructor|]. cbn. apply Permutation_app; [apply H; left; reflexivity|].
  apply IH. intros y I. apply H. right. assumption.
Qed.
Lemma lev_app n : forall q1 q2, Permutation (lev n (q1 ++ q2)) (lev n q1 ++ lev n q2).
Proof.
  induction n as [|n IH]; intros q1 q2; [constructor|]. cbn [lev]. rewrite flat_map_app, IH, <- !app_assoc.
  apply Permutation_app_head. rewrite !app_assoc. apply Permutation_app_tail. apply Permutation_app_comm.
Qed.
Lemma lev_kpre n : forall q, deep n q -> Permutation (lev n q) (flat_map kpre q).
Proof.
  induction n as [|n IH]; intros q D.
  - destruct q as [|t q]; [constructor|]. inversion D; subst. pose proof (kdepth_pos t). lia.
  - cbn [lev]. rewrite IH.
    + induction q as [|t q IHq]; [constructor|]. inversion D as [|? ? Dt Dq]; subst. cbn [flat_map app]. rewrite flat_map_app, kpre_children.
      cbn [app]. apply perm_skip. rewrite <- IHq by assumption. rewrite !app_assoc. apply Permutation_app_tail, Permutation_app_comm.
    + unfold deep in *. rewrite Forall_forall in *. intros c I. apply in_flat_map in I. destruct I as (t & It & Ic).
      specialize (D t It). apply deep_children in D. unfold deep in D. rewrite Forall_forall in D. auto.
Qed.
Lemma level_order_perm (t : ktree) : Permutation (level_order t) (kpre t).
Proof.
  assert (E : level_order t = lev (kdepth t) [t]).
  { rewrite lev_level. unfold level_order. rewrite !flat_map_concat_map. f_equal. apply map_ext. intros k. cbn. symmetry. apply app_nil_r. }
  rewrite E, lev_kpre by repeat constructor. cbn. rewrite app_nil_r. reflexivity.
Qed.
End K.
