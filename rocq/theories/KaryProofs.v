(** Proofs about the k-ary nodes. *)
Require Import List NArith Bool Arith Lia Permutation.
Require Import Verif.Base Verif.KaryModel Verif.KarySpec.
Import ListNotations.

Section P.
Context {V : Type}.
Notation knode := (knode V).
Notation state := (state V).

Lemma knode_ind' (P : knode -> Prop) :
  (forall i p v s, Forall (fun c => match c with Some t => P t | None => True end) s -> P (KN i p v s)) ->
  forall t, P t.
Proof.
  intros H. fix IH 1. intros [i p v s]. apply H. induction s as [|[t|] s IHs]; constructor; auto.
Qed.

(** Counting identities. *)
Definition cnt (x : nat) (l : list nat) : nat := count_occ Nat.eq_dec l x.
Definition co (x : nat) (o : option knode) : nat := match o with Some c => cnt x (ids c) | None => 0 end.
Definition cs (x : nat) (s : list (option knode)) : nat := list_sum (map (co x) s).
Lemma cnt_app x l m : cnt x (l ++ m) = cnt x l + cnt x m.
Proof. apply count_occ_app. Qed.
Lemma cnt_cons x y l : cnt x (y :: l) = cnt x [y] + cnt x l.
Proof. unfold cnt. cbn. destruct (Nat.eq_dec y x); reflexivity. Qed.
Lemma cnt_nil x : cnt x [] = 0.
Proof. reflexivity. Qed.
Lemma cs_app x s1 s2 : cs x (s1 ++ s2) = cs x s1 + cs x s2.
Proof. unfold cs. rewrite map_app, list_sum_app. reflexivity. Qed.
Lemma cs_cons x c s : cs x (c :: s) = co x c + cs x s.
Proof. reflexivity. Qed.
Lemma cs_nil x : cs x [] = 0.
Proof. reflexivity. Qed.
Lemma cnt_concat x s : cnt x (concat (map (fun c : option knode => match c with Some c => ids c | None => [] end) s)) = cs x s.
Proof.
  induction s as [|c s IH]; [reflexivity|]. cbn [map concat]. rewrite cnt_app, IH, cs_cons. destruct c; reflexivity.
Qed.
Lemma cnt_ids x i p v s : cnt x (ids (KN i p v s)) = cnt x [i] + cs x s.
Proof. cbn [ids]. rewrite cnt_cons, cnt_concat. reflexivity. Qed.
Lemma cs_set x s p o o' : nth_error s p = Some o -> cs x (set_nth s p o') + co x o = cs x s + co x o'.
Proof.
  revert p. induction s as [|c s IH]; intros [|p] E; cbn in E; try discriminate.
  - injection E as ->. cbn [set_nth]. rewrite !cs_cons. lia.
  - cbn [set_nth]. rewrite !cs_cons. specialize (IH p E). lia.
Qed.
Lemma cs_erase x s p o : nth_error s p = Some o -> cs x (erase s p) + co x o = cs x s.
Proof.
  revert p. induction s as [|c s IH]; intros [|p] E; cbn in E; try discriminate.
  - injection E as ->. cbn [erase]. rewrite cs_cons. lia.
  - cbn [erase]. rewrite !cs_cons. specialize (IH p E). lia.
Qed.
Lemma cs_repeat x k : cs x (repeat None k) = 0.
Proof. induction k; cbn; auto. Qed.
Lemma cnt_del x (n : knode) : cnt x (del n) = cnt x (ids n).
Proof.
  induction n as [i p v s IH] using knode_ind'. rewrite cnt_ids. cbn [del]. rewrite cnt_app, Nat.add_comm. f_equal.
  induction IH as [|c s Hc Hs IHs]; [reflexivity|]. cbn [flat_map]. rewrite cnt_app, IHs, cs_cons.
  destruct c; [rewrite Hc|]; reflexivity.
Qed.
Lemma cnt_dels x (s : list (option knode)) :
  cnt x (flat_map (fun c => match c with Some c => del c | None => [] end) s) = cs x s.
Proof.
  induction s as [|c s IHs]; [reflexivity|]. cbn [flat_map]. rewrite cnt_app, IHs, cs_cons.
  destruct c; [rewrite cnt_del|]; reflexivity.
Qed.

(** Properties of all children. *)
Definition kall (P : knode -> Prop) (s : list (option knode)) : Prop :=
  fold_right (fun c Q => match c with Some c => P c /\ Q | None => Q end) True s.
Lemma kall_iff P s : kall P s <-> forall i c, nth_error s i = Some (Some c) -> P c.
Proof.
  induction s as [|c s IH]; cbn.
  - split; [intros _ [|]; discriminate|auto].
  - destruct c as [c|].
    + rewrite IH. split.
      * intros [H1 H2] [|i] d E; cbn in E; [injection E as <-; assumption|eauto].
      * intros H. split; [apply (H 0); reflexivity|]. intros i. apply (H (S i)).
    + rewrite IH. split.
      * intros H [|i] d E; cbn in E; [discriminate|eauto].
      * intros H i. apply (H (S i)).
Qed.
Lemma kall_app P s1 s2 : kall P (s1 ++ s2) <-> kall P s1 /\ kall P s2.
Proof. induction s1 as [|[c|] s IH]; cbn; tauto. Qed.
Lemma kall_repeat P k : kall P (repeat None k).
Proof. induction k; cbn; auto. Qed.
Lemma kall_set P s p o : kall P s -> match o with Some c => P c | None => True end -> kall P (set_nth s p o).
Proof.
  revert p. induction s as [|c s IH]; intros p H1 H2; [exact I|]. destruct p as [|p]; cbn in *.
  - destruct c, o; tauto.
  - destruct c; [split; [tauto|]|]; apply IH; tauto.
Qed.
Lemma kall_erase P s p : kall P s -> kall P (erase s p).
Proof.
  revert p. induction s as [|c s IH]; intros p H1; [exact I|]. destruct p as [|p]; cbn in *.
  - destruct c; tauto.
  - destruct c; [split; [tauto|]|]; apply IH; tauto.
Qed.
Lemma erase_length {A} (l : list A) p : length (erase l p) <= length l.
Proof. revert p. induction l as [|x l IH]; intros [|p]; cbn; auto with arith. Qed.
Lemma kall_nth P s i c : kall P s -> nth_error s i = Some (Some c) -> P c.
Proof. intros H. exact (proj1 (kall_iff P s) H i c). Qed.

Lemma narrow_eq m i p v s : narrow m (KN i p v s) <-> length s <= m /\ kall (narrow m) s.
Proof. reflexivity. Qed.
Lemma linked_eq q i p v s : linked q (KN i p v s) <-> p = q /\ kall (linked (Some i)) s.
Proof. reflexivity. Qed.

Variable max_node_size : N.
Hypothesis MAX : (max_node_size < two64)%N.
Notation mx := (N.to_nat max_node_size).

Definition opt (P : knode -> Prop) (o : option knode) : Prop := match o with Some c => P c | None => True end.

(** Effect of a call on a node: identities are accounted for, width and links
    are kept. *)
Record effect (i : nat) (n n' : knode) (handed : option knode) (fr : list nat) (i' : nat) : Prop := {
  e_id : id_of n' = id_of n;
  e_le : i <= i';
  e_cnt : forall x, cnt x (ids n') + co x handed + cnt x fr = cnt x (ids n) + cnt x (seq i (i' - i));
  e_narrow : narrow mx n -> narrow mx n' /\ opt (narrow mx) handed;
  e_linked : forall q, linked q n -> linked q n' /\ opt (linked None) handed }.

Lemma effect_none i n : effect i n n None [] i.
Proof. constructor; auto; [intros x; cbn; rewrite Nat.sub_diag; cbn; lia| |]; cbn; auto. Qed.

Lemma narrow_new j q (v : V) : narrow mx (new_node j q v).
Proof. cbn. auto with arith. Qed.
Lemma linked_new j q v : linked q (new_node (V := V) j q v).
Proof. cbn. auto. Qed.
Lemma seq_one i : seq i (S i - i) = [i].
Proof. replace (S i - i) with 1 by lia. reflexivity. Qed.

Lemma set_parent_ids x (c : knode) q : cnt x (ids (set_parent c q)) = cnt x (ids c).
Proof. destruct c. reflexivity. Qed.
Lemma set_parent_narrow m (c : knode) q : narrow m c -> narrow m (set_parent c q).
Proof. destruct c. exact (fun H => H). Qed.
Lemma set_parent_linked p (c : knode) q : linked p c -> linked q (set_parent c q).
Proof. destruct c. cbn. tauto. Qed.

(** A write into an existing slot. *)
Lemma effect_set i n p o j :
  nth_error (slots_of n) p = Some None -> j = Some (new_node i (Some (id_of n)) o) ->
  effect i n (with_slots n (set_nth (slots_of n) p j)) None [] (S i).
Proof.
  destruct n as [id q v s]. cbn [slots_of with_slots id_of]. intros E ->. constructor; cbn [id_of]; auto.
  - intros x. rewrite !cnt_ids, seq_one. pose proof (cs_set x s p None (Some (new_node i (Some id) o)) E) as C.
    cbn [co] in *. rewrite cnt_nil. change (cnt x (ids (new_node i (Some id) o))) with (cnt x [i]) in C. lia.
  - rewrite !narrow_eq, set_nth_length. intros [H1 H2]. split; [|exact I]. split; [assumption|].
    apply kall_set; [assumption|apply narrow_new].
  - intros q'. rewrite !linked_eq. intros [H1 H2]. split; [|exact I]. split; [assumption|].
    apply kall_set; [assumption|apply linked_new].
Qed.

Lemma add_child_ok i n v : let '(n', b, i') := add_child max_node_size i n v in effect i n n' None [] i'.
Proof.
  unfold add_child. destruct (N.ltb_spec (sizeN (slots_of n)) max_node_size) as [L|L]; [|apply effect_none].
  destruct n as [id q w s]. cbn [slots_of with_slots id_of] in *. constructor; cbn [id_of]; auto.
  - intros x. rewrite !cnt_ids, seq_one, cs_app, cs_cons, cs_nil. cbn [co]. rewrite cnt_nil.
    change (cnt x (ids (new_node i (Some id) v))) with (cnt x [i]). lia.
  - rewrite !narrow_eq, app_length, kall_app. intros [H1 H2]. split; [|exact I]. split; [unfold sizeN in L; cbn; lia|].
    split; [assumption|]. split; [apply narrow_new|exact I].
  - intros q'. rewrite !linked_eq, kall_app. intros [H1 H2]. split; [|exact I]. split; [assumption|].
    split; [assumption|]. split; [apply linked_new|exact I].
Qed.

Lemma index_null_spec (s : list (option knode)) : match index_null s with
  | Some p => nth_error s p = Some None /\ forall j, j < p -> exists c, nth_error s j = Some (Some c)
  | None => forall j, j < length s -> exists c, nth_error s j = Some (Some c)
  end.
Proof. clear MAX.
  induction s as [|[c|] s IH]; cbn.
  - intros j L. lia.
  - destruct (index_null s) as [p|]; cbn.
    + destruct IH as [H1 H2]. split; [assumption|]. intros [|j] L; cbn; [eauto|]. apply H2. lia.
    + intros [|j] L; cbn; [eauto|]. apply IH. lia.
  - split; [reflexivity|]. intros j L. lia.
Qed.

Lemma insert_null_ok i n v : let '(n', b, i') := insert_at_first_null max_node_size i n v in effect i n n' None [] i'.
Proof.
  unfold insert_at_first_null. pose proof (index_null_spec (slots_of n)) as S. destruct (index_null (slots_of n)) as [p|].
  - eapply effect_set; [apply S|reflexivity].
  - apply add_child_ok.
Qed.

Lemma wadd1 p : (p < max_node_size)%N -> N.to_nat (wadd p 1) = S (N.to_nat p).
Proof. intros L. unfold wadd. rewrite N.mod_small by (unfold two64 in *; lia). lia. Qed.
Lemma resize_length (s : list (option knode)) k : length s <= k -> length (resize_null s k) = k.
Proof. clear MAX. intros L. unfold resize_null. rewrite app_length, repeat_length. lia. Qed.
Lemma resize_nth (s : list (option knode)) k j : length s <= j -> j < k -> nth_error (resize_null s k) j = Some None.
Proof. clear MAX.
  intros L1 L2. unfold resize_null. rewrite nth_error_app2 by assumption.
  rewrite nth_error_repeat by lia. reflexivity.
Qed.
Lemma resize_old (s : list (option knode)) k j : j < length s -> nth_error (resize_null s k) j = nth_error s j.
Proof. clear MAX. intros L. unfold resize_null. apply nth_error_app1. assumption. Qed.

(** Growing the vector and writing the last slot. *)
Lemma effect_grow i n p v : (p < max_node_size)%N -> length (slots_of n) <= N.to_nat p ->
  effect i n (with_slots n (set_nth (resize_null (slots_of n) (N.to_nat (wadd p 1))) (N.to_nat p)
    (Some (new_node i (Some (id_of n)) v)))) None [] (S i).
Proof.
  intros L1 L2. rewrite wadd1 by assumption. destruct n as [id q w s]. cbn [slots_of with_slots id_of] in *.
  constructor; cbn [id_of]; auto.
  - intros x. rewrite !cnt_ids, seq_one.
    pose proof (cs_set x (resize_null s (S (N.to_nat p))) (N.to_nat p) None (Some (new_node i (Some id) v))) as C.
    rewrite resize_nth in C by lia. specialize (C eq_refl). unfold resize_null in C at 2. rewrite cs_app, cs_repeat in C.
    cbn [co] in *. rewrite cnt_nil. change (cnt x (ids (new_node i (Some id) v))) with (cnt x [i]) in C. lia.
  - rewrite !narrow_eq, set_nth_length, resize_length by lia. intros [H1 H2]. split; [|exact I]. split; [lia|].
    apply kall_set; [|apply narrow_new]. unfold resize_null. apply kall_app. split; [assumption|apply kall_repeat].
  - intros q'. rewrite !linked_eq. intros [H1 H2]. split; [|exact I]. split; [assumption|].
    apply kall_set; [|apply linked_new]. unfold resize_null. apply kall_app. split; [assumption|apply kall_repeat].
Qed.

Lemma insert_at_ok i n p v : let '(n', b, i') := insert_at max_node_size i n p v in effect i n n' None [] i'.
Proof.
  unfold insert_at. destruct (N.ltb_spec p max_node_size) as [L|L]; [|apply effect_none].
  unfold cell. destruct (nth_error (slots_of n) (N.to_nat p)) as [[c|]|] eqn:E.
  - apply effect_none.
  - eapply effect_set; [exact E|reflexivity].
  - apply nth_error_None in E. apply effect_grow; assumption.
Qed.

Lemma set_set {A} (l : list A) p x y : set_nth (set_nth l p x) p y = set_nth l p y.
Proof. revert p. induction l as [|z l IH]; intros [|p]; cbn; f_equal; auto. Qed.

Lemma effect_take i n p c : nth_error (slots_of n) p = Some (Some c) ->
  effect i n (with_slots n (set_nth (slots_of n) p None)) (Some (set_parent c None)) [] i.
Proof.
  destruct n as [id q w s]. cbn [slots_of with_slots id_of]. intros E. constructor; cbn [id_of]; auto.
  - intros x. rewrite !cnt_ids, Nat.sub_diag. pose proof (cs_set x s p (Some c) None E) as C.
    cbn [co seq] in *. rewrite set_parent_ids, cnt_nil. lia.
  - rewrite !narrow_eq, set_nth_length. intros [H1 H2]. split.
    + split; [assumption|]. apply kall_set; [assumption|exact I].
    + cbn. apply set_parent_narrow. apply (kall_nth _ _ _ _ H2 E).
  - intros q'. rewrite !linked_eq. intros [H1 H2]. split.
    + split; [assumption|]. apply kall_set; [assumption|exact I].
    + cbn. eapply set_parent_linked. apply (kall_nth _ _ _ _ H2 E).
Qed.

Lemma effect_trans i n n1 n2 h f i1 i2 : effect i n n1 h f i1 -> effect i1 n1 n2 None [] i2 -> effect i n n2 h f i2.
Proof.
  intros A B. pose proof (e_le _ _ _ _ _ _ A). pose proof (e_le _ _ _ _ _ _ B). constructor.
  - rewrite (e_id _ _ _ _ _ _ B). apply A.
  - lia.
  - intros x. pose proof (e_cnt _ _ _ _ _ _ A x) as C1. pose proof (e_cnt _ _ _ _ _ _ B x) as C2.
    replace (i2 - i) with ((i1 - i) + (i2 - i1)) by lia. rewrite seq_app, cnt_app. replace (i + (i1 - i)) with i1 by lia.
    cbn [co] in C2. rewrite cnt_nil in C2. lia.
  - intros H1. destruct (e_narrow _ _ _ _ _ _ A H1) as [H2 H3]. split; [|assumption]. apply (e_narrow _ _ _ _ _ _ B H2).
  - intros q H1. destruct (e_linked _ _ _ _ _ _ A q H1) as [H2 H3]. split; [|assumption]. apply (e_linked _ _ _ _ _ _ B q H2).
Qed.

Lemma with_slots_slots (n : knode) s : slots_of (with_slots n s) = s.
Proof. clear MAX. destruct n. reflexivity. Qed.
Lemma with_slots_id (n : knode) s : id_of (with_slots n s) = id_of n.
Proof. destruct n. reflexivity. Qed.
Lemma with_slots_twice (n : knode) s s' : with_slots (with_slots n s) s' = with_slots n s'.
Proof. destruct n. reflexivity. Qed.

Lemma replace_at_ok i n p v : (p < max_node_size)%N -> exists n' o,
  replace_at max_node_size i n p v = Val (n', o, S i) /\ effect i n n' o [] (S i).
Proof.
  intros L. unfold replace_at. apply N.ltb_lt in L as L'. rewrite L'.
  unfold cell at 1. destruct (nth_error (slots_of n) (N.to_nat p)) as [[c|]|] eqn:E.
  - assert (N.to_nat p < length (slots_of n)) by (apply nth_error_Some; congruence).
    unfold cell. rewrite nth_error_set_nth_eq by assumption. rewrite set_set. eexists _, _. split; [reflexivity|].
    eapply effect_trans; [apply effect_take; exact E|].
    replace (with_slots n (set_nth (slots_of n) (N.to_nat p) (Some (new_node i (Some (id_of n)) v)))) with
      (with_slots (with_slots n (set_nth (slots_of n) (N.to_nat p) None))
         (set_nth (slots_of (with_slots n (set_nth (slots_of n) (N.to_nat p) None))) (N.to_nat p)
            (Some (new_node i (Some (id_of n)) v)))).
    + eapply effect_set; rewrite ?with_slots_slots, ?with_slots_id; [|reflexivity]. apply nth_error_set_nth_eq. assumption.
    + rewrite with_slots_twice, with_slots_slots, set_set. reflexivity.
  - unfold cell. rewrite E. eexists _, _. split; [reflexivity|]. eapply effect_set; [exact E|reflexivity].
  - apply nth_error_None in E as E'. unfold cell. rewrite wadd1 by assumption. rewrite resize_nth by lia.
    eexists _, _. split; [reflexivity|]. rewrite <- wadd1 by assumption. apply effect_grow; assumption.
Qed.

Lemma delete_child_ok i n p : let '(n', b, f) := delete_child n p in effect i n n' None f i.
Proof.
  unfold delete_child, cell. destruct (nth_error (slots_of n) (N.to_nat p)) as [c|] eqn:E; [|apply effect_none].
  destruct n as [id q w s]. cbn [slots_of with_slots id_of] in *. constructor; cbn [id_of]; auto.
  - intros x. rewrite !cnt_ids, Nat.sub_diag. pose proof (cs_erase x s (N.to_nat p) c E) as C. cbn [co seq] in *. rewrite cnt_nil.
    destruct c as [c|]; [rewrite cnt_del|rewrite cnt_nil]; cbn [co] in C; lia.
  - rewrite !narrow_eq. intros [H1 H2]. split; [|exact I]. split; [pose proof (erase_length s (N.to_nat p)); lia|apply kall_erase; assumption].
  - intros q'. rewrite !linked_eq. intros [H1 H2]. split; [|exact I]. split; [assumption|apply kall_erase; assumption].
Qed.

Lemma extract_child_ok i n p : let '(n', o) := extract_child n p in effect i n n' o [] i.
Proof.
  unfold extract_child, cell. destruct (nth_error (slots_of n) (N.to_nat p)) as [[c|]|] eqn:E; try apply effect_none.
  apply effect_take. exact E.
Qed.

Lemma clear_ok i n : let '(n', f) := clear n in effect i n n' None f i.
Proof.
  destruct n as [id q w s]. cbn. constructor; cbn [id_of]; auto.
  - intros x. rewrite !cnt_ids, cnt_dels, Nat.sub_diag. cbn. lia.
  - rewrite !narrow_eq. intros [H1 H2]. split; [|exact I]. split; [cbn; lia|exact I].
  - intros q'. rewrite !linked_eq. intros [H1 H2]. split; [|exact I]. split; [assumption|exact I].
Qed.

Lemma set_value_ok i n v : effect i n (set_value n v) None [] i.
Proof.
  destruct n as [id q w s]. cbn. constructor; cbn [id_of]; auto.
  - intros x. rewrite !cnt_ids, Nat.sub_diag. cbn. lia.
  - rewrite !narrow_eq. intros [H1 H2]. split; [|exact I]. split; assumption.
  - intros q'. rewrite !linked_eq. intros [H1 H2]. split; [|exact I]. split; assumption.
Qed.

Definition call_ok (c : call V) : Prop := match c with CReplaceAt p _ => (p < max_node_size)%N | _ => True end.

Lemma do_call_ok i c n : call_ok c -> exists n' a h f i',
  do_call max_node_size i c n = Val (n', (a, h, f, i')) /\ effect i n n' h f i'.
Proof.
  intros OK. destruct c; cbn [do_call].
  - pose proof (add_child_ok i n v) as E. destruct (add_child max_node_size i n v) as [[n' b] i']. do 5 eexists. split; [reflexivity|exact E].
  - pose proof (insert_null_ok i n v) as E. destruct (insert_at_first_null max_node_size i n v) as [[n' b] i']. do 5 eexists. split; [reflexivity|exact E].
  - pose proof (insert_at_ok i n position v) as E. destruct (insert_at max_node_size i n position v) as [[n' b] i']. do 5 eexists. split; [reflexivity|exact E].
  - destruct (replace_at_ok i n position v OK) as (n' & o & -> & E). do 5 eexists. split; [reflexivity|exact E].
  - pose proof (delete_child_ok i n child) as E. destruct (delete_child n child) as [[n' b] f]. do 5 eexists. split; [reflexivity|exact E].
  - pose proof (extract_child_ok i n child) as E. destruct (extract_child n child) as [n' o]. do 5 eexists. split; [reflexivity|exact E].
  - pose proof (clear_ok i n) as E. destruct (clear n) as [n' f]. do 5 eexists. split; [reflexivity|exact E].
  - do 5 eexists. split; [reflexivity|apply set_value_ok].
Qed.

Lemma effect_below i n p c c' h f i' : nth_error (slots_of n) p = Some (Some c) -> effect i c c' h f i' ->
  effect i n (with_slots n (set_nth (slots_of n) p (Some c'))) h f i'.
Proof.
  destruct n as [id q w s]. cbn [slots_of with_slots]. intros E F. constructor; cbn [id_of]; auto.
  - apply F.
  - intros x. pose proof (e_cnt _ _ _ _ _ _ F x) as C1. rewrite !cnt_ids. pose proof (cs_set x s p (Some c) (Some c') E) as C2. cbn [co] in C2. lia.
  - rewrite !narrow_eq, set_nth_length. intros [H1 H2]. destruct (e_narrow _ _ _ _ _ _ F (kall_nth _ _ _ _ H2 E)) as [H3 H4].
    split; [|assumption]. split; [assumption|]. apply kall_set; assumption.
  - intros q'. rewrite !linked_eq. intros [H1 H2]. destruct (e_linked _ _ _ _ _ _ F _ (kall_nth _ _ _ _ H2 E)) as [H3 H4].
    split; [|assumption]. split; [assumption|]. apply kall_set; assumption.
Qed.

Lemma visit_ok i c path : call_ok c -> forall n,
  (exists e, visit path (do_call max_node_size i c) n = Exn e) \/
  (exists n' a h f i', visit path (do_call max_node_size i c) n = Val (n', (a, h, f, i')) /\ effect i n n' h f i').
Proof.
  intros OK. induction path as [|p path IH]; intros n; cbn [visit].
  - right. apply do_call_ok. assumption.
  - unfold child, cell. destruct (nth_error (slots_of n) (N.to_nat p)) as [[d|]|] eqn:E; cbn [bind]; eauto.
    destruct (IH d) as [[e ->]|(n' & a & h & f & i' & -> & F)]; cbn [bind]; eauto.
    right. do 5 eexists. split; [reflexivity|]. eapply effect_below; eassumption.
Qed.

Definition crs (x : nat) (s : state) : nat := cs x (roots s).
Definition inv (s : state) : Prop :=
  (forall x, crs x s + cnt x (freed s) = cnt x (seq 0 (fresh s))) /\
  kall (narrow mx) (roots s) /\ kall (linked None) (roots s).

Lemma step_ok s o : inv s -> in_range max_node_size o -> exists s' a, step max_node_size s o = Val (s', a) /\ inv s'.
Proof.
  intros (I1 & I2 & I3) R. destruct o as [h path c|v|h]; cbn [step].
  - destruct (nth_error (roots s) h) as [[n|]|] eqn:E; try (do 2 eexists; split; [reflexivity|split; auto]; fail).
    destruct (visit_ok (fresh s) c path) with (n := n) as [[e ->]|(n' & a & hd & f & i' & -> & F)].
    + destruct c; cbn in *; auto.
    + do 2 eexists. split; [reflexivity|split; auto].
    + do 2 eexists. split; [reflexivity|]. unfold inv, crs. cbn [roots freed fresh].
      destruct (e_narrow _ _ _ _ _ _ F (kall_nth _ _ _ _ I2 E)) as [N1 N2].
      destruct (e_linked _ _ _ _ _ _ F _ (kall_nth _ _ _ _ I3 E)) as [L1 L2]. split; [|split].
      * intros x. rewrite cs_app, cnt_app. pose proof (cs_set x (roots s) h (Some n) (Some n') E) as C. cbn [co] in C.
        pose proof (e_cnt _ _ _ _ _ _ F x) as C2. specialize (I1 x). unfold crs in I1. pose proof (e_le _ _ _ _ _ _ F).
        replace i' with (fresh s + (i' - fresh s)) by lia. rewrite seq_app, cnt_app. cbn [Nat.add].
        destruct hd as [m|]; [rewrite cs_cons|]; rewrite ?cs_nil; cbn [co] in *; lia.
      * apply kall_app. split; [apply kall_set; assumption|]. destruct hd; cbn in *; auto.
      * apply kall_app. split; [apply kall_set; assumption|]. destruct hd; cbn in *; auto.
  - do 2 eexists. split; [reflexivity|]. unfold inv, crs. cbn [roots freed fresh]. split; [|split].
    + intros x. rewrite cs_app, cs_cons, cs_nil, seq_S, cnt_app. cbn [Nat.add co].
      change (cnt x (ids (new_node (fresh s) None v))) with (cnt x [fresh s]). specialize (I1 x). unfold crs in I1. lia.
    + apply kall_app. split; [assumption|]. split; [apply narrow_new|exact I].
    + apply kall_app. split; [assumption|]. split; [apply linked_new|exact I].
  - destruct (nth_error (roots s) h) as [[n|]|] eqn:E; try (do 2 eexists; split; [reflexivity|split; auto]; fail).
    do 2 eexists. split; [reflexivity|]. unfold inv, crs. cbn [roots freed fresh]. split; [|split].
    + intros x. rewrite cnt_app, cnt_del. pose proof (cs_set x (roots s) h (Some n) None E) as C. cbn [co] in C.
      specialize (I1 x). unfold crs in I1. lia.
    + apply kall_set; [assumption|exact I].
    + apply kall_set; [assumption|exact I].
Qed.

Lemma run_ok ops : Forall (in_range max_node_size) ops -> forall s, inv s -> exists s' l, run max_node_size s ops = Val (s', l) /\ inv s'.
Proof.
  induction 1 as [|o ops R _ IH]; intros s I; cbn [run]; [eauto|].
  destruct (step_ok s o I R) as (s1 & a & -> & I1). cbn [bind]. destruct (IH s1 I1) as (s2 & l & -> & I2). cbn [bind]. eauto.
Qed.

Lemma inv_start : inv (start (V := V)).
Proof. split; [|split; exact I]. intros x. reflexivity. Qed.

Lemma histories (ops : list (op V)) : Forall (in_range max_node_size) ops -> exists s l, run max_node_size start ops = Val (s, l) /\
  each_root (narrow mx) s /\ each_root (linked None) s /\
  Permutation (attached s ++ freed s) (seq 0 (fresh s)).
Proof.
  intros R. destruct (run_ok ops R start inv_start) as (s & l & E & I1 & I2 & I3). exists s, l. split; [assumption|].
  split; [|split].
  - intros h n H. apply (kall_nth _ _ _ _ I2 H).
  - intros h n H. apply (kall_nth _ _ _ _ I3 H).
  - apply (Permutation_count_occ Nat.eq_dec). intros x. rewrite count_occ_app. specialize (I1 x). unfold crs in I1.
    fold (cnt x (attached s)). unfold attached. rewrite cnt_concat. exact I1.
Qed.

(** ** Slots *)
Lemma slot_set (l : list (option knode)) p o j : p < length l -> slot (set_nth l p o) j = if Nat.eqb p j then o else slot l j.
Proof. clear MAX.
  intros L. unfold slot. rewrite nth_error_set_nth. destruct (Nat.eqb_spec p j) as [->|NE]; [|reflexivity].
  apply Nat.ltb_lt in L. rewrite L. destruct o; reflexivity.
Qed.
Lemma slot_beyond (l : list (option knode)) j : length l <= j -> slot l j = None.
Proof. clear MAX. intros L. unfold slot. apply nth_error_None in L. rewrite L. reflexivity. Qed.
Lemma slot_resize (l : list (option knode)) k j : slot (resize_null l k) j = slot l j.
Proof. clear MAX.
  destruct (Nat.lt_ge_cases j (length l)) as [L|L].
  - unfold slot. rewrite resize_old by assumption. reflexivity.
  - rewrite (slot_beyond l) by assumption. destruct (Nat.lt_ge_cases j k) as [L2|L2].
    + unfold slot. rewrite resize_nth by lia. reflexivity.
    + apply slot_beyond. unfold resize_null. rewrite app_length, repeat_length. lia.
Qed.
Lemma slot_nth (l : list (option knode)) j : slot l j = match nth_error l j with Some (Some c) => Some c | _ => None end.
Proof. clear MAX. reflexivity. Qed.


Lemma same_but_set (n : knode) p o s : (forall j, slot s j = slot (slots_of n) j) -> p < length s ->
  same_but n (with_slots n (set_nth s p o)) p.
Proof. clear MAX.
  destruct n as [id q v l]. cbn [slots_of with_slots]. intros E L. repeat split. cbn [slots_of]. intros j NE.
  rewrite slot_set by assumption. destruct (Nat.eqb_spec p j); [congruence|]. apply E.
Qed.

Lemma insert_at_spec i (n : knode) p v n' b i' : insert_at max_node_size i n p v = (n', b, i') ->
  (b = true <-> (p < max_node_size)%N /\ slot (slots_of n) (N.to_nat p) = None) /\
  (b = false -> n' = n /\ i' = i) /\
  (b = true -> i' = S i /\ slot (slots_of n') (N.to_nat p) = Some (new_node i (Some (id_of n)) v) /\
     same_but n n' (N.to_nat p) /\ length (slots_of n') = Nat.max (length (slots_of n)) (S (N.to_nat p))).
Proof.
  unfold insert_at. destruct (N.ltb_spec p max_node_size) as [L|L].
  2:{ intros E. injection E as <- <- <-. split; [|split]; [split; [discriminate|lia]|auto|discriminate]. }
  unfold cell. destruct (nth_error (slots_of n) (N.to_nat p)) as [[c|]|] eqn:C; intros E; injection E as <- <- <-.
  - split; [|split]; [|auto|discriminate]. split; [discriminate|]. intros [_ H]. unfold slot in H. rewrite C in H. discriminate.
  - assert (LT : N.to_nat p < length (slots_of n)) by (apply nth_error_Some; congruence).
    split; [|split; [discriminate|]].
    + split; [|auto]. intros _. split; [assumption|]. unfold slot. rewrite C. reflexivity.
    + intros _. split; [reflexivity|]. split; [|split].
      * rewrite with_slots_slots, slot_set, Nat.eqb_refl by assumption. reflexivity.
      * apply same_but_set; auto.
      * rewrite with_slots_slots, set_nth_length. lia.
  - apply nth_error_None in C as C'. rewrite wadd1 by assumption.
    assert (LEN : length (resize_null (slots_of n) (S (N.to_nat p))) = S (N.to_nat p)) by (apply resize_length; lia).
    split; [|split; [discriminate|]].
    + split; [|auto]. intros _. split; [assumption|]. apply slot_beyond. assumption.
    + intros _. split; [reflexivity|]. split; [|split].
      * rewrite with_slots_slots, slot_set, Nat.eqb_refl by lia. reflexivity.
      * apply same_but_set; [intros; apply slot_resize|lia].
      * rewrite with_slots_slots, set_nth_length, LEN. lia.
Qed.

Lemma add_child_spec i (n : knode) v n' b i' : add_child max_node_size i n v = (n', b, i') ->
  (b = true <-> length (slots_of n) < mx) /\ (b = false -> n' = n /\ i' = i) /\
  (b = true -> i' = S i /\ n' = with_slots n (slots_of n ++ [Some (new_node i (Some (id_of n)) v)])).
Proof. clear MAX.
  unfold add_child, sizeN. destruct (N.ltb_spec (N.of_nat (length (slots_of n))) max_node_size) as [L|L]; intros E; injection E as <- <- <-.
  - split; [|split]; [split; [lia|auto]|discriminate|auto].
  - split; [|split]; [split; [discriminate|lia]|auto|discriminate].
Qed.

Lemma insert_null_spec i (n : knode) v n' b i' : length (slots_of n) <= mx ->
  insert_at_first_null max_node_size i n v = (n', b, i') ->
  (b = true <-> exists p, p < mx /\ slot (slots_of n) p = None) /\ (b = false -> n' = n /\ i' = i) /\
  (b = true -> i' = S i /\ exists p, p < mx /\ slot (slots_of n) p = None /\
     (forall j, j < p -> slot (slots_of n) j <> None) /\
     slot (slots_of n') p = Some (new_node i (Some (id_of n)) v) /\ same_but n n' p).
Proof. clear MAX.
  intros W. unfold insert_at_first_null. pose proof (index_null_spec (slots_of n)) as S. destruct (index_null (slots_of n)) as [p|].
  - intros E. injection E as <- <- <-. destruct S as [S1 S2].
    assert (LT : p < length (slots_of n)) by (apply nth_error_Some; congruence).
    assert (SL : slot (slots_of n) p = None) by (unfold slot; rewrite S1; reflexivity).
    split; [|split; [discriminate|]].
    + split; auto. intros _. exists p. split; [lia|assumption].
    + intros _. split; [reflexivity|]. exists p. split; [lia|]. split; [assumption|]. split; [|split].
      * intros j L. destruct (S2 j L) as [c C]. unfold slot. rewrite C. discriminate.
      * rewrite with_slots_slots, slot_set, Nat.eqb_refl by assumption. reflexivity.
      * apply same_but_set; auto.
  - intros E. destruct (add_child_spec _ _ _ _ _ _ E) as (A1 & A2 & A3).
    split; [|split; [assumption|]].
    + rewrite A1. split.
      * intros L. exists (length (slots_of n)). split; [assumption|]. apply slot_beyond. lia.
      * intros (p & L1 & N). destruct (Nat.lt_ge_cases p (length (slots_of n))) as [L2|L2]; [|lia].
        destruct (S p L2) as [c C]. unfold slot in N. rewrite C in N. discriminate.
    + intros B. destruct (A3 B) as [-> ->]. split; [reflexivity|]. apply A1 in B. exists (length (slots_of n)). split; [assumption|].
      split; [apply slot_beyond; lia|]. split; [|split].
      * intros j L. destruct (S j L) as [c C]. unfold slot. rewrite C. discriminate.
      * rewrite with_slots_slots. unfold slot. rewrite nth_error_app2, Nat.sub_diag by lia. reflexivity.
      * destruct n as [id q w l]. repeat split. cbn [slots_of with_slots] in *. intros j NE. unfold slot.
        destruct (Nat.lt_ge_cases j (length l)) as [L|L]; [rewrite nth_error_app1 by assumption; reflexivity|].
        rewrite nth_error_app2 by assumption. replace (nth_error l j) with (@None (option knode)) by (symmetry; apply nth_error_None; assumption).
        destruct (j - length l) as [|k] eqn:D; [lia|]. destruct k; reflexivity.
Qed.

Lemma replace_at_spec i (n : knode) p v : (p < max_node_size)%N -> exists n',
  replace_at max_node_size i n p v = Val (n', option_map (fun c => set_parent c None) (slot (slots_of n) (N.to_nat p)), S i) /\
  slot (slots_of n') (N.to_nat p) = Some (new_node i (Some (id_of n)) v) /\ same_but n n' (N.to_nat p) /\
  length (slots_of n') = Nat.max (length (slots_of n)) (S (N.to_nat p)).
Proof.
  intros L. unfold replace_at. apply N.ltb_lt in L as L'. rewrite L'. unfold slot at 1. unfold cell at 1.
  destruct (nth_error (slots_of n) (N.to_nat p)) as [[c|]|] eqn:E.
  - assert (N.to_nat p < length (slots_of n)) by (apply nth_error_Some; congruence).
    unfold cell. rewrite nth_error_set_nth_eq by assumption. rewrite set_set. eexists. split; [reflexivity|].
    rewrite with_slots_slots, slot_set, Nat.eqb_refl by assumption. split; [reflexivity|].
    split; [apply same_but_set; auto|]. rewrite set_nth_length. lia.
  - assert (N.to_nat p < length (slots_of n)) by (apply nth_error_Some; congruence).
    unfold cell. rewrite E. eexists. split; [reflexivity|].
    rewrite with_slots_slots, slot_set, Nat.eqb_refl by assumption. split; [reflexivity|].
    split; [apply same_but_set; auto|]. rewrite set_nth_length. lia.
  - apply nth_error_None in E as E'. unfold cell. rewrite wadd1 by assumption. rewrite resize_nth by lia.
    assert (LEN : length (resize_null (slots_of n) (S (N.to_nat p))) = S (N.to_nat p)) by (apply resize_length; lia).
    eexists. split; [reflexivity|].
    rewrite with_slots_slots, slot_set, Nat.eqb_refl by lia. split; [reflexivity|].
    split; [apply same_but_set; [intros; apply slot_resize|lia]|]. rewrite set_nth_length, LEN. lia.
Qed.

Lemma replace_at_ub i (n : knode) p v : (max_node_size <= p)%N -> length (slots_of n) <= mx -> replace_at max_node_size i n p v = UB.
Proof. clear MAX.
  intros L W. unfold replace_at. apply N.ltb_ge in L as L'. rewrite L'. unfold cell.
  replace (nth_error (slots_of n) (N.to_nat p)) with (@None (option knode)); [reflexivity|].
  symmetry. apply nth_error_None. lia.
Qed.

Lemma erase_split {A} (l : list A) p : erase l p = firstn p l ++ skipn (S p) l.
Proof. clear MAX. revert p. induction l as [|x l IH]; intros [|p]; try reflexivity. cbn [erase]. rewrite IH. reflexivity. Qed.

Lemma delete_child_spec (n : knode) p n' b f : delete_child n p = (n', b, f) ->
  (b = true <-> N.to_nat p < length (slots_of n)) /\ (b = false -> n' = n /\ f = []) /\
  (b = true -> n' = with_slots n (firstn (N.to_nat p) (slots_of n) ++ skipn (S (N.to_nat p)) (slots_of n)) /\
     Permutation f (match slot (slots_of n) (N.to_nat p) with Some c => ids c | None => [] end)).
Proof. clear MAX.
  unfold delete_child, cell. destruct (nth_error (slots_of n) (N.to_nat p)) as [c|] eqn:E; intros H; injection H as <- <- <-.
  - split; [|split]; [|discriminate|].
    + split; auto. intros _. apply nth_error_Some. congruence.
    + intros _. rewrite erase_split. split; [reflexivity|]. unfold slot. rewrite E. destruct c as [c|]; [|constructor].
      apply (Permutation_count_occ Nat.eq_dec). intros x. apply cnt_del.
  - apply nth_error_None in E. split; [|split]; [split; [discriminate|lia]|auto|discriminate].
Qed.

Lemma extract_child_spec (n : knode) p n' o : extract_child n p = (n', o) ->
  o = option_map (fun c => set_parent c None) (slot (slots_of n) (N.to_nat p)) /\
  slot (slots_of n') (N.to_nat p) = None /\ same_but n n' (N.to_nat p) /\ length (slots_of n') = length (slots_of n).
Proof. clear MAX.
  unfold extract_child, cell. rewrite slot_nth. destruct (nth_error (slots_of n) (N.to_nat p)) as [[c|]|] eqn:E; intros H; injection H as <- <-.
  - assert (N.to_nat p < length (slots_of n)) by (apply nth_error_Some; congruence). split; [reflexivity|].
    rewrite with_slots_slots, slot_set, Nat.eqb_refl by assumption. split; [reflexivity|].
    split; [apply same_but_set; auto|apply set_nth_length].
  - split; [reflexivity|]. unfold slot. rewrite E. repeat split; auto.
  - split; [reflexivity|]. unfold slot. rewrite E. repeat split; auto.
Qed.

(** ** Queries *)
Lemma find_if_spec (pred : option knode -> bool) s : match find_if pred s with
  | Some i => (exists c, nth_error s i = Some c /\ pred c = true) /\ forall j c, j < i -> nth_error s j = Some c -> pred c = false
  | None => forall j c, nth_error s j = Some c -> pred c = false
  end.
Proof. clear MAX.
  induction s as [|c s IH]; cbn [find_if].
  - intros [|j] c E; discriminate.
  - destruct (pred c) eqn:P.
    + split; [exists c; auto|]. intros j d L. lia.
    + destruct (find_if pred s) as [i|]; cbn [option_map].
      * destruct IH as [(d & H1 & H2) H3]. split; [exists d; auto|]. intros [|j] e L E; cbn in E; [congruence|]. apply (H3 j e); [lia|assumption].
      * intros [|j] e E; cbn in E; [congruence|eauto].
Qed.

Lemma child_spec (n : knode) p :
  has_child n p = match slot (slots_of n) (N.to_nat p) with Some _ => true | None => false end /\
  child n p = match slot (slots_of n) (N.to_nat p) with
              | Some c => Val c
              | None => if Nat.ltb (N.to_nat p) (length (slots_of n)) then Exn NullNode else Exn OutOfRange
              end.
Proof. clear MAX.
  unfold has_child, child, cell, slot. destruct (nth_error (slots_of n) (N.to_nat p)) as [[c|]|] eqn:E; split; try reflexivity.
  - assert (L : N.to_nat p < length (slots_of n)) by (apply nth_error_Some; congruence). apply Nat.ltb_lt in L. rewrite L. reflexivity.
  - apply nth_error_None in E. apply Nat.ltb_ge in E. rewrite E. reflexivity.
Qed.

Lemma count_spec (n : knode) : (N.of_nat (length (slots_of n)) < two64)%N ->
  children_count n = N.of_nat (length (filter non_null (slots_of n))).
Proof. clear MAX.
  intros B. unfold children_count, sizeN.
  assert (E : length (slots_of n) = length (filter non_null (slots_of n)) +
    length (filter (fun c : option knode => match c with None => true | Some _ => false end) (slots_of n))).
  { induction (slots_of n) as [|[c|] s IH]; cbn in *; [reflexivity| |]; rewrite IH by lia; lia. }
  unfold wsub. rewrite E in *.
  set (a := length (filter non_null (slots_of n))) in *.
  set (b := length (filter (fun c : option knode => match c with None => true | Some _ => false end) (slots_of n))) in *.
  replace (N.of_nat (a + b) + two64 - N.of_nat b)%N with (N.of_nat a + 1 * two64)%N by lia.
  rewrite N.mod_add by (unfold two64; lia). apply N.mod_small. lia.
Qed.

Lemma find_spec veq (n : knode) v : match find veq n v with
  | (true, k) => (exists c, slot (slots_of n) (N.to_nat k) = Some c /\ veq (value_of c) v = true) /\
      forall j c, j < N.to_nat k -> slot (slots_of n) j = Some c -> veq (value_of c) v = false
  | (false, k) => k = (2 ^ 64 - 1)%N /\ forall j c, slot (slots_of n) j = Some c -> veq (value_of c) v = false
  end.
Proof. clear MAX.
  unfold find.
  pose proof (find_if_spec (fun c => match c with Some c => veq (value_of c) v | None => false end) (slots_of n)) as S.
  destruct (find_if _ (slots_of n)) as [i|].
  - rewrite Nat2N.id. destruct S as [(c & H1 & H2) H3]. destruct c as [c|]; [|discriminate]. split.
    + exists c. split; [|assumption]. unfold slot. rewrite H1. reflexivity.
    + intros j d L E. unfold slot in E. destruct (nth_error (slots_of n) j) as [[e|]|] eqn:D; try discriminate. injection E as ->.
      apply (H3 j _ L D).
  - split; [reflexivity|]. intros j d E. unfold slot in E. destruct (nth_error (slots_of n) j) as [[e|]|] eqn:D; try discriminate. injection E as ->.
      apply (S j _ D).
Qed.

Lemma first_spec (n : knode) :
  (exists c k, first n = Val c /\ slot (slots_of n) k = Some c /\ forall j, j < k -> slot (slots_of n) j = None) \/
  (first n = Exn NullNode /\ forall j, slot (slots_of n) j = None).
Proof. clear MAX.
  unfold first. pose proof (find_if_spec non_null (slots_of n)) as S. destruct (find_if non_null (slots_of n)) as [i|].
  - left. destruct S as [(c & H1 & H2) H3]. destruct c as [c|]; [|discriminate]. rewrite H1. exists c, i. split; [reflexivity|]. split.
    + unfold slot. rewrite H1. reflexivity.
    + intros j L. unfold slot. destruct (nth_error (slots_of n) j) as [[e|]|] eqn:D; auto. specialize (H3 j _ L D). discriminate.
  - right. split; [reflexivity|]. intros j. unfold slot. destruct (nth_error (slots_of n) j) as [[e|]|] eqn:D; auto. specialize (S j _ D). discriminate.
Qed.

Lemma nth_error_rev {A} (l : list A) i x : nth_error (rev l) i = Some x -> i < length l /\ nth_error l (length l - 1 - i) = Some x.
Proof. clear MAX.
  intros E. assert (L : i < length l) by (rewrite <- rev_length; apply nth_error_Some; congruence). split; [assumption|].
  rewrite <- E. symmetry. destruct l as [|d l]; [cbn in L; lia|].
  rewrite (nth_error_nth' (rev (d :: l)) d) by (rewrite rev_length; assumption).
  rewrite (nth_error_nth' (d :: l) d) by lia. f_equal. rewrite rev_nth by assumption. f_equal. lia.
Qed.

Lemma last_spec (n : knode) :
  (exists c k, last n = Val c /\ slot (slots_of n) k = Some c /\ forall j, k < j -> slot (slots_of n) j = None) \/
  (last n = Exn NullNode /\ forall j, slot (slots_of n) j = None).
Proof. clear MAX.
  unfold last. pose proof (find_if_spec non_null (rev (slots_of n))) as S.
  assert (R : forall j c, nth_error (slots_of n) j = Some c -> nth_error (rev (slots_of n)) (length (slots_of n) - 1 - j) = Some c).
  { intros j c E. rewrite <- (rev_involutive (slots_of n)) in E. apply nth_error_rev in E. rewrite rev_length in E. apply E. }
  destruct (find_if non_null (rev (slots_of n))) as [i|].
  - left. destruct S as [(c & H1 & H2) H3]. destruct c as [c|]; [|discriminate]. rewrite H1.
    apply nth_error_rev in H1. destruct H1 as [L H1]. exists c, (length (slots_of n) - 1 - i). split; [reflexivity|]. split.
    + unfold slot. rewrite H1. reflexivity.
    + intros j L2. unfold slot. destruct (nth_error (slots_of n) j) as [[e|]|] eqn:D; auto.
      assert (j < length (slots_of n)) by (apply nth_error_Some; congruence).
      apply R in D. apply H3 in D; [discriminate|]. lia.
  - right. split; [reflexivity|]. intros j. unfold slot. destruct (nth_error (slots_of n) j) as [[e|]|] eqn:D; auto.
    apply R in D. apply S in D. discriminate.
Qed.

Lemma inserts_refused i (n : knode) p v : (max_node_size <= p)%N -> insert_at max_node_size i n p v = (n, false, i).
Proof. clear MAX. intros L. unfold insert_at. apply N.ltb_ge in L. rewrite L. reflexivity. Qed.
End P.

(** ** Copies *)
Section D.
Context {V : Type}.
Notation knode := (knode V).

Fixpoint destroy_all (s : list (option knode)) (freed : list nat) : outcome (list nat) :=
  match s with
  | [] => Val freed
  | None :: s => destroy_all s freed
  | Some c :: s => let* freed := destroy c freed in destroy_all s freed
  end.
Lemma destroy_eq i p v s freed : destroy (V := V) (KN i p v s) freed =
  if existsb (Nat.eqb i) freed then UB else let* freed := destroy_all s freed in Val (freed ++ [i]).
Proof.
  reflexivity.
Qed.

Definition dels (s : list (option knode)) : list nat := flat_map (fun c => match c with Some c => del c | None => [] end) s.
Lemma del_eq i p v s : del (V := V) (KN i p v s) = dels s ++ [i].
Proof. reflexivity. Qed.
Lemma in_ids_del (n : knode) x : In x (ids n) <-> In x (del n).
Proof.
  rewrite (count_occ_In Nat.eq_dec (ids n)), (count_occ_In Nat.eq_dec (del n)). pose proof (cnt_del x n) as C. unfold cnt in C. rewrite C. reflexivity.
Qed.
Lemma nodup_ids_del (n : knode) : NoDup (ids n) <-> NoDup (del n).
Proof.
  rewrite !(NoDup_count_occ Nat.eq_dec). pose proof (fun x => cnt_del x n) as C. unfold cnt in C.
  split; intros H x; specialize (H x); rewrite C in *; assumption.
Qed.

Lemma existsb_in i l : existsb (Nat.eqb i) l = true <-> In i l.
Proof.
  rewrite existsb_exists. split; [intros (x & I & E); apply Nat.eqb_eq in E; congruence|]. intros I. exists i. split; [assumption|apply Nat.eqb_refl].
Qed.

Lemma NoDup_app_iff {A} (l m : list A) : NoDup (l ++ m) <-> NoDup l /\ NoDup m /\ forall x, In x l -> ~ In x m.
Proof.
  induction l as [|a l IH]; cbn.
  - split; [intros H; repeat split; auto; constructor|tauto].
  - rewrite !NoDup_cons_iff, IH, in_app_iff. split.
    + intros (N & L & M & D). repeat split; try tauto. intros x [<-|I]; auto.
    + intros ((N & L) & M & D). repeat split; auto. intros [I|I]; [contradiction|]. apply (D a); auto.
Qed.

(** Destroying succeeds exactly when nothing is gone already. *)
Lemma destroy_spec (n : knode) : NoDup (del n) -> forall freed,
  ((forall x, In x (del n) -> ~ In x freed) /\ destroy n freed = Val (freed ++ del n)) \/
  ((exists x, In x (del n) /\ In x freed) /\ destroy n freed = UB).
Proof.
  induction n as [i p v s IH] using knode_ind'. rewrite del_eq. intros ND freed. rewrite destroy_eq.
  apply NoDup_app_iff in ND. destruct ND as (ND & _ & NI).
  assert (L : forall freed,
    ((forall x, In x (dels s) -> ~ In x freed) /\ destroy_all s freed = Val (freed ++ dels s)) \/
    ((exists x, In x (dels s) /\ In x freed) /\ destroy_all s freed = UB)).
  { clear freed NI. induction IH as [|[c|] s Hc Hs IHs]; intros freed; cbn [destroy_all dels flat_map].
    - left. rewrite app_nil_r. split; [intros x []|reflexivity].
    - fold (dels s) in *. change (dels (Some c :: s)) with (del c ++ dels s) in ND. apply NoDup_app_iff in ND. destruct ND as (N1 & N2 & N3).
      destruct (Hc N1 freed) as [[D E]|[(x & D1 & D2) E]]; rewrite E; cbn [bind].
      + destruct (IHs N2 (freed ++ del c)) as [[D' E']|[(x & D1 & D2) E']]; rewrite E'.
        * left. rewrite app_assoc. split; [|reflexivity]. intros x I. apply in_app_or in I. destruct I as [I|I]; [auto|].
          intros F. apply (D' x I). apply in_or_app. auto.
        * right. split; [|reflexivity]. exists x. split; [apply in_or_app; auto|]. apply in_app_or in D2. destruct D2 as [D2|D2]; [assumption|].
          exfalso. apply (N3 x); assumption.
      + right. split; [|reflexivity]. exists x. split; [apply in_or_app; auto|assumption].
    - fold (dels s) in *. apply IHs. exact ND. }
  destruct (existsb (Nat.eqb i) freed) eqn:E.
  - apply existsb_in in E. right. split; [|reflexivity]. exists i. split; [apply in_or_app; right; left; reflexivity|assumption].
  - assert (NF : ~ In i freed) by (intros F; apply existsb_in in F; congruence).
    destruct (L freed) as [[D E']|[(x & D1 & D2) E']]; rewrite E'; cbn [bind].
    + left. rewrite app_assoc. split; [|reflexivity]. intros x I. apply in_app_or in I. destruct I as [I|[<-|[]]]; auto.
    + right. split; [|reflexivity]. exists x. split; [apply in_or_app; auto|assumption].
Qed.

Lemma slots_children (s : list (option knode)) : (forall j, slot s j = None) -> dels s = [] /\ forall x, cs x s = 0.
Proof.
  induction s as [|c s IH]; intros H; [split; reflexivity|]. destruct c as [c|]; [specialize (H 0); discriminate|].
  apply IH. intros j. apply (H (S j)).
Qed.
Lemma dels_in (s : list (option knode)) j c : slot s j = Some c -> In (id_of c) (dels s).
Proof.
  unfold slot. intros E. destruct (nth_error s j) as [[d|]|] eqn:D; try discriminate. injection E as ->.
  apply nth_error_In in D. unfold dels. apply in_flat_map. exists (Some c). split; [assumption|].
  destruct c as [i p v l]. rewrite del_eq. apply in_or_app. right. left. reflexivity.
Qed.

(** Copy and original destroyed one after the other, in both orders. *)
Lemma copy_destroyed (n : knode) i v0 : NoDup (ids n) -> ~ In i (ids n) ->
  exists m, copy_assign i None (Some n) v0 = (Some m, S i) /\
  exists f g, destroy_tree (Some m) [] = Val f /\ destroy_tree (Some n) [] = Val g /\
  ((forall j, slot (slots_of n) j = None) ->
     destroy_tree (Some n) f = Val [i; id_of n] /\ destroy_tree (Some m) g = Val [id_of n; i]) /\
  ((exists j c, slot (slots_of n) j = Some c) ->
     destroy_tree (Some n) f = UB /\ destroy_tree (Some m) g = UB).
Proof.
  intros ND NI. destruct n as [id p v s]. cbn [copy_assign node_assign new_node]. eexists. split; [reflexivity|].
  assert (NDn : NoDup (del (KN id p v s))) by (apply nodup_ids_del; assumption).
  rewrite in_ids_del in NI.
  assert (NDm : NoDup (del (KN i p v s))).
  { rewrite del_eq in *. apply NoDup_app_iff in NDn. destruct NDn as (A & _ & _). apply NoDup_app_iff. split; [assumption|].
    split; [repeat constructor; intros []|]. intros x I [<-|[]]. apply NI. apply in_or_app. left. assumption. }
  exists (del (KN i p v s)), (del (KN id p v s)). cbn [destroy_tree slots_of id_of].
  split; [destruct (destroy_spec _ NDm []) as [[_ E]|[(x & _ & [])]]; exact E|].
  split; [destruct (destroy_spec _ NDn []) as [[_ E]|[(x & _ & [])]]; exact E|]. split.
  - intros H. destruct (slots_children s H) as [D _]. rewrite !del_eq, D in *. cbn [app] in *.
    assert (id <> i) by (intros ->; apply NI; left; reflexivity). split.
    + destruct (destroy_spec (KN id p v s)) with (freed := [i]) as [[_ E]|[(x & I1 & I2) _]].
      * rewrite del_eq, D. exact NDn.
      * rewrite E, del_eq, D. reflexivity.
      * rewrite del_eq, D in I1. destruct I1 as [<-|[]]. destruct I2 as [I2|[]]. congruence.
    + destruct (destroy_spec (KN i p v s)) with (freed := [id]) as [[_ E]|[(x & I1 & I2) _]].
      * rewrite del_eq, D. exact NDm.
      * rewrite E, del_eq, D. reflexivity.
      * rewrite del_eq, D in I1. destruct I1 as [<-|[]]. destruct I2 as [I2|[]]. congruence.
  - intros (j & c & E). apply dels_in in E. split.
    + destruct (destroy_spec _ NDn (del (KN i p v s))) as [[D _]|[_ U]]; [|exact U]. exfalso. apply (D (id_of c)); rewrite del_eq; apply in_or_app; auto.
    + destruct (destroy_spec _ NDm (del (KN id p v s))) as [[D _]|[_ U]]; [|exact U]. exfalso. apply (D (id_of c)); rewrite del_eq; apply in_or_app; auto.
Qed.

(** Assigning to a tree that has a root: the old nodes are never released. *)
Lemma assign_leaks (t n : knode) i v0 : NoDup (ids n) -> ~ In i (ids n) -> ~ In i (ids t) -> (forall x, In x (ids t) -> ~ In x (ids n)) ->
  forall m j f, copy_assign i (Some t) (Some n) v0 = (m, j) -> destroy_tree m [] = Val f ->
  forall g, destroy_tree (Some n) f = Val g -> forall x, In x (ids t) -> ~ In x g.
Proof.
  intros ND NI NT DJ m j f E D1 g D2 x I. destruct n as [id p v s]. cbn in E. injection E as <- <-. cbn [destroy_tree] in *.
  assert (NDn : NoDup (del (KN id p v s))) by (apply nodup_ids_del; assumption).
  assert (NDm : NoDup (del (KN i p v s))).
  { rewrite in_ids_del in NI. rewrite del_eq in *. apply NoDup_app_iff in NDn. destruct NDn as (A & _ & _). apply NoDup_app_iff. split; [assumption|].
    split; [repeat constructor; intros []|]. intros y Iy [<-|[]]. apply NI. apply in_or_app. left. assumption. }
  destruct (destroy_spec _ NDm []) as [[_ X]|[_ X]]; rewrite X in D1; [|discriminate].
  assert (Ef : f = del (KN i p v s)) by (inversion D1; reflexivity). subst f. clear D1.
  destruct (destroy_spec _ NDn (del (KN i p v s))) as [[_ Y]|[_ Y]]; rewrite Y in D2; [|discriminate].
  assert (Eg : g = del (KN i p v s) ++ del (KN id p v s)) by (inversion D2; reflexivity). subst g. clear D2.
  pose proof (DJ x I) as NX. rewrite in_ids_del, del_eq in NX. rewrite !del_eq. cbn [app].
  intros F. apply in_app_or in F. destruct F as [F|F]; [|contradiction]. apply in_app_or in F. destruct F as [F|[<-|[]]].
  - apply NX. apply in_or_app. left. assumption.
  - contradiction.
Qed.

Lemma move_owns (n : knode) : NoDup (ids n) -> move_assign None (Some n) = (Some n, None) /\
  destroy_tree (Some n) [] = Val (del n) /\ Permutation (del n) (ids n).
Proof.
  intros ND. split; [reflexivity|]. apply nodup_ids_del in ND. split.
  - cbn. destruct (destroy_spec _ ND []) as [[_ E]|[(x & _ & [])]]. exact E.
  - apply (Permutation_count_occ Nat.eq_dec). intros x. apply cnt_del.
Qed.
End D.
