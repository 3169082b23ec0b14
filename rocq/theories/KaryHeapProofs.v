(** Proofs about programs over k-ary nodes with assignments. *)
Require Import List NArith Bool Arith Lia Permutation.
Require Import Verif.Base Verif.KaryModel Verif.KarySpec Verif.KaryProofs Verif.KaryIterModel Verif.KaryIterSpec Verif.KaryIterProofs
  Verif.KaryHeapModel Verif.KaryHeapSpec.
Import ListNotations.

Section P.
Context {V : Type}.
Notation knode := (knode V).
Notation forest := (list knode).
Notation hnode := (hnode V).
Notation heap := (list (option hnode)).
Notation cells := (list (nat * hnode)).

(** ** A heap as a set of cells *)
Definition hold (h : heap) (L : cells) : Prop :=
  NoDup (map fst L) /\ forall x m, nth_error h x = Some (Some m) <-> In (x, m) L.
Definition at_home (n : knode) : nat * hnode := (id_of n, in_memory n).
Definition flat (n : knode) : cells := map at_home (below n).
Definition flats (ts : forest) : cells := flat_map flat ts.

Lemma flats_nodes ts : flats ts = map at_home (nodes ts).
Proof. unfold flats, nodes, flat. induction ts as [|t ts IH]; cbn; [reflexivity|]. now rewrite map_app, IH. Qed.
Lemma below_eq i p v (s : list (option knode)) : below (KN i p v s) = KN i p v s :: nodes (present s).
Proof.
  cbn [below]. f_equal. unfold nodes, present. induction s as [|[c|] s IH]; cbn; [reflexivity| |assumption]. now rewrite IH.
Qed.
Lemma flat_eq i p v (s : list (option knode)) :
  flat (KN i p v s) = (i, mkH p v (map (option_map id_of) s)) :: flats (present s).
Proof. unfold flat. rewrite below_eq. cbn [map]. now rewrite flats_nodes. Qed.
Lemma flats_app a b : flats (a ++ b) = flats a ++ flats b.
Proof. apply flat_map_app. Qed.
Lemma flat_ids (n : knode) : map fst (flat n) = ids n.
Proof.
  induction n as [i p v s IH] using node_ind. rewrite flat_eq, ids_eq. cbn. f_equal. unfold flats, fids.
  induction (present s) as [|c l IHl]; [reflexivity|]. cbn. rewrite map_app. inversion_clear IH. rewrite H. f_equal. auto.
Qed.
Lemma flats_ids ts : map fst (flats ts) = fids ts.
Proof. unfold flats, fids. induction ts as [|t ts IH]; cbn; [reflexivity|]. now rewrite map_app, flat_ids, IH. Qed.

Lemma holds_hold (h : heap) ts : holds h ts <-> hold h (flats ts).
Proof.
  unfold holds, hold. rewrite flats_ids. split; intros (D & H); (split; [assumption|]); intros x m; rewrite H; clear H;
    rewrite flats_nodes, in_map_iff; unfold at_home; split.
  - intros (n & I & <- & <-). exists n. auto.
  - intros (n & [= <- <-] & I). exists n. auto.
  - intros (n & [= <- <-] & I). exists n. auto.
  - intros (n & I & <- & <-). exists n. auto.
Qed.

Lemma hold_perm h L L' : Permutation L L' -> hold h L -> hold h L'.
Proof.
  intros P (D & H). split.
  - eapply Permutation_NoDup; [apply Permutation_map; exact P|assumption].
  - intros x m. rewrite H. split; apply Permutation_in; auto. now apply Permutation_sym.
Qed.
Lemma hold_in h L x m : hold h L -> In (x, m) L -> nth_error h x = Some (Some m).
Proof. intros (_ & H). apply H. Qed.
Lemma hold_read h L x m : hold h L -> In (x, m) L -> read h x = Val m.
Proof. intros H I. unfold read. now rewrite (hold_in _ _ _ _ H I). Qed.
Lemma hold_dead h L x : hold h L -> ~ In x (map fst L) -> read h x = UB.
Proof.
  intros (_ & H) N. unfold read. destruct (nth_error h x) as [[m|]|] eqn:E; [|reflexivity|reflexivity].
  apply H in E. destruct N. apply in_map_iff. exists (x, m). auto.
Qed.
Lemma hold_bound h L x : hold h L -> In x (map fst L) -> x < length h.
Proof.
  intros H I. apply in_map_iff in I. destruct I as ((y & m) & <- & I). apply (hold_in _ _ _ _ H) in I. cbn.
  apply nth_error_Some. congruence.
Qed.
Lemma hold_write h a n n' L : hold h ((a, n) :: L) -> hold (write h a n') ((a, n') :: L).
Proof.
  intros H. assert (B : a < length h) by (apply (hold_bound _ _ _ H); now left). destruct H as (D & H). cbn in D.
  apply NoDup_cons_iff in D. destruct D as (D1 & D2). split; [constructor; assumption|]. intros x m. unfold write.
  rewrite nth_error_set_nth. destruct (Nat.eqb_spec a x) as [->|NE].
  - destruct (Nat.ltb_spec x (length h)); [|lia]. cbn. split.
    + intros [= ->]. now left.
    + intros [[= ->]|I]; [reflexivity|]. destruct D1. apply in_map_iff. exists (x, m). auto.
  - rewrite H. cbn. split; (intros [[= E]|I]; [congruence|now right]).
Qed.
Lemma hold_free h a n L : hold h ((a, n) :: L) -> hold (set_nth h a None) L.
Proof.
  intros H. destruct H as (D & H). cbn in D.
  apply NoDup_cons_iff in D. destruct D as (D1 & D2). split; [assumption|]. intros x m.
  rewrite nth_error_set_nth. destruct (Nat.eqb_spec a x) as [->|NE].
  - split.
    + destruct (x <? length h); intros [=].
    + intros I. destruct D1. apply in_map_iff. exists (x, m). auto.
  - rewrite H. cbn. split; [intros [[= E]|I]; [congruence|assumption]|now right].
Qed.
Lemma hold_alloc h n L : hold h L -> hold (h ++ [Some n]) ((length h, n) :: L).
Proof.
  intros H. split.
  - cbn. constructor; [|apply H]. intros I. apply (hold_bound _ _ _ H) in I. lia.
  - intros x m. cbn. destruct (Nat.lt_ge_cases x (length h)) as [B|B].
    + rewrite nth_error_app1 by assumption. destruct H as (_ & H). rewrite H. split; [now right|]. intros [[= E]|I]; [lia|assumption].
    + rewrite nth_error_app2 by assumption. split.
      * destruct (x - length h) as [|k] eqn:E; cbn; [intros [= ->]; left; f_equal; lia|]. destruct k; intros [=].
      * intros [[= <- ->]|I]; [now rewrite Nat.sub_diag|].
        assert (x < length h) by (apply (hold_bound _ _ x H); apply in_map_iff; exists (x, m); auto). lia.
Qed.
Lemma hold_fresh h L : hold h L -> ~ In (length h) (map fst L).
Proof. intros H I. apply (hold_bound _ _ _ H) in I. lia. Qed.
Lemma hold_length h L : hold h L -> length L <= length h.
Proof.
  intros H. rewrite <- (map_length fst), <- (seq_length (length h) 0). apply NoDup_incl_length; [apply H|].
  intros x I. apply in_seq. apply (hold_bound _ _ _ H) in I. lia.
Qed.

(** ** Deleting a tree *)
Lemma release_S fuel (h : heap) a : release (S fuel) h a =
  let* n := read h a in
  (fix each (cs : list (option nat)) (h : heap) : outcome heap :=
         match cs with
         | [] => Val h
         | None :: cs => each cs h
         | Some c :: cs => let* h := release fuel h c in each cs h
         end) (hchildren n) (set_nth h a None).
Proof. reflexivity. Qed.
Lemma release_ok (n : knode) : forall fuel h L, hold h (flat n ++ L) -> length (ids n) <= fuel ->
  exists h', release fuel h (id_of n) = Val h' /\ hold h' L /\ length h' = length h.
Proof.
  induction n as [i p v s IH] using node_ind. intros fuel h L H F. rewrite ids_eq in F. cbn in F.
  destruct fuel as [|fuel]; [lia|]. cbn [id_of]. rewrite release_S. rewrite flat_eq in H. cbn [app] in H.
  rewrite (hold_read _ _ i _ H) by now left. cbn [bind hchildren]. apply hold_free in H.
  rewrite <- (set_nth_length h i None). remember (set_nth h i None) as h1 eqn:E1. clear E1. assert (F' : length (fids (present s)) <= fuel) by lia. clear F.
  revert h1 H. induction s as [|[c|] s IHs]; intros h1 H.
  - exists h1. auto.
  - cbn [present flat_map app] in *. inversion_clear IH. change (flat_map _ s) with (present s) in *. rewrite fids_cons, app_length in F'.
    cbn [map option_map]. unfold flats in H. cbn [flat_map] in H. fold (flats (present s)) in H. rewrite <- app_assoc in H.
    destruct (H0 fuel h1 _ H) as (h2 & E2 & H2 & L2); [lia|]. rewrite E2. cbn [bind].
    destruct (IHs H1) with (h1 := h2) as (h3 & E3 & H3 & L3); [lia|assumption|]. exists h3. rewrite E3. split; [reflexivity|]. split; [assumption|congruence].
  - cbn [present flat_map app] in *. change (flat_map _ s) with (present s) in *. cbn [map option_map]. apply IHs; assumption.
Qed.
Lemma ids_length (n : knode) h L : hold h (flat n ++ L) -> length (ids n) <= length h.
Proof.
  intros H. apply hold_length in H. rewrite app_length in H. rewrite <- flat_ids, map_length. lia.
Qed.
Lemma delete_ok (n : knode) h L : hold h (flat n ++ L) -> exists h', hdelete h (id_of n) = Val h' /\ hold h' L.
Proof.
  intros H. destruct (release_ok n (release_fuel h) h L H) as (h' & E & H' & _).
  - pose proof (ids_length n h L H). unfold release_fuel. lia.
  - eauto.
Qed.
Lemma delete_each_ok s : forall h L, hold h (flats (present s) ++ L) ->
  exists h', delete_each h (map (option_map id_of) s) = Val h' /\ hold h' L.
Proof.
  induction s as [|[c|] s IH]; intros h L H; cbn [map option_map delete_each]; [exists h; auto| |apply IH; assumption].
  cbn [present flat_map app] in H. change (flat_map _ s) with (present s) in H. unfold flats in H. cbn [flat_map] in H.
  rewrite <- app_assoc in H. destruct (delete_ok c h _ H) as (h1 & E1 & H1). rewrite E1. cbn [bind]. apply IH. exact H1.
Qed.

(** ** One node of a forest *)
Lemma flats_cons t ts : flats (t :: ts) = flat t ++ flats ts.
Proof. reflexivity. Qed.
Lemma map_put_ids a m (s : list (option knode)) : id_of m = a ->
  map (option_map id_of) (map (option_map (put a m)) s) = map (option_map id_of) s.
Proof.
  intros E. rewrite map_map. apply map_ext. intros [c|]; [|reflexivity]. cbn. now rewrite put_id.
Qed.
Lemma focus_list a (F : forest) u :
  (forall n, In n F -> forall u, NoDup (ids n) -> sub a n = Some u ->
     exists rest, Permutation (flat n) (flat u ++ rest) /\
     forall u', id_of u' = a -> Permutation (flat (put a u' n)) (flat u' ++ rest)) ->
  NoDup (fids F) -> fsub a F = Some u ->
  exists rest, Permutation (flats F) (flat u ++ rest) /\
  forall u', id_of u' = a -> Permutation (flats (fput a u' F)) (flat u' ++ rest).
Proof.
  induction F as [|n F IH]; intros HF D E; [discriminate|]. rewrite fids_cons in D. apply KaryIterProofs.nodup_app in D. destruct D as (D1 & D2 & D3).
  cbn [fsub] in E. destruct (sub a n) as [w|] eqn:S.
  - injection E as ->. destruct (HF n (or_introl eq_refl) u D1 S) as (rest & P1 & P2).
    exists (rest ++ flats F). split.
    + rewrite flats_cons, P1, <- app_assoc. reflexivity.
    + intros u' I. cbn [fput map]. rewrite flats_cons, (P2 u' I), <- app_assoc. change (map (put a u') F) with (fput a u' F).
      rewrite fput_notin; [reflexivity|]. apply D3. now apply sub_in in S.
  - destruct (IH (fun n I => HF n (or_intror I)) D2 E) as (rest & P1 & P2). exists (flat n ++ rest). split.
    + rewrite flats_cons, P1. rewrite !app_assoc. apply Permutation_app_tail. apply Permutation_app_comm.
    + intros u' I. cbn [fput map]. rewrite flats_cons. change (map (put a u') F) with (fput a u' F). rewrite (P2 u' I).
      rewrite put_notin by now apply sub_none. rewrite !app_assoc. apply Permutation_app_tail. apply Permutation_app_comm.
Qed.
Lemma focus_tree a (n : knode) : forall u, NoDup (ids n) -> sub a n = Some u ->
  exists rest, Permutation (flat n) (flat u ++ rest) /\
  forall u', id_of u' = a -> Permutation (flat (put a u' n)) (flat u' ++ rest).
Proof.
  induction n as [i p v s IH] using node_ind. intros u D E. rewrite sub_eq in E. destruct (Nat.eqb_spec a i) as [->|NE].
  - injection E as <-. exists []. rewrite app_nil_r. split; [reflexivity|]. intros u' I. rewrite app_nil_r, put_eq, Nat.eqb_refl. reflexivity.
  - rewrite ids_eq in D. apply NoDup_cons_iff in D. destruct D as (_ & D).
    destruct (focus_list a (present s) u) as (rest & P1 & P2); [|assumption|assumption|].
    { intros n I. exact (proj1 (Forall_forall _ _) IH n I). }
    exists ((i, mkH p v (map (option_map id_of) s)) :: rest). split.
    + rewrite flat_eq, P1. apply Permutation_middle.
    + intros u' I. rewrite put_eq. destruct (Nat.eqb_spec a i); [contradiction|]. rewrite flat_eq, map_put_ids by assumption.
      rewrite present_put, (P2 u' I). apply Permutation_middle.
Qed.
(** The cells of a forest around the node [a]. *)
Lemma focus a (ts : forest) u : NoDup (fids ts) -> fsub a ts = Some u ->
  exists rest, Permutation (flats ts) (flat u ++ rest) /\
  forall u', id_of u' = a -> Permutation (flats (fput a u' ts)) (flat u' ++ rest).
Proof. intros D E. apply focus_list; auto. intros n _. apply focus_tree. Qed.
Lemma focus_holds a (h : heap) ts u : holds h ts -> fsub a ts = Some u ->
  exists rest, hold h (flat u ++ rest) /\
  forall h' u' ms, id_of u' = a -> hold h' (flat u' ++ flats ms ++ rest) -> holds h' (fput a u' ts ++ ms).
Proof.
  intros H E. destruct (focus a ts u (proj1 H) E) as (rest & P1 & P2). exists rest. split.
  - apply holds_hold in H. exact (hold_perm _ _ _ P1 H).
  - intros h' u' ms I H'. apply holds_hold. apply (hold_perm h' (flat u' ++ flats ms ++ rest)); [|assumption].
    rewrite flats_app, (P2 u' I), <- app_assoc. apply Permutation_app_head. apply Permutation_app_comm.
Qed.
(** ** The vectors *)
Notation ptrs := (map (option_map (@id_of V))).
Lemma map_set {A B} (f : A -> B) l p x : map f (set_nth l p x) = set_nth (map f l) p (f x).
Proof. revert p; induction l as [|y l IH]; intros [|p]; cbn; auto. now rewrite IH. Qed.
Lemma ptrs_cell (s : list (option knode)) p : cell (ptrs s) p = option_map (option_map id_of) (cell s p).
Proof. unfold cell. now rewrite nth_error_map. Qed.
Lemma ptrs_null (s : list (option knode)) : null_index (ptrs s) = index_null s.
Proof. induction s as [|[c|] s IH]; cbn; [reflexivity|now rewrite IH|reflexivity]. Qed.
Lemma ptrs_resized (s : list (option knode)) k : resized (ptrs s) k = ptrs (resize_null s k).
Proof.
  unfold resized, resize_null. rewrite map_app, map_length. f_equal. induction (k - length s); cbn; congruence.
Qed.
Lemma ptrs_erase (s : list (option knode)) p : erase (ptrs s) p = ptrs (erase s p).
Proof. revert p; induction s as [|c s IH]; intros [|p]; cbn; auto. now rewrite IH. Qed.
Lemma ptrs_size (s : list (option knode)) : sizeN (ptrs s) = sizeN s.
Proof. unfold sizeN. now rewrite map_length. Qed.
Lemma present_resize (s : list (option knode)) k : present (resize_null s k) = present s.
Proof.
  unfold resize_null. rewrite present_app. replace (present (repeat None _)) with (@nil knode); [apply app_nil_r|].
  induction (k - length s); cbn; auto.
Qed.
Definition opt_list {A} (o : option A) : list A := match o with Some x => [x] | None => [] end.
Lemma present_set (s : list (option knode)) p o o' : nth_error s p = Some o ->
  Permutation (opt_list o ++ present (set_nth s p o')) (opt_list o' ++ present s).
Proof.
  revert p; induction s as [|c s IH]; intros [|p] E; cbn in E; try discriminate.
  - injection E as ->. cbn [set_nth]. destruct o as [o|], o' as [o'|]; cbn; try reflexivity. apply perm_swap.
  - cbn [set_nth]. change (present (c :: set_nth s p o')) with (opt_list c ++ present (set_nth s p o')).
    change (present (c :: s)) with (opt_list c ++ present s).
    rewrite (Permutation_app_comm (opt_list c)), (Permutation_app_comm (opt_list c)). rewrite !app_assoc.
    apply Permutation_app_tail. auto.
Qed.
Lemma present_erase (s : list (option knode)) p o : nth_error s p = Some o ->
  Permutation (present s) (opt_list o ++ present (erase s p)).
Proof.
  revert p; induction s as [|c s IH]; intros [|p] E; cbn in E; try discriminate.
  - injection E as ->. reflexivity.
  - cbn [erase]. change (present (c :: erase s p)) with (opt_list c ++ present (erase s p)).
    change (present (c :: s)) with (opt_list c ++ present s). rewrite (IH p E). rewrite !app_assoc.
    apply Permutation_app_tail. apply Permutation_app_comm.
Qed.
Lemma index_null_nth (s : list (option knode)) p : index_null s = Some p -> nth_error s p = Some None.
Proof.
  revert p; induction s as [|[c|] s IH]; intros p E; cbn in E; try discriminate.
  - destruct (index_null s) as [q|]; [|discriminate]. injection E as <-. cbn. auto.
  - injection E as <-. reflexivity.
Qed.
Lemma flats_perm (l l' : forest) : Permutation l l' -> Permutation (flats l) (flats l').
Proof. apply Permutation_flat_map. Qed.
Lemma flat_new x p v : flat (new_node x p v) = [(x, mkH p v [])].
Proof. reflexivity. Qed.
Lemma flat_set_parent (c : knode) q : exists m rest, flat c = (id_of c, m) :: rest /\ 
  flat (set_parent c q) = (id_of c, mkH q (hvalue m) (hchildren m)) :: rest.
Proof. destruct c as [i p v s]. exists (mkH p v (ptrs s)), (flats (present s)). split; apply flat_eq. Qed.

(** Writing the vector of a node, with a new child. *)
Lemma hold_new_child (h : heap) a m F rest w p v s' :
  hold h ((a, m) :: flats F ++ rest) -> Permutation (present s') (new_node (length h) (Some a) w :: F) ->
  hold (write (h ++ [Some (mkH (Some a) w [])]) a (mkH p v (ptrs s'))) (flat (KN a p v s') ++ rest).
Proof.
  intros H P. apply (hold_alloc _ (mkH (Some a) w [])) in H.
  assert (H1 : hold (h ++ [Some (mkH (Some a) w [])]) ((a, m) :: (length h, mkH (Some a) w []) :: flats F ++ rest)).
  { eapply hold_perm; [|exact H]. apply perm_swap. }
  apply (hold_write _ _ _ (mkH p v (ptrs s'))) in H1. eapply hold_perm; [|exact H1]. rewrite flat_eq. cbn [app flats flat_map].
  apply perm_skip. apply flats_perm in P. rewrite P. cbn. reflexivity.
Qed.
Lemma hold_new_at (h : heap) a m F rest w p v s q :
  hold h ((a, m) :: flats F ++ rest) -> nth_error s q = Some None -> Permutation (present s) F ->
  hold (write (h ++ [Some (mkH (Some a) w [])]) a (mkH p v (set_nth (ptrs s) q (Some (length h)))))
    (flat (KN a p v (set_nth s q (Some (new_node (length h) (Some a) w)))) ++ rest).
Proof.
  intros H E P. replace (set_nth (ptrs s) q (Some (length h))) with (ptrs (set_nth s q (Some (new_node (length h) (Some a) w)))).
  - apply (hold_new_child h a m F rest w); [assumption|]. pose proof (present_set s q None (Some (new_node (length h) (Some a) w)) E) as Q.
    cbn [opt_list app] in Q. rewrite Q. now apply perm_skip.
  - now rewrite map_set.
Qed.

Section Calls.
Variable max_node_size : N.
Hypothesis MAX : (max_node_size < two64)%N.
Notation after := (after max_node_size).

Lemma grow_nth (s : list (option knode)) p : (p < max_node_size)%N -> nth_error s (N.to_nat p) = None ->
  nth_error (resize_null s (N.to_nat (wadd p 1))) (N.to_nat p) = Some None.
Proof.
  intros L E. apply nth_error_None in E. unfold wadd. rewrite N.mod_small by lia.
  unfold resize_null. rewrite nth_error_app2 by assumption. replace (N.to_nat (p + 1)) with (S (N.to_nat p)) by lia.
  rewrite nth_error_repeat; [reflexivity|lia].
Qed.

Ltac fin H := let h' := fresh in intros h' H.
Lemma hadd_ok (h : heap) ts a u v : holds h ts -> fsub a ts = Some u ->
  exists h' n' b i', hadd max_node_size h a v = Val (h', b) /\ add_child max_node_size (length h) u v = (n', b, i') /\ holds h' (fput a n' ts ++ []).
Proof.
  intros H E. destruct (focus_holds a h ts u H E) as (rest & H1 & H2). pose proof (fsub_id _ _ _ E) as I.
  destruct u as [i p w s]. cbn in I. subst i. rewrite flat_eq in H1. cbn [app] in H1.
  unfold hadd, add_child. rewrite (hold_read _ _ a _ H1) by now left. cbn [bind hchildren slots_of id_of]. rewrite ptrs_size.
  destruct (sizeN s <? max_node_size)%N.
  - do 4 eexists. split; [reflexivity|]. split; [reflexivity|]. apply H2; [reflexivity|]. cbn [with_slots with_children hparent hvalue hchildren].
    change (ptrs s ++ [Some (length h)]) with (ptrs s ++ ptrs [Some (new_node (length h) (Some a) v)]). rewrite <- map_app.
    apply (hold_new_child h a _ (present s) rest v p w _ H1). rewrite present_app. cbn. apply Permutation_sym, Permutation_cons_append.
  - do 4 eexists. split; [reflexivity|]. split; [reflexivity|]. apply H2; [reflexivity|]. rewrite flat_eq. exact H1.
Qed.
(** Taking a child out of its slot. *)
Lemma orphan_ok (h : heap) a p w s rest q c : hold h ((a, mkH p w (ptrs s)) :: flats (present s) ++ rest) ->
  nth_error s q = Some (Some c) ->
  exists h', orphan h (id_of c) = Val h' /\ length h' = length h /\
    hold h' ((a, mkH p w (ptrs s)) :: flats (present (set_nth s q None)) ++ flat (set_parent c None) ++ rest).
Proof.
  intros H X. pose proof (present_set s q (Some c) None X) as P. cbn [opt_list app] in P.
  destruct (flat_set_parent c None) as (m & r & F1 & F2).
  assert (H1 : hold h ((id_of c, m) :: (a, mkH p w (ptrs s)) :: r ++ flats (present (set_nth s q None)) ++ rest)).
  { eapply hold_perm; [|exact H]. apply flats_perm in P. rewrite <- P, flats_cons, F1. cbn [app]. rewrite <- app_assoc. apply perm_swap. }
  unfold orphan. rewrite (hold_read _ _ _ _ H1) by now left. cbn [bind]. eexists. split; [reflexivity|]. split; [apply set_nth_length|].
  apply (hold_write _ _ _ (mkH None (hvalue m) (hchildren m))) in H1. eapply hold_perm; [|exact H1]. rewrite F2.
  etransitivity; [apply perm_swap|]. apply perm_skip.
  change (Permutation (((id_of c, mkH None (hvalue m) (hchildren m)) :: r) ++ flats (present (set_nth s q None)) ++ rest)
    (flats (present (set_nth s q None)) ++ ((id_of c, mkH None (hvalue m) (hchildren m)) :: r) ++ rest)).
  rewrite !app_assoc. apply Permutation_app_tail. apply Permutation_app_comm.
Qed.
Lemma nth_set_same {A} (l : list A) p x y : nth_error l p = Some y -> nth_error (set_nth l p x) p = Some x.
Proof. intros E. apply nth_error_set_nth_eq. apply nth_error_Some. congruence. Qed.
Definition good_call (h : heap) ts a u c : Prop :=
  exists h' r ts', hcall max_node_size h a c = Val (h', r) /\
    (exists u' ans handed gone x', do_call max_node_size (length h) c u = Val (u', (ans, handed, gone, x')) /\
       r = reply_of ans handed /\ ts' = fput a u' ts ++ opt_list handed) /\ holds h' ts'.
Lemma call_ok (h : heap) ts a u c : holds h ts -> fsub a ts = Some u -> in_range max_node_size c -> good_call h ts a u c.
Proof.
  intros H E R. destruct (focus_holds a h ts u H E) as (rest & H1 & H2). pose proof (fsub_id _ _ _ E) as I.
  destruct c as [v|v|q v|q v|q|q| |v]; unfold good_call; cbn [hcall do_call].
  - destruct (hadd_ok h ts a u v H E) as (h' & n' & b & i' & E1 & E2 & E3). rewrite E1, E2. cbn [bind].
    do 3 eexists. split; [reflexivity|]. split; [|exact E3]. do 5 eexists. split; [reflexivity|]. split; reflexivity.
  - pose proof (hadd_ok h ts a u v H E) as (h' & n' & b & i' & E1 & E2 & E3).
    unfold hinsert_null, insert_at_first_null. destruct u as [i p w s]. cbn in I. subst i. rewrite flat_eq in H1. cbn [app] in H1.
    rewrite (hold_read _ _ a _ H1) by now left. cbn [bind hchildren slots_of id_of]. rewrite ptrs_null.
    destruct (index_null s) as [q|] eqn:N.
    + cbn [bind alloc]. do 3 eexists. split; [reflexivity|]. split; [do 5 eexists; split; [reflexivity|split; reflexivity]|].
      apply H2; [reflexivity|]. apply (hold_new_at h a _ (present s) rest v p w s q H1); [now apply index_null_nth|reflexivity].
    + rewrite E1, E2. cbn [bind]. do 3 eexists. split; [reflexivity|]. split; [|exact E3]. do 5 eexists. split; [reflexivity|]. split; reflexivity.
  - destruct u as [i p w s]. cbn in I. subst i. rewrite flat_eq in H1. cbn [app] in H1.
    unfold hinsert_at, insert_at. rewrite (hold_read _ _ a _ H1) by now left. cbn [bind hchildren slots_of id_of]. rewrite ptrs_cell.
    assert (NO : exists h' r ts', Val (h, RBool false) = Val (h', r) /\
      (exists u' ans handed (gone : list nat) x', Val (KN a p w s, (ABool false, None, [], length h)) = Val (u', (ans, handed, gone, x')) /\
       r = reply_of ans handed /\ ts' = fput a u' ts ++ opt_list handed) /\ holds h' ts').
    { do 3 eexists. split; [reflexivity|]. split; [do 5 eexists; split; [reflexivity|split; reflexivity]|]. apply H2; [reflexivity|]. rewrite flat_eq. exact H1. }
    destruct (N.ltb_spec q max_node_size) as [L|L]; [|exact NO]. unfold cell. destruct (nth_error s (N.to_nat q)) as [[c|]|] eqn:X; cbn [option_map alloc bind].
    + exact NO.
    + do 3 eexists. split; [reflexivity|]. split; [do 5 eexists; split; [reflexivity|split; reflexivity]|].
      apply H2; [reflexivity|]. apply (hold_new_at h a _ (present s) rest v p w s _ H1); [assumption|reflexivity].
    + do 3 eexists. split; [reflexivity|]. split; [do 5 eexists; split; [reflexivity|split; reflexivity]|].
      apply H2; [reflexivity|]. rewrite ptrs_resized. apply (hold_new_at h a _ (present s) rest v p w _ _ H1); [now apply grow_nth|].
      now rewrite present_resize.
  - cbn in R. destruct u as [i p w s]. cbn in I. subst i. rewrite flat_eq in H1. cbn [app] in H1.
    unfold hreplace_at, replace_at. rewrite (hold_read _ _ a _ H1) by now left. cbn [bind hchildren slots_of id_of]. rewrite ptrs_cell.
    apply N.ltb_lt in R as R'. rewrite R'. unfold cell. destruct (nth_error s (N.to_nat q)) as [[c|]|] eqn:X; cbn [option_map].
    + destruct (orphan_ok h a p w s rest _ c H1 X) as (h1 & E1 & L1 & H3). rewrite E1. cbn [bind].
      replace (set_nth (ptrs s) (N.to_nat q) None) with (ptrs (set_nth s (N.to_nat q) None)) by now rewrite map_set. rewrite nth_error_map, !(nth_set_same _ _ _ _ X).
      cbn [option_map]. rewrite (hold_read _ _ a _ H3) by now left. cbn [bind alloc]. rewrite L1.
      do 3 eexists. split; [reflexivity|]. split; [do 5 eexists; split; [reflexivity|split; [destruct c; reflexivity|reflexivity]]|].
      apply H2; [reflexivity|]. cbn [opt_list flats flat_map]. rewrite app_nil_r. rewrite <- L1.
      apply (hold_new_at h1 a _ (present (set_nth s (N.to_nat q) None)) _ v p w _ _ H3); [now apply nth_set_same with (1 := X)|reflexivity].
    + cbn [bind]. rewrite nth_error_map, X. cbn [option_map]. rewrite (hold_read _ _ a _ H1) by now left. cbn [bind alloc].
      do 3 eexists. split; [reflexivity|]. split; [do 5 eexists; split; [reflexivity|split; reflexivity]|].
      apply H2; [reflexivity|]. apply (hold_new_at h a _ (present s) rest v p w s _ H1); [assumption|reflexivity].
    + cbn [bind]. rewrite ptrs_resized, nth_error_map, (grow_nth s q R X). cbn [option_map]. rewrite (hold_read _ _ a _ H1) by now left. cbn [bind alloc].
      do 3 eexists. split; [reflexivity|]. split; [do 5 eexists; split; [reflexivity|split; reflexivity]|].
      apply H2; [reflexivity|]. apply (hold_new_at h a _ (present s) rest v p w _ _ H1); [now apply grow_nth|]. now rewrite present_resize.
  - destruct u as [i p w s]. cbn in I. subst i. rewrite flat_eq in H1. cbn [app] in H1.
    unfold hdelete_child, delete_child. rewrite (hold_read _ _ a _ H1) by now left. cbn [bind hchildren slots_of id_of]. rewrite ptrs_cell.
    unfold cell. destruct (nth_error s (N.to_nat q)) as [c|] eqn:X; cbn [option_map].
    + pose proof (flats_perm _ _ (present_erase s _ c X)) as P.
      assert (G : exists h1, (match option_map id_of c with Some x => hdelete h x | None => Val h end) = Val h1 /\
                  hold h1 ((a, mkH p w (ptrs s)) :: flats (present (erase s (N.to_nat q))) ++ rest)).
      { destruct c as [c|]; cbn [option_map opt_list app] in *.
        - apply delete_ok. eapply hold_perm; [|exact H1]. rewrite P, flats_cons. rewrite <- !app_assoc.
          apply Permutation_middle.
        - exists h. split; [reflexivity|]. eapply hold_perm; [|exact H1]. apply perm_skip. now rewrite P. }
      destruct G as (h1 & E1 & H3). rewrite E1. cbn [bind]. rewrite (hold_read _ _ a _ H3) by now left. cbn [bind hchildren].
      do 3 eexists. split; [reflexivity|]. split; [do 5 eexists; split; [reflexivity|split; reflexivity]|].
      apply H2; [reflexivity|]. cbn [with_children with_slots hparent hvalue]. rewrite ptrs_erase, flat_eq.
      apply (hold_write _ _ _ (mkH p w (ptrs (erase s (N.to_nat q))))) in H3. exact H3.
    + do 3 eexists. split; [reflexivity|]. split; [do 5 eexists; split; [reflexivity|split; reflexivity]|]. apply H2; [reflexivity|]. rewrite flat_eq. exact H1.
  - destruct u as [i p w s]. cbn in I. subst i. rewrite flat_eq in H1. cbn [app] in H1.
    unfold hextract, extract_child. rewrite (hold_read _ _ a _ H1) by now left. cbn [bind hchildren slots_of id_of]. rewrite ptrs_cell.
    assert (NO : exists h' r ts', Val (h, RHanded None) = Val (h', r) /\
      (exists u' ans handed (gone : list nat) x', Val (KN a p w s, (ANode false, None, [], length h)) = Val (u', (ans, handed, gone, x')) /\
       r = reply_of ans handed /\ ts' = fput a u' ts ++ opt_list handed) /\ holds h' ts').
    { do 3 eexists. split; [reflexivity|]. split; [do 5 eexists; split; [reflexivity|split; reflexivity]|]. apply H2; [reflexivity|]. rewrite flat_eq. exact H1. }
    unfold cell. destruct (nth_error s (N.to_nat q)) as [[c|]|] eqn:X; cbn [option_map]; [|exact NO|exact NO].
    destruct (orphan_ok h a p w s rest _ c H1 X) as (h1 & E1 & L1 & H3). rewrite E1. cbn [bind].
    rewrite (hold_read _ _ a _ H3) by now left. cbn [bind hchildren].
    do 3 eexists. split; [reflexivity|]. split; [do 5 eexists; split; [reflexivity|split; [destruct c; reflexivity|reflexivity]]|].
    apply H2; [reflexivity|]. cbn [opt_list flats flat_map with_children with_slots hparent hvalue]. rewrite app_nil_r.
    replace (set_nth (ptrs s) (N.to_nat q) None) with (ptrs (set_nth s (N.to_nat q) None)) by now rewrite map_set. rewrite flat_eq.
    exact (hold_write _ _ _ _ _ H3).
  - destruct u as [i p w s]. cbn in I. subst i. rewrite flat_eq in H1. cbn [app] in H1.
    unfold hclear, clear. rewrite (hold_read _ _ a _ H1) by now left. cbn [bind hchildren slots_of id_of].
    destruct (delete_each_ok s h ((a, mkH p w (ptrs s)) :: rest)) as (h1 & E1 & H3).
    { eapply hold_perm; [|exact H1]. apply Permutation_middle. }
    rewrite E1. cbn [bind]. rewrite (hold_read _ _ a _ H3) by now left. cbn [bind].
    do 3 eexists. split; [reflexivity|]. split; [do 5 eexists; split; [reflexivity|split; reflexivity]|].
    apply H2; [reflexivity|]. exact (hold_write _ _ _ _ _ H3).
  - destruct u as [i p w s]. cbn in I. subst i. rewrite flat_eq in H1. cbn [app] in H1.
    unfold hset. rewrite (hold_read _ _ a _ H1) by now left. cbn [bind hchildren hparent].
    do 3 eexists. split; [reflexivity|]. split; [do 5 eexists; split; [reflexivity|split; reflexivity]|].
    apply H2; [reflexivity|]. cbn [set_value]. rewrite flat_eq. exact (hold_write _ _ _ _ _ H1).
Qed.

(** ** The other operations *)
Lemma read_ok (h : heap) ts a u : holds h ts -> fsub a ts = Some u -> read h a = Val (in_memory u).
Proof.
  clear MAX. intros H E. destruct (focus_holds a h ts u H E) as (rest & H1 & _). pose proof (fsub_id _ _ _ E) as I. destruct u as [i p v s].
  cbn in I. subst i. rewrite flat_eq in H1. apply (hold_read _ _ a _ H1). now left.
Qed.
Lemma fresh_ok (h : heap) ts : holds h ts -> ~ In (length h) (fids ts).
Proof. clear MAX. intros H. rewrite <- flats_ids. apply hold_fresh. now apply holds_hold. Qed.
Lemma set_ok (h : heap) ts a u v : holds h ts -> fsub a ts = Some u ->
  exists h', hset h a v = Val h' /\ holds h' (fput a (set_value u v) ts).
Proof.
  intros H E. destruct (call_ok h ts a u (CSetValue v) H E Logic.I) as (h' & r & ts' & E1 & (u' & ans & hd & g & x' & E2 & _ & E3) & H').
  cbn in E1, E2. injection E2 as <- <- <- <- <-. subst ts'. rewrite app_nil_r in H'. destruct (hset h a v); try discriminate.
  cbn in E1. injection E1 as -> _. eauto.
Qed.
Lemma fput_ids a (ts : forest) u u' x : NoDup (fids ts) -> fsub a ts = Some u -> ids u' = ids u -> id_of u' = a ->
  In x (fids ts) -> In x (fids (fput a u' ts)).
Proof.
  clear MAX. intros D E I J H. destruct (focus a ts u D E) as (rest & P1 & P2). specialize (P2 u' J). rewrite <- flats_ids in *.
  apply (Permutation_map fst) in P1. apply (Permutation_map fst) in P2. rewrite map_app, flat_ids in P1, P2. rewrite I in P2.
  eapply Permutation_in; [|exact H]. rewrite P1. now symmetry.
Qed.
Lemma fput_nodup a (ts : forest) u u' : NoDup (fids ts) -> fsub a ts = Some u -> ids u' = ids u -> id_of u' = a -> NoDup (fids (fput a u' ts)).
Proof.
  clear MAX. intros D E I J. destruct (focus a ts u D E) as (rest & P1 & P2). specialize (P2 u' J). rewrite <- flats_ids in *.
  apply (Permutation_map fst) in P1. apply (Permutation_map fst) in P2. rewrite map_app, flat_ids in P1, P2. rewrite I in P2.
  eapply Permutation_NoDup; [|exact D]. rewrite P1. now symmetry.
Qed.
Lemma childless_present (u : knode) : childless u -> present (slots_of u) = [].
Proof.
  clear MAX. unfold childless, present. induction 1 as [|c s -> F IH]; [reflexivity|exact IH].
Qed.
Lemma root_split (ts : forest) a : NoDup (fids ts) -> is_root a ts ->
  exists l1 n l2, ts = l1 ++ n :: l2 /\ id_of n = a /\ filter (fun n => negb (Nat.eqb a (id_of n))) ts = l1 ++ l2.
Proof.
  clear MAX. intros D R. unfold is_root in R. apply in_map_iff in R. destruct R as (n & I & J). apply in_split in J. destruct J as (l1 & l2 & ->).
  exists l1, n, l2. split; [reflexivity|]. split; [assumption|]. rewrite fids_app, fids_cons in D.
  assert (G : forall l : forest, (forall m, In m l -> id_of m <> a) -> filter (fun n => negb (Nat.eqb a (id_of n))) l = l).
  { intros l HL. induction l as [|m l IH]; [reflexivity|]. cbn. destruct (Nat.eqb_spec a (id_of m)) as [X|X].
    - exfalso. apply (HL m); [now left|now symmetry].
    - cbn. f_equal. apply IH. intros k K. apply HL. now right. }
  assert (O : forall (m : knode) l, In m l -> In (id_of m) (fids l)) by (intros m l K; apply in_fids; exists m; split; [assumption|apply in_id]).
  rewrite filter_app. cbn [filter]. rewrite I, Nat.eqb_refl. cbn [negb]. pose proof (in_id n) as In'. rewrite I in In'.
  apply KaryIterProofs.nodup_app in D. destruct D as (_ & D2 & D3). apply KaryIterProofs.nodup_app in D2. destruct D2 as (_ & _ & D4).
  f_equal; apply G; intros m K X; pose proof (O m _ K) as Y; rewrite X in Y.
  - apply (D3 a Y). apply in_or_app. now left.
  - exact (D4 a In' Y).
Qed.
Lemma destroy_ok (h : heap) ts a : holds h ts -> is_root a ts ->
  exists h', hdelete h a = Val h' /\ holds h' (filter (fun n => negb (Nat.eqb a (id_of n))) ts).
Proof.
  clear MAX. intros H R. destruct (root_split ts a (proj1 H) R) as (l1 & n & l2 & -> & I & F). rewrite F. clear F. apply holds_hold in H.
  rewrite flats_app, flats_cons in H. destruct (delete_ok n h (flats l1 ++ flats l2)) as (h' & E & H').
  { eapply hold_perm; [|exact H]. rewrite !app_assoc. apply Permutation_app_tail. apply Permutation_app_comm. }
  rewrite I in E. exists h'. split; [assumption|]. apply holds_hold. now rewrite flats_app.
Qed.

Section Step.
Variable veq : V -> V -> bool.
Variable moved_from : V -> V.
Notation step_after := (KaryHeapSpec.after max_node_size veq moved_from).
Notation hstep := (hstep max_node_size veq moved_from).

(** What an assignment makes of the cells, whatever the nodes are. *)
Lemma assign_ok (h : heap) ts a b u w : holds h ts -> fsub a ts = Some u -> fsub b ts = Some w -> childless u -> childless w ->
  exists h', hassign h a b = Val h' /\ holds h' (fput a (KN a (parent_of w) (value_of w) (slots_of w)) ts).
Proof.
  clear MAX. intros H Eu Ew Cu Cw. unfold hassign. rewrite (read_ok _ _ _ _ H Eu), (read_ok _ _ _ _ H Ew). cbn [bind].
  eexists. split; [reflexivity|]. destruct (focus_holds a h ts u H Eu) as (rest & H1 & H2).
  rewrite <- (app_nil_r (fput a _ ts)). apply H2; [reflexivity|]. pose proof (fsub_id _ _ _ Eu) as I. apply childless_present in Cu, Cw.
  destruct u as [i p v s]. cbn [id_of slots_of] in I, Cu. subst i. rewrite flat_eq, Cu in H1. rewrite flat_eq, Cw. exact (hold_write _ _ _ _ _ H1).
Qed.
Lemma sub_first b (ts : forest) w : NoDup (fids ts) -> fsub b ts = Some w ->
  exists m r, Permutation (flats ts) ((b, m) :: flats (present (slots_of w)) ++ r) /\ m = in_memory w /\
  forall w', id_of w' = b -> Permutation (flats (fput b w' ts)) (flat w' ++ r).
Proof.
  clear MAX. intros D E. destruct (focus b ts w D E) as (r & P1 & P2). exists (in_memory w), r. split; [|auto].
  rewrite P1. pose proof (fsub_id _ _ _ E) as I. destruct w as [i p v s]. cbn in I. subst i. rewrite flat_eq. reflexivity.
Qed.
(** Neither at or below the other: the old children of the target are left over. *)
Lemma move_apart (h : heap) ts a b u w : holds h ts -> fsub a ts = Some u -> fsub b ts = Some w -> ~ In b (ids u) -> ~ In a (ids w) ->
  exists h', hmove moved_from h a b = Val h' /\
    hold h' (flats (fput a (KN a (parent_of w) (value_of w) (slots_of w)) (fput b (KN b (parent_of w) (moved_from (value_of w)) []) ts)) ++
             flats (present (slots_of u))).
Proof.
  clear MAX. intros H Eu Ew M N. unfold hmove. destruct (Nat.eqb_spec a b) as [->|NE].
  { destruct N. rewrite <- (fsub_id _ _ _ Ew). apply in_id. }
  rewrite (read_ok _ _ _ _ H Eu), (read_ok _ _ _ _ H Ew). cbn [bind]. eexists. split; [reflexivity|].
  set (w' := KN b (parent_of w) (moved_from (value_of w)) []).
  assert (Eu' : fsub a (fput b w' ts) = Some (put b w' u)).
  { rewrite (fsub_put_other b w' a ts (proj1 H)); [now rewrite Eu|reflexivity|cbn; intuition congruence|].
    intros u0 X. rewrite Ew in X. injection X as <-. assumption. }
  rewrite (put_notin b w' u M) in Eu'.
  destruct (focus b ts w (proj1 H) Ew) as (r1 & P1 & P2). specialize (P2 w' eq_refl).
  assert (D1 : NoDup (fids (fput b w' ts))).
  { rewrite <- flats_ids. eapply Permutation_NoDup; [symmetry; apply Permutation_map; exact P2|].
    pose proof (proj1 H) as D. rewrite <- flats_ids in D. apply (Permutation_NoDup (Permutation_map fst P1)) in D.
    rewrite map_app in *. rewrite flat_ids in D. pose proof (fsub_id _ _ _ Ew) as I. destruct w as [i p v s]. cbn in I. subst i. rewrite ids_eq in D.
    cbn in D |- *. apply NoDup_cons_iff in D. destruct D as (D1 & D2). constructor; [|apply KaryIterProofs.nodup_app in D2; apply D2].
    intros X. apply D1. apply in_or_app. now right. }
  destruct (focus a _ u D1 Eu') as (r2 & Q1 & Q2). specialize (Q2 (KN a (parent_of w) (value_of w) (slots_of w)) eq_refl).
  apply holds_hold in H. apply (hold_perm _ _ _ P1) in H.
  pose proof (fsub_id _ _ _ Eu) as Iu. pose proof (fsub_id _ _ _ Ew) as Iw. destruct u as [i p v s], w as [j q z t]. cbn in Iu, Iw. subst i j.
  cbn [parent_of value_of slots_of pointers in_memory hparent hvalue hchildren] in *.
  unfold w' in P2. rewrite flat_eq in H, P2, Q1, Q2. cbn [app present flats flat_map] in *.
  change (flat_map _ s) with (present s) in *. change (flat_map _ t) with (present t) in *.
  fold (flats (present s)) in *. fold (flats (present t)) in *.
  (* cells: b, then those below b, then the rest, in which a is *)
  assert (Q : Permutation ((b, mkH q (moved_from z) []) :: r1) ((a, mkH p v (ptrs s)) :: flats (present s) ++ r2)).
  { transitivity (flats (fput b (KN b q (moved_from z) []) ts)); [symmetry; exact P2|exact Q1]. }
  assert (X : exists k, Permutation r1 ((a, mkH p v (ptrs s)) :: k) /\ Permutation (flats (present s) ++ r2) ((b, mkH q (moved_from z) []) :: k)).
  { assert (X : In (a, mkH p v (ptrs s)) r1).
    { assert (X : In (a, mkH p v (ptrs s)) ((b, mkH q (moved_from z) []) :: r1)) by (eapply Permutation_in; [symmetry; exact Q|now left]).
      destruct X as [[= X]|X]; [congruence|assumption]. }
    apply in_split in X. destruct X as (k1 & k2 & ->). exists (k1 ++ k2). split; [symmetry; apply Permutation_middle|].
    apply (Permutation_cons_inv (a := (a, mkH p v (ptrs s)))). rewrite <- Q. rewrite perm_swap. apply perm_skip. symmetry. apply Permutation_middle. }
  destruct X as (k & K1 & K2).
  assert (H1 : hold h ((a, mkH p v (ptrs s)) :: (b, mkH q z (ptrs t)) :: flats (present t) ++ k)).
  { eapply hold_perm; [|exact H]. rewrite K1. rewrite perm_swap. apply perm_skip. symmetry. apply Permutation_middle. }
  apply (hold_write _ _ _ (mkH q z (ptrs t))) in H1.
  assert (H2 : hold (write h a (mkH q z (ptrs t))) ((b, mkH q z (ptrs t)) :: (a, mkH q z (ptrs t)) :: flats (present t) ++ k)).
  { eapply hold_perm; [|exact H1]. apply perm_swap. }
  apply (hold_write _ _ _ (mkH q (moved_from z) [])) in H2. eapply hold_perm; [|exact H2].
  transitivity (((a, mkH q z (ptrs t)) :: flats (present t) ++ r2) ++ flats (present s)).
  - rewrite perm_swap. cbn [app]. apply perm_skip. rewrite <- app_assoc, (Permutation_app_comm r2), K2. apply Permutation_middle.
  - apply Permutation_app_tail. symmetry. exact Q2.
Qed.
Lemma move_ok (h : heap) ts a b u w : holds h ts -> fsub a ts = Some u -> fsub b ts = Some w -> childless u -> ~ In a (ids w) ->
  exists h', hmove moved_from h a b = Val h' /\
    holds h' (fput a (KN a (parent_of w) (value_of w) (slots_of w)) (fput b (KN b (parent_of w) (moved_from (value_of w)) []) ts)).
Proof.
  clear MAX. intros H Eu Ew Cu N. destruct (move_apart h ts a b u w H Eu Ew) as (h' & E & H'); [|assumption|].
  - apply childless_present in Cu. pose proof (fsub_id _ _ _ Eu) as I. destruct u as [i p v s]. cbn [id_of slots_of] in I, Cu. subst i.
    rewrite ids_eq, Cu. cbn. intros [->|[]]. apply N. rewrite <- (fsub_id _ _ _ Ew). apply in_id.
  - exists h'. split; [assumption|]. apply holds_hold. rewrite (childless_present u Cu) in H'. cbn [flats flat_map] in H'. now rewrite app_nil_r in H'.
Qed.
Lemma first_ok (s : list (option knode)) : first_of (ptrs s) =
  match find_if non_null s with
  | Some i => match nth_error s i with Some (Some c) => Val (id_of c) | _ => UB end
  | None => Exn NullNode
  end.
Proof.
  clear MAX. induction s as [|[c|] s IH]; [reflexivity|reflexivity|]. cbn [map option_map first_of find_if non_null]. rewrite IH.
  destruct (find_if non_null s); reflexivity.
Qed.
Lemma find_ok (h : heap) (s : list (option knode)) v : (forall c, In (Some c) s -> read h (id_of c) = Val (in_memory c)) ->
  forall k, find_from veq h (ptrs s) v k =
  Val (match find_if (fun c => match c with Some c => veq (value_of c) v | None => false end) s with
       | Some i => (true, N.of_nat (k + i))
       | None => (false, two64 - 1)%N
       end).
Proof.
  clear MAX. induction s as [|[c|] s IH]; intros R k; [reflexivity| |].
  - cbn [map option_map find_from find_if]. rewrite (R c) by now left. cbn [bind in_memory hvalue].
    destruct (veq (value_of c) v); [now rewrite Nat.add_0_r|]. rewrite IH by (intros d I; apply R; now right).
    destruct (find_if _ s); cbn [option_map]; [|reflexivity]. do 3 f_equal. lia.
  - cbn [map option_map find_from find_if]. rewrite IH by (intros d I; apply R; now right).
    destruct (find_if _ s); cbn [option_map]; [|reflexivity]. do 3 f_equal. lia.
Qed.
Lemma count_ok (s : list (option knode)) :
  length (filter (fun c => match c with None => true | Some _ => false end) (ptrs s)) =
  length (filter (fun c => match c with None => true | Some _ => false end) s).
Proof. clear MAX. induction s as [|[c|] s IH]; cbn; auto. Qed.
Lemma kid_sub (ts : forest) a u c : NoDup (fids ts) -> fsub a ts = Some u -> In (Some c) (slots_of u) -> fsub (id_of c) ts = Some c.
Proof.
  clear MAX. intros D E I. assert (J : In (id_of c) (ids u)).
  { destruct u as [i p v s]. rewrite ids_eq. right. apply in_fids. exists c. split; [now apply in_present|apply in_id]. }
  rewrite (fsub_sub _ a ts u D E J). pose proof (fsub_nodup _ _ _ D E) as Du. 
  destruct (sub_kid u c (id_of c) Du I (in_id c)) as (X & _). rewrite X. apply sub_self.
Qed.
Lemma step_ok (h : heap) ts o : holds h ts -> legal max_node_size ts o ->
  exists h' r ts', hstep h o = Val (h', r) /\ step_after ts o r ts' /\ holds h' ts'.
Proof.
  intros H L. assert (RD : forall a, In a (fids ts) -> exists u, fsub a ts = Some u /\ read h a = Val (in_memory u)).
  { intros a I. destruct (in_fsub _ _ I) as (u & E). exists u. split; [assumption|]. exact (read_ok _ _ _ _ H E). }
  destruct o; cbn [legal KaryHeapModel.hstep KaryHeapSpec.after] in *.
  - do 3 eexists. split; [reflexivity|]. split; [exists (length h); split; [now apply fresh_ok|split; reflexivity]|].
    apply holds_hold. apply holds_hold in H. rewrite flats_app. apply (hold_alloc _ (mkH None v [])) in H. eapply hold_perm; [|exact H].
    cbn. apply Permutation_cons_append.
  - destruct (destroy_ok h ts a H L) as (h' & E & H'). rewrite E. cbn [bind]. do 3 eexists. split; [reflexivity|]. split; [split; reflexivity|assumption].
  - destruct L as (I & R). destruct (RD a I) as (u & E & _).
    destruct (call_ok h ts a u c H E R) as (h' & r & ts' & E1 & (u' & ans & hd & g & x' & E2 & E3 & E4) & H').
    exists h', r, ts'. split; [assumption|]. split; [|assumption]. exists u, (length h), u', ans, hd, g, x'.
    split; [assumption|]. split; [now apply fresh_ok|]. auto.
  - destruct L as (Ia & Ib). destruct (RD a Ia) as (u & Eu & Ru), (RD b Ib) as (w & Ew & Rw). unfold hswap. rewrite Ru, Rw. cbn [bind].
    destruct (set_ok h ts b w (hvalue (in_memory u)) H Ew) as (h1 & E1 & H1). rewrite E1. cbn [bind].
    assert (Ia' : In a (fids (fput b (set_value w (value_of u)) ts))).
    { apply (fput_ids b ts w); auto; [exact (proj1 H)|now destruct w|]. rewrite <- (fsub_id _ _ _ Ew). now destruct w. }
    destruct (in_fsub _ _ Ia') as (u' & Eu'). destruct (set_ok h1 _ a u' (hvalue (in_memory w)) H1 Eu') as (h2 & E2 & H2). rewrite E2. cbn [bind].
    do 3 eexists. split; [reflexivity|]. split; [|exact H2]. exists u, w, u'. auto 6.
  - destruct L as (u & w & Eu & Ew & L). destruct (Nat.eqb_spec a b) as [->|NE].
    + unfold hassign. rewrite (read_ok _ _ _ _ H Ew). cbn [bind]. do 3 eexists. split; [reflexivity|]. split; [exists w; auto|].
      replace (write h b _) with h; [assumption|]. pose proof (read_ok _ _ _ _ H Ew) as R. unfold read in R. unfold write.
      destruct (nth_error h b) as [[m|]|] eqn:X; try discriminate. injection R as ->. clear - X. cbn.
      revert b X; induction h as [|o h IH]; intros [|b] X; cbn in *; try discriminate; [injection X as ->; reflexivity|]. f_equal. auto.
    + destruct L as [|(Cu & Cw)]; [contradiction|]. destruct (assign_ok h ts a b u w H Eu Ew Cu Cw) as (h' & E & H'). rewrite E. cbn [bind].
      do 3 eexists. split; [reflexivity|]. split; [exists w; split; [assumption|split; reflexivity]|]. assumption.
  - destruct L as (u & w & Eu & Ew & Cu & N). destruct (move_ok h ts a b u w H Eu Ew Cu N) as (h' & E & H'). rewrite E. cbn [bind].
    do 3 eexists. split; [reflexivity|]. split; [exists w; auto|assumption].
  - destruct (RD a L) as (u & E & R). unfold hhas. rewrite R. cbn [bind look]. do 3 eexists. split; [reflexivity|]. split; [|exact H].
    exists u. split; [assumption|]. split; [|reflexivity]. f_equal. unfold has_child. cbn [in_memory hchildren]. unfold pointers. rewrite ptrs_cell.
    now destruct (cell (slots_of u) pos) as [[c|]|].
  - destruct (RD a L) as (u & E & R). unfold hcount. rewrite R. cbn [bind look]. do 3 eexists. split; [reflexivity|]. split; [|exact H].
    exists u. split; [assumption|]. split; [|reflexivity]. f_equal. unfold children_count. cbn [in_memory hchildren]. unfold pointers.
    now rewrite ptrs_size, count_ok.
  - destruct (RD a L) as (u & E & R). unfold hchild. rewrite R. cbn [bind in_memory hchildren]. unfold pointers. rewrite ptrs_cell.
    unfold child. destruct (cell (slots_of u) pos) as [[c|]|] eqn:X; cbn [option_map look]; (do 3 eexists; split; [reflexivity|]; split; [|exact H]);
      exists u; rewrite X; cbn; auto.
  - destruct (RD a L) as (u & E & R). unfold hfirst. rewrite R. cbn [bind in_memory hchildren]. unfold pointers. rewrite first_ok.
    assert (F : forall s : list (option knode), match find_if non_null s with Some i => exists c, nth_error s i = Some (Some c) | None => True end).
    { induction s as [|[c|] s IH]; cbn; eauto. destruct (find_if non_null s); cbn; auto. }
    specialize (F (slots_of u)). unfold first. destruct (find_if non_null (slots_of u)) as [i|] eqn:X.
    + destruct F as (c & F). rewrite F. cbn [look]. do 3 eexists. split; [reflexivity|]. split; [|exact H]. exists u. rewrite X, F. cbn. auto.
    + cbn [look]. do 3 eexists. split; [reflexivity|]. split; [|exact H]. exists u. rewrite X. cbn. auto.
  - destruct (RD a L) as (u & E & R). unfold hlast. rewrite R. cbn [bind in_memory hchildren]. unfold pointers. rewrite <- map_rev, first_ok.
    assert (F : forall s : list (option knode), match find_if non_null s with Some i => exists c, nth_error s i = Some (Some c) | None => True end).
    { induction s as [|[c|] s IH]; cbn; eauto. destruct (find_if non_null s); cbn; auto. }
    specialize (F (rev (slots_of u))). unfold last. destruct (find_if non_null (rev (slots_of u))) as [i|] eqn:X.
    + destruct F as (c & F). rewrite F. cbn [look]. do 3 eexists. split; [reflexivity|]. split; [|exact H]. exists u. rewrite X, F. cbn. auto.
    + cbn [look]. do 3 eexists. split; [reflexivity|]. split; [|exact H]. exists u. rewrite X. cbn. auto.
  - destruct (RD a L) as (u & E & R). unfold hfind. rewrite R. cbn [bind in_memory hchildren]. unfold pointers. rewrite find_ok.
    + cbn [look]. do 3 eexists. split; [reflexivity|]. split; [|exact H]. exists u. split; [assumption|]. split; [|reflexivity]. f_equal. 
    + intros c I. exact (read_ok _ _ _ _ H (kid_sub ts a u c (proj1 H) E I)).
  - destruct (RD a L) as (u & E & R). unfold hhas_parent. rewrite R. cbn [bind look]. do 3 eexists. split; [reflexivity|]. split; [|exact H].
    exists u. auto.
  - destruct L as (u & E & P). unfold hparent_of. rewrite (read_ok _ _ _ _ H E). cbn [bind in_memory hparent].
    destruct (parent_of u) as [p|] eqn:X.
    + destruct (RD p (P p eq_refl)) as (m & _ & Rm). rewrite Rm. cbn [bind look]. do 3 eexists. split; [reflexivity|]. split; [|exact H]. exists u. rewrite X. auto.
    + cbn [look]. do 3 eexists. split; [reflexivity|]. split; [|exact H]. exists u. rewrite X. auto.
  - destruct (RD a L) as (u & E & R). unfold hget. rewrite R. cbn [bind look]. do 3 eexists. split; [reflexivity|]. split; [|exact H].
    exists u. auto.
Qed.
Lemma run_ok p : forall (h : heap) ts, holds h ts -> fair max_node_size veq moved_from ts p ->
  exists h' rs ts', hrun max_node_size veq moved_from h p = Val (h', rs) /\ holds h' ts' /\ play max_node_size veq moved_from ts rs ts'.
Proof.
  induction p as [|o k IH]; intros h ts H F; cbn [hrun fair] in *.
  - exists h, [], ts. split; [reflexivity|]. split; [assumption|constructor].
  - destruct F as (L & F). destruct (step_ok h ts o H L) as (h1 & r & ts1 & E1 & A & H1). rewrite E1. cbn [bind].
    destruct (IH r h1 ts1 H1 (F r ts1 A)) as (h2 & rs & ts2 & E2 & H2 & P2). rewrite E2. cbn [bind].
    exists h2, ((o, r) :: rs), ts2. split; [reflexivity|]. split; [assumption|]. econstructor; eassumption.
Qed.
Lemma holds_nil : holds (@nil (option hnode)) [].
Proof. split; [constructor|]. intros [|x] m; cbn; (split; [intros [=]|intros (n & [] & _)]). Qed.
Lemma live_iff (h : heap) ts x : holds h ts -> (live_in h x <-> In x (fids ts)).
Proof.
  clear MAX. intros H. apply holds_hold in H. rewrite <- flats_ids, in_map_iff. unfold live_in. split.
  - intros (m & E). apply H in E. exists (x, m). auto.
  - intros ((y & m) & <- & I). exists m. now apply H.
Qed.

(** ** Assignments that are not legal *)
Lemma destroy_all_ok (l : list nat) : forall (h : heap) ts L, hold h (flats ts ++ L) -> Permutation l (map id_of ts) ->
  exists h', destroy_all h l = Val h' /\ hold h' L.
Proof.
  clear MAX. induction l as [|a l IH]; intros h ts L H P.
  - apply Permutation_nil, map_eq_nil in P. subst. exists h. auto.
  - assert (I : In a (map id_of ts)) by (eapply Permutation_in; [exact P|now left]). apply in_map_iff in I. destruct I as (n & <- & I).
    apply in_split in I. destruct I as (l1 & l2 & ->). rewrite map_app in P. cbn [map] in P.
    apply Permutation_cons_app_inv in P. rewrite <- map_app in P. cbn [destroy_all].
    destruct (delete_ok n h (flats (l1 ++ l2) ++ L)) as (h1 & E1 & H1).
    { eapply hold_perm; [|exact H]. rewrite !flats_app, flats_cons, !app_assoc. do 2 apply Permutation_app_tail. apply Permutation_app_comm. }
    rewrite E1. cbn [bind]. exact (IH h1 (l1 ++ l2) L H1 P).
Qed.
Lemma hold_live (h : heap) L x : hold h L -> (live_in h x <-> In x (map fst L)).
Proof.
  clear MAX. intros H. unfold live_in. rewrite in_map_iff. split.
  - intros (m & E). apply H in E. exists (x, m). auto.
  - intros ((y & m) & <- & I). exists m. now apply H.
Qed.
Lemma fput_roots a (m : knode) ts : id_of m = a -> map id_of (fput a m ts) = map id_of ts.
Proof. clear MAX. intros E. unfold fput. rewrite map_map. apply map_ext. intros n. now apply put_id. Qed.
Lemma descendants_present (u : knode) : descendants u = fids (present (slots_of u)).
Proof. clear MAX. unfold descendants, fids, present. induction (slots_of u) as [|[c|] s IH]; cbn; [reflexivity|now rewrite IH|assumption]. Qed.
Lemma ids_desc (u : knode) : ids u = id_of u :: descendants u.
Proof. clear MAX. rewrite descendants_present. destruct u. apply ids_eq. Qed.
Lemma leftovers (h : heap) M ts L l P : hold h M -> Permutation M (flats ts ++ L) -> Permutation l (map id_of ts) -> (forall x, In x (map fst L) <-> P x) ->
  exists h', destroy_all h l = Val h' /\ forall x, live_in h' x <-> P x.
Proof.
  clear MAX. intros HM PM Q E. pose proof (hold_perm _ _ _ PM HM) as H. destruct (destroy_all_ok l h ts L H Q) as (h' & E' & H'). exists h'. split; [assumption|].
  intros x. rewrite <- E. now apply hold_live.
Qed.
Lemma hold_apart (h : heap) A B x : hold h (A ++ B) -> In x (map fst A) -> ~ In x (map fst B).
Proof. clear MAX. intros (D & _). rewrite map_app in D. apply KaryIterProofs.nodup_app in D. apply D. Qed.
(** Two nodes that are apart have nothing in common. *)
Lemma apart_disjoint (h : heap) ts a b u w : holds h ts -> fsub a ts = Some u -> fsub b ts = Some w -> ~ In b (ids u) -> ~ In a (ids w) ->
  forall x, In x (ids u) -> ~ In x (ids w).
Proof.
  clear MAX. intros H Eu Ew N M x Iu Iw. pose proof (proj1 H) as D.
  assert (X : fsub x ts = sub x u) by now apply fsub_sub with (a := a).
  assert (Y : fsub x ts = sub x w) by now apply fsub_sub with (a := b).
  destruct (focus b ts w D Ew) as (r & P1 & P2). specialize (P2 (KN b None (value_of w) []) eq_refl).
  (* replace w by a leaf: a is still there, with x below it, but x is gone *)
  set (w' := KN b None (value_of w) []) in *.
  assert (NE : a <> b) by (intros ->; apply M; rewrite <- (fsub_id _ _ _ Ew); apply in_id).
  assert (Ea : fsub a (fput b w' ts) = Some (put b w' u)).
  { rewrite (fsub_put_other b w' a ts D); [now rewrite Eu|reflexivity|cbn; intuition congruence|].
    intros u0 Z. rewrite Ew in Z. injection Z as <-. assumption. }
  rewrite (put_notin b w' u N) in Ea. apply fsub_incl in Ea. specialize (Ea x Iu).
  rewrite <- flats_ids in Ea, D. apply (Permutation_in _ (Permutation_map fst P2)) in Ea. rewrite map_app, flat_ids in Ea.
  apply (Permutation_NoDup (Permutation_map fst P1)) in D. rewrite map_app, flat_ids in D. apply KaryIterProofs.nodup_app in D.
  apply in_app_or in Ea. cbn in Ea. destruct Ea as [[Ea|[]]|Ea].
  - apply N. now subst.
  - destruct D as (_ & _ & D). exact (D x Iw Ea).
Qed.
(** A part of the nodes below a node: the cells of [u] with those of [w], below it, first. *)
Lemma inside (h : heap) ts a b u w : holds h ts -> fsub a ts = Some u -> fsub b ts = Some w -> In b (descendants u) ->
  exists k r, hold h (((a, in_memory u) :: (b, in_memory w) :: flats (present (slots_of w)) ++ k) ++ r) /\
    (forall x, In x (map fst k) \/ x = b <-> In x (descendants u) /\ ~ In x (descendants w)) /\
    (forall u', id_of u' = a -> Permutation (flats (fput a u' ts)) (flat u' ++ r)) /\
    Permutation (descendants u) (b :: descendants w ++ map fst k).
Proof.
  clear MAX. intros H Eu Ew I. destruct (focus a ts u (proj1 H) Eu) as (r & P1 & P2).
  rewrite descendants_present in I. assert (Iu : In b (ids u)) by (rewrite ids_desc, descendants_present; now right).
  assert (Du : NoDup (ids u)) by exact (fsub_nodup _ _ _ (proj1 H) Eu).
  assert (Eb : fsub b (present (slots_of u)) = Some w).
  { rewrite <- Ew. rewrite (fsub_sub b a ts u (proj1 H) Eu Iu). destruct u as [i p v s]. rewrite sub_eq. rewrite ids_eq in Du.
    apply NoDup_cons_iff in Du. destruct Du as (Du & _). cbn [slots_of] in I |- *. destruct (Nat.eqb_spec b i) as [->|]; [contradiction|reflexivity]. }
  assert (Dk : NoDup (fids (present (slots_of u)))) by (rewrite ids_desc, descendants_present in Du; now apply NoDup_cons_iff in Du).
  destruct (focus b (present (slots_of u)) w Dk Eb) as (k & K1 & _).
  assert (Fw : flat w = (b, in_memory w) :: flats (present (slots_of w))).
  { pose proof (fsub_id _ _ _ Ew) as J. destruct w as [i p v s]. cbn in J. subst i. apply flat_eq. }
  assert (Fu : flat u = (a, in_memory u) :: flats (present (slots_of u))).
  { pose proof (fsub_id _ _ _ Eu) as J. destruct u as [i p v s]. cbn in J. subst i. apply flat_eq. }
  rewrite Fw in K1. cbn [app] in K1. exists k, r.
  assert (PD : Permutation (descendants u) (b :: descendants w ++ map fst k)).
  { rewrite !descendants_present, <- !flats_ids. rewrite (Permutation_map fst K1). cbn. now rewrite map_app. }
  split; [|split; [|split; [exact P2|exact PD]]].
  - apply holds_hold in H. eapply hold_perm; [|exact H]. rewrite P1, Fu. apply Permutation_app_tail. now apply perm_skip.
  - intros x. assert (DD : NoDup (b :: descendants w ++ map fst k)).
    { eapply Permutation_NoDup; [exact PD|]. now rewrite descendants_present. }
    apply NoDup_cons_iff in DD. destruct DD as (D1 & D2). apply KaryIterProofs.nodup_app in D2. destruct D2 as (_ & _ & D2).
    assert (Y : In x (descendants u) <-> In x (b :: descendants w ++ map fst k)) by (split; apply Permutation_in; [exact PD|now symmetry]).
    rewrite Y. cbn. rewrite in_app_iff. rewrite in_app_iff in D1. split.
    + intros [X| ->]; [split; [auto|]|split; [auto|tauto]]. intros Z. exact (D2 x Z X).
    + intros ([<-|[X|X]] & Z); [auto|contradiction|auto].
Qed.

Lemma shuffle (A B : nat * hnode) F k r : Permutation (B :: A :: (F ++ k) ++ r) ((A :: F ++ r) ++ B :: k).
Proof.
  clear MAX. rewrite perm_swap. cbn [app]. apply perm_skip. rewrite <- !app_assoc. etransitivity; [apply Permutation_middle|].
  apply Permutation_app_head. change (B :: k ++ r) with ((B :: k) ++ r). apply Permutation_app_comm.
Qed.
(** Move assignment. *)
Lemma move_leaves (h : heap) ts a b u w l : holds h ts -> fsub a ts = Some u -> fsub b ts = Some w -> a <> b ->
  Permutation l (map id_of ts) ->
  exists h1 h2, hmove moved_from h a b = Val h1 /\ destroy_all h1 l = Val h2 /\
    forall x, live_in h2 x <-> if in_dec Nat.eq_dec a (ids w) then In x (descendants w) else In x (descendants u) /\ ~ In x (descendants w).
Proof.
  clear MAX. intros H Eu Ew NE P. pose proof (fsub_id _ _ _ Eu) as Iu. pose proof (fsub_id _ _ _ Ew) as Iw.
  destruct (in_dec Nat.eq_dec a (ids w)) as [N|N].
  - assert (I : In a (descendants w)) by (rewrite ids_desc, Iw in N; destruct N; [congruence|assumption]).
    destruct (inside h ts b a w u H Ew Eu I) as (k & r & H1 & _ & P2 & PD).
    unfold hmove. destruct (Nat.eqb_spec a b); [contradiction|]. rewrite (read_ok _ _ _ _ H Eu), (read_ok _ _ _ _ H Ew). cbn [bind].
    assert (H2 : hold h ((a, in_memory u) :: (b, in_memory w) :: (flats (present (slots_of u)) ++ k) ++ r)).
    { eapply hold_perm; [|exact H1]. apply perm_swap. }
    apply (hold_write _ _ _ (mkH (hparent (in_memory w)) (hvalue (in_memory w)) (hchildren (in_memory w)))) in H2.
    eapply (hold_perm _ _ _ (perm_swap _ _ _)) in H2.
    apply (hold_write _ _ _ (mkH (hparent (in_memory w)) (moved_from (hvalue (in_memory w))) [])) in H2.
    destruct (leftovers _ _ (fput b (KN b (parent_of w) (moved_from (value_of w)) []) ts)
      ((a, mkH (hparent (in_memory w)) (hvalue (in_memory w)) (hchildren (in_memory w))) :: flats (present (slots_of u)) ++ k) l
      (fun x => In x (descendants w)) H2) as (h2 & E2 & L2).
    + rewrite (P2 (KN b (parent_of w) (moved_from (value_of w)) []) eq_refl), flat_eq. cbn [present flats flat_map app map in_memory hparent hvalue].
      apply perm_skip. fold (flats (present (slots_of u))). etransitivity; [|apply Permutation_app_comm]. reflexivity.
    + rewrite fput_roots by reflexivity. assumption.
    + intros x. cbn [map fst]. rewrite map_app, flats_ids, <- descendants_present. split; apply Permutation_in; [now symmetry|exact PD].
    + do 2 eexists. split; [reflexivity|]. split; [exact E2|exact L2].
  - destruct (in_dec Nat.eq_dec b (ids u)) as [M|M].
    + assert (I : In b (descendants u)) by (rewrite ids_desc, Iu in M; destruct M; [congruence|assumption]).
      destruct (inside h ts a b u w H Eu Ew I) as (k & r & H1 & K & P2 & PD).
      unfold hmove. destruct (Nat.eqb_spec a b); [contradiction|]. rewrite (read_ok _ _ _ _ H Eu), (read_ok _ _ _ _ H Ew). cbn [bind].
      apply (hold_write _ _ _ (mkH (hparent (in_memory w)) (hvalue (in_memory w)) (hchildren (in_memory w)))) in H1.
      eapply (hold_perm _ _ _ (perm_swap _ _ _)) in H1.
      apply (hold_write _ _ _ (mkH (hparent (in_memory w)) (moved_from (hvalue (in_memory w))) [])) in H1.
      destruct (leftovers _ _ (fput a (KN a (parent_of w) (value_of w) (slots_of w)) ts)
        ((b, mkH (hparent (in_memory w)) (moved_from (hvalue (in_memory w))) []) :: k) l
        (fun x => In x (descendants u) /\ ~ In x (descendants w)) H1) as (h2 & E2 & L2).
      * rewrite (P2 (KN a (parent_of w) (value_of w) (slots_of w)) eq_refl), flat_eq. cbn [in_memory hparent hvalue hchildren app].
        apply shuffle.
      * rewrite fput_roots by reflexivity. assumption.
      * intros x. cbn [map fst]. rewrite <- K. cbn. intuition congruence.
      * do 2 eexists. split; [reflexivity|]. split; [exact E2|exact L2].
    + destruct (move_apart h ts a b u w H Eu Ew M N) as (h1 & E1 & H1).
      destruct (leftovers _ _ _ _ l (fun x => In x (descendants u) /\ ~ In x (descendants w)) H1 (Permutation_refl _)) as (h2 & E2 & L2).
      * rewrite !fput_roots by reflexivity. assumption.
      * intros x. rewrite flats_ids, <- descendants_present. split; [|tauto]. intros X. split; [assumption|]; intros Y.
        apply (apart_disjoint h ts a b u w H Eu Ew M N x); rewrite ids_desc; now right.
      * exists h1, h2. auto.
Qed.

(** Copy assignment that leaves nodes over. *)
Lemma assign_leaves (h : heap) ts a b u w l : holds h ts -> fsub a ts = Some u -> fsub b ts = Some w -> a <> b ->
  childless w \/ In b (ids u) -> Permutation l (map id_of ts) ->
  exists h1 h2, hassign h a b = Val h1 /\ destroy_all h1 l = Val h2 /\
    forall x, live_in h2 x <-> In x (descendants u) /\ ~ In x (descendants w).
Proof.
  clear MAX. intros H Eu Ew NE C P. pose proof (fsub_id _ _ _ Eu) as Iu.
  unfold hassign. rewrite (read_ok _ _ _ _ H Eu), (read_ok _ _ _ _ H Ew). cbn [bind].
  destruct (in_dec Nat.eq_dec b (ids u)) as [M|M].
  - assert (I : In b (descendants u)) by (rewrite ids_desc, Iu in M; destruct M; [congruence|assumption]).
    destruct (inside h ts a b u w H Eu Ew I) as (k & r & H1 & K & P2 & PD).
    apply (hold_write _ _ _ (mkH (hparent (in_memory w)) (hvalue (in_memory w)) (hchildren (in_memory w)))) in H1.
    destruct (leftovers _ _ (fput a (KN a (parent_of w) (value_of w) (slots_of w)) ts) ((b, in_memory w) :: k) l
      (fun x => In x (descendants u) /\ ~ In x (descendants w)) H1) as (h2 & E2 & L2).
    + rewrite (P2 (KN a (parent_of w) (value_of w) (slots_of w)) eq_refl), flat_eq. etransitivity; [apply perm_swap|]. apply shuffle.
    + rewrite fput_roots by reflexivity. assumption.
    + intros x. cbn [map fst]. rewrite <- K. cbn. intuition congruence.
    + do 2 eexists. split; [reflexivity|]. split; [exact E2|exact L2].
  - destruct C as [C|]; [|contradiction]. apply childless_present in C.
    destruct (focus a ts u (proj1 H) Eu) as (r & P1 & P2). specialize (P2 (KN a (parent_of w) (value_of w) (slots_of w)) eq_refl).
    pose proof H as H1. apply holds_hold in H1. apply (hold_perm _ _ _ P1) in H1.
    assert (Fu : flat u = (a, in_memory u) :: flats (present (slots_of u))).
    { destruct u as [i p v s]. cbn in Iu. subst i. apply flat_eq. }
    rewrite Fu in H1. cbn [app] in H1.
    apply (hold_write _ _ _ (mkH (hparent (in_memory w)) (hvalue (in_memory w)) (hchildren (in_memory w)))) in H1.
    destruct (leftovers _ _ (fput a (KN a (parent_of w) (value_of w) (slots_of w)) ts) (flats (present (slots_of u))) l
      (fun x => In x (descendants u) /\ ~ In x (descendants w)) H1) as (h2 & E2 & L2).
    + rewrite P2, flat_eq, C. cbn [flats flat_map app]. apply perm_skip. apply Permutation_app_comm.
    + rewrite fput_roots by reflexivity. assumption.
    + intros x. rewrite flats_ids, <- descendants_present. rewrite (descendants_present w), C. cbn. tauto.
    + do 2 eexists. split; [reflexivity|]. split; [exact E2|exact L2].
Qed.

(** ** What a successful deletion has deleted *)
Definition kids (m : hnode) : list nat := flat_map opt_list (hchildren m).
Definition killed (h h' : heap) (D : cells) : Prop :=
  NoDup (map fst D) /\ (forall x m, In (x, m) D -> nth_error h x = Some (Some m)) /\
  (forall x, nth_error h' x = if in_dec Nat.eq_dec x (map fst D) then Some None else nth_error h x).
Lemma killed_nil (h : heap) : killed h h [].
Proof. clear MAX. split; [constructor|]. split; [easy|reflexivity]. Qed.
Lemma killed_app (h h1 h2 : heap) D1 D2 : killed h h1 D1 -> killed h1 h2 D2 -> killed h h2 (D1 ++ D2).
Proof.
  clear MAX. intros (N1 & L1 & K1) (N2 & L2 & K2).
  assert (X : forall x m, In (x, m) D2 -> ~ In x (map fst D1) /\ nth_error h x = Some (Some m)).
  { intros x m J. apply L2 in J. rewrite K1 in J. destruct (in_dec Nat.eq_dec x (map fst D1)); [discriminate|auto]. }
  split; [|split].
  - rewrite map_app. apply NoDup_app_iff. split; [assumption|]. split; [assumption|].
    intros x J1 J2. apply in_map_iff in J2. destruct J2 as ((y & m) & <- & J2). now apply (X _ _ J2).
  - intros x m J. apply in_app_or in J. destruct J as [J|J]; [auto|now apply X].
  - intros x. rewrite K2, K1, map_app.
    destruct (in_dec Nat.eq_dec x (map fst D2)) as [J2|J2], (in_dec Nat.eq_dec x (map fst D1)) as [J1|J1],
      (in_dec Nat.eq_dec x (map fst D1 ++ map fst D2)) as [J|J]; try reflexivity; exfalso; rewrite in_app_iff in J; tauto.
Qed.
Lemma killed_one (h : heap) a m : nth_error h a = Some (Some m) -> killed h (set_nth h a None) [(a, m)].
Proof.
  clear MAX. intros E. split; [repeat constructor; auto|]. split; [intros x m' [[= <- <-]|[]]; assumption|].
  intros x. cbn [map fst]. destruct (in_dec Nat.eq_dec x [a]) as [J|J].
  - destruct J as [<-|[]]. apply nth_error_set_nth_eq. apply nth_error_Some. congruence.
  - apply nth_error_set_nth_neq. cbn in J. intuition.
Qed.
Lemma release_inv (fuel : nat) : forall (h : heap) a h', release fuel h a = Val h' ->
  exists D, killed h h' D /\ Permutation (map fst D) (a :: flat_map (fun e => kids (snd e)) D).
Proof.
  clear MAX. induction fuel as [|fuel IH]; intros h a h' E; [discriminate|]. cbn [release] in E. unfold read in E.
  destruct (nth_error h a) as [[n|]|] eqn:R; [|discriminate|discriminate]. cbn [bind] in E.
  assert (X : forall cs (h h' : heap),
    (fix each cs (h : heap) : outcome heap := match cs with [] => Val h | None :: cs => each cs h
       | Some c :: cs => let* h := release fuel h c in each cs h end) cs h = Val h' ->
    exists D, killed h h' D /\ Permutation (map fst D) (flat_map opt_list cs ++ flat_map (fun e => kids (snd e)) D)).
  { clear - IH. induction cs as [|[c|] cs IHc]; intros h h' E.
    - injection E as <-. exists []. split; [apply killed_nil|constructor].
    - destruct (release fuel h c) as [h1| | |] eqn:E1; try discriminate. cbn [bind] in E.
      destruct (IH _ _ _ E1) as (D1 & K1 & P1). destruct (IHc _ _ E) as (D2 & K2 & P2). exists (D1 ++ D2).
      split; [eapply killed_app; eauto|]. rewrite map_app, flat_map_app, P1, P2. cbn. apply perm_skip.
      rewrite !app_assoc. apply Permutation_app_tail. apply Permutation_app_comm.
    - exact (IHc _ _ E). }
  destruct (X _ _ _ E) as (D & K & P). exists ((a, n) :: D).
  split; [exact (killed_app _ _ _ [(a, n)] D (killed_one _ _ _ R) K)|]. cbn. apply perm_skip. exact P.
Qed.
Lemma destroy_all_inv (l : list nat) : forall (h h' : heap), destroy_all h l = Val h' ->
  exists D, killed h h' D /\ Permutation (map fst D) (l ++ flat_map (fun e => kids (snd e)) D).
Proof.
  clear MAX. induction l as [|a l IH]; intros h h' E.
  - injection E as <-. exists []. split; [apply killed_nil|constructor].
  - cbn [destroy_all] in E. unfold hdelete in E. destruct (release (release_fuel h) h a) as [h1| | |] eqn:E1; try discriminate. cbn [bind] in E.
    destruct (release_inv _ _ _ _ E1) as (D1 & K1 & P1). destruct (IH _ _ E) as (D2 & K2 & P2). exists (D1 ++ D2).
    split; [eapply killed_app; eauto|]. rewrite map_app, flat_map_app, P1, P2. cbn. apply perm_skip.
    rewrite !app_assoc. apply Permutation_app_tail. apply Permutation_app_comm.
Qed.

(** The fuel is enough for any heap. *)
Definition alive (h : heap) : nat := length (filter (fun o : option hnode => match o with Some _ => true | None => false end) h).
Lemma alive_length (h : heap) : alive h <= length h.
Proof. clear MAX. unfold alive. induction h as [|[n|] h IH]; cbn; lia. Qed.
Lemma alive_set (h : heap) : forall a n, nth_error h a = Some (Some n) -> alive h = S (alive (set_nth h a None)).
Proof.
  clear MAX. unfold alive. induction h as [|o h IH]; intros [|a] n E; try discriminate; cbn in E |- *.
  - injection E as ->. reflexivity.
  - specialize (IH _ _ E). destruct o; cbn in *; lia.
Qed.
Definition ends (r : outcome heap) (k : nat) : Prop := match r with Val h' => alive h' <= k | UB => True | _ => False end.
Lemma release_ends (fuel : nat) : forall (h : heap) a, alive h < fuel -> ends (release fuel h a) (alive h).
Proof.
  clear MAX. induction fuel as [|fuel IH]; intros h a L; [lia|]. cbn [release]. unfold read.
  destruct (nth_error h a) as [[n|]|] eqn:R; [|exact Logic.I|exact Logic.I]. cbn [bind]. apply alive_set in R.
  assert (X : forall cs (g : heap), alive g < fuel -> ends
    ((fix each cs (h : heap) : outcome heap := match cs with [] => Val h | None :: cs => each cs h
       | Some c :: cs => let* h := release fuel h c in each cs h end) cs g) (alive g)).
  { clear - IH. induction cs as [|[c|] cs IHc]; intros g L.
    - cbn. lia.
    - specialize (IH g c L). destruct (release fuel g c) as [g1| | |]; try exact IH. cbn [bind]. cbn in IH.
      assert (L1 : alive g1 < fuel) by lia. specialize (IHc g1 L1).
      match goal with |- ends ?r _ => destruct r; try exact IHc; cbn in *; lia end.
    - exact (IHc g L). }
  assert (L1 : alive (set_nth h a None) < fuel) by lia. specialize (X (hchildren n) _ L1).
  match goal with |- ends ?r _ => destruct r; try exact X; cbn in *; lia end.
Qed.
Lemma destroy_all_ends (l : list nat) : forall (h : heap), ends (destroy_all h l) (alive h).
Proof.
  clear MAX. induction l as [|a l IH]; intros h; [cbn; lia|]. cbn [destroy_all]. unfold hdelete.
  assert (L : alive h < release_fuel h) by (pose proof (alive_length h); unfold release_fuel; lia).
  pose proof (release_ends _ h a L) as X. destruct (release (release_fuel h) h a) as [h1| | |]; try exact X. cbn [bind]. cbn in X.
  specialize (IH h1). destruct (destroy_all h1 l); try exact IH. cbn in *. lia.
Qed.

(** Everything that can be reached from a deleted node has been deleted. *)
Lemma reached (D : cells) L : Permutation (map fst D) (L ++ flat_map (fun e => kids (snd e)) D) ->
  forall n : knode, In (id_of n) (map fst D) ->
  (forall m x, In m (below n) -> In x (map id_of (present (slots_of m))) -> forall y, In (id_of m, y) D -> In x (kids y)) ->
  forall x, In x (ids n) -> In x (map fst D).
Proof.
  clear MAX. intros P n. induction n as [i p v s IH] using node_ind. intros I F x J. rewrite ids_eq in J. cbn [id_of] in I.
  destruct J as [<-|J]; [assumption|]. unfold fids in J. apply in_flat_map in J. destruct J as (c & Jc & J).
  rewrite Forall_forall in IH. specialize (IH c Jc). apply IH; [| |assumption].
  - apply in_map_iff in I. destruct I as ((y & m) & E & I). cbn in E. subst y.
    apply (Permutation_in (l := L ++ flat_map (fun e => kids (snd e)) D)); [now symmetry|]. apply in_or_app. right.
    apply in_flat_map. exists (i, m). split; [assumption|]. cbn [snd].
    apply (F (KN i p v s)); [now left|now apply in_map|assumption].
  - intros m y Jm. apply F. cbn [below]. right. apply in_flat_map. clear - Jc Jm. exists (Some c). split; [|assumption].
    unfold present in Jc. apply in_flat_map in Jc. destruct Jc as ([d|] & X & Y); cbn in Y; [|easy]. destruct Y as [->|[]]. assumption.
Qed.

Lemma kids_ptrs p v (s : list (option knode)) : kids (mkH p v (ptrs s)) = map id_of (present s).
Proof. clear MAX. unfold kids, present. cbn [hchildren]. induction s as [|[c|] s IH]; cbn; [reflexivity|now rewrite <- IH|assumption]. Qed.
Lemma kids_mem (m : knode) : kids (in_memory m) = map id_of (present (slots_of m)).
Proof. clear MAX. destruct m as [i p v s]. exact (kids_ptrs p v s). Qed.
Lemma nodup_twice (D : cells) x y m n c : In (x, m) D -> In (y, n) D -> x <> y -> In c (kids m) -> In c (kids n) ->
  ~ NoDup (flat_map (fun e => kids (snd e)) D).
Proof.
  clear MAX. intros I J NE Im In_. apply in_split in I. destruct I as (D1 & D2 & ->).
  assert (J' : In (y, n) (D1 ++ D2)) by (apply in_app_or in J; apply in_or_app; destruct J as [|[[= ->]|]]; auto; congruence).
  assert (P : Permutation (D1 ++ (x, m) :: D2) ((x, m) :: D1 ++ D2)) by (symmetry; apply Permutation_middle).
  intros N. apply (Permutation_NoDup (Permutation_flat_map (fun e => kids (snd e)) P)) in N. cbn in N. apply KaryIterProofs.nodup_app in N.
  destruct N as (_ & _ & N). apply (N c Im). apply in_flat_map. exists (y, n). auto.
Qed.
(** Copy assignment that leads to a second deletion. *)
Lemma assign_twice (h : heap) ts a b u w l : holds h ts -> fsub a ts = Some u -> fsub b ts = Some w ->
  ~ In b (ids u) -> ~ childless w -> Permutation l (map id_of ts) ->
  exists h1, hassign h a b = Val h1 /\ destroy_all h1 l = UB.
Proof.
  clear MAX. intros H Eu Ew M C P. pose proof (fsub_id _ _ _ Eu) as Iu. pose proof (fsub_id _ _ _ Ew) as Iw.
  assert (NE : a <> b) by (intros ->; apply M; rewrite <- Iu; apply in_id).
  unfold hassign. rewrite (read_ok _ _ _ _ H Eu), (read_ok _ _ _ _ H Ew). cbn [bind]. eexists. split; [reflexivity|].
  match goal with |- destroy_all ?g _ = _ => set (h1 := g) end.
  destruct (destroy_all h1 l) as [h2| | |] eqn:E; try (pose proof (destroy_all_ends l h1) as X; rewrite E in X; easy). exfalso.
  destruct (destroy_all_inv _ _ _ E) as (D & (N & L & _) & Q).
  assert (NK : NoDup (flat_map (fun e => kids (snd e)) D)).
  { apply (Permutation_NoDup Q) in N. apply KaryIterProofs.nodup_app in N. apply N. }
  destruct (focus a ts u (proj1 H) Eu) as (r & P1 & P2). specialize (P2 (KN a None (value_of u) []) eq_refl).
  set (ts0 := fput a (KN a None (value_of u) []) ts) in *.
  assert (Fu : flat u = (a, in_memory u) :: flats (present (slots_of u))).
  { destruct u as [i p v s]. cbn in Iu. subst i. apply flat_eq. }
  pose proof H as H1. apply holds_hold in H1. apply (hold_perm _ _ _ P1) in H1. rewrite Fu in H1. cbn [app] in H1.
  apply (hold_write _ _ _ (mkH (hparent (in_memory w)) (hvalue (in_memory w)) (hchildren (in_memory w)))) in H1. fold h1 in H1.
  rewrite flat_eq in P2. cbn [present flats flat_map app map] in P2.
  assert (All : forall x, In x (fids ts0) -> In x (map fst D)).
  { intros x I. unfold fids in I. apply in_flat_map in I. destruct I as (n & In_ & I).
    apply (reached D l Q n); [| |assumption].
    - eapply Permutation_in; [symmetry; exact Q|]. apply in_or_app. left. eapply Permutation_in; [symmetry; exact P|].
      rewrite <- (fput_roots a (KN a None (value_of u) []) ts eq_refl). now apply in_map.
    - intros m c Im Ic y Iy. apply L in Iy.
      assert (J : In (at_home m) (flats ts0)) by (rewrite flats_nodes; apply in_map; unfold nodes; apply in_flat_map; eauto).
      apply (Permutation_in _ P2) in J. unfold at_home in J. destruct J as [J|J].
      + destruct m as [i p v s]. injection J as <- <- <- J. cbn [slots_of] in Ic. destruct s; [easy|discriminate].
      + assert (X : nth_error h1 (id_of m) = Some (Some (in_memory m))).
        { apply (hold_in _ _ _ _ H1). right. apply in_or_app. now right. }
        rewrite X in Iy. injection Iy as <-. now rewrite kids_mem. }
  assert (Ia : In a (map fst D)).
  { apply All. rewrite <- flats_ids. eapply Permutation_in; [symmetry; apply Permutation_map; exact P2|]. now left. }
  assert (Jb : In (b, in_memory w) r).
  { assert (J : In (b, in_memory w) (flats ts)).
    { apply (proj2 (proj1 (holds_hold h ts) H)). unfold read in *. pose proof (read_ok _ _ _ _ H Ew) as X. unfold read in X.
      destruct (nth_error h b) as [[n|]|]; [|discriminate|discriminate]. congruence. }
    apply (Permutation_in _ P1) in J. apply in_app_or in J. destruct J as [J|J]; [|assumption].
    destruct M. rewrite <- flat_ids. apply in_map_iff. exists (b, in_memory w). auto. }
  assert (Ib : In b (map fst D)).
  { apply All. rewrite <- flats_ids. eapply Permutation_in; [symmetry; apply Permutation_map; exact P2|]. right.
    apply in_map_iff. exists (b, in_memory w). auto. }
  assert (Xc : exists c, In c (kids (in_memory w))).
  { rewrite kids_mem. destruct w as [i p v s]. cbn [slots_of].
    destruct (present s) as [|c k] eqn:S1; [|exists (id_of c); now left]. destruct C. unfold childless. cbn [slots_of].
    apply Forall_forall. intros [c|] J; [|reflexivity]. apply in_present in J. rewrite S1 in J. easy. }
  destruct Xc as (c & Xc).
  apply in_map_iff in Ia. destruct Ia as ((a' & ma) & Ea & Ia). cbn in Ea. subst a'.
  apply in_map_iff in Ib. destruct Ib as ((b' & mb) & Eb & Ib). cbn in Eb. subst b'.
  pose proof (L _ _ Ia) as La. pose proof (L _ _ Ib) as Lb.
  rewrite (hold_in _ _ a _ H1 (or_introl eq_refl)) in La. injection La as <-.
  rewrite (hold_in _ _ b (in_memory w) H1) in Lb by (right; apply in_or_app; now right). injection Lb as <-.
  exact (nodup_twice D a b _ _ c Ia Ib NE Xc Xc NK).
Qed.

(** ** Parents *)
Lemma fput_linked a (m : knode) ts u : NoDup (fids ts) -> Forall (linked None) ts -> fsub a ts = Some u -> linked (parent_of u) m -> id_of m = a ->
  Forall (linked None) (fput a m ts).
Proof.
  clear MAX. intros D L E Lm Im. apply Forall_forall. intros y I. unfold fput in I. apply in_map_iff in I. destruct I as (t & <- & I).
  pose proof (proj1 (Forall_forall _ _) L t I) as Lt. destruct (in_dec Nat.eq_dec a (ids t)) as [J|J]; [|now rewrite put_notin].
  apply (linked_put None a m t u); auto; [exact (nodup_elem _ _ I D)|]. now rewrite <- (fsub_of _ t a D I J).
Qed.
Lemma fsub_linked a ts (u : knode) : Forall (linked None) ts -> fsub a ts = Some u -> linked (parent_of u) u.
Proof.
  clear MAX. intros L E. destruct (fsub_some _ _ _ E) as (t & It & Jt). exact (linked_sub None a t u (proj1 (Forall_forall _ _) L t It) Jt).
Qed.
Lemma root_parent a ts (u : knode) : NoDup (fids ts) -> Forall (linked None) ts -> fsub a ts = Some u -> is_root a ts -> parent_of u = None.
Proof.
  clear MAX. intros D L E R. unfold is_root in R. apply in_map_iff in R. destruct R as (t & It & R).
  assert (X : fsub a ts = Some t).
  { rewrite (fsub_of _ t a D R) by (rewrite <- It; apply in_id). destruct t as [i p v s]. cbn in It. subst i. rewrite sub_eq, Nat.eqb_refl. reflexivity. }
  rewrite X in E. injection E as <-. apply (linked_parent None). exact (proj1 (Forall_forall _ _) L t R).
Qed.
Lemma set_linked q (u : knode) v : linked q u -> linked q (set_value u v).
Proof. clear MAX. destruct u. cbn. exact (fun H => H). Qed.
Lemma childless_linked i q v (s : list (option knode)) : present s = [] -> linked q (KN i q v s).
Proof. clear MAX. intros E. apply linked_eq'. rewrite E. auto. Qed.
Lemma set_ids (u : knode) v : ids (set_value u v) = ids u.
Proof. clear MAX. destruct u. reflexivity. Qed.
Lemma after_linked ts o r ts' : NoDup (fids ts) -> legal max_node_size ts o -> keeps_parents ts o ->
  step_after ts o r ts' -> Forall (linked None) ts -> Forall (linked None) ts'.
Proof.
  intros D G K A L. destruct o; cbn [legal keeps_parents KaryHeapSpec.after] in *.
  - destruct A as (x & _ & _ & ->). apply Forall_app. split; [assumption|]. repeat constructor.
  - destruct A as (_ & ->). apply Forall_forall. intros n I. apply filter_In in I. exact (proj1 (Forall_forall _ _) L n (proj1 I)).
  - destruct A as (u & x & u' & ans & hd & gone & x' & E & _ & C & _ & ->). destruct G as (_ & G).
    destruct (do_call_ok max_node_size MAX x c u G) as (n1 & a1 & h1 & f1 & i1 & E1 & F). rewrite E1 in C. injection C as -> -> -> -> ->.
    pose proof (fsub_linked _ _ _ L E) as Lu. destruct (e_linked _ _ _ _ _ _ _ F _ Lu) as (L1 & L2). apply Forall_app. split.
    + apply (fput_linked a u' ts u); auto. rewrite (e_id _ _ _ _ _ _ _ F). exact (fsub_id _ _ _ E).
    + destruct hd; repeat constructor. exact L2.
  - destruct A as (u & w & u' & Eu & Ew & Eu' & _ & ->). clear MAX.
    assert (L1 : Forall (linked None) (fput b (set_value w (value_of u)) ts)).
    { apply (fput_linked b _ ts w); auto; [apply set_linked; exact (fsub_linked _ _ _ L Ew)|]. destruct w. exact (fsub_id _ _ _ Ew). }
    apply (fput_linked a _ _ u'); auto.
    + apply (fput_nodup b ts w); auto; [now rewrite set_ids|destruct w; exact (fsub_id _ _ _ Ew)].
    + apply set_linked. exact (fsub_linked _ _ _ L1 Eu').
    + destruct u'. exact (fsub_id _ _ _ Eu').
  - clear MAX. destruct A as (w & Ew & _ & ->). destruct (Nat.eqb_spec a b) as [|NE]; [assumption|].
    destruct K as [|K]; [contradiction|]. destruct (K w Ew) as (C & Pw & R). destruct G as (u & w' & Eu & Ew' & _).
    apply (fput_linked a _ ts u); auto. rewrite (root_parent a ts u D L Eu R), Pw. apply childless_linked. now apply childless_present.
  - clear MAX. destruct A as (w & Ew & _ & ->). destruct (K w Ew) as (C & Pw & R). destruct G as (u & w' & Eu & Ew' & Cu & N).
    rewrite Ew in Ew'. injection Ew' as <-. rewrite Pw. pose proof (childless_present w C) as Cw.
    assert (Iw : ids w = [b]) by (pose proof (fsub_id _ _ _ Ew) as I; destruct w as [i p v s]; cbn [id_of slots_of] in I, Cw; subst i; rewrite ids_eq, Cw; reflexivity).
    assert (NE : b <> a) by (rewrite Iw in N; cbn in N; tauto).
    set (w1 := KN b None (moved_from (value_of w)) []).
    assert (L1 : Forall (linked None) (fput b w1 ts)).
    { apply (fput_linked b _ ts w); auto. rewrite Pw. apply childless_linked. reflexivity. }
    assert (D1 : NoDup (fids (fput b w1 ts))) by (apply (fput_nodup b ts w); auto).
    assert (Eu1 : fsub a (fput b w1 ts) = Some (put b w1 u)).
    { rewrite (fsub_put_other b w1 a ts D); [now rewrite Eu|reflexivity|cbn; intuition congruence|].
      intros u0 X. rewrite Ew in X. injection X as <-. assumption. }
    apply (fput_linked a _ _ (put b w1 u)); auto. rewrite (root_parent a _ _ D1 L1 Eu1); [apply childless_linked; assumption|].
    unfold is_root. rewrite fput_roots by reflexivity. assumption.
  - destruct A as (u & _ & _ & ->). assumption.
  - destruct A as (u & _ & _ & ->). assumption.
  - destruct A as (u & _ & _ & ->). assumption.
  - destruct A as (u & _ & _ & ->). assumption.
  - destruct A as (u & _ & _ & ->). assumption.
  - destruct A as (u & _ & _ & ->). assumption.
  - destruct A as (u & _ & -> & _). assumption.
  - destruct A as (u & _ & -> & _). assumption.
  - destruct A as (u & _ & -> & _). assumption.
Qed.
Lemma careful_run (p : prog V) : forall (h : heap) ts, holds h ts -> Forall (linked None) ts -> careful max_node_size veq moved_from ts p ->
  exists h' rs ts', hrun max_node_size veq moved_from h p = Val (h', rs) /\ holds h' ts' /\ play max_node_size veq moved_from ts rs ts' /\ Forall (linked None) ts'.
Proof.
  induction p as [|o k IH]; intros h ts H L F.
  - exists h, [], ts. split; [reflexivity|]. split; [assumption|]. split; [constructor|assumption].
  - destruct F as (F1 & F2 & F3). destruct (step_ok h ts o H F1) as (h1 & r & ts1 & E & A & H1).
    destruct (IH r h1 ts1 H1 (after_linked _ _ _ _ (proj1 H) F1 F2 A L) (F3 r ts1 A)) as (h2 & rs & ts2 & E2 & H2 & P & L2).
    exists h2, ((o, r) :: rs), ts2. cbn [hrun]. rewrite E. cbn [bind]. rewrite E2. cbn [bind].
    split; [reflexivity|]. split; [assumption|]. split; [econstructor; eauto|assumption].
Qed.
(** What [linked] means for parent(). *)
Lemma linked_in_tree q (n : knode) : linked q n -> forall m, In m (below n) ->
  m = n \/ exists w, In w (below n) /\ In (Some m) (slots_of w) /\ parent_of m = Some (id_of w).
Proof.
  clear MAX. revert q. induction n as [i p v s IH] using node_ind. intros q L m I. rewrite below_eq in I. destruct I as [<-|I]; [now left|]. right.
  apply linked_eq' in L. destruct L as (_ & L). unfold nodes in I. apply in_flat_map in I. destruct I as (c & Ic & I).
  rewrite Forall_forall in IH, L. destruct (IH c Ic (Some i) (L c Ic) m I) as [->|(w & W1 & W2 & W3)].
  - exists (KN i p v s). rewrite below_eq. split; [now left|]. split; [now apply in_present|]. cbn [id_of]. apply linked_parent. now apply L.
  - exists w. rewrite below_eq. split; [|auto]. right. unfold nodes. apply in_flat_map. eauto.
Qed.
Lemma parents_right (ts : forest) : Forall (linked None) ts -> forall m, In m (nodes ts) ->
  match parent_of m with
  | None => In m ts
  | Some p => exists w, In w (nodes ts) /\ id_of w = p /\ In (Some m) (slots_of w)
  end.
Proof.
  clear MAX. intros L m I. unfold nodes in I. apply in_flat_map in I. destruct I as (t & It & I).
  pose proof (proj1 (Forall_forall _ _) L t It) as Lt. destruct (linked_in_tree None t Lt m I) as [->|(w & W1 & W2 & W3)].
  - now rewrite (linked_parent _ _ Lt).
  - rewrite W3. exists w. split; [unfold nodes; apply in_flat_map; eauto|auto].
Qed.

Lemma no_leak (h : heap) ts l : holds h ts -> Permutation l (map id_of ts) -> exists h', destroy_all h l = Val h' /\ forall x, ~ live_in h' x.
Proof.
  clear MAX. intros H P. apply holds_hold in H. destruct (leftovers h _ ts [] l (fun _ => False) H) as (h' & E & L).
  - now rewrite app_nil_r.
  - assumption.
  - easy.
  - exists h'. split; [assumption|]. intros x X. now apply L in X.
Qed.
Lemma run_clean (p : prog V) (h : heap) ts : holds h ts -> fair max_node_size veq moved_from ts p ->
  exists h' rs ts', hrun max_node_size veq moved_from h p = Val (h', rs) /\ play max_node_size veq moved_from ts rs ts' /\ holds h' ts' /\
    forall l, Permutation l (map id_of ts') -> exists h2, destroy_all h' l = Val h2 /\ forall x, ~ live_in h2 x.
Proof.
  intros H F. destruct (run_ok p h ts H F) as (h' & rs & ts' & E & H' & P). exists h', rs, ts'. repeat (split; [assumption|]).
  intros l. now apply no_leak.
Qed.
End Step.
End Calls.
End P.
