(** Proofs about the iterators of k-ary nodes. *)
Require Import List NArith Bool Arith Lia.
Require Import Verif.Base Verif.KaryModel Verif.KarySpec Verif.KaryProofs Verif.KaryIterModel Verif.KaryIterSpec.
Import ListNotations.

Section P.
Context {V : Type}.
Notation knode := (knode V).
Notation kst := (kst V).

(** ** Nodes and forests *)
Definition present (s : list (option knode)) : list knode :=
  flat_map (fun c => match c with Some c => [c] | None => [] end) s.
Lemma in_present s c : In c (present s) <-> In (Some c) s.
Proof.
  unfold present. rewrite in_flat_map. split.
  - intros ([d|] & I & J); cbn in J; [destruct J as [->|[]]; assumption|contradiction].
  - intros I. exists (Some c). split; [assumption|now left].
Qed.
Lemma present_app s1 s2 : present (s1 ++ s2) = present s1 ++ present s2.
Proof. apply flat_map_app. Qed.

Lemma node_ind (P : knode -> Prop) :
  (forall i p v s, Forall P (present s) -> P (KN i p v s)) -> forall t, P t.
Proof.
  intros H. apply knode_ind'. intros i p v s F. apply H. apply Forall_forall. intros c I. apply in_present in I.
  exact (proj1 (Forall_forall _ _) F _ I).
Qed.

Lemma ids_eq i p v (s : list (option knode)) : ids (KN i p v s) = i :: fids (present s).
Proof.
  cbn [ids]. f_equal. unfold fids, present. induction s as [|[c|] s IH]; cbn; [reflexivity| |assumption].
  now rewrite IH.
Qed.
Lemma sub_eq a i p v (s : list (option knode)) :
  sub a (KN i p v s) = if Nat.eqb a i then Some (KN i p v s) else fsub a (present s).
Proof.
  cbn [sub]. destruct (Nat.eqb a i); [reflexivity|]. unfold present. induction s as [|[c|] s IH]; cbn; [reflexivity| |assumption].
  now rewrite IH.
Qed.
Lemma put_eq a m i p v (s : list (option knode)) :
  put a m (KN i p v s) = if Nat.eqb a i then m else KN i p v (map (option_map (put a m)) s).
Proof. reflexivity. Qed.
Lemma present_put a m (s : list (option knode)) : present (map (option_map (put a m)) s) = fput a m (present s).
Proof. unfold present, fput. induction s as [|[c|] s IH]; cbn; [reflexivity|now rewrite IH|assumption]. Qed.
Lemma in_id (n : knode) : In (id_of n) (ids n).
Proof. destruct n. now left. Qed.
Lemma fids_app (a b : list knode) : fids (a ++ b) = fids a ++ fids b.
Proof. apply flat_map_app. Qed.
Lemma fids_cons (a : knode) b : fids (a :: b) = ids a ++ fids b.
Proof. reflexivity. Qed.
Lemma in_fids x (F : list knode) : In x (fids F) <-> exists n, In n F /\ In x (ids n).
Proof. apply in_flat_map. Qed.

(** Properties of nodes that hold for forests. *)
Lemma fsub_some a (F : list knode) m : fsub a F = Some m -> exists n, In n F /\ sub a n = Some m.
Proof.
  induction F as [|n F IH]; cbn; [discriminate|]. destruct (sub a n) eqn:E.
  - intros [= <-]. exists n. split; [now left|assumption].
  - intros H. destruct (IH H) as (k & I & J). exists k. split; [now right|assumption].
Qed.
Lemma fsub_none a (F : list knode) : fsub a F = None <-> forall n, In n F -> sub a n = None.
Proof.
  induction F as [|n F IH]; cbn; [easy|]. destruct (sub a n) eqn:E.
  - split; [discriminate|]. intros H. rewrite (H n (or_introl eq_refl)) in E. discriminate.
  - rewrite IH. split; intros H; [intros k [<-|I]; auto|intros k I; auto].
Qed.

Lemma sub_id a (n m : knode) : sub a n = Some m -> id_of m = a.
Proof.
  revert m. induction n as [i p v s IH] using node_ind. intros m. rewrite sub_eq.
  destruct (Nat.eqb_spec a i) as [->|N]; [now intros [= <-]|].
  intros H. destruct (fsub_some _ _ _ H) as (c & I & J). exact (proj1 (Forall_forall _ _) IH c I m J).
Qed.
Lemma fsub_id a (F : list knode) m : fsub a F = Some m -> id_of m = a.
Proof. intros H. destruct (fsub_some _ _ _ H) as (c & _ & J). exact (sub_id _ _ _ J). Qed.

Lemma sub_none a (n : knode) : sub a n = None <-> ~ In a (ids n).
Proof.
  induction n as [i p v s IH] using node_ind. rewrite sub_eq, ids_eq.
  destruct (Nat.eqb_spec a i) as [->|N].
  - split; [discriminate|]. intros H. exfalso. apply H. now left.
  - rewrite fsub_none. split.
    + intros H [E|I]; [now apply N|]. apply in_fids in I. destruct I as (c & I & J).
      exact (proj1 (proj1 (Forall_forall _ _) IH c I) (H c I) J).
    + intros H c I. apply (proj1 (Forall_forall _ _) IH c I). intros J. apply H. right. apply in_fids. eauto.
Qed.
Lemma fsub_none' a (F : list knode) : fsub a F = None <-> ~ In a (fids F).
Proof.
  rewrite fsub_none, in_fids. split.
  - intros H (n & I & J). exact (proj1 (sub_none a n) (H n I) J).
  - intros H n I. apply sub_none. intros J. apply H. eauto.
Qed.
Lemma sub_in a (n m : knode) : sub a n = Some m -> In a (ids n).
Proof. intros H. destruct (in_dec Nat.eq_dec a (ids n)) as [I|I]; [assumption|]. apply sub_none in I. congruence. Qed.
Lemma fsub_in a (F : list knode) m : fsub a F = Some m -> In a (fids F).
Proof. intros H. destruct (in_dec Nat.eq_dec a (fids F)) as [I|I]; [assumption|]. apply fsub_none' in I. congruence. Qed.
Lemma in_fsub a (F : list knode) : In a (fids F) -> exists m, fsub a F = Some m.
Proof. intros H. destruct (fsub a F) eqn:E; [eauto|]. apply fsub_none' in E. contradiction. Qed.
Lemma in_sub a (n : knode) : In a (ids n) -> exists m, sub a n = Some m.
Proof. intros H. destruct (sub a n) eqn:E; [eauto|]. apply sub_none in E. contradiction. Qed.

Lemma sub_incl a (n m : knode) : sub a n = Some m -> incl (ids m) (ids n).
Proof.
  revert m. induction n as [i p v s IH] using node_ind. intros m. rewrite sub_eq, ids_eq.
  destruct (Nat.eqb_spec a i) as [->|N]; [intros [= <-]; rewrite ids_eq; apply incl_refl|].
  intros H x J. destruct (fsub_some _ _ _ H) as (c & I & K). right. apply in_fids. exists c. split; [assumption|].
  exact (proj1 (Forall_forall _ _) IH c I m K x J).
Qed.
Lemma fsub_incl a (F : list knode) m : fsub a F = Some m -> incl (ids m) (fids F).
Proof.
  intros H x J. destruct (fsub_some _ _ _ H) as (c & I & K). apply in_fids. exists c. split; [assumption|].
  exact (sub_incl _ _ _ K x J).
Qed.

Lemma put_notin a m (n : knode) : ~ In a (ids n) -> put a m n = n.
Proof.
  induction n as [i p v s IH] using node_ind. rewrite ids_eq, put_eq. intros H.
  destruct (Nat.eqb_spec a i) as [->|N]; [exfalso; apply H; now left|]. f_equal.
  rewrite <- (map_id s) at 2. apply map_ext_in. intros [c|] I; [|reflexivity]. cbn. f_equal. apply in_present in I.
  apply (proj1 (Forall_forall _ _) IH c I). intros J. apply H. right. apply in_fids. eauto.
Qed.
Lemma fput_notin a m (F : list knode) : ~ In a (fids F) -> fput a m F = F.
Proof.
  intros H. unfold fput. rewrite <- (map_id F) at 2. apply map_ext_in. intros n I. apply put_notin. intros J.
  apply H. apply in_fids. eauto.
Qed.
Lemma fput_app a m (F G : list knode) : fput a m (F ++ G) = fput a m F ++ fput a m G.
Proof. apply map_app. Qed.

Lemma nodup_app {A} (l m : list A) : NoDup (l ++ m) -> NoDup l /\ NoDup m /\ forall x, In x l -> ~ In x m.
Proof. apply NoDup_app_iff. Qed.
Lemma nodup_elem (F : list knode) n : In n F -> NoDup (fids F) -> NoDup (ids n).
Proof.
  induction F as [|k F IH]; [easy|]. rewrite fids_cons. intros [->|I] D; apply nodup_app in D; [apply D|now apply IH].
Qed.
(** A node of a forest without double addresses is in one tree only. *)
Lemma fsub_of (F : list knode) n a : NoDup (fids F) -> In n F -> In a (ids n) -> fsub a F = sub a n.
Proof.
  induction F as [|k F IH]; [easy|]. rewrite fids_cons. intros D [->|I] J; cbn.
  - destruct (in_sub a n J) as (m & ->). reflexivity.
  - apply nodup_app in D. destruct D as (D1 & D2 & D3). destruct (sub a k) eqn:E; [|now apply IH].
    exfalso. apply (D3 a); [now apply sub_in in E|]. apply in_fids. eauto.
Qed.
Lemma sub_sub x a (n m : knode) : NoDup (ids n) -> sub a n = Some m -> In x (ids m) -> sub x n = sub x m.
Proof.
  revert m. induction n as [i p v s IH] using node_ind. intros m D. rewrite !sub_eq. rewrite ids_eq in D.
  destruct (Nat.eqb_spec a i) as [->|N]; [intros [= <-]; now rewrite sub_eq|].
  intros H J. destruct (fsub_some _ _ _ H) as (c & I & K). apply NoDup_cons_iff in D. destruct D as [D1 D2].
  assert (Jc : In x (ids c)) by exact (sub_incl _ _ _ K x J).
  destruct (Nat.eqb_spec x i) as [->|M].
  { exfalso. apply D1. apply in_fids. eauto. }
  rewrite (fsub_of _ c x D2 I Jc). apply (proj1 (Forall_forall _ _) IH c I); auto. exact (nodup_elem _ _ I D2).
Qed.
Lemma fsub_sub x a (F : list knode) m : NoDup (fids F) -> fsub a F = Some m -> In x (ids m) -> fsub x F = sub x m.
Proof.
  intros D H J. destruct (fsub_some _ _ _ H) as (c & I & K).
  rewrite (fsub_of _ c x D I (sub_incl _ _ _ K x J)). apply (sub_sub x a); auto. exact (nodup_elem _ _ I D).
Qed.
Lemma sub_self (n : knode) : sub (id_of n) n = Some n.
Proof. destruct n. rewrite sub_eq. cbn. now rewrite Nat.eqb_refl. Qed.
Lemma fsub_nodup a (F : list knode) m : NoDup (fids F) -> fsub a F = Some m -> NoDup (ids m).
Proof.
  assert (B : forall n : knode, NoDup (ids n) -> forall m, sub a n = Some m -> NoDup (ids m)).
  { induction n as [i p v s IH] using node_ind. intros D k. rewrite sub_eq. destruct (Nat.eqb a i); [now intros [= <-]|].
    rewrite ids_eq in D. apply NoDup_cons_iff in D. destruct D as [D1 D2]. intros E. destruct (fsub_some _ _ _ E) as (c & I & K).
    exact (proj1 (Forall_forall _ _) IH c I (nodup_elem _ _ I D2) k K). }
  intros D H. destruct (fsub_some _ _ _ H) as (c & I & K). exact (B c (nodup_elem _ _ I D) m K).
Qed.

(** Addresses after a replacement. *)
Notation cnt := (KaryProofs.cnt).
Lemma cnt_cons1 x y l : cnt x (y :: l) = cnt x [y] + cnt x l.
Proof. apply cnt_cons. Qed.
Lemma cnt_notin x l : ~ In x l <-> cnt x l = 0.
Proof. apply count_occ_not_In. Qed.
Lemma cnt_in x l : In x l <-> cnt x l > 0.
Proof. apply count_occ_In. Qed.
Lemma nodup_cnt l : NoDup l <-> forall x, cnt x l <= 1.
Proof. apply NoDup_count_occ. Qed.

Lemma cnt_put a m (n u : knode) x : NoDup (ids n) -> sub a n = Some u ->
  cnt x (ids (put a m n)) + cnt x (ids u) = cnt x (ids n) + cnt x (ids m).
Proof.
  revert u. induction n as [i p v s IH] using node_ind. intros u D. rewrite sub_eq, put_eq.
  destruct (Nat.eqb_spec a i) as [->|N].
  - intros [= <-]. lia.
  - rewrite !ids_eq in *. rewrite present_put, (cnt_cons1 x i (fids _)), (cnt_cons1 x i (fids (present s))).
    apply NoDup_cons_iff in D. destruct D as [D1 D2]. clear D1. intros H.
    enough (cnt x (fids (fput a m (present s))) + cnt x (ids u) = cnt x (fids (present s)) + cnt x (ids m)) by lia.
    induction (present s) as [|c F IHF]; [discriminate|]. cbn [fsub] in H. cbn [fput map]. rewrite !fids_cons, !cnt_app.
    fold (fput a m F). inversion IH as [|? ? H1 H2]. subst. rewrite fids_cons in D2. apply nodup_app in D2. destruct D2 as (D2 & D3 & D4).
    destruct (sub a c) as [k|] eqn:E.
    + injection H as ->. specialize (H1 u D2 eq_refl). rewrite fput_notin; [lia|].
      intros J. apply (D4 a); [now apply sub_in in E|assumption].
    + apply sub_none in E. rewrite put_notin by assumption. specialize (IHF H2 D3 H). lia.
Qed.
Lemma cnt_fput a m (F : list knode) u x : NoDup (fids F) -> fsub a F = Some u ->
  cnt x (fids (fput a m F)) + cnt x (ids u) = cnt x (fids F) + cnt x (ids m).
Proof.
  induction F as [|c F IHF]; [discriminate|]. cbn [fsub fput map]. rewrite !fids_cons, !cnt_app. fold (fput a m F).
  intros D H. apply nodup_app in D. destruct D as (D1 & D2 & D3). destruct (sub a c) as [k|] eqn:E.
  - injection H as ->. pose proof (cnt_put a m c u x D1 E). rewrite fput_notin; [lia|].
    intros J. apply (D3 a); [now apply sub_in in E|assumption].
  - apply sub_none in E. rewrite put_notin by assumption. specialize (IHF D2 H). lia.
Qed.

(** Finding a node after a replacement. *)
Lemma fsub_fput a m x (F : list knode) : (forall c, In c F -> sub x (put a m c) = option_map (put a m) (sub x c)) ->
  fsub x (fput a m F) = option_map (put a m) (fsub x F).
Proof.
  induction F as [|c F IH]; [reflexivity|]. intros H. cbn [fsub fput map]. fold (fput a m F).
  rewrite (H c (or_introl eq_refl)). destruct (sub x c); [reflexivity|]. apply IH. intros d I. apply H. now right.
Qed.
Lemma sub_put_other a m x (n : knode) : NoDup (ids n) -> id_of m = a -> ~ In x (ids m) ->
  (forall u, sub a n = Some u -> ~ In x (ids u)) ->
  sub x (put a m n) = option_map (put a m) (sub x n).
Proof.
  intros D Em Nx. revert D. induction n as [i p v s IH] using node_ind. intros D Nu. rewrite sub_eq, put_eq.
  rewrite ids_eq in D. apply NoDup_cons_iff in D. destruct D as [D1 D2].
  destruct (Nat.eqb_spec a i) as [->|N].
  - assert (Ex : x <> i) by (intros ->; apply Nx; rewrite <- Em; apply in_id).
    rewrite (proj2 (sub_none x m) Nx). destruct (Nat.eqb_spec x i); [easy|].
    assert (E : fsub x (present s) = None).
    { apply fsub_none'. intros J. apply (Nu (KN i p v s)); [rewrite sub_eq, Nat.eqb_refl; reflexivity|].
      rewrite ids_eq. now right. }
    now rewrite E.
  - rewrite sub_eq. destruct (Nat.eqb_spec x i) as [->|M].
    + cbn [option_map]. rewrite put_eq. destruct (Nat.eqb_spec a i); [easy|reflexivity].
    + rewrite present_put. apply fsub_fput. intros c I. apply (proj1 (Forall_forall _ _) IH c I).
      { exact (nodup_elem _ _ I D2). }
      intros u E. apply Nu. rewrite sub_eq. destruct (Nat.eqb_spec a i); [easy|].
      rewrite (fsub_of _ c a D2 I); [assumption|]. now apply sub_in in E.
Qed.
Lemma fsub_put_other a m x (F : list knode) : NoDup (fids F) -> id_of m = a -> ~ In x (ids m) ->
  (forall u, fsub a F = Some u -> ~ In x (ids u)) ->
  fsub x (fput a m F) = option_map (put a m) (fsub x F).
Proof.
  intros D Em Nx Nu. apply fsub_fput. intros c I. apply sub_put_other; auto.
  - exact (nodup_elem _ _ I D).
  - intros u E. apply Nu. rewrite (fsub_of _ c a D I); [assumption|]. now apply sub_in in E.
Qed.
Lemma sub_put_same a m (n u : knode) : sub a n = Some u -> id_of m = a -> sub a (put a m n) = Some m.
Proof.
  intros H Em. revert u H. induction n as [i p v s IH] using node_ind. intros u. rewrite sub_eq, put_eq.
  destruct (Nat.eqb_spec a i) as [->|N].
  - intros _. rewrite <- Em. apply sub_self.
  - rewrite sub_eq. destruct (Nat.eqb_spec a i); [easy|]. rewrite present_put. clear n.
    induction (present s) as [|c F IHF]; [discriminate|]. cbn [fsub fput map]. fold (fput a m F).
    inversion IH as [|? ? H1 H2]. subst. destruct (sub (id_of m) c) as [k|] eqn:E.
    + intros _. now rewrite (H1 k eq_refl).
    + intros H. apply sub_none in E. rewrite put_notin by assumption. apply sub_none in E. rewrite E. now apply IHF.
Qed.
Lemma fsub_put_same a m (F : list knode) u : fsub a F = Some u -> id_of m = a -> fsub a (fput a m F) = Some m.
Proof.
  intros H Em. induction F as [|c F IH]; [discriminate|]. cbn [fsub fput map] in *. fold (fput a m F).
  destruct (sub a c) as [k|] eqn:E.
  - now rewrite (sub_put_same _ _ _ _ E Em).
  - apply sub_none in E. rewrite put_notin by assumption. apply sub_none in E. rewrite E. now apply IH.
Qed.
Lemma put_id a m (n : knode) : id_of m = a -> id_of (put a m n) = id_of n.
Proof. destruct n. cbn. destruct (Nat.eqb_spec a id) as [->|]; [easy|reflexivity]. Qed.
Lemma put_slots a m (n : knode) : id_of n <> a -> slots_of (put a m n) = map (option_map (put a m)) (slots_of n).
Proof. destruct n. cbn. intros H. destruct (Nat.eqb_spec a id) as [->|]; [easy|reflexivity]. Qed.
Lemma put_twice a m1 m2 (n : knode) : id_of m1 = a -> put a m2 (put a m1 n) = put a m2 n.
Proof.
  intros E. induction n as [i p v s IH] using node_ind. rewrite (put_eq a m1), (put_eq a m2).
  destruct (Nat.eqb_spec a i) as [->|N].
  - destruct m1. cbn in *. subst. now rewrite Nat.eqb_refl.
  - rewrite put_eq. destruct (Nat.eqb_spec a i); [easy|]. f_equal. rewrite map_map. apply map_ext_in.
    intros [c|] I; [|reflexivity]. cbn. f_equal. apply in_present in I. exact (proj1 (Forall_forall _ _) IH c I).
Qed.
Lemma put_self a (n u : knode) : NoDup (ids n) -> sub a n = Some u -> put a u n = n.
Proof.
  revert u. induction n as [i p v s IH] using node_ind. intros u D. rewrite sub_eq, put_eq.
  destruct (Nat.eqb_spec a i) as [->|N]; [now intros [= <-]|]. intros H. f_equal. rewrite ids_eq in D. apply NoDup_cons_iff in D. destruct D as [D1 D2].
  rewrite <- (map_id s) at 2. apply map_ext_in. intros [c|] I; [|reflexivity]. cbn. f_equal. apply in_present in I.
  destruct (in_dec Nat.eq_dec a (ids c)) as [J|J]; [|now apply put_notin].
  apply (proj1 (Forall_forall _ _) IH c I); [exact (nodup_elem _ _ I D2)|]. now rewrite <- (fsub_of _ c a D2 I J).
Qed.
(** Replacing inside a part is replacing the part. *)
Lemma put_inside a c m (n u : knode) : NoDup (ids n) -> sub a n = Some u -> In c (ids u) ->
  put c m n = put a (put c m u) n.
Proof.
  revert u. induction n as [i p v s IH] using node_ind. intros u D. rewrite sub_eq.
  rewrite ids_eq in D. apply NoDup_cons_iff in D. destruct D as [D1 D2].
  destruct (Nat.eqb_spec a i) as [->|N].
  - intros [= <-] _. rewrite (put_eq i). now rewrite Nat.eqb_refl.
  - intros H J. rewrite !put_eq. destruct (Nat.eqb_spec c i) as [->|M].
    { exfalso. apply D1. exact (fsub_incl _ _ _ H _ J). }
    destruct (Nat.eqb_spec a i); [easy|]. f_equal. apply map_ext_in. intros [d|] I; [|reflexivity]. cbn. f_equal.
    apply in_present in I. destruct (in_dec Nat.eq_dec a (ids d)) as [K|K].
    + apply (proj1 (Forall_forall _ _) IH d I); auto; [exact (nodup_elem _ _ I D2)|]. now rewrite <- (fsub_of _ d a D2 I K).
    + rewrite (put_notin a) by assumption. apply put_notin. intros L. apply K.
      destruct (fsub_some _ _ _ H) as (e & I' & K'). pose proof (sub_incl _ _ _ K' c J) as L'.
      assert (E : fsub c (present s) = sub c d) by (apply fsub_of; auto).
      assert (E' : fsub c (present s) = sub c e) by (apply fsub_of; auto).
      destruct (in_split _ _ I) as (F1 & F2 & EF). rewrite EF in I'. apply in_app_or in I'.
      rewrite EF, fids_app, fids_cons in D2. apply nodup_app in D2. destruct D2 as (A1 & A2 & A3). apply nodup_app in A2.
      destruct A2 as (A4 & A5 & A6). destruct I' as [I'|[->|I']].
      * exfalso. apply (A3 c); [apply in_fids; eauto|]. apply in_or_app. now left.
      * now apply sub_in in K'.
      * exfalso. apply (A6 c L). apply in_fids. eauto.
Qed.

(** Links. *)
Lemma linked_eq' q i p v (s : list (option knode)) :
  linked q (KN i p v s) <-> p = q /\ Forall (linked (Some i)) (present s).
Proof.
  rewrite linked_eq. unfold kall. apply and_iff_compat_l. induction s as [|[c|] s IH]; cbn; [easy| |].
  - rewrite IH. split; [now constructor|]. intros H. now inversion H.
  - assumption.
Qed.
Lemma linked_parent q (n : knode) : linked q n -> parent_of n = q.
Proof. destruct n. cbn. tauto. Qed.
Lemma linked_sub q a (n m : knode) : linked q n -> sub a n = Some m -> linked (parent_of m) m.
Proof.
  revert q m. induction n as [i p v s IH] using node_ind. intros q m L. rewrite sub_eq.
  destruct (Nat.eqb_spec a i) as [->|N].
  - intros [= <-]. cbn [parent_of]. apply linked_eq' in L. destruct L as [-> L]. now apply linked_eq'.
  - apply linked_eq' in L. intros H. destruct (fsub_some _ _ _ H) as (c & I & K).
    exact (proj1 (Forall_forall _ _) IH c I _ m (proj1 (Forall_forall _ _) (proj2 L) c I) K).
Qed.
Lemma linked_put q a m (n u : knode) : NoDup (ids n) -> linked q n -> sub a n = Some u -> linked (parent_of u) m -> id_of m = a ->
  linked q (put a m n).
Proof.
  intros D L H Lm Em. revert q u D L H Lm. induction n as [i p v s IH] using node_ind. intros q u D L. rewrite sub_eq, put_eq.
  destruct (Nat.eqb_spec a i) as [->|N].
  - intros [= <-] Lm. apply linked_parent in L. cbn in *. now subst.
  - intros H Lm. apply linked_eq' in L. destruct L as [-> L]. apply linked_eq'. split; [reflexivity|]. rewrite present_put.
    rewrite ids_eq in D. apply NoDup_cons_iff in D. destruct D as [D1 D2]. apply Forall_forall. intros d I. unfold fput in I. apply in_map_iff in I.
    destruct I as (c & <- & I). pose proof (proj1 (Forall_forall _ _) L c I) as Lc.
    destruct (in_dec Nat.eq_dec a (ids c)) as [J|J]; [|now rewrite put_notin].
    apply (proj1 (Forall_forall _ _) IH c I _ u); auto; [exact (nodup_elem _ _ I D2)|]. now rewrite <- (fsub_of _ c a D2 I J).
Qed.
Lemma narrow_eq' m i p v (s : list (option knode)) :
  narrow m (KN i p v s) <-> length s <= m /\ Forall (narrow m) (present s).
Proof.
  rewrite narrow_eq. unfold kall. apply and_iff_compat_l. induction s as [|[c|] s IH]; cbn; [easy| |].
  - rewrite IH. split; [now constructor|]. intros H. now inversion H.
  - assumption.
Qed.
Lemma narrow_sub k a (n m : knode) : narrow k n -> sub a n = Some m -> narrow k m.
Proof.
  revert m. induction n as [i p v s IH] using node_ind. intros m L. rewrite sub_eq.
  destruct (Nat.eqb_spec a i) as [->|N]; [now intros [= <-]|].
  apply narrow_eq' in L. intros H. destruct (fsub_some _ _ _ H) as (c & I & K).
  exact (proj1 (Forall_forall _ _) IH c I m (proj1 (Forall_forall _ _) (proj2 L) c I) K).
Qed.
Lemma narrow_put k a m (n : knode) : narrow k n -> narrow k m -> narrow k (put a m n).
Proof.
  intros L Lm. induction n as [i p v s IH] using node_ind. rewrite put_eq. destruct (Nat.eqb a i); [assumption|].
  apply narrow_eq' in L. apply narrow_eq'. rewrite map_length. split; [apply L|]. rewrite present_put. apply Forall_forall.
  intros d I. unfold fput in I. apply in_map_iff in I. destruct I as (c & <- & I).
  apply (proj1 (Forall_forall _ _) IH c I). exact (proj1 (Forall_forall _ _) (proj2 L) c I).
Qed.

(** ** One call *)
Variable max_node_size : N.
Hypothesis MAX : (max_node_size < two64)%N.
Variable grow : nat -> nat -> nat -> nat.
Notation mx := (N.to_nat max_node_size).
Notation sound := (sound max_node_size).
Notation kcall := (kcall max_node_size grow).
Notation kstep := (kstep max_node_size grow).
Notation krun := (krun max_node_size grow).

Lemma in_set_nth {A} (l : list A) p x y : In y (set_nth l p x) -> y = x \/ In y l.
Proof. revert p. induction l as [|z l IH]; intros [|p]; cbn; intros H; intuition. destruct (IH _ H0); auto. Qed.
Lemma in_erase {A} (l : list A) p y : In y (erase l p) -> In y l.
Proof. revert p. induction l as [|z l IH]; intros [|p]; cbn; intros H; intuition. right. eapply IH. eassumption. Qed.
Lemma erase_len {A} (l : list A) p : p < length l -> length (erase l p) = pred (length l).
Proof.
  revert p. induction l as [|z l IH]; intros [|p] L; cbn in *; try lia. rewrite IH by lia. destruct l; cbn in *; lia.
Qed.
Lemma index_null_slot (n : knode) : null_slot n = match index_null (slots_of n) with Some _ => true | None => false end.
Proof.
  unfold null_slot. destruct n as [i p v s]. cbn [slots_of]. induction s as [|[c|] s IH]; cbn; auto.
  rewrite IH. now destruct (index_null s).
Qed.

Definition size_after (n : knode) (c : call V) : nat :=
  let size := length (slots_of n) in
  let push := if (N.of_nat size <? max_node_size)%N then S size else size in
  let write p :=
    if (p <? N.of_nat size)%N then size else if (p <? max_node_size)%N then S (N.to_nat p) else size in
  match c with
  | CAdd _ => push
  | CInsertNull _ => if null_slot n then size else push
  | CInsertAt p _ | CReplaceAt p _ => write p
  | CDelete p => if (p <? N.of_nat size)%N then pred size else size
  | CClear => 0
  | CExtract _ | CSetValue _ => size
  end.
Record shape (i : nat) (c : call V) (n n' : knode) (h : option knode) (f : list nat) (i' : nat) : Prop := {
  h_parent : parent_of n' = parent_of n;
  h_kids : forall d, In (Some d) (slots_of n') ->
    In (Some d) (slots_of n) \/ (exists v, d = new_node i (Some (id_of n)) v) /\ i' = S i;
  h_handed : forall m, h = Some m -> exists d, In (Some d) (slots_of n) /\ m = set_parent d None;
  h_fresh : i' = i \/ i' = S i;
  h_del : forall x, In x f <-> In x (deleted n c);
  h_size : length (slots_of n') = size_after n c }.

Lemma in_del (n : knode) x : In x (del n) <-> In x (ids n).
Proof. rewrite !cnt_in, cnt_del. easy. Qed.

Lemma add_shape i (n : knode) v n' b i' : add_child max_node_size i n v = (n', b, i') ->
  parent_of n' = parent_of n /\
  (forall d, In (Some d) (slots_of n') -> In (Some d) (slots_of n) \/ (exists v, d = new_node i (Some (id_of n)) v) /\ i' = S i) /\
  (i' = i \/ i' = S i) /\
  length (slots_of n') = if (N.of_nat (length (slots_of n)) <? max_node_size)%N then S (length (slots_of n)) else length (slots_of n).
Proof.
  unfold add_child, sizeN. destruct (N.of_nat (length (slots_of n)) <? max_node_size)%N; intros [= <- <- <-]; [|auto 6].
  rewrite with_slots_slots, app_length. cbn. split; [now destruct n|]. split; [|split; [auto|lia]].
  intros d I. apply in_app_or in I. destruct I as [I|[[= <-]|[]]]; [now left|]. right. split; [eauto|reflexivity].
Qed.
Lemma insert_shape i (n : knode) p v n' b i' : insert_at max_node_size i n p v = (n', b, i') ->
  parent_of n' = parent_of n /\
  (forall d, In (Some d) (slots_of n') -> In (Some d) (slots_of n) \/ (exists v, d = new_node i (Some (id_of n)) v) /\ i' = S i) /\
  (i' = i \/ i' = S i) /\
  length (slots_of n') = if (p <? N.of_nat (length (slots_of n)))%N then length (slots_of n)
    else if (p <? max_node_size)%N then S (N.to_nat p) else length (slots_of n).
Proof.
  unfold insert_at, cell. destruct (N.ltb_spec p max_node_size) as [L|L].
  - destruct (nth_error (slots_of n) (N.to_nat p)) as [[c|]|] eqn:E; intros [= <- <- <-].
    + assert (N.to_nat p < length (slots_of n)) by (apply nth_error_Some; congruence).
      destruct (N.ltb_spec p (N.of_nat (length (slots_of n)))); [auto 6|lia].
    + assert (N.to_nat p < length (slots_of n)) by (apply nth_error_Some; congruence).
      destruct (N.ltb_spec p (N.of_nat (length (slots_of n)))); [|lia]. rewrite with_slots_slots, set_nth_length.
      split; [now destruct n|]. split; [|auto]. intros d I. apply in_set_nth in I. destruct I as [[= ->]|I]; [right|now left].
      split; [eauto|reflexivity].
    + apply nth_error_None in E. destruct (N.ltb_spec p (N.of_nat (length (slots_of n)))); [lia|].
      rewrite with_slots_slots, set_nth_length, (wadd1 max_node_size MAX), resize_length by (auto; lia).
      split; [now destruct n|]. split; [|auto]. intros d I. apply in_set_nth in I. destruct I as [[= ->]|I].
      * right. split; [eauto|reflexivity].
      * left. unfold resize_null in I. apply in_app_or in I. destruct I as [I|I]; [assumption|]. now apply repeat_spec in I.
  - intros [= <- <- <-]. split; [auto|]. split; [auto|]. split; [auto|]. now destruct (p <? N.of_nat (length (slots_of n)))%N.
Qed.

Lemma do_call_shape i c (n n' : knode) ans h f i' :
  do_call max_node_size i c n = Val (n', (ans, h, f, i')) -> length (slots_of n) <= mx ->
  shape i c n n' h f i'.
Proof.
  intros E W. destruct c; cbn [do_call] in E.
  - destruct (add_child max_node_size i n v) as [[n1 b] i1] eqn:A. injection E as <- <- <- <- <-.
    destruct (add_shape _ _ _ _ _ _ A) as (H1 & H2 & H3 & H4). constructor; auto; try easy.
  - unfold insert_at_first_null in E. pose proof (index_null_slot n) as NS. destruct (index_null (slots_of n)) as [p|] eqn:X.
    + injection E as <- <- <- <- <-. constructor; auto; try easy.
      * now destruct n.
      * rewrite with_slots_slots. intros d I. apply in_set_nth in I. destruct I as [[= ->]|I]; [right|now left].
        split; [eauto|reflexivity].
      * cbn [size_after]. rewrite NS, with_slots_slots. apply set_nth_length.
    + destruct (add_child max_node_size i n v) as [[n1 b] i1] eqn:A. injection E as <- <- <- <- <-.
      destruct (add_shape _ _ _ _ _ _ A) as (H1 & H2 & H3 & H4). constructor; auto; try easy.
      cbn [size_after]. rewrite NS. exact H4.
  - destruct (insert_at max_node_size i n position v) as [[n1 b] i1] eqn:A. injection E as <- <- <- <- <-.
    destruct (insert_shape _ _ _ _ _ _ _ A) as (H1 & H2 & H3 & H4). constructor; auto; try easy.
  - destruct (N.lt_ge_cases position max_node_size) as [L|L].
    2: { rewrite replace_at_ub in E by auto. discriminate. }
    unfold replace_at in E. apply N.ltb_lt in L as L'. rewrite L' in E. unfold cell at 1 in E.
    destruct (nth_error (slots_of n) (N.to_nat position)) as [[c|]|] eqn:X.
    + assert (N.to_nat position < length (slots_of n)) by (apply nth_error_Some; congruence).
      unfold cell in E. rewrite nth_error_set_nth_eq in E by assumption. rewrite set_set in E. cbn [bind] in E.
      injection E as <- <- <- <- <-. constructor; auto; try easy.
      * now destruct n.
      * rewrite with_slots_slots. intros d I. apply in_set_nth in I. destruct I as [[= ->]|I]; [right|now left].
        split; [eauto|reflexivity].
      * intros m [= <-]. exists c. split; [now apply nth_error_In in X|reflexivity].
      * cbn [size_after]. destruct (N.ltb_spec position (N.of_nat (length (slots_of n)))); [|lia].
        rewrite with_slots_slots. apply set_nth_length.
    + assert (N.to_nat position < length (slots_of n)) by (apply nth_error_Some; congruence).
      unfold cell in E. rewrite X in E. cbn [bind] in E. injection E as <- <- <- <- <-. constructor; auto; try easy.
      * now destruct n.
      * rewrite with_slots_slots. intros d I. apply in_set_nth in I. destruct I as [[= ->]|I]; [right|now left].
        split; [eauto|reflexivity].
      * cbn [size_after]. destruct (N.ltb_spec position (N.of_nat (length (slots_of n)))); [|lia].
        rewrite with_slots_slots. apply set_nth_length.
    + apply nth_error_None in X as X'. unfold cell in E. rewrite (wadd1 max_node_size MAX) in E by assumption. rewrite resize_nth in E by lia.
      cbn [bind] in E. injection E as <- <- <- <- <-. constructor; auto; try easy.
      * now destruct n.
      * rewrite with_slots_slots. intros d I. apply in_set_nth in I. destruct I as [[= ->]|I].
        -- right. split; [eauto|reflexivity].
        -- left. unfold resize_null in I. apply in_app_or in I. destruct I as [I|I]; [assumption|]. now apply repeat_spec in I.
      * cbn [size_after]. destruct (N.ltb_spec position (N.of_nat (length (slots_of n)))); [lia|]. rewrite L'.
        rewrite with_slots_slots, set_nth_length. apply resize_length. lia.
  - unfold delete_child, cell in E. destruct (nth_error (slots_of n) (N.to_nat child)) as [c|] eqn:X; injection E as <- <- <- <- <-.
    + assert (N.to_nat child < length (slots_of n)) by (apply nth_error_Some; congruence). constructor; auto; try easy.
      * now destruct n.
      * rewrite with_slots_slots. intros d I. apply in_erase in I. now left.
      * intros x. cbn [deleted]. unfold slot. rewrite X. destruct c as [c|]; [apply in_del|easy].
      * cbn [size_after]. destruct (N.ltb_spec child (N.of_nat (length (slots_of n)))); [|lia].
        rewrite with_slots_slots. now apply erase_len.
    + constructor; auto; try easy.
      * intros x. cbn [deleted]. unfold slot. now rewrite X.
      * apply nth_error_None in X. cbn [size_after]. destruct (N.ltb_spec child (N.of_nat (length (slots_of n)))); [lia|reflexivity].
  - unfold extract_child, cell in E. destruct (nth_error (slots_of n) (N.to_nat child)) as [[c|]|] eqn:X; injection E as <- <- <- <- <-;
      constructor; auto; try easy.
    + now destruct n.
    + rewrite with_slots_slots. intros d I. apply in_set_nth in I. destruct I as [[=]|I]. now left.
    + intros m [= <-]. exists c. split; [now apply nth_error_In in X|reflexivity].
    + cbn [size_after]. rewrite with_slots_slots. apply set_nth_length.
  - injection E as <- <- <- <- <-. constructor; auto; try easy.
    + now destruct n.
    + rewrite with_slots_slots. easy.
    + intros x. cbn [deleted]. rewrite !in_flat_map. split; intros ([c|] & I & J); exists (Some c) || easy; split; auto; now apply in_del.
    + now rewrite with_slots_slots.
  - injection E as <- <- <- <- <-. destruct n. constructor; auto; easy.
Qed.

Lemma do_call_effect i c (n n' : knode) ans h f i' :
  do_call max_node_size i c n = Val (n', (ans, h, f, i')) -> length (slots_of n) <= mx ->
  effect max_node_size i n n' h f i'.
Proof.
  intros E W. assert (OK : call_ok max_node_size c).
  { destruct c; cbn; auto. destruct (N.lt_ge_cases position max_node_size) as [L|L]; [assumption|].
    cbn in E. rewrite replace_at_ub in E by auto. discriminate. }
  destruct (do_call_ok max_node_size MAX i c n OK) as (n1 & a1 & h1 & f1 & i1 & E1 & F). rewrite E1 in E.
  injection E as <- <- <- <- <-. exact F.
Qed.

(** ** States *)
Definition after_k (s : kst) (a : nat) (c : call V) (n n' : knode) (v : vec) (h : option knode) (i' : nat) : kst :=
  mkK (fput a n' (roots s) ++ match h with Some m => [m] | None => [] end) i'
    (set_nth (vecs s) a (vec_after grow (tick s) c n n' v) ++ repeat (new_vec (tick s + S (length (slots_of n')))) (i' - fresh s))
    (S (tick s + S (length (slots_of n')))).

Lemma sound_fits (s : kst) x n : sound s -> fsub x (roots s) = Some n -> fitting s x n.
Proof. intros (_ & _ & _ & _ & _ & H). apply H. Qed.
Lemma sound_width (s : kst) x n : sound s -> fsub x (roots s) = Some n -> length (slots_of n) <= mx.
Proof.
  intros (_ & _ & _ & H & _) E. destruct (fsub_some _ _ _ E) as (t & I & J).
  pose proof (narrow_sub _ _ _ _ (proj1 (Forall_forall _ _) H t I) J) as W. destruct n. exact (proj1 (proj1 (narrow_eq _ _ _ _ _) W)).
Qed.
Lemma node_val (s : kst) a n : fsub a (roots s) = Some n -> node s a = Val n.
Proof. intros E. unfold node. now rewrite E. Qed.
Lemma vector_val (s : kst) a n v : fsub a (roots s) = Some n -> nth_error (vecs s) a = Some v -> vector s a = Val v.
Proof. intros E F. unfold vector. rewrite (node_val _ _ _ E). cbn. now rewrite F. Qed.
Lemma vector_inv (s : kst) a v : vector s a = Val v -> (exists n, fsub a (roots s) = Some n) /\ nth_error (vecs s) a = Some v.
Proof.
  unfold vector, node. destruct (fsub a (roots s)) as [n|]; [|discriminate]. cbn.
  destruct (nth_error (vecs s) a) as [w|]; [|discriminate]. intros [= <-]. eauto.
Qed.

Lemma kcall_val (s : kst) a c s' r : sound s -> kcall s a c = Val (s', r) ->
  exists n v n' ans h f i', fsub a (roots s) = Some n /\ nth_error (vecs s) a = Some v /\
    do_call max_node_size (fresh s) c n = Val (n', (ans, h, f, i')) /\
    shape (fresh s) c n n' h f i' /\ effect max_node_size (fresh s) n n' h f i' /\
    s' = after_k s a c n n' v h i' /\ r = (ans, option_map id_of h).
Proof.
  intros SO. unfold KaryIterModel.kcall. destruct (node s a) as [n| | |] eqn:N; try discriminate. cbn [bind].
  unfold node in N. destruct (fsub a (roots s)) as [n0|] eqn:E; [|discriminate]. injection N as ->.
  destruct (vector s a) as [v| | |] eqn:W; try discriminate. apply vector_inv in W. destruct W as [_ W]. cbn [bind].
  destruct (do_call max_node_size (fresh s) c n) as [[n' [[[ans h] f] i']]| | |] eqn:D; try discriminate. cbn [bind].
  intros [= <- <-]. pose proof (sound_width _ _ _ SO E) as L.
  exists n, v, n', ans, h, f, i'. split; [reflexivity|]. split; [assumption|]. split; [exact D|].
  split; [exact (do_call_shape _ _ _ _ _ _ _ _ D L)|]. split; [exact (do_call_effect _ _ _ _ _ _ _ _ D L)|].
  split; reflexivity.
Qed.

Section Step.
Variables (s : kst) (a : nat) (c : call V) (n n' : knode) (v : vec) (h : option knode) (f : list nat) (i' : nat).
Hypotheses (SO : sound s) (HN : fsub a (roots s) = Some n) (HV : nth_error (vecs s) a = Some v)
  (SH : shape (fresh s) c n n' h f i') (EF : effect max_node_size (fresh s) n n' h f i').
Notation s' := (after_k s a c n n' v h i').
Lemma idn : id_of n = a.
Proof. exact (fsub_id _ _ _ HN). Qed.
Lemma idn' : id_of n' = a.
Proof. rewrite (e_id _ _ _ _ _ _ _ EF). apply idn. Qed.

Lemma step_cnt x : cnt x (fids (roots s')) + cnt x f = cnt x (fids (roots s)) + cnt x (seq (fresh s) (i' - fresh s)).
Proof.
  unfold after_k; cbn [roots]. rewrite fids_app, cnt_app. destruct SO as (D & _). pose proof (cnt_fput a n' (roots s) n x D HN) as C1.
  pose proof (e_cnt _ _ _ _ _ _ _ EF x) as C2. destruct h as [m|]; cbn [fids flat_map co] in *; rewrite ?app_nil_r in *; cbn in *; lia.
Qed.
Lemma old_bound x : In x (fids (roots s)) -> x < fresh s.
Proof. destruct SO as (_ & B & _). exact (proj1 (Forall_forall _ _) B x). Qed.
Lemma step_nodup : NoDup (fids (roots s')).
Proof.
  apply nodup_cnt. intros x. pose proof (step_cnt x) as C. destruct SO as (D & _). pose proof (proj1 (nodup_cnt _) D x).
  assert (cnt x (seq (fresh s) (i' - fresh s)) <= 1) by (apply nodup_cnt, seq_NoDup).
  destruct (Nat.lt_ge_cases x (fresh s)) as [L|L].
  - assert (cnt x (seq (fresh s) (i' - fresh s)) = 0) by (apply cnt_notin; rewrite in_seq; lia). lia.
  - assert (cnt x (fids (roots s)) = 0) by (apply cnt_notin; intros I; apply old_bound in I; lia). lia.
Qed.
Lemma deleted_below x : In x f -> In x (ids n) /\ x <> a.
Proof.
  intros I. apply (h_del _ _ _ _ _ _ _ SH) in I. destruct SO as (D & _). pose proof (fsub_nodup _ _ _ D HN) as Dn.
  assert (K : exists d, In (Some d) (slots_of n) /\ In x (ids d)).
  { destruct c; cbn in I; try contradiction.
    - unfold slot in I. destruct (nth_error (slots_of n) (N.to_nat child)) as [[d|]|] eqn:E; try contradiction.
      apply nth_error_In in E. eauto.
    - apply in_flat_map in I. destruct I as ([d|] & I & J); [eauto|contradiction]. }
  destruct K as (d & K1 & K2). rewrite <- idn. destruct n as [i p w sl]. rewrite ids_eq in *. apply NoDup_cons_iff in Dn.
  assert (In x (fids (present sl))) by (apply in_fids; exists d; split; [now apply in_present|assumption]).
  split; [now right|]. cbn. intros ->. tauto.
Qed.
Lemma step_live x : In x (fids (roots s')) <-> (In x (fids (roots s)) /\ ~ In x f) \/ (x = fresh s /\ i' = S (fresh s)).
Proof.
  pose proof (step_cnt x) as C. pose proof step_nodup as D'. pose proof (proj1 (nodup_cnt _) D' x) as B'. destruct SO as (D & _). pose proof (proj1 (nodup_cnt _) D x) as B.
  assert (S1 : cnt x (seq (fresh s) (i' - fresh s)) = if (x =? fresh s) && (i' =? S (fresh s)) then 1 else 0).
  { destruct (h_fresh _ _ _ _ _ _ _ SH) as [->| ->].
    - rewrite Nat.sub_diag. cbn. destruct (Nat.eqb_spec (fresh s) (S (fresh s))); [lia|]. now rewrite andb_false_r.
    - replace (S (fresh s) - fresh s) with 1 by lia. rewrite Nat.eqb_refl, andb_true_r. cbn. destruct (Nat.eq_dec (fresh s) x), (Nat.eqb_spec x (fresh s)); congruence. }
  assert (Z : In x (fids (roots s)) -> cnt x (seq (fresh s) (i' - fresh s)) = 0).
  { intros I. apply cnt_notin. rewrite in_seq. apply old_bound in I. lia. }
  rewrite cnt_notin, !cnt_in. destruct (Nat.eqb_spec x (fresh s)) as [->|NE]; cbn in S1.
  - assert (cnt (fresh s) (fids (roots s)) = 0) by (apply cnt_notin; intros I; apply old_bound in I; lia).
    assert (cnt (fresh s) f = 0) by (apply cnt_notin; intros I; apply deleted_below in I; destruct I as [I _]; apply (fsub_incl _ _ _ HN) in I; apply old_bound in I; lia).
    destruct (Nat.eqb_spec i' (S (fresh s))); split; intros G; [right; auto|lia|lia|]. destruct G as [[? ?]|[_ ?]]; [lia|easy].
  - split; intros H; [left; lia|]. destruct H as [[? ?]|[? _]]; [lia|easy].
Qed.

(** The nodes afterwards. *)
Lemma step_self : fsub a (roots s') = Some n'.
Proof.
  unfold after_k; cbn [roots]. pose proof (fsub_put_same a n' (roots s) n HN idn') as E.
  induction (fput a n' (roots s)) as [|t F IH]; [discriminate|]. cbn [fsub app] in *. destruct (sub a t); auto.
Qed.
Lemma present_in (m d : knode) : In (Some d) (slots_of m) -> In d (present (slots_of m)).
Proof. now apply in_present. Qed.
Lemma sub_kid (m d : knode) x : NoDup (ids m) -> In (Some d) (slots_of m) -> In x (ids d) -> sub x m = sub x d /\ x <> id_of m.
Proof.
  destruct m as [i p w sl]. rewrite ids_eq. cbn [slots_of id_of]. intros D I J. apply NoDup_cons_iff in D. destruct D as [D1 D2].
  apply in_present in I. assert (x <> i) by (intros ->; apply D1; apply in_fids; eauto). split; [|assumption].
  rewrite sub_eq. destruct (Nat.eqb_spec x i); [easy|]. now apply fsub_of.
Qed.
Lemma ids_split (m : knode) x : In x (ids m) -> x = id_of m \/ exists d, In (Some d) (slots_of m) /\ In x (ids d).
Proof.
  destruct m as [i p w sl]. rewrite ids_eq. intros [<-|I]; [now left|]. right. apply in_fids in I. destruct I as (d & I & J).
  exists d. split; [now apply in_present|assumption].
Qed.
(** A child of [n] keeps everything below it. *)
Lemma kid_below d x : In (Some d) (slots_of n) -> In x (ids d) -> fsub x (roots s) = sub x d.
Proof.
  clear SH EF HV. intros I J. destruct SO as (D & _). pose proof (fsub_nodup _ _ _ D HN) as Dn. destruct (sub_kid n d x Dn I J) as [E _].
  rewrite (fsub_sub x a (roots s) n D HN); [assumption|]. destruct n as [i p w sl]. rewrite ids_eq. right. apply in_fids.
  exists d. split; [now apply in_present|assumption].
Qed.
Lemma fsub_app x (F G : list knode) : fsub x (F ++ G) = match fsub x F with Some k => Some k | None => fsub x G end.
Proof. induction F as [|t F IH]; cbn; [reflexivity|]. now destruct (sub x t). Qed.

Lemma put_pointers (m k : knode) : id_of m = a -> id_of k <> a -> pointers (put a m k) = pointers k.
Proof.
  intros Em NE. unfold pointers. rewrite put_slots by assumption. rewrite map_map. apply map_ext. intros [d|]; [|reflexivity]. cbn. f_equal.
  destruct d as [i p w sl]. cbn. destruct (Nat.eqb_spec a i); [congruence|reflexivity].
Qed.
Lemma step_found x k : fsub x (roots s') = Some k ->
  (x = a /\ k = n') \/ (x = fresh s /\ i' = S (fresh s) /\ slots_of k = []) \/
  (x <> a /\ exists k0, fsub x (roots s) = Some k0 /\ pointers k = pointers k0).
Proof.
  intros E. destruct (Nat.eq_dec x a) as [->|NE]; [left; rewrite step_self in E; injection E as <-; auto|right].
  pose proof step_nodup as D'. pose proof idn' as Eid. destruct SO as (D & _).
  destruct (in_dec Nat.eq_dec x (ids n')) as [I|I].
  - rewrite (fsub_sub x a (roots s') n' D' step_self I) in E. destruct (ids_split n' x I) as [->|(d & J & K)]; [now rewrite Eid in NE|].
    pose proof (fsub_nodup _ _ _ D' step_self) as Dn'. destruct (sub_kid n' d x Dn' J K) as [E1 _]. rewrite E1 in E.
    destruct (h_kids _ _ _ _ _ _ _ SH d J) as [J'|[(w & ->) Ei]].
    + right. split; [assumption|]. exists k. split; [|reflexivity]. now rewrite (kid_below d x J' K).
    + left. destruct K as [<-|[]]. split; [reflexivity|]. split; [assumption|]. unfold new_node in E. cbn in E. rewrite Nat.eqb_refl in E.
      now injection E as <-.
  - unfold after_k in E, D'. cbn [roots] in E, D'. destruct h as [m|] eqn:Eh.
    + destruct (in_dec Nat.eq_dec x (ids m)) as [J|J].
      * right. split; [assumption|]. rewrite (fsub_of _ m x D') in E; [|apply in_or_app; right; now left|assumption].
        destruct (h_handed _ _ _ _ _ _ _ SH m eq_refl) as (d & K & ->).
        assert (J' : In x (ids d)) by now destruct d. destruct (ids_split (set_parent d None) x J) as [->|(g & K2 & K3)].
        -- rewrite sub_self in E. injection E as <-. replace (id_of (set_parent d None)) with (id_of d) by now destruct d.
           rewrite (kid_below d (id_of d) K (in_id d)), sub_self. exists d. split; [reflexivity|]. now destruct d.
        -- exists k. split; [|reflexivity]. rewrite (kid_below d x K J'). rewrite <- E.
           assert (Dd : NoDup (ids d)). { apply (fsub_nodup (id_of d) (roots s)); [assumption|]. rewrite (kid_below d _ K (in_id d)). apply sub_self. }
           assert (Dd' : NoDup (ids (set_parent d None))) by now destruct d.
           destruct (sub_kid _ _ x Dd' K2 K3) as [-> _]. assert (K2' : In (Some g) (slots_of d)) by now destruct d.
           now destruct (sub_kid _ _ x Dd K2' K3) as [-> _].
      * rewrite fsub_app in E. assert (X : fsub x [m] = None) by (apply fsub_none'; unfold fids; cbn; now rewrite app_nil_r). rewrite X in E.
        assert (E2 : fsub x (fput a n' (roots s)) = Some k) by (destruct (fsub x (fput a n' (roots s))); [assumption|discriminate]).
        destruct (in_dec Nat.eq_dec x (ids n)) as [L|L].
        -- exfalso. apply fsub_in in E2. pose proof (cnt_fput a n' (roots s) n x D HN) as C. apply cnt_notin in I.
           pose proof (proj1 (nodup_cnt _) D x). apply cnt_in in E2. apply cnt_in in L. lia.
        -- rewrite (fsub_put_other a n' x (roots s) D Eid I) in E2 by (intros u U; rewrite HN in U; now injection U as <-).
           destruct (fsub x (roots s)) as [k0|] eqn:E3; [|discriminate]. injection E2 as <-. right. split; [assumption|]. exists k0.
           split; [reflexivity|]. apply put_pointers; [assumption|]. now rewrite (fsub_id _ _ _ E3).
    + rewrite app_nil_r in E. destruct (in_dec Nat.eq_dec x (ids n)) as [L|L].
      * exfalso. apply fsub_in in E. pose proof (cnt_fput a n' (roots s) n x D HN) as C. apply cnt_notin in I.
        pose proof (proj1 (nodup_cnt _) D x). apply cnt_in in E. apply cnt_in in L. lia.
      * rewrite (fsub_put_other a n' x (roots s) D Eid I) in E by (intros u U; rewrite HN in U; now injection U as <-).
        destruct (fsub x (roots s)) as [k0|] eqn:E3; [|discriminate]. injection E as <-. right. split; [assumption|]. exists k0.
        split; [reflexivity|]. apply put_pointers; [assumption|]. now rewrite (fsub_id _ _ _ E3).
Qed.

(** The vectors afterwards. *)
Lemma stamps_bound : Forall (fun t => t < tick s) (stamps v) /\ length (stamps v) = S (length (slots_of n)).
Proof. destruct (sound_fits _ _ _ SO HN) as (w & E & L & F). rewrite HV in E. injection E as <-. auto. Qed.
Lemma Forall_firstn {A} (P : A -> Prop) k l : Forall P l -> Forall P (firstn k l).
Proof. intros F. revert k. induction F; intros [|k]; cbn; constructor; auto. Qed.
Lemma Forall_seq_lt t k b : t + k <= b -> Forall (fun x => x < b) (seq t k).
Proof. intros L. apply Forall_forall. intros x I. apply in_seq in I. lia. Qed.
Lemma vec_after_ok : length (stamps (vec_after grow (tick s) c n n' v)) = S (length (slots_of n')) /\
  Forall (fun t => t < tick s + S (length (slots_of n'))) (stamps (vec_after grow (tick s) c n n' v)).
Proof.
  destruct stamps_bound as [B L]. pose proof (h_size _ _ _ _ _ _ _ SH) as Z.
  assert (B' : Forall (fun t => t < tick s + S (length (slots_of n'))) (stamps v)) by (eapply Forall_impl; [|exact B]; cbn; lia).
  assert (AP : length (slots_of n) <= length (slots_of n') ->
     let w := (if length (slots_of n) <? length (slots_of n') then appended grow (tick s) (length (slots_of n)) (length (slots_of n')) v else v) in
     length (stamps w) = S (length (slots_of n')) /\ Forall (fun t => t < tick s + S (length (slots_of n'))) (stamps w)).
  { intros G. cbv zeta. destruct (Nat.ltb_spec (length (slots_of n)) (length (slots_of n'))); [|split; [lia|assumption]].
    unfold appended. destruct (length (slots_of n') <=? cap v); cbn [stamps].
    - rewrite app_length, firstn_length, seq_length. split; [lia|]. apply Forall_app. split; [now apply Forall_firstn|].
      apply Forall_seq_lt. lia.
    - rewrite seq_length. split; [reflexivity|]. apply Forall_seq_lt. lia. }
  unfold vec_after. destruct c; cbn [size_after] in Z; try (apply AP).
  - destruct (N.of_nat (length (slots_of n)) <? max_node_size)%N; lia.
  - destruct (null_slot n), (N.of_nat (length (slots_of n)) <? max_node_size)%N; lia.
  - destruct (N.ltb_spec position (N.of_nat (length (slots_of n)))); [lia|]. destruct (position <? max_node_size)%N; lia.
  - destruct (N.ltb_spec position (N.of_nat (length (slots_of n)))); [lia|]. destruct (position <? max_node_size)%N; lia.
  - destruct (N.ltb_spec child (N.of_nat (length (slots_of n)))).
    + unfold erased. cbn [stamps]. rewrite app_length, firstn_length, seq_length. split; [lia|]. apply Forall_app.
      split; [now apply Forall_firstn|]. apply Forall_seq_lt. lia.
    + split; [lia|assumption].
  - lia.
  - unfold cleared. cbn [stamps length]. rewrite Z. split; [reflexivity|]. repeat constructor. lia.
  - lia.
Qed.
Lemma a_old : a < length (vecs s).
Proof. apply nth_error_Some. congruence. Qed.
Lemma step_vec_self : nth_error (vecs s') a = Some (vec_after grow (tick s) c n n' v).
Proof.
  unfold after_k; cbn [vecs]. rewrite nth_error_app1 by (rewrite set_nth_length; apply a_old). apply nth_error_set_nth_eq. apply a_old.
Qed.
Lemma step_vec_other x : x <> a -> x < fresh s -> nth_error (vecs s') x = nth_error (vecs s) x.
Proof.
  intros NE L. unfold after_k; cbn [vecs]. destruct SO as (_ & _ & _ & _ & LV & _).
  rewrite nth_error_app1 by (rewrite set_nth_length; lia). apply nth_error_set_nth_neq. auto.
Qed.
Lemma step_vec_new : i' = S (fresh s) -> nth_error (vecs s') (fresh s) = Some (new_vec (tick s + S (length (slots_of n')))).
Proof.
  intros E. unfold after_k; cbn [vecs]. destruct SO as (_ & _ & _ & _ & LV & _). rewrite nth_error_app2 by (rewrite set_nth_length; lia).
  rewrite set_nth_length, LV, Nat.sub_diag, E. replace (S (fresh s) - fresh s) with 1 by lia. reflexivity.
Qed.

Lemma after_sound : sound s'.
Proof.
  pose proof SO as (D & B & L & W & LV & FV). split; [apply step_nodup|]. split; [|split; [|split; [|split]]].
  - apply Forall_forall. intros x I. apply step_live in I. unfold after_k; cbn [fresh]. pose proof (e_le _ _ _ _ _ _ _ EF). destruct I as [[I _]|[-> ->]]; [apply old_bound in I|]; lia.
  - unfold after_k; cbn [roots]. apply Forall_app. destruct (fsub_some _ _ _ HN) as (t & It & Jt).
    assert (Ln : linked (parent_of n) n) by exact (linked_sub None a t n (proj1 (Forall_forall _ _) L t It) Jt).
    destruct (e_linked _ _ _ _ _ _ _ EF _ Ln) as [L1 L2]. split.
    + apply Forall_forall. intros y I. unfold fput in I. apply in_map_iff in I. destruct I as (u & <- & I).
      pose proof (proj1 (Forall_forall _ _) L u I) as Lu. destruct (in_dec Nat.eq_dec a (ids u)) as [J|J]; [|now rewrite put_notin].
      apply (linked_put None a n' u n); auto; [exact (nodup_elem _ _ I D)| |apply idn'].
      now rewrite <- (fsub_of _ u a D I J).
    + destruct h as [m|]; constructor; [exact L2|constructor].
  - unfold after_k; cbn [roots]. apply Forall_app. destruct (fsub_some _ _ _ HN) as (t & It & Jt).
    pose proof (narrow_sub _ _ _ _ (proj1 (Forall_forall _ _) W t It) Jt) as Wn. destruct (e_narrow _ _ _ _ _ _ _ EF Wn) as [W1 W2].
    split; [|destruct h as [m|]; constructor; [exact W2|constructor]].
    apply Forall_forall. intros y I. unfold fput in I. apply in_map_iff in I. destruct I as (u & <- & I). apply narrow_put; [|assumption].
    exact (proj1 (Forall_forall _ _) W u I).
  - unfold after_k; cbn [vecs fresh]. rewrite app_length, set_nth_length, repeat_length, LV. pose proof (e_le _ _ _ _ _ _ _ EF). lia.
  - intros x k E. destruct (step_found x k E) as [[-> ->]|[(-> & Ei & Es)|(NE & k0 & E0 & Es)]].
    + exists (vec_after grow (tick s) c n n' v). split; [apply step_vec_self|]. destruct vec_after_ok as [V1 V2]. split; [assumption|].
      unfold after_k; cbn [tick]. eapply Forall_impl; [|exact V2]. cbn. lia.
    + eexists. split; [apply step_vec_new; assumption|]. rewrite Es. split; [reflexivity|]. cbn. repeat constructor.
    + destruct (FV x k0 E0) as (w & E1 & Lw & Fw). exists w. rewrite step_vec_other; [|assumption|apply old_bound; now apply fsub_in in E0].
      split; [assumption|]. apply (f_equal (@length _)) in Es. unfold pointers in Es. rewrite !map_length in Es. split; [congruence|]. unfold after_k; cbn [tick]. eapply Forall_impl; [|exact Fw]. cbn. lia.
Qed.
End Step.

Lemma kcall_sound (s : kst) a c s' r : sound s -> kcall s a c = Val (s', r) -> sound s'.
Proof.
  intros SO E. destruct (kcall_val s a c s' r SO E) as (n & v & n' & ans & h & f & i' & HN & HV & _ & SH & EF & -> & _).
  exact (after_sound s a c n n' v h f i' SO HN HV SH EF).
Qed.
Lemma knew_sound (s : kst) v : sound s -> sound (fst (knew s v)).
Proof.
  intros (D & B & L & W & LV & FV). unfold knew. cbn [fst].
  assert (EI : fids (roots s ++ [new_node (fresh s) None v]) = fids (roots s) ++ [fresh s]) by (rewrite fids_app; reflexivity).
  split; [|split; [|split; [|split; [|split]]]]; cbn [roots fresh vecs tick].
  - rewrite EI. apply nodup_cnt. intros x. rewrite cnt_app. pose proof (proj1 (nodup_cnt _) D x). cbn.
    destruct (Nat.eq_dec (fresh s) x) as [<-|]; [|lia].
    assert (cnt (fresh s) (fids (roots s)) = 0); [|lia]. apply cnt_notin. intros I. pose proof (proj1 (Forall_forall _ _) B _ I) as B1. cbn in B1. lia.
  - rewrite EI. apply Forall_app. split; [eapply Forall_impl; [|exact B]; cbn; lia|repeat constructor].
  - apply Forall_app. split; [assumption|]. repeat constructor.
  - apply Forall_app. split; [assumption|]. repeat constructor. cbn. lia.
  - rewrite app_length. cbn. lia.
  - intros x n. rewrite fsub_app. destruct (fsub x (roots s)) as [m|] eqn:E.
    + intros [= <-]. destruct (FV x m E) as (w & E1 & Lw & Fw). exists w. cbn [vecs tick]. rewrite nth_error_app1 by (apply nth_error_Some; congruence).
      split; [assumption|]. split; [assumption|]. eapply Forall_impl; [|exact Fw]. cbn. lia.
    + cbn [fsub]. unfold new_node. cbn [sub]. destruct (Nat.eqb_spec x (fresh s)) as [->|]; [|discriminate]. intros [= <-].
      exists (new_vec (tick s)). cbn [vecs tick]. rewrite <- LV. rewrite nth_error_app2, Nat.sub_diag by lia. split; [reflexivity|].
      split; [reflexivity|]. repeat constructor.
Qed.
Lemma kdestroy_val (s : kst) a s' : sound s -> kdestroy s a = Val s' ->
  exists n, In n (roots s) /\ id_of n = a /\ fresh s' = fresh s /\ vecs s' = vecs s /\ tick s' = tick s /\
    (forall m, In m (roots s') <-> In m (roots s) /\ m <> n) /\
    forall x, fsub x (roots s') = if in_dec Nat.eq_dec x (ids n) then None else fsub x (roots s).
Proof.
  intros (D & _). unfold kdestroy, owned. destruct (existsb _ (roots s)) eqn:E; [|discriminate]. intros [= <-]. cbn.
  apply existsb_exists in E. destruct E as (n & I & E). apply Nat.eqb_eq in E. subst a. exists n. split; [assumption|].
  split; [reflexivity|]. split; [reflexivity|]. split; [reflexivity|]. split; [reflexivity|]. clear -D I.
  induction (roots s) as [|t F IH]; [easy|]. cbn [filter]. rewrite fids_cons in D. apply nodup_app in D. destruct D as (D1 & D2 & D3).
  destruct (Nat.eqb_spec (id_of n) (id_of t)) as [Et|Et]; cbn [negb].
  - assert (n = t).
    { destruct I as [->|I]; [reflexivity|]. exfalso. apply (D3 (id_of t)); [apply in_id|]. apply in_fids. exists n. split; [assumption|].
      rewrite <- Et. apply in_id. }
    subst t. assert (FF : filter (fun m => negb (id_of n =? id_of m)) F = F).
    { clear IH I Et. induction F as [|u F IHF]; [reflexivity|]. cbn [filter]. destruct (Nat.eqb_spec (id_of n) (id_of u)) as [Eu|Eu]; cbn [negb].
      - exfalso. apply (D3 (id_of n)); [apply in_id|]. rewrite fids_cons. apply in_or_app. left. rewrite Eu. apply in_id.
      - rewrite IHF; [reflexivity| |]; rewrite fids_cons in *; apply nodup_app in D2; [apply D2|]. intros x J K. apply (D3 x J).
        apply in_or_app. now right. }
    rewrite FF. split.
    + intros m. split.
      * intros J. split; [now right|]. intros ->. apply (D3 (id_of n)); [apply in_id|]. apply in_fids. exists n. split; [assumption|apply in_id].
      * intros [[->|J] K]; [easy|assumption].
    + intros x. cbn [fsub]. destruct (in_dec Nat.eq_dec x (ids n)) as [J|J].
      * apply fsub_none'. exact (D3 x J).
      * apply sub_none in J. now rewrite J.
  - destruct I as [->|I]; [easy|]. destruct (IH D2 I) as [IH1 IH2]. split.
    + intros m. cbn [In]. rewrite IH1. split.
      * intros [->|[J K]]; [|tauto]. split; [now left|]. congruence.
      * tauto.
    + intros x. cbn [fsub]. rewrite IH2. destruct (in_dec Nat.eq_dec x (ids n)) as [J|J]; [|reflexivity].
      destruct (sub x t) eqn:E; [|reflexivity]. exfalso. apply sub_in in E. apply (D3 x E). apply in_fids. eauto.
Qed.
Lemma nodup_filter (F : list knode) g : NoDup (fids F) -> NoDup (fids (filter g F)).
Proof.
  induction F as [|t F IH]; [easy|]. rewrite fids_cons. intros D. apply nodup_app in D. destruct D as (D1 & D2 & D3). cbn [filter].
  destruct (g t); [|auto]. rewrite fids_cons. apply NoDup_app_iff. split; [assumption|]. split; [auto|]. intros x I J. apply (D3 x I).
  apply in_fids in J. destruct J as (m & J & K). apply filter_In in J. apply in_fids. exists m. tauto.
Qed.
Lemma kdestroy_sound (s : kst) a s' : sound s -> kdestroy s a = Val s' -> sound s'.
Proof.
  intros SO E. pose proof SO as (D & B & L & W & LV & FV).
  destruct (kdestroy_val s a s' SO E) as (n & In_ & En & Ef & Ev & Et & RM & FS).
  assert (SUB : incl (roots s') (roots s)) by (intros m I; now apply RM in I).
  assert (SF : incl (fids (roots s')) (fids (roots s))).
  { intros x I. apply in_fids in I. destruct I as (m & I & J). apply in_fids. exists m. split; [now apply SUB|assumption]. }
  split; [|split; [|split; [|split; [|split]]]].
  - unfold kdestroy in E. destruct (owned s a); [|discriminate]. injection E as <-. now apply nodup_filter.
  - apply Forall_forall. intros x I. rewrite Ef. exact (proj1 (Forall_forall _ _) B x (SF x I)).
  - apply Forall_forall. intros x I. exact (proj1 (Forall_forall _ _) L x (SUB x I)).
  - apply Forall_forall. intros x I. exact (proj1 (Forall_forall _ _) W x (SUB x I)).
  - now rewrite Ev, Ef.
  - intros x m. rewrite FS. destruct (in_dec Nat.eq_dec x (ids n)); [discriminate|]. intros Em. destruct (FV x m Em) as (w & E1 & E2).
    exists w. now rewrite Ev, Et.
Qed.
Lemma kstep_sound (s : kst) o s' r : sound s -> kstep s o = Val (s', r) -> sound s'.
Proof.
  intros SO. destruct o as [a c|v|a]; cbn [KaryIterModel.kstep].
  - now apply kcall_sound.
  - pose proof (knew_sound s v SO) as H. destruct (knew s v) as [t x]. intros [= <- _]. exact H.
  - destruct (kdestroy s a) as [t| | |] eqn:E; try discriminate. cbn. intros [= <- _]. exact (kdestroy_sound s a t SO E).
Qed.
Lemma krun_sound os : forall (s : kst) s', sound s -> krun s os = Val s' -> sound s'.
Proof.
  induction os as [|o os IH]; intros s s' SO; cbn [KaryIterModel.krun]; [now intros [= <-]|].
  destruct (kstep s o) as [[t r]| | |] eqn:E; try discriminate. cbn [bind]. apply IH. exact (kstep_sound s o t r SO E).
Qed.
Lemma start_sound : sound (@kstart V).
Proof.
  split; [constructor|]. split; [constructor|]. split; [constructor|]. split; [constructor|]. split; [reflexivity|]. easy.
Qed.
Lemma reached_sound (s : kst) : reached max_node_size grow s -> sound s.
Proof. intros (os & E). exact (krun_sound os _ _ start_sound E). Qed.

(** ** Iterators *)
Lemma good_iff (s : kst) it : good s it = true <->
  exists n v, fsub (inode it) (roots s) = Some n /\ nth_error (vecs s) (inode it) = Some v /\
    nth_error (stamps v) (ipos it) = Some (istamp it).
Proof.
  unfold good. split.
  - destruct (vector s (inode it)) as [v| | |] eqn:E; try discriminate. apply vector_inv in E. destruct E as [(n & E1) E2].
    destruct (nth_error (stamps v) (ipos it)) as [t|] eqn:E3; [|discriminate]. intros H. apply Nat.eqb_eq in H. subst. eauto.
  - intros (n & v & E1 & E2 & E3). rewrite (vector_val _ _ _ _ E1 E2), E3. apply Nat.eqb_refl.
Qed.
Lemma nth_prefix (l : list nat) k T m p t : nth_error l p = Some t -> t < T ->
  (nth_error (firstn k l ++ seq T m) p = Some t <-> p < k).
Proof.
  intros E L. assert (P : p < length l) by (apply nth_error_Some; congruence). split.
  - intros H. destruct (Nat.lt_ge_cases p k) as [G|G]; [assumption|]. exfalso.
    rewrite nth_error_app2 in H by (rewrite firstn_length; lia). apply nth_error_In in H. apply in_seq in H. lia.
  - intros G. rewrite nth_error_app1 by (rewrite firstn_length; lia). rewrite <- E. rewrite <- (firstn_skipn k l) at 2.
    rewrite nth_error_app1 by (rewrite firstn_length; lia). reflexivity.
Qed.
Lemma nth_seq T m p t : t < T -> nth_error (seq T m) p = Some t -> False.
Proof. intros L H. apply nth_error_In in H. apply in_seq in H. lia. Qed.

Lemma vec_stamp T c (n n' : knode) v p t : length (slots_of n') = size_after n c -> nth_error (stamps v) p = Some t -> t < T ->
  length (stamps v) = S (length (slots_of n)) ->
  (nth_error (stamps (vec_after grow T c n n' v)) p = Some t <-> after_call max_node_size n v c p = true).
Proof.
  intros Z E L LS. unfold vec_after, after_call, after_append.
  assert (AP : forall k, length (slots_of n) < k ->
     (nth_error (stamps (appended grow T (length (slots_of n)) k v)) p = Some t <-> (k <=? cap v) && (p <? length (slots_of n)) = true)).
  { intros k G. unfold appended. destruct (k <=? cap v); cbn [stamps andb].
    - rewrite nth_prefix by assumption. now rewrite Nat.ltb_lt.
    - split; [|discriminate]. intros H. now apply nth_seq in H. }
  destruct c; cbn [size_after] in Z; rewrite ?Z.
  - destruct (N.of_nat (length (slots_of n)) <? max_node_size)%N.
    + destruct (Nat.ltb_spec (length (slots_of n)) (S (length (slots_of n)))); [|lia]. apply AP. lia.
    + rewrite Nat.ltb_irrefl. tauto.
  - destruct (null_slot n); [rewrite Nat.ltb_irrefl; tauto|]. destruct (N.of_nat (length (slots_of n)) <? max_node_size)%N.
    + destruct (Nat.ltb_spec (length (slots_of n)) (S (length (slots_of n)))); [|lia]. apply AP. lia.
    + rewrite Nat.ltb_irrefl. tauto.
  - destruct (N.ltb_spec position (N.of_nat (length (slots_of n)))); [rewrite Nat.ltb_irrefl; tauto|].
    destruct (position <? max_node_size)%N; [|rewrite Nat.ltb_irrefl; tauto].
    destruct (Nat.ltb_spec (length (slots_of n)) (S (N.to_nat position))); [|lia]. apply AP. lia.
  - destruct (N.ltb_spec position (N.of_nat (length (slots_of n)))); [rewrite Nat.ltb_irrefl; tauto|].
    destruct (position <? max_node_size)%N; [|rewrite Nat.ltb_irrefl; tauto].
    destruct (Nat.ltb_spec (length (slots_of n)) (S (N.to_nat position))); [|lia]. apply AP. lia.
  - destruct (child <? N.of_nat (length (slots_of n)))%N; [|tauto]. unfold erased. cbn [stamps].
    rewrite nth_prefix by assumption. now rewrite Nat.ltb_lt.
  - rewrite Nat.ltb_irrefl. tauto.
  - unfold cleared. cbn [stamps]. split; [|discriminate]. intros H. exfalso. destruct p as [|p]; [injection H as H; lia|]. now destruct p.
  - rewrite Nat.ltb_irrefl. tauto.
Qed.

Lemma survive (s : kst) o s' r it : sound s -> good s it = true -> kstep s o = Val (s', r) ->
  (good s' it = true <-> survives max_node_size s o it).
Proof.
  intros SO G E. pose proof (proj1 (good_iff s it) G) as (k & w & G1 & G2 & G3). rewrite good_iff. destruct o as [a c|v|a]; cbn [KaryIterModel.kstep survives] in *.
  - destruct (kcall_val s a c s' r SO E) as (n & v & n' & ans & h & f & i' & HN & HV & _ & SH & EF & -> & _).
    destruct (Nat.eqb_spec (inode it) a) as [Ea|NE].
    + rewrite Ea in *. rewrite HN in G1. injection G1 as <-. rewrite HV in G2. injection G2 as <-.
      rewrite (step_self s a c n n' v h f i') by assumption. rewrite (step_vec_self s a c n n' v h i') by assumption.
      destruct (stamps_bound s a n v SO HN HV) as [SB SL].
      assert (ST := vec_stamp (tick s) c n n' v (ipos it) (istamp it) (h_size _ _ _ _ _ _ _ SH) G3 (proj1 (Forall_forall _ _) SB _ (nth_error_In _ _ G3)) SL).
      split.
      * intros (m & u & E1 & E2 & E3) n1 v1 F1 F2. injection E2 as <-. rewrite HN in F1. rewrite HV in F2. injection F1 as <-. injection F2 as <-.
        now apply ST.
      * intros H. exists n', (vec_after grow (tick s) c n n' v). split; [reflexivity|]. split; [reflexivity|]. apply ST. now apply H.
    + assert (OB : inode it < fresh s) by (apply (old_bound s SO); now apply fsub_in in G1).
      rewrite (step_vec_other s a c n n' v h i' SO _ NE OB). pose proof (step_live s a c n n' v h f i' SO HN SH EF (inode it)) as LI. split.
      * intros (m & u & E1 & E2 & E3) n1 v1 F1 F2. rewrite HN in F1. injection F1 as <-. apply fsub_in in E1. apply LI in E1.
        destruct E1 as [[_ E1]|[E1 _]]; [|lia]. intros I. apply E1. now apply (h_del _ _ _ _ _ _ _ SH).
      * intros H. specialize (H n v HN HV). destruct (in_fsub (inode it) (roots (after_k s a c n n' v h i'))) as (m & Em).
        { apply LI. left. split; [now apply fsub_in in G1|]. intros I. apply H. now apply (h_del _ _ _ _ _ _ _ SH). }
        eauto.
  - destruct (knew s v) as [t x] eqn:En. injection E as <- _. injection En as <- _. cbn [roots vecs]. split; [auto|]. intros _.
    exists k, w. rewrite fsub_app, G1. split; [reflexivity|]. split; [|assumption]. rewrite nth_error_app1; [assumption|]. apply nth_error_Some. congruence.
  - destruct (kdestroy s a) as [t| | |] eqn:Ek; try discriminate. cbn in E. injection E as <- _.
    destruct (kdestroy_val s a t SO Ek) as (n & I & En & Ef & Ev & Et & RM & FS). rewrite FS, Ev. destruct SO as (D & _).
    assert (Fn : fsub a (roots s) = Some n) by (rewrite (fsub_of _ n a D I); subst a; [apply sub_self|apply in_id]).
    destruct (in_dec Nat.eq_dec (inode it) (ids n)) as [J|J].
    + split; [intros (m & u & E1 & _); discriminate|]. intros H. exfalso. exact (H n Fn J).
    + split; [|eauto]. intros _ m Em. rewrite Fn in Em. now injection Em as <-.
Qed.

(** An iterator that was made before and is not good stays so. *)
Lemma stamps_new T c (n n' : knode) v p t : nth_error (stamps (vec_after grow T c n n' v)) p = Some t -> t < T -> nth_error (stamps v) p = Some t.
Proof.
  assert (PF : forall k m (l : list nat), nth_error (firstn k l ++ seq T m) p = Some t -> t < T -> nth_error l p = Some t).
  { intros k m l H L. destruct (Nat.lt_ge_cases p (length (firstn k l))) as [G|G].
    - rewrite nth_error_app1 in H by assumption. rewrite <- (firstn_skipn k l), nth_error_app1; assumption.
    - rewrite nth_error_app2 in H by assumption. exfalso. now apply nth_seq in H. }
  assert (AP : forall k m, nth_error (stamps (appended grow T k m v)) p = Some t -> t < T -> nth_error (stamps v) p = Some t).
  { intros k m. unfold appended. destruct (m <=? cap v); cbn [stamps]; [apply PF|]. intros H L. exfalso. now apply nth_seq in H. }
  unfold vec_after. destruct c; try (destruct (_ <? _); [apply AP|auto]).
  - destruct (child <? _)%N; [unfold erased; cbn [stamps]; apply PF|auto].
  - unfold cleared. cbn [stamps]. intros H L. exfalso. destruct p as [|p]; [injection H as H; lia|]. now destruct p.
Qed.
Lemma bad_step (s : kst) o s' r it : sound s -> good s it = false -> istamp it < tick s -> kstep s o = Val (s', r) ->
  good s' it = false /\ tick s <= tick s'.
Proof.
  intros SO G LT E. destruct o as [a c|v|a]; cbn [KaryIterModel.kstep] in *.
  - destruct (kcall_val s a c s' r SO E) as (n & v & n' & ans & h & f & i' & HN & HV & _ & SH & EF & -> & _). split; [|unfold after_k; cbn [tick]; lia].
    apply not_true_is_false. intros G'. apply good_iff in G'. destruct G' as (k & w & G1 & G2 & G3). revert G. apply not_false_iff_true. apply good_iff.
    destruct (step_found s a c n n' v h f i' SO HN SH EF _ _ G1) as [[Ea ->]|[(Ef & Ei & Es)|(NE & k0 & E0 & Es)]].
    + rewrite Ea in *. rewrite (step_vec_self s a c n n' v h i') in G2 by assumption. injection G2 as <-.
      apply stamps_new in G3; [eauto|assumption].
    + exfalso. rewrite Ef in G2. rewrite (step_vec_new s a c n n' v h i') in G2 by assumption. injection G2 as <-. cbn in G3.
      destruct (ipos it) as [|q]; [injection G3 as G3; lia|]. now destruct q.
    + rewrite (step_vec_other s a c n n' v h i' SO _ NE) in G2 by (apply (old_bound s SO); now apply fsub_in in E0). eauto.
  - destruct (knew s v) as [t x] eqn:En. injection E as <- _. injection En as <- _. cbn [tick]. split; [|lia].
    apply not_true_is_false. intros G'. apply good_iff in G'. destruct G' as (k & w & G1 & G2 & G3). cbn [roots vecs] in *. revert G. apply not_false_iff_true. apply good_iff.
    rewrite fsub_app in G1. destruct SO as (_ & B & _ & _ & LV & _). destruct (fsub (inode it) (roots s)) as [m|] eqn:Em.
    + exists m, w. split; [reflexivity|]. split; [|assumption]. rewrite nth_error_app1 in G2; [assumption|].
      rewrite LV. apply (proj1 (Forall_forall _ _) B). now apply fsub_in in Em.
    + exfalso. unfold new_node in G1. cbn in G1. destruct (Nat.eqb_spec (inode it) (fresh s)) as [Ef|]; [|discriminate]. rewrite Ef, <- LV in G2.
      rewrite nth_error_app2, Nat.sub_diag in G2 by lia. injection G2 as <-. cbn in G3. destruct (ipos it) as [|q]; [injection G3 as G3; lia|]. now destruct q.
  - destruct (kdestroy s a) as [t| | |] eqn:Ek; try discriminate. cbn in E. injection E as <- _.
    destruct (kdestroy_val s a t SO Ek) as (n & I & En & Ef & Ev & Et & RM & FS). split; [|lia].
    apply not_true_is_false. intros G'. apply good_iff in G'. destruct G' as (k & w & G1 & G2 & G3). revert G. apply not_false_iff_true. apply good_iff.
    rewrite FS in G1. destruct (in_dec Nat.eq_dec (inode it) (ids n)); [discriminate|]. rewrite Ev in G2. eauto.
Qed.
Lemma bad_run os : forall (s : kst) s' it, sound s -> good s it = false -> istamp it < tick s -> krun s os = Val s' -> good s' it = false.
Proof.
  induction os as [|o os IH]; intros s s' it SO G L; cbn [KaryIterModel.krun]; [now intros [= <-]|].
  destruct (kstep s o) as [[t r]| | |] eqn:E; try discriminate. cbn [bind]. destruct (bad_step s o t r it SO G L E) as [G' L'].
  apply IH; [exact (kstep_sound s o t r SO E)|assumption|lia].
Qed.
Lemma good_issued (s : kst) it : sound s -> good s it = true -> istamp it < tick s.
Proof.
  intros SO G. apply good_iff in G. destruct G as (n & v & E1 & E2 & E3). destruct (sound_fits s _ _ SO E1) as (w & F1 & _ & F3).
  rewrite E2 in F1. injection F1 as <-. exact (proj1 (Forall_forall _ _) F3 _ (nth_error_In _ _ E3)).
Qed.

(** ** Positions *)
Record view (s : kst) (a : nat) (n : knode) (v : vec) : Prop := {
  w_node : fsub a (roots s) = Some n;
  w_vec : nth_error (vecs s) a = Some v;
  w_len : length (stamps v) = S (length (slots_of n)) }.
Lemma sound_view (s : kst) a n : sound s -> fsub a (roots s) = Some n -> exists v, view s a n v.
Proof. intros SO E. destruct (sound_fits s a n SO E) as (v & H1 & H2 & _). exists v. constructor; assumption. Qed.
Lemma view_at s a n v p t : view s a n v -> nth_error (stamps v) p = Some t -> at_pos s a p = Val (mkI a p t).
Proof. intros [H1 H2 H3] E. unfold at_pos. rewrite (vector_val _ _ _ _ H1 H2). cbn. now rewrite E. Qed.
Lemma view_good s a n v p t : view s a n v -> nth_error (stamps v) p = Some t -> good s (mkI a p t) = true.
Proof. intros [H1 H2 H3] E. apply good_iff. cbn. eauto. Qed.
Lemma view_size s a n v : view s a n v -> size s a = Val (length (slots_of n)).
Proof. intros [H1 H2 H3]. unfold size. now rewrite (node_val _ _ _ H1). Qed.
Lemma view_stamp s a n v p : view s a n v -> p <= length (slots_of n) -> exists t, nth_error (stamps v) p = Some t.
Proof.
  intros [H1 H2 H3] L. destruct (nth_error (stamps v) p) as [t|] eqn:E; [eauto|]. apply nth_error_None in E. lia.
Qed.
Lemma view_end s a n v t : view s a n v -> nth_error (stamps v) (length (slots_of n)) = Some t -> end_ s a = Val (mkI a (length (slots_of n)) t).
Proof. intros W E. unfold end_. rewrite (view_size _ _ _ _ W). cbn. exact (view_at _ _ _ _ _ _ W E). Qed.
Lemma view_differs s a n v p q t u : view s a n v -> nth_error (stamps v) p = Some t -> nth_error (stamps v) q = Some u ->
  differs s (mkI a p t) (mkI a q u) = Val (negb (p =? q)).
Proof.
  intros W E F. unfold differs. rewrite (view_good _ _ _ _ _ _ W E), (view_good _ _ _ _ _ _ W F). cbn. now rewrite Nat.eqb_refl.
Qed.
Lemma view_deref s a n v p t : view s a n v -> nth_error (stamps v) p = Some t ->
  deref s (mkI a p t) = match nth_error (pointers n) p with Some c => Val c | None => UB end.
Proof.
  intros W E. unfold deref. rewrite (view_good _ _ _ _ _ _ W E). cbn [inode ipos]. rewrite (node_val _ _ _ (w_node _ _ _ _ W)). cbn [bind].
  unfold pointers. rewrite nth_error_map. now destruct (nth_error (slots_of n) p).
Qed.
Lemma view_next s a n v p t : view s a n v -> nth_error (stamps v) p = Some t ->
  next s (mkI a p t) = if p <? length (slots_of n) then at_pos s a (S p) else UB.
Proof.
  intros W E. unfold next. rewrite (view_good _ _ _ _ _ _ W E). cbn [inode ipos]. now rewrite (view_size _ _ _ _ W).
Qed.
Lemma view_prev s a n v p t : view s a n v -> nth_error (stamps v) p = Some t ->
  prev s (mkI a p t) = match p with O => UB | S p => at_pos s a p end.
Proof. intros W E. unfold prev. now rewrite (view_good _ _ _ _ _ _ W E). Qed.

Lemma positions (s : kst) a n : sound s -> fsub a (roots s) = Some n -> exists its : list iter,
  length its = S (length (slots_of n)) /\
  (exists b, nth_error its 0 = Some b /\ begin_ s a = Val b) /\
  (exists e, nth_error its (length (slots_of n)) = Some e /\ end_ s a = Val e) /\
  (forall p it, nth_error its p = Some it -> good s it = true /\
     deref s it = match nth_error (pointers n) p with Some c => Val c | None => UB end /\
     next s it = match nth_error its (S p) with Some i => Val i | None => UB end /\
     prev s it = match p with O => UB | S q => match nth_error its q with Some i => Val i | None => UB end end) /\
  forall p q i j, nth_error its p = Some i -> nth_error its q = Some j -> differs s i j = Val (negb (p =? q)).
Proof.
  intros SO E. destruct (sound_view s a n SO E) as (v & W).
  set (its := map (fun pt => mkI a (fst pt) (snd pt)) (combine (seq 0 (length (stamps v))) (stamps v))).
  assert (NTH : forall p, nth_error its p = match nth_error (stamps v) p with Some t => Some (mkI a p t) | None => None end).
  { intros p. unfold its. rewrite nth_error_map.
    assert (C : forall (l : list nat) o q, nth_error (combine (seq o (length l)) l) q = match nth_error l q with Some t => Some (o + q, t) | None => None end).
    { induction l as [|t l IH]; intros o [|q]; cbn; auto; [now rewrite Nat.add_0_r|]. rewrite IH. now rewrite Nat.add_succ_r. }
    rewrite C. cbn. now destruct (nth_error (stamps v) p). }
  exists its. split; [|split; [|split; [|split]]].
  - unfold its. rewrite map_length, combine_length, seq_length, Nat.min_id. apply W.
  - destruct (view_stamp s a n v 0 W) as (t & T); [lia|]. exists (mkI a 0 t). rewrite NTH, T. split; [reflexivity|]. exact (view_at _ _ _ _ _ _ W T).
  - destruct (view_stamp s a n v (length (slots_of n)) W) as (t & T); [lia|]. eexists. rewrite NTH, T. split; [reflexivity|].
    exact (view_end _ _ _ _ _ W T).
  - intros p it. rewrite NTH. destruct (nth_error (stamps v) p) as [t|] eqn:T; [|discriminate]. intros [= <-].
    assert (L : p < S (length (slots_of n))) by (rewrite <- (w_len _ _ _ _ W); apply nth_error_Some; congruence).
    split; [exact (view_good _ _ _ _ _ _ W T)|]. split; [exact (view_deref _ _ _ _ _ _ W T)|]. split.
    + rewrite (view_next _ _ _ _ _ _ W T), NTH. destruct (Nat.ltb_spec p (length (slots_of n))).
      * destruct (view_stamp s a n v (S p) W) as (u & U); [lia|]. rewrite U. exact (view_at _ _ _ _ _ _ W U).
      * replace (nth_error (stamps v) (S p)) with (@None nat); [reflexivity|]. symmetry. apply nth_error_None. rewrite (w_len _ _ _ _ W). lia.
    + rewrite (view_prev _ _ _ _ _ _ W T). destruct p as [|q]; [reflexivity|]. rewrite NTH.
      destruct (view_stamp s a n v q W) as (u & U); [lia|]. rewrite U. exact (view_at _ _ _ _ _ _ W U).
  - intros p q i j. rewrite !NTH. destruct (nth_error (stamps v) p) as [t|] eqn:T; [|discriminate]. destruct (nth_error (stamps v) q) as [u|] eqn:U; [|discriminate].
    intros [= <-] [= <-]. exact (view_differs _ _ _ _ _ _ _ _ W T U).
Qed.

(** ** Loops *)
Notation leaves := (leaves max_node_size).
Notation keeps_pointers := (keeps_pointers max_node_size).
Lemma pointers_length (n : knode) : length (pointers n) = length (slots_of n).
Proof. apply map_length. Qed.
Lemma leaves_view a body past (s : kst) c n v : leaves a body -> sound s -> view s a n v -> In c (pointers n) ->
  exists s' n', body past s c = Val s' /\ sound s' /\ view s' a n' v /\ length (slots_of n') = length (slots_of n).
Proof.
  intros LE SO W IC. destruct (LE past s n c SO (w_node _ _ _ _ W) IC) as (s' & E & SO' & LI & EV).
  destruct (in_fsub a _ LI) as (n' & E'). destruct (sound_view s' a n' SO' E') as (v' & W').
  assert (v' = v) by (pose proof (w_vec _ _ _ _ W'); rewrite EV, (w_vec _ _ _ _ W) in *; congruence). subst v'.
  exists s', n'. split; [assumption|]. split; [assumption|]. split; [assumption|].
  pose proof (w_len _ _ _ _ W). pose proof (w_len _ _ _ _ W'). lia.
Qed.

Lemma each_ok a body : leaves a body -> forall k fuel p (s : kst) n v t past, k <= fuel -> sound s -> view s a n v ->
  p + k = length (slots_of n) -> nth_error (stamps v) p = Some t ->
  exists s' cs, for_each fuel body s (mkI a p t) past = Val (s', past ++ cs) /\ turns a body (seq p k) past s cs s' /\
    sound s' /\ exists n', view s' a n' v.
Proof.
  intros LE. induction k as [|k IH]; intros fuel p s n v t past LF SO W LK T.
  - assert (p = length (slots_of n)) by lia. subst p. exists s, []. rewrite app_nil_r. split; [|split; [constructor|split; [assumption|eauto]]].
    destruct fuel; cbn [for_each inode]; rewrite (view_end _ _ _ _ _ W T); cbn [bind]; rewrite (view_differs _ _ _ _ _ _ _ _ W T T); cbn [bind];
      rewrite Nat.eqb_refl; reflexivity.
  - destruct fuel as [|fuel]; [lia|]. cbn [for_each inode seq]. destruct (view_stamp s a n v (length (slots_of n)) W) as (e & Ee); [lia|].
    rewrite (view_end _ _ _ _ _ W Ee). cbn [bind]. rewrite (view_differs _ _ _ _ _ _ _ _ W T Ee). cbn [bind].
    destruct (Nat.eqb_spec p (length (slots_of n))); [lia|]. cbn [negb]. rewrite (view_deref _ _ _ _ _ _ W T).
    destruct (nth_error (pointers n) p) as [c|] eqn:C; [|apply nth_error_None in C; rewrite pointers_length in C; lia]. cbn [bind].
    destruct (leaves_view a body past s c n v LE SO W (nth_error_In _ _ C)) as (s1 & n1 & E1 & SO1 & W1 & L1). rewrite E1. cbn [bind].
    rewrite (view_next _ _ _ _ _ _ W1 T). destruct (Nat.ltb_spec p (length (slots_of n1))); [|lia].
    destruct (view_stamp s1 a n1 v (S p) W1) as (u & U); [lia|]. rewrite (view_at _ _ _ _ _ _ W1 U). cbn [bind].
    destruct (IH fuel (S p) s1 n1 v u (past ++ [c])) as (s2 & cs & E2 & TU & SO2 & W2); auto; try lia.
    exists s2, (c :: cs). rewrite E2, <- app_assoc. split; [reflexivity|]. split; [|auto].
    apply (turns_cons a body p (seq (S p) k) past s c n s1 cs s2); auto. apply W.
Qed.
Lemma loop_ok a body fuel (s : kst) n : leaves a body -> sound s -> fsub a (roots s) = Some n -> length (slots_of n) <= fuel ->
  exists s' cs, loop fuel body s a = Val (s', cs) /\ turns a body (seq 0 (length (slots_of n))) [] s cs s' /\ sound s' /\ live s' a.
Proof.
  intros LE SO E L. destruct (sound_view s a n SO E) as (v & W). destruct (view_stamp s a n v 0 W) as (t & T); [lia|].
  unfold loop, begin_. rewrite (view_at _ _ _ _ _ _ W T). cbn [bind].
  destruct (each_ok a body LE (length (slots_of n)) fuel 0 s n v t [] L SO W eq_refl T) as (s' & cs & E1 & TU & SO' & n' & W').
  exists s', cs. split; [exact E1|]. split; [assumption|]. split; [assumption|]. exact (fsub_in _ _ _ (w_node _ _ _ _ W')).
Qed.

Lemma range_ok a body : leaves a body -> forall k fuel p (s : kst) n v t e past, k <= fuel -> sound s -> view s a n v ->
  p + k = length (slots_of n) -> nth_error (stamps v) p = Some t -> nth_error (stamps v) (length (slots_of n)) = Some e ->
  exists s' cs, range_for fuel body s (mkI a p t) (mkI a (length (slots_of n)) e) past = Val (s', past ++ cs) /\ turns a body (seq p k) past s cs s' /\
    sound s' /\ exists n', view s' a n' v.
Proof.
  intros LE. induction k as [|k IH]; intros fuel p s n v t e past LF SO W LK T Ee.
  - assert (p = length (slots_of n)) by lia. subst p. exists s, []. rewrite app_nil_r. split; [|split; [constructor|split; [assumption|eauto]]].
    destruct fuel; cbn [range_for inode]; rewrite (view_differs _ _ _ _ _ _ _ _ W T Ee); cbn [bind];
      rewrite Nat.eqb_refl; reflexivity.
  - destruct fuel as [|fuel]; [lia|]. cbn [range_for inode seq]. rewrite (view_differs _ _ _ _ _ _ _ _ W T Ee). cbn [bind].
    destruct (Nat.eqb_spec p (length (slots_of n))); [lia|]. cbn [negb]. rewrite (view_deref _ _ _ _ _ _ W T).
    destruct (nth_error (pointers n) p) as [c|] eqn:C; [|apply nth_error_None in C; rewrite pointers_length in C; lia]. cbn [bind].
    destruct (leaves_view a body past s c n v LE SO W (nth_error_In _ _ C)) as (s1 & n1 & E1 & SO1 & W1 & L1). rewrite E1. cbn [bind].
    rewrite (view_next _ _ _ _ _ _ W1 T). destruct (Nat.ltb_spec p (length (slots_of n1))); [|lia].
    destruct (view_stamp s1 a n1 v (S p) W1) as (u & U); [lia|]. rewrite (view_at _ _ _ _ _ _ W1 U). cbn [bind]. rewrite <- L1.
    destruct (IH fuel (S p) s1 n1 v u e (past ++ [c])) as (s2 & cs & E2 & TU & SO2 & W2); auto; try lia; [now rewrite L1|].
    exists s2, (c :: cs). rewrite E2, <- app_assoc. split; [reflexivity|]. split; [|auto].
    apply (turns_cons a body p (seq (S p) k) past s c n s1 cs s2); auto. apply W.
Qed.
Lemma loop_range_ok a body fuel (s : kst) n : leaves a body -> sound s -> fsub a (roots s) = Some n -> length (slots_of n) <= fuel ->
  exists s' cs, loop_range fuel body s a = Val (s', cs) /\ turns a body (seq 0 (length (slots_of n))) [] s cs s' /\ sound s' /\ live s' a.
Proof.
  intros LE SO E L. destruct (sound_view s a n SO E) as (v & W). destruct (view_stamp s a n v 0 W) as (t & T); [lia|].
  destruct (view_stamp s a n v (length (slots_of n)) W) as (e & Ee); [lia|].
  unfold loop_range, begin_. rewrite (view_at _ _ _ _ _ _ W T). cbn [bind]. rewrite (view_end _ _ _ _ _ W Ee). cbn [bind].
  destruct (range_ok a body LE (length (slots_of n)) fuel 0 s n v t e [] L SO W eq_refl T Ee) as (s' & cs & E1 & TU & SO' & n' & W').
  exists s', cs. split; [exact E1|]. split; [assumption|]. split; [assumption|]. exact (fsub_in _ _ _ (w_node _ _ _ _ W')).
Qed.

Lemma reversed_ok a body : leaves a body -> forall p fuel (s : kst) n v t past, p <= fuel -> sound s -> view s a n v ->
  p <= length (slots_of n) -> nth_error (stamps v) p = Some t ->
  exists s' cs, for_each_reversed fuel body s (mkI a p t) past = Val (s', past ++ cs) /\ turns a body (rev (seq 0 p)) past s cs s' /\
    sound s' /\ exists n', view s' a n' v.
Proof.
  intros LE. induction p as [|p IH]; intros fuel s n v t past LF SO W LK T.
  - exists s, []. rewrite app_nil_r. split; [|split; [constructor|split; [assumption|eauto]]].
    destruct fuel; cbn [for_each_reversed inode]; unfold begin_; rewrite (view_at _ _ _ _ _ _ W T); cbn [bind]; rewrite (view_differs _ _ _ _ _ _ _ _ W T T); cbn [bind];
      reflexivity.
  - destruct fuel as [|fuel]; [lia|]. cbn [for_each_reversed inode]. destruct (view_stamp s a n v 0 W) as (b & B); [lia|].
    unfold begin_. rewrite (view_at _ _ _ _ _ _ W B). cbn [bind]. rewrite (view_differs _ _ _ _ _ _ _ _ W T B). cbn [bind Nat.eqb negb].
    destruct (view_stamp s a n v p W) as (u & U); [lia|]. rewrite (view_prev _ _ _ _ _ _ W T), (view_at _ _ _ _ _ _ W U). cbn [bind].
    rewrite (view_deref _ _ _ _ _ _ W U).
    destruct (nth_error (pointers n) p) as [c|] eqn:C; [|apply nth_error_None in C; rewrite pointers_length in C; lia]. cbn [bind].
    destruct (leaves_view a body past s c n v LE SO W (nth_error_In _ _ C)) as (s1 & n1 & E1 & SO1 & W1 & L1). rewrite E1. cbn [bind].
    rewrite (view_prev _ _ _ _ _ _ W1 T), (view_at _ _ _ _ _ _ W1 U). cbn [bind].
    destruct (IH fuel s1 n1 v u (past ++ [c])) as (s2 & cs & E2 & TU & SO2 & W2); auto; try lia.
    exists s2, (c :: cs). rewrite E2, <- app_assoc. split; [reflexivity|]. split; [|auto].
    rewrite seq_S, rev_app_distr. cbn [rev app Nat.add]. apply (turns_cons a body p (rev (seq 0 p)) past s c n s1 cs s2); auto. apply W.
Qed.
Lemma loop_reversed_ok a body fuel (s : kst) n : leaves a body -> sound s -> fsub a (roots s) = Some n -> length (slots_of n) <= fuel ->
  exists s' cs, loop_reversed fuel body s a = Val (s', cs) /\ turns a body (rev (seq 0 (length (slots_of n)))) [] s cs s' /\ sound s' /\ live s' a.
Proof.
  intros LE SO E L. destruct (sound_view s a n SO E) as (v & W). destruct (view_stamp s a n v (length (slots_of n)) W) as (t & T); [lia|].
  unfold loop_reversed. rewrite (view_end _ _ _ _ _ W T). cbn [bind].
  destruct (reversed_ok a body LE (length (slots_of n)) fuel s n v t [] L SO W (le_n _) T) as (s' & cs & E1 & TU & SO' & n' & W').
  exists s', cs. split; [exact E1|]. split; [assumption|]. split; [assumption|]. exact (fsub_in _ _ _ (w_node _ _ _ _ W')).
Qed.

(** Without changes to the slots the pointers are those of the beginning. *)
Lemma turns_fixed a body : leaves a body -> keeps_pointers a body -> forall ks past (s : kst) cs s' n,
  sound s -> fsub a (roots s) = Some n -> turns a body ks past s cs s' ->
  map Some cs = map (fun k => nth_error (pointers n) k) ks.
Proof.
  intros LE KP ks past s cs s' n SO E TU. revert n SO E. induction TU as [|k ks past s c m s1 cs s2 E1 C B _ IH]; intros n SO E; [reflexivity|].
  rewrite E1 in E. injection E as <-. cbn [map]. rewrite C. f_equal. destruct (sound_view s a m SO E1) as (v & W).
  destruct (leaves_view a body past s c m v LE SO W (nth_error_In _ _ C)) as (s1' & n1 & B' & SO1 & W1 & _). rewrite B in B'. injection B' as <-.
  rewrite (IH n1 SO1 (w_node _ _ _ _ W1)). now rewrite (KP past s m c s1 n1 SO E1 (nth_error_In _ _ C) B (w_node _ _ _ _ W1)).
Qed.
Lemma map_nth_all {A} (l : list A) : map (nth_error l) (seq 0 (length l)) = map Some l.
Proof.
  induction l as [|x l IH]; [reflexivity|]. cbn [length seq map nth_error]. f_equal. rewrite <- IH, <- seq_shift, map_map. reflexivity.
Qed.
Lemma map_some_inj {A} (l m : list A) : map Some l = map Some m -> l = m.
Proof. revert m. induction l as [|x l IH]; intros [|y m]; cbn; try discriminate; [reflexivity|]. intros [= -> H]. f_equal. now apply IH. Qed.
Lemma loops_fixed a body fuel (s : kst) n : leaves a body -> keeps_pointers a body -> sound s -> fsub a (roots s) = Some n -> length (slots_of n) <= fuel ->
  (exists s', loop fuel body s a = Val (s', pointers n)) /\ (exists s', loop_range fuel body s a = Val (s', pointers n)) /\
  (exists s', loop_reversed fuel body s a = Val (s', rev (pointers n))).
Proof.
  intros LE KP SO E L. split; [|split].
  - destruct (loop_ok a body fuel s n LE SO E L) as (s' & cs & E1 & TU & _). exists s'. rewrite E1. do 2 f_equal. apply map_some_inj.
    rewrite (turns_fixed a body LE KP _ _ _ _ _ n SO E TU), <- (pointers_length n). apply map_nth_all.
  - destruct (loop_range_ok a body fuel s n LE SO E L) as (s' & cs & E1 & TU & _). exists s'. rewrite E1. do 2 f_equal. apply map_some_inj.
    rewrite (turns_fixed a body LE KP _ _ _ _ _ n SO E TU), <- (pointers_length n). apply map_nth_all.
  - destruct (loop_reversed_ok a body fuel s n LE SO E L) as (s' & cs & E1 & TU & _). exists s'. rewrite E1. do 2 f_equal. apply map_some_inj.
    rewrite (turns_fixed a body LE KP _ _ _ _ _ n SO E TU), <- (pointers_length n), !map_rev. f_equal. apply map_nth_all.
Qed.

(** ** Which calls are defined *)
Lemma do_call_defined i c (n : knode) : in_range max_node_size c -> length (slots_of n) <= mx ->
  exists n' ans h f i', do_call max_node_size i c n = Val (n', (ans, h, f, i')).
Proof.
  intros R W. destruct c; cbn [do_call in_range] in *.
  - destruct (add_child max_node_size i n v) as [[n1 b] i1]. repeat eexists.
  - destruct (insert_at_first_null max_node_size i n v) as [[n1 b] i1]. repeat eexists.
  - destruct (insert_at max_node_size i n position v) as [[n1 b] i1]. repeat eexists.
  - destruct (replace_at_ok max_node_size MAX i n position v R) as (n1 & o & -> & _). cbn [bind]. repeat eexists.
  - destruct (delete_child n child) as [[n1 b] f]. repeat eexists.
  - destruct (extract_child n child) as [n1 o]. repeat eexists.
  - destruct (clear n) as [n1 f]. repeat eexists.
  - repeat eexists.
Qed.

Lemma call_view (s : kst) a n v c : sound s -> view s a n v -> in_range max_node_size c ->
  exists s' r n' ans h f i', kcall s a c = Val (s', r) /\ do_call max_node_size (fresh s) c n = Val (n', (ans, h, f, i')) /\
    sound s' /\ view s' a n' (vec_after grow (tick s) c n n' v) /\ s' = after_k s a c n n' v h i'.
Proof.
  intros SO W R. destruct (do_call_defined (fresh s) c n R (sound_width _ _ _ SO (w_node _ _ _ _ W))) as (n' & ans & h & f & i' & D).
  assert (E : kcall s a c = Val (after_k s a c n n' v h i', (ans, option_map id_of h))).
  { unfold KaryIterModel.kcall. rewrite (node_val _ _ _ (w_node _ _ _ _ W)). cbn [bind].
    rewrite (vector_val _ _ _ _ (w_node _ _ _ _ W) (w_vec _ _ _ _ W)). cbn [bind]. rewrite D. reflexivity. }
  pose proof (sound_width _ _ _ SO (w_node _ _ _ _ W)) as L.
  pose proof (do_call_shape _ _ _ _ _ _ _ _ D L) as SH. pose proof (do_call_effect _ _ _ _ _ _ _ _ D L) as EF.
  pose proof (kcall_sound _ _ _ _ _ SO E) as SO'.
  exists (after_k s a c n n' v h i'), (ans, option_map id_of h), n', ans, h, f, i'. split; [exact E|]. split; [exact D|]. split; [exact SO'|].
  split; [|reflexivity]. constructor.
  - exact (step_self s a c n n' v h f i' (w_node _ _ _ _ W) EF).
  - exact (step_vec_self s a c n n' v h i' (w_vec _ _ _ _ W)).
  - exact (proj1 (vec_after_ok s a c n n' v h f i' SO (w_node _ _ _ _ W) (w_vec _ _ _ _ W) SH)).
Qed.
Lemma kcall_defined (s : kst) a c : sound s ->
  (live s a /\ in_range max_node_size c -> exists s' r, kcall s a c = Val (s', r)) /\
  (~ live s a \/ ~ in_range max_node_size c -> kcall s a c = UB).
Proof.
  intros SO. split.
  - intros [L R]. destruct (in_fsub a _ L) as (n & E). destruct (sound_view s a n SO E) as (v & W).
    destruct (call_view s a n v c SO W R) as (s' & r & n' & ans & h & f & i' & H & _). eauto.
  - intros H. unfold KaryIterModel.kcall, node. destruct (fsub a (roots s)) as [n|] eqn:E; [|reflexivity]. cbn [bind].
    destruct H as [H|H]; [exfalso; apply H; exact (fsub_in _ _ _ E)|]. destruct (sound_view s a n SO E) as (v & W).
    rewrite (vector_val _ _ _ _ (w_node _ _ _ _ W) (w_vec _ _ _ _ W)). cbn [bind].
    destruct c; cbn [in_range] in H; try (exfalso; apply H; exact Logic.I). cbn [do_call].
    rewrite (replace_at_ub max_node_size); [reflexivity|lia|]. exact (sound_width _ _ _ SO E).
Qed.

(** A call elsewhere does not touch the node. *)
Lemma call_other (s : kst) a n v b c s' r : sound s -> view s a n v -> b <> a -> kcall s b c = Val (s', r) ->
  (forall m, fsub b (roots s) = Some m -> ~ In a (deleted m c)) ->
  exists n', view s' a n' v /\ pointers n' = pointers n.
Proof.
  intros SO W NE E H. pose proof (kcall_sound _ _ _ _ _ SO E) as SO'.
  destruct (kcall_val s b c s' r SO E) as (m & u & m' & ans & h & f & i' & HN & HV & _ & SH & EF & -> & _).
  assert (LA : In a (fids (roots s))) by exact (fsub_in _ _ _ (w_node _ _ _ _ W)).
  assert (L' : In a (fids (roots (after_k s b c m m' u h i')))).
  { apply (step_live s b c m m' u h f i' SO HN SH EF). left. split; [assumption|]. intros I. apply (H m HN). now apply (h_del _ _ _ _ _ _ _ SH). }
  destruct (in_fsub a _ L') as (n' & E'). exists n'. destruct (sound_view _ a n' SO' E') as (v' & W').
  assert (v' = v).
  { pose proof (w_vec _ _ _ _ W') as X. rewrite (step_vec_other s b c m m' u h i' SO a (not_eq_sym NE) (old_bound s SO a LA)), (w_vec _ _ _ _ W) in X. congruence. }
  subst v'. split; [assumption|]. destruct (step_found s b c m m' u h f i' SO HN SH EF a n' E') as [[X _]|[(X & _ & _)|(_ & k0 & X & Y)]].
  - congruence.
  - pose proof (old_bound s SO a LA). lia.
  - rewrite (w_node _ _ _ _ W) in X. now injection X as <-.
Qed.
Lemma in_place_vec i c (n n' : knode) ans h f i' t v : do_call max_node_size i c n = Val (n', (ans, h, f, i')) -> length (slots_of n) <= mx ->
  in_place n c -> vec_after grow t c n n' v = v.
Proof.
  intros D L P. pose proof (h_size _ _ _ _ _ _ _ (do_call_shape _ _ _ _ _ _ _ _ D L)) as Z.
  unfold vec_after. destruct c; cbn [in_place size_after] in P, Z; try contradiction.
  - rewrite P in Z. now rewrite Z, Nat.ltb_irrefl.
  - apply N.ltb_lt in P. rewrite P in Z. now rewrite Z, Nat.ltb_irrefl.
  - apply N.ltb_lt in P. rewrite P in Z. now rewrite Z, Nat.ltb_irrefl.
  - now rewrite Z, Nat.ltb_irrefl.
  - now rewrite Z, Nat.ltb_irrefl.
Qed.
Lemma in_place_range (n : knode) c : length (slots_of n) <= mx -> in_place n c -> in_range max_node_size c.
Proof. destruct c; cbn; auto. lia. Qed.
Lemma spares_ok (s : kst) a o s' r : sound s -> live s a -> spares s a o -> kstep s o = Val (s', r) ->
  sound s' /\ live s' a /\ nth_error (vecs s') a = nth_error (vecs s) a.
Proof.
  intros SO LI SP E. split; [exact (kstep_sound _ _ _ _ SO E)|]. destruct (in_fsub a _ LI) as (n & En). destruct (sound_view s a n SO En) as (v & W).
  destruct o as [b c|w|b]; cbn [KaryIterModel.kstep spares] in *.
  - destruct (Nat.eqb_spec b a) as [->|NE].
    + specialize (SP n En). pose proof (sound_width _ _ _ SO En) as L.
      destruct (call_view s a n v c SO W (in_place_range n c L SP)) as (t & r' & n' & ans & h & f & i' & H & D & SO' & W' & _).
      rewrite E in H. injection H as <- <-. rewrite (in_place_vec _ _ _ _ _ _ _ _ (tick s) v D L SP) in W'.
      split; [exact (fsub_in _ _ _ (w_node _ _ _ _ W'))|]. now rewrite (w_vec _ _ _ _ W'), (w_vec _ _ _ _ W).
    + destruct (call_other s a n v b c s' r SO W NE E SP) as (n' & W' & _).
      split; [exact (fsub_in _ _ _ (w_node _ _ _ _ W'))|]. now rewrite (w_vec _ _ _ _ W'), (w_vec _ _ _ _ W).
  - destruct (knew s w) as [t x] eqn:Ek. injection E as <- _. injection Ek as <- _. cbn [roots vecs]. split.
    + unfold live. cbn [roots]. rewrite fids_app. apply in_or_app. now left.
    + apply nth_error_app1. apply nth_error_Some. rewrite (w_vec _ _ _ _ W). discriminate.
  - destruct (kdestroy s b) as [t| | |] eqn:Ek; try discriminate. cbn in E. injection E as <- _.
    destruct (kdestroy_val s b t SO Ek) as (m & I & Em & Ef & Ev & Et & RM & FS). rewrite Ev. split; [|reflexivity].
    assert (F : fsub a (roots t) = Some n).
    { rewrite FS. destruct (in_dec Nat.eq_dec a (ids m)) as [J|J]; [|assumption]. exfalso. destruct SO as (D & _). apply (SP m); [|assumption].
      rewrite (fsub_of _ m b D I); subst b; [apply sub_self|apply in_id]. }
    exact (fsub_in _ _ _ F).
Qed.

(** ** Loops that use the child at hand *)
Lemma pointer_child (n : knode) x : In (Some x) (pointers n) -> exists d, In (Some d) (slots_of n) /\ id_of d = x.
Proof.
  unfold pointers. intros I. apply in_map_iff in I. destruct I as ([d|] & E & I); [|discriminate]. injection E as <-. eauto.
Qed.
Lemma child_call (s : kst) a n v x c : sound s -> view s a n v -> In (Some x) (pointers n) -> in_range max_node_size c ->
  exists s' r n', kcall s x c = Val (s', r) /\ sound s' /\ view s' a n' v /\ pointers n' = pointers n.
Proof.
  intros SO W I R. destruct (pointer_child n x I) as (d & J & Ed). pose proof SO as (D & _). pose proof (fsub_nodup _ _ _ D (w_node _ _ _ _ W)) as Dn.
  assert (Fx : fsub x (roots s) = Some d).
  { rewrite <- Ed at 1. rewrite (kid_below s a n SO (w_node _ _ _ _ W) d (id_of d) J (in_id d)). apply sub_self. }
  assert (NE : x <> a). { rewrite <- Ed. destruct (sub_kid n d (id_of d) Dn J (in_id d)) as [_ X]. now rewrite (fsub_id _ _ _ (w_node _ _ _ _ W)) in X. }
  destruct (proj1 (kcall_defined s x c SO)) as (s' & r & E); [split; [exact (fsub_in _ _ _ Fx)|assumption]|].
  destruct (call_other s a n v x c s' r SO W NE E) as (n' & W' & P).
  { intros m Em IN. rewrite Fx in Em. injection Em as <-.
    assert (A : In a (ids d)).
    { destruct (kcall_val s x c s' r SO E) as (m & u & m' & ans & h & f & i' & HN & HV & _ & SH & EF & -> & _). rewrite Fx in HN. injection HN as <-.
      apply (h_del _ _ _ _ _ _ _ SH) in IN. exact (proj1 (deleted_below s x c d m' h f i' SO Fx SH EF a IN)). }
    destruct (sub_kid n d a Dn J A) as [_ X]. apply X. symmetry. exact (fsub_id _ _ _ (w_node _ _ _ _ W)). }
  exists s', r, n'. split; [assumption|]. split; [exact (kcall_sound _ _ _ _ _ SO E)|]. auto.
Qed.
Lemma on_child_leaves a (f : nat -> call V) : (forall t, in_range max_node_size (f t)) ->
  leaves a (on_child max_node_size grow f) /\ keeps_pointers a (on_child max_node_size grow f).
Proof.
  intros R. split.
  - intros past s n c SO E I. destruct (sound_view s a n SO E) as (v & W). destruct c as [x|]; cbn [on_child].
    + destruct (child_call s a n v x (f (length past)) SO W I (R _)) as (s' & r & n' & E1 & SO' & W' & _). rewrite E1. cbn [bind].
      exists s'. split; [reflexivity|]. split; [assumption|]. split; [exact (fsub_in _ _ _ (w_node _ _ _ _ W'))|].
      now rewrite (w_vec _ _ _ _ W'), (w_vec _ _ _ _ W).
    + exists s. split; [reflexivity|]. split; [assumption|]. split; [exact (fsub_in _ _ _ E)|reflexivity].
  - intros past s n c s' n' SO E I B E'. destruct (sound_view s a n SO E) as (v & W). destruct c as [x|]; cbn [on_child] in B.
    + destruct (child_call s a n v x (f (length past)) SO W I (R _)) as (s1 & r & n1 & E1 & SO' & W' & P). rewrite E1 in B. cbn [bind] in B.
      injection B as <-. rewrite (w_node _ _ _ _ W') in E'. now injection E' as <-.
    + injection B as <-. rewrite E in E'. now injection E' as <-.
Qed.

(** ** Loops that break *)
Lemma broken_turn (s : kst) a n v (body : body_t) c p t : sound s -> view s a n v -> nth_error (stamps v) p = Some t ->
  (forall x, body [] s x = let* (s, _) := kcall s a c in Val s) -> after_call max_node_size n v c p = false ->
  forall x, body [] s x = UB \/ exists s', body [] s x = Val s' /\ good s' (mkI a p t) = false.
Proof.
  intros SO W T B F x. rewrite B. destruct (kcall s a c) as [[s' r]| | |] eqn:E; cbn [bind]; auto.
  - right. exists s'. split; [reflexivity|]. destruct (good s' (mkI a p t)) eqn:G; [|reflexivity]. exfalso.
    assert (X : kstep s (KCallOn a c) = Val (s', r)) by exact E.
    pose proof (proj1 (survive s _ s' r _ SO (view_good _ _ _ _ _ _ W T) X) G) as SV. cbn [survives inode ipos] in SV. rewrite Nat.eqb_refl in SV.
    rewrite (SV n v (w_node _ _ _ _ W) (w_vec _ _ _ _ W)) in F. discriminate.
  - exfalso. unfold KaryIterModel.kcall in E. rewrite (node_val _ _ _ (w_node _ _ _ _ W)) in E. cbn [bind] in E.
    rewrite (vector_val _ _ _ _ (w_node _ _ _ _ W) (w_vec _ _ _ _ W)) in E. cbn [bind] in E.
    destruct (kcall_defined s a c SO) as [K1 K2].
    assert (RD : in_range max_node_size c \/ ~ in_range max_node_size c) by (destruct c; cbn; try (left; exact Logic.I); lia).
    destruct RD as [R|R].
    + destruct (do_call_defined (fresh s) c n R (sound_width _ _ _ SO (w_node _ _ _ _ W))) as (n' & ans & h & f & i' & D). rewrite D in E. discriminate.
    + specialize (K2 (or_intror R)). unfold KaryIterModel.kcall in K2. rewrite (node_val _ _ _ (w_node _ _ _ _ W)) in K2. cbn [bind] in K2.
      rewrite (vector_val _ _ _ _ (w_node _ _ _ _ W) (w_vec _ _ _ _ W)) in K2. cbn [bind] in K2. congruence.
  - exfalso. unfold KaryIterModel.kcall in E. rewrite (node_val _ _ _ (w_node _ _ _ _ W)) in E. cbn [bind] in E.
    rewrite (vector_val _ _ _ _ (w_node _ _ _ _ W) (w_vec _ _ _ _ W)) in E. cbn [bind] in E.
    destruct (kcall_defined s a c SO) as [K1 K2].
    assert (RD : in_range max_node_size c \/ ~ in_range max_node_size c) by (destruct c; cbn; try (left; exact Logic.I); lia).
    destruct RD as [R|R].
    + destruct (do_call_defined (fresh s) c n R (sound_width _ _ _ SO (w_node _ _ _ _ W))) as (n' & ans & h & f & i' & D). rewrite D in E. discriminate.
    + specialize (K2 (or_intror R)). unfold KaryIterModel.kcall in K2. rewrite (node_val _ _ _ (w_node _ _ _ _ W)) in K2. cbn [bind] in K2.
      rewrite (vector_val _ _ _ _ (w_node _ _ _ _ W) (w_vec _ _ _ _ W)) in K2. cbn [bind] in K2. congruence.
Qed.
Lemma broken_loop (s : kst) a n v (body : body_t) c fuel : sound s -> fsub a (roots s) = Some n -> nth_error (vecs s) a = Some v -> 0 < length (slots_of n) ->
  (forall x, body [] s x = let* (s, _) := kcall s a c in Val s) ->
  (after_call max_node_size n v c 0 = false -> loop (S fuel) body s a = UB /\ loop_range (S fuel) body s a = UB) /\
  (after_call max_node_size n v c (length (slots_of n)) = false -> loop_reversed (S fuel) body s a = UB).
Proof.
  intros SO E EV P B. destruct (sound_view s a n SO E) as (v' & W). assert (v' = v) by (pose proof (w_vec _ _ _ _ W); congruence). subst v'.
  destruct (view_stamp s a n v 0 W) as (t & T); [lia|]. destruct (view_stamp s a n v (length (slots_of n)) W) as (e & Ee); [lia|].
  assert (NX : forall (s' : kst) it, good s' it = false -> next s' it = UB) by (intros s' it G; unfold next; now rewrite G).
  assert (PV : forall (s' : kst) it, good s' it = false -> prev s' it = UB) by (intros s' it G; unfold prev; now rewrite G).
  split; intros F.
  - pose proof (broken_turn s a n v body c 0 t SO W T B F) as BT.
    destruct (nth_error (pointers n) 0) as [x|] eqn:C; [|apply nth_error_None in C; rewrite pointers_length in C; lia]. split.
    + unfold loop, begin_. rewrite (view_at _ _ _ _ _ _ W T). cbn [bind for_each inode]. rewrite (view_end _ _ _ _ _ W Ee). cbn [bind].
      rewrite (view_differs _ _ _ _ _ _ _ _ W T Ee). cbn [bind]. destruct (Nat.eqb_spec 0 (length (slots_of n))); [lia|]. cbn [negb].
      rewrite (view_deref _ _ _ _ _ _ W T), C. cbn [bind]. destruct (BT x) as [->|(s' & -> & G)]; [reflexivity|]. cbn [bind]. now rewrite NX.
    + unfold loop_range, begin_. rewrite (view_at _ _ _ _ _ _ W T). cbn [bind]. rewrite (view_end _ _ _ _ _ W Ee). cbn [bind range_for].
      rewrite (view_differs _ _ _ _ _ _ _ _ W T Ee). cbn [bind]. destruct (Nat.eqb_spec 0 (length (slots_of n))); [lia|]. cbn [negb].
      rewrite (view_deref _ _ _ _ _ _ W T), C. cbn [bind]. destruct (BT x) as [->|(s' & -> & G)]; [reflexivity|]. cbn [bind]. now rewrite NX.
  - pose proof (broken_turn s a n v body c _ e SO W Ee B F) as BT. unfold loop_reversed, begin_. rewrite (view_end _ _ _ _ _ W Ee). cbn [bind for_each_reversed inode].
    unfold begin_. rewrite (view_at _ _ _ _ _ _ W T). cbn [bind]. rewrite (view_differs _ _ _ _ _ _ _ _ W Ee T). cbn [bind].
    destruct (Nat.eqb_spec (length (slots_of n)) 0); [lia|]. cbn [negb]. rewrite (view_prev _ _ _ _ _ _ W Ee).
    destruct (length (slots_of n)) as [|q] eqn:Q; [lia|]. destruct (view_stamp s a n v q W) as (u & U); [lia|]. rewrite (view_at _ _ _ _ _ _ W U). cbn [bind].
    rewrite (view_deref _ _ _ _ _ _ W U). destruct (nth_error (pointers n) q) as [x|] eqn:C; [|apply nth_error_None in C; rewrite pointers_length in C; lia].
    cbn [bind]. destruct (BT x) as [->|(s' & -> & G)]; [reflexivity|]. cbn [bind]. now rewrite PV.
Qed.

(** ** Loops that add children *)
Lemma skipn_nth {A} (l : list A) p x : nth_error l p = Some x -> skipn p l = x :: skipn (S p) l.
Proof. revert p. induction l as [|y l IH]; intros [|p]; cbn; intros E; try discriminate; [now injection E as ->|]. rewrite (IH p E). now destruct l. Qed.
Lemma nth_error_firstn {A} (l : list A) p k : p < k -> nth_error (firstn k l) p = nth_error l p.
Proof. revert p k. induction l as [|y l IH]; intros [|p] [|k] L; cbn; auto; try lia. apply IH. lia. Qed.
Lemma firstn_part {A} (l m : list A) k : length l = k -> firstn k (l ++ m) = l.
Proof. intros <-. rewrite firstn_app, firstn_all, Nat.sub_diag. apply app_nil_r. Qed.
Lemma skipn_part {A} (l m : list A) k : length l = k -> skipn k (l ++ m) = m.
Proof. intros <-. now rewrite skipn_app, skipn_all, Nat.sub_diag. Qed.
Lemma pointers_app (n : knode) l : pointers (with_slots n (slots_of n ++ l)) = pointers n ++ map (option_map id_of) l.
Proof. unfold pointers. now rewrite with_slots_slots, map_app. Qed.

(** One turn of adding. *)
Lemma add_turn (s : kst) a n v x : sound s -> view s a n v -> exists s' r n' w, kcall s a (CAdd x) = Val (s', r) /\ sound s' /\ view s' a n' w /\
  if (length (slots_of n) <? mx) then
    length (slots_of n') = S (length (slots_of n)) /\ firstn (length (slots_of n)) (pointers n') = pointers n /\
    (S (length (slots_of n)) <= cap v -> cap w = cap v /\ forall p, p < length (slots_of n) -> nth_error (stamps w) p = nth_error (stamps v) p) /\
    (forall p t, nth_error (stamps v) p = Some t -> (cap v < S (length (slots_of n)) \/ p = length (slots_of n)) -> good s' (mkI a p t) = false)
  else n' = n /\ w = v.
Proof.
  intros SO W. destruct (call_view s a n v (CAdd x) SO W Logic.I) as (s' & r & n' & ans & h & f & i' & E & D & SO' & W' & _).
  exists s', r, n', (vec_after grow (tick s) (CAdd x) n n' v). split; [exact E|]. split; [exact SO'|]. split; [exact W'|].
  assert (GO : forall p t, nth_error (stamps v) p = Some t -> after_call max_node_size n v (CAdd x) p = false -> good s' (mkI a p t) = false).
  { intros p t T F. destruct (good s' (mkI a p t)) eqn:G; [|reflexivity]. exfalso. assert (X : kstep s (KCallOn a (CAdd x)) = Val (s', r)) by exact E.
    pose proof (proj1 (survive s _ s' r _ SO (view_good _ _ _ _ _ _ W T) X) G) as SV. cbn [survives inode ipos] in SV. rewrite Nat.eqb_refl in SV.
    rewrite (SV n v (w_node _ _ _ _ W) (w_vec _ _ _ _ W)) in F. discriminate. }
  cbn [do_call] in D. unfold add_child, sizeN in D. cbn [after_call] in GO. destruct (Nat.ltb_spec (length (slots_of n)) mx) as [L|L].
  - assert (L' : (N.of_nat (length (slots_of n)) <? max_node_size)%N = true) by (apply N.ltb_lt; lia). rewrite L' in D, GO. injection D as <- <- <- <- <-.
    assert (ZL : length (slots_of (with_slots n (slots_of n ++ [Some (new_node (fresh s) (Some (id_of n)) x)]))) = S (length (slots_of n)))
      by (rewrite with_slots_slots, app_length; cbn; lia).
    split; [exact ZL|]. split; [rewrite pointers_app, <- pointers_length, firstn_app, Nat.sub_diag, firstn_all; cbn; apply app_nil_r|].
    cbn [vec_after]. rewrite ZL. destruct (Nat.ltb_spec (length (slots_of n)) (S (length (slots_of n)))); [|lia]. split.
    + intros C. unfold appended. destruct (Nat.leb_spec (S (length (slots_of n))) (cap v)); [|lia]. cbn [cap stamps]. split; [reflexivity|].
      intros p P. rewrite nth_error_app1 by (rewrite firstn_length, (w_len _ _ _ _ W); lia). apply nth_error_firstn; assumption.
    + intros p t T C. apply (GO p t T). unfold after_append. destruct C as [C| ->].
      * destruct (Nat.leb_spec (S (length (slots_of n))) (cap v)); [lia|reflexivity].
      * rewrite Nat.ltb_irrefl. apply andb_false_r.
  - assert (L' : (N.of_nat (length (slots_of n)) <? max_node_size)%N = false) by (apply N.ltb_ge; lia). rewrite L' in D. injection D as <- <- <- <- <-.
    split; [reflexivity|]. cbn [vec_after]. now rewrite Nat.ltb_irrefl.
Qed.
Lemma adds_from a x : forall fuel (s : kst) n v p t past, sound s -> view s a n v -> p <= length (slots_of n) ->
  length (slots_of n) = mx \/ p < length (slots_of n) -> nth_error (stamps v) p = Some t -> mx - p <= fuel ->
  (mx <= cap v \/ length (slots_of n) = mx -> exists s' n', for_each fuel (calls_on max_node_size grow a (CAdd x)) s (mkI a p t) past = Val (s', past ++ skipn p (pointers n')) /\
     sound s' /\ fsub a (roots s') = Some n' /\ length (slots_of n') = mx /\ firstn (length (slots_of n)) (pointers n') = pointers n) /\
  (cap v < mx /\ length (slots_of n) < mx -> for_each fuel (calls_on max_node_size grow a (CAdd x)) s (mkI a p t) past = UB).
Proof.
  induction fuel as [|fuel IH]; intros s n v p t past SO W PL PQ T LF; pose proof (sound_width _ _ _ SO (w_node _ _ _ _ W)) as WD.
  - assert (p = length (slots_of n)) by lia. assert (length (slots_of n) = mx) by lia. subst p. split; [|lia]. intros _. exists s, n.
    cbn [for_each inode]. rewrite (view_end _ _ _ _ _ W T). cbn [bind]. rewrite (view_differs _ _ _ _ _ _ _ _ W T T). cbn [bind]. rewrite Nat.eqb_refl. cbn [negb].
    rewrite <- pointers_length, skipn_all, app_nil_r, firstn_all. split; [reflexivity|]. split; [assumption|]. split; [apply W|]. split; [now rewrite pointers_length|reflexivity].
  - cbn [for_each inode]. destruct (view_stamp s a n v (length (slots_of n)) W) as (e & Ee); [lia|]. rewrite (view_end _ _ _ _ _ W Ee). cbn [bind].
    rewrite (view_differs _ _ _ _ _ _ _ _ W T Ee). cbn [bind]. destruct (Nat.eqb_spec p (length (slots_of n))) as [EQ|NE]; cbn [negb].
    + subst p. assert (length (slots_of n) = mx) by lia. split; [|lia]. intros _. exists s, n.
      rewrite <- pointers_length, skipn_all, app_nil_r, firstn_all. split; [reflexivity|]. split; [assumption|]. split; [apply W|]. split; [now rewrite pointers_length|reflexivity].
    + rewrite (view_deref _ _ _ _ _ _ W T). destruct (nth_error (pointers n) p) as [c|] eqn:C; [|apply nth_error_None in C; rewrite pointers_length in C; lia]. cbn [bind].
      unfold calls_on at 1 3. destruct (add_turn s a n v x SO W) as (s1 & r & n1 & w & E1 & SO1 & W1 & H). rewrite E1. cbn [bind].
      destruct (Nat.ltb_spec (length (slots_of n)) mx) as [L|L].
      * destruct H as (Z & FN & KE & BR). destruct (Nat.le_gt_cases (S (length (slots_of n))) (cap v)) as [CL|CL].
        -- destruct (KE CL) as [CW ST]. assert (T1 : nth_error (stamps w) p = Some t) by (rewrite ST by lia; assumption).
           rewrite (view_next _ _ _ _ _ _ W1 T1). destruct (Nat.ltb_spec p (length (slots_of n1))); [|lia].
           destruct (view_stamp s1 a n1 w (S p) W1) as (u & U); [lia|]. rewrite (view_at _ _ _ _ _ _ W1 U). cbn [bind].
           destruct (IH s1 n1 w (S p) u (past ++ [c]) SO1 W1) as [I1 I2]; try lia; [assumption|]. split.
           ++ intros G. destruct I1 as (s2 & n2 & F1 & F2 & F3 & F4 & F5); [lia|]. exists s2, n2. rewrite F1. rewrite Z in F5.
              assert (F6 : firstn (length (slots_of n)) (pointers n2) = pointers n).
              { rewrite <- FN, <- F5, firstn_firstn. now rewrite Nat.min_l by lia. }
              split; [|auto]. rewrite <- app_assoc. cbn [app]. rewrite (skipn_nth (pointers n2) p c); [reflexivity|]. rewrite <- C, <- F6. symmetry. apply nth_error_firstn. lia.
           ++ intros G. apply I2. lia.
        -- unfold next. rewrite (BR p t T) by lia. split; [lia|]. intros _. reflexivity.
      * destruct H as [-> ->]. rewrite (view_next _ _ _ _ _ _ W1 T). destruct (Nat.ltb_spec p (length (slots_of n))); [|lia].
        destruct (view_stamp s1 a n v (S p) W1) as (u & U); [lia|]. rewrite (view_at _ _ _ _ _ _ W1 U). cbn [bind].
        destruct (IH s1 n v (S p) u (past ++ [c]) SO1 W1) as [I1 I2]; try lia; [assumption|]. split; [|lia].
        intros G. destruct I1 as (s2 & n2 & F1 & F2 & F3 & F4 & F5); [lia|]. exists s2, n2. rewrite F1. split; [|auto]. rewrite <- app_assoc. cbn [app].
        rewrite (skipn_nth (pointers n2) p c); [reflexivity|]. rewrite <- C, <- F5. symmetry. apply nth_error_firstn. lia.
Qed.
Lemma loop_adds (s : kst) a n v x fuel : sound s -> fsub a (roots s) = Some n -> nth_error (vecs s) a = Some v -> 0 < length (slots_of n) -> mx <= fuel ->
  (mx <= cap v \/ length (slots_of n) = mx -> exists s' n', loop fuel (calls_on max_node_size grow a (CAdd x)) s a = Val (s', pointers n') /\
     sound s' /\ fsub a (roots s') = Some n' /\ length (slots_of n') = mx /\ firstn (length (slots_of n)) (pointers n') = pointers n) /\
  (cap v < mx /\ length (slots_of n) < mx -> loop fuel (calls_on max_node_size grow a (CAdd x)) s a = UB).
Proof.
  intros SO E EV P LF. destruct (sound_view s a n SO E) as (v' & W). assert (v' = v) by (pose proof (w_vec _ _ _ _ W); congruence). subst v'.
  destruct (view_stamp s a n v 0 W) as (t & T); [lia|]. unfold loop, begin_. rewrite (view_at _ _ _ _ _ _ W T). cbn [bind].
  destruct (adds_from a x fuel s n v 0 t [] SO W) as [H1 H2]; try lia; auto.
Qed.
Lemma range_adds (s : kst) a n x fuel : sound s -> fsub a (roots s) = Some n -> 0 < length (slots_of n) < mx ->
  loop_range (S fuel) (calls_on max_node_size grow a (CAdd x)) s a = UB.
Proof.
  intros SO E P. destruct (sound_view s a n SO E) as (v & W). destruct (view_stamp s a n v 0 W) as (t & T); [lia|].
  destruct (view_stamp s a n v (length (slots_of n)) W) as (e & Ee); [lia|]. unfold loop_range, begin_. rewrite (view_at _ _ _ _ _ _ W T). cbn [bind].
  rewrite (view_end _ _ _ _ _ W Ee). cbn [bind range_for]. rewrite (view_differs _ _ _ _ _ _ _ _ W T Ee). cbn [bind]. destruct (Nat.eqb_spec 0 (length (slots_of n))); [lia|]. cbn [negb].
  rewrite (view_deref _ _ _ _ _ _ W T). destruct (nth_error (pointers n) 0) as [c|] eqn:C; [|apply nth_error_None in C; rewrite pointers_length in C; lia]. cbn [bind].
  unfold calls_on at 1. destruct (add_turn s a n v x SO W) as (s1 & r & n1 & w & E1 & SO1 & W1 & H). rewrite E1. cbn [bind].
  destruct (Nat.ltb_spec (length (slots_of n)) mx) as [L|L]; [|lia]. destruct H as (Z & FN & KE & BR).
  destruct (next s1 (mkI a 0 t)) as [it| | |] eqn:NX.
  - cbn [bind]. destruct fuel; cbn [range_for]; unfold differs; rewrite (BR _ e Ee (or_intror eq_refl)), andb_false_r; reflexivity.
  - exfalso. unfold next, at_pos, size, vector, node in NX. destruct (good s1 (mkI a 0 t)); [|discriminate]. cbn [inode ipos] in NX. destruct (fsub a (roots s1)); [|discriminate].
    cbn [bind] in NX. destruct (0 <? _); [|discriminate]. destruct (nth_error (vecs s1) a); [|discriminate]. cbn [bind] in NX. destruct (nth_error _ 1); discriminate.
  - reflexivity.
  - exfalso. unfold next, at_pos, size, vector, node in NX. destruct (good s1 (mkI a 0 t)); [|discriminate]. cbn [inode ipos] in NX. destruct (fsub a (roots s1)); [|discriminate].
    cbn [bind] in NX. destruct (0 <? _); [|discriminate]. destruct (nth_error (vecs s1) a); [|discriminate]. cbn [bind] in NX. destruct (nth_error _ 1); discriminate.
Qed.

(** ** Deleting the next child *)
Lemma erase_map {A B} (g : A -> B) l p : map g (erase l p) = erase (map g l) p.
Proof. revert p. induction l as [|y l IH]; intros [|p]; cbn; auto. now rewrite IH. Qed.
Lemma erase_split {A} (l : list A) p : erase l p = firstn p l ++ skipn (S p) l.
Proof. revert p. induction l as [|y l IH]; intros [|p]; cbn; auto. now rewrite IH. Qed.
Lemma every_second_skip (l : list (option nat)) p c : nth_error l p = Some c ->
  every_second (skipn p l) = c :: every_second (skipn (S (S p)) l).
Proof.
  intros C. rewrite (skipn_nth l p c C). destruct (nth_error l (S p)) as [d|] eqn:E.
  - now rewrite (skipn_nth l (S p) d E).
  - apply nth_error_None in E. rewrite skipn_all2 by assumption. rewrite skipn_all2 by lia. reflexivity.
Qed.
Lemma second_from a : forall fuel (s : kst) n v p t past, sound s -> view s a n v -> p <= length (slots_of n) -> length past = p ->
  nth_error (stamps v) p = Some t -> length (slots_of n) - p <= fuel ->
  exists s' n', for_each fuel (deletes max_node_size grow a S) s (mkI a p t) past = Val (s', past ++ every_second (skipn p (pointers n))) /\
     sound s' /\ fsub a (roots s') = Some n' /\ pointers n' = firstn p (pointers n) ++ every_second (skipn p (pointers n)).
Proof.
  induction fuel as [|fuel IH]; intros s n v p t past SO W PL PP T LF; pose proof (sound_width _ _ _ SO (w_node _ _ _ _ W)) as WD.
  - assert (p = length (slots_of n)) as Q by lia. subst p. exists s, n. rewrite Q in *. cbn [for_each inode]. rewrite (view_end _ _ _ _ _ W T). cbn [bind].
    rewrite (view_differs _ _ _ _ _ _ _ _ W T T). cbn [bind]. rewrite Nat.eqb_refl. cbn [negb].
    rewrite <- pointers_length, skipn_all, firstn_all. cbn [every_second]. rewrite !app_nil_r. split; [reflexivity|]. split; [assumption|]. split; [apply W|reflexivity].
  - cbn [for_each inode]. destruct (view_stamp s a n v (length (slots_of n)) W) as (e & Ee); [lia|]. rewrite (view_end _ _ _ _ _ W Ee). cbn [bind].
    rewrite (view_differs _ _ _ _ _ _ _ _ W T Ee). cbn [bind]. destruct (Nat.eqb_spec p (length (slots_of n))) as [EQ|NE]; cbn [negb].
    + exists s, n. rewrite EQ. rewrite <- pointers_length, skipn_all, firstn_all. cbn [every_second]. rewrite !app_nil_r.
      split; [reflexivity|]. split; [assumption|]. split; [apply W|reflexivity].
    + rewrite (view_deref _ _ _ _ _ _ W T). destruct (nth_error (pointers n) p) as [c|] eqn:C; [|apply nth_error_None in C; rewrite pointers_length in C; lia]. cbn [bind].
      unfold deletes at 1. rewrite PP. destruct (call_view s a n v (CDelete (N.of_nat (S p))) SO W Logic.I) as (s1 & r & n1 & ans & h & f & i' & E1 & D & SO1 & W1 & _).
      rewrite E1. cbn [bind]. cbn [do_call] in D. unfold delete_child, cell in D. rewrite Nat2N.id in D. cbn [vec_after] in W1.
      destruct (N.ltb_spec (N.of_nat (S p)) (N.of_nat (length (slots_of n)))) as [L|L].
      * destruct (nth_error (slots_of n) (S p)) as [d|] eqn:Ed; [|apply nth_error_None in Ed; lia]. injection D as <- _ _ _ _.
        assert (ZL : length (slots_of (with_slots n (erase (slots_of n) (S p)))) = pred (length (slots_of n))) by (rewrite with_slots_slots; apply erase_len; lia).
        set (w := erased (tick s) (length (slots_of n)) (N.to_nat (N.of_nat (S p))) v) in *.
        assert (T1 : nth_error (stamps w) p = Some t).
        { unfold w, erased. cbn [stamps]. rewrite Nat2N.id, nth_error_app1 by (rewrite firstn_length, (w_len _ _ _ _ W); lia). rewrite nth_error_firstn by lia. assumption. }
        rewrite (view_next _ _ _ _ _ _ W1 T1). rewrite ZL. destruct (Nat.ltb_spec p (pred (length (slots_of n)))); [|lia].
        destruct (view_stamp s1 a _ w (S p) W1) as (u & U); [rewrite ZL; lia|]. rewrite (view_at _ _ _ _ _ _ W1 U). cbn [bind].
        destruct (IH s1 _ w (S p) u (past ++ [c]) SO1 W1) as (s2 & n2 & F1 & F2 & F3 & F4); try (rewrite ?ZL, ?app_length; cbn; lia); [assumption|].
        exists s2, n2. rewrite F1.
        assert (PE : pointers (with_slots n (erase (slots_of n) (S p))) = firstn (S p) (pointers n) ++ skipn (S (S p)) (pointers n)).
        { unfold pointers. now rewrite with_slots_slots, erase_map, erase_split. }
        assert (LS : length (firstn (S p) (pointers n)) = S p) by (rewrite firstn_length, pointers_length; lia).
        rewrite PE in F4 |- *. rewrite (firstn_part _ _ _ LS), (skipn_part _ _ _ LS) in F4. rewrite (skipn_part _ _ _ LS).
        rewrite (every_second_skip _ _ _ C). rewrite <- app_assoc. split; [reflexivity|]. split; [assumption|]. split; [assumption|]. rewrite F4.
        assert (FS : firstn (S p) (pointers n) = firstn p (pointers n) ++ [c]).
        { clear - C. revert p C. induction (pointers n) as [|y l IHl]; intros [|p] C; cbn in *; try discriminate; [now injection C as ->|]. f_equal. now apply IHl. }
        rewrite FS, <- app_assoc. reflexivity.
      * destruct (nth_error (slots_of n) (S p)) as [d|] eqn:Ed; [assert (S p < length (slots_of n)) by (apply nth_error_Some; congruence); lia|]. injection D as <- _ _ _ _.
        rewrite (view_next _ _ _ _ _ _ W1 T). destruct (Nat.ltb_spec p (length (slots_of n))); [|lia].
        destruct (view_stamp s1 a n v (S p) W1) as (u & U); [lia|]. rewrite (view_at _ _ _ _ _ _ W1 U). cbn [bind].
        destruct (IH s1 n v (S p) u (past ++ [c]) SO1 W1) as (s2 & n2 & F1 & F2 & F3 & F4); try (rewrite ?app_length; cbn; lia); [assumption|].
        exists s2, n2. rewrite F1. rewrite (every_second_skip _ _ _ C).
        assert (SK : skipn (S p) (pointers n) = []) by (apply skipn_all2; rewrite pointers_length; lia).
        assert (SK2 : skipn (S (S p)) (pointers n) = []) by (apply skipn_all2; rewrite pointers_length; lia).
        rewrite SK in F4 |- *. rewrite SK2. cbn [every_second] in *. rewrite !app_nil_r in *. split; [reflexivity|]. split; [assumption|]. split; [assumption|].
        rewrite F4. clear - C. revert p C. induction (pointers n) as [|y l IHl]; intros [|p] C; cbn in *; try discriminate; [now injection C as ->|]. f_equal. now apply IHl.
Qed.
Lemma loop_second (s : kst) a n fuel : sound s -> fsub a (roots s) = Some n -> length (slots_of n) <= fuel ->
  exists s' n', loop fuel (deletes max_node_size grow a S) s a = Val (s', every_second (pointers n)) /\
     sound s' /\ fsub a (roots s') = Some n' /\ pointers n' = every_second (pointers n).
Proof.
  intros SO E L. destruct (sound_view s a n SO E) as (v & W). destruct (view_stamp s a n v 0 W) as (t & T); [lia|]. unfold loop, begin_. rewrite (view_at _ _ _ _ _ _ W T). cbn [bind].
  destruct (second_from a fuel s n v 0 t [] SO W) as (s' & n' & H); try lia; auto. exists s', n'. exact H.
Qed.

(** ** Extracting every child *)
Lemma extracts_leaves a : leaves a (@extracts V max_node_size grow a).
Proof.
  intros past s n c SO E _. destruct (sound_view s a n SO E) as (v & W). pose proof (sound_width _ _ _ SO E) as L.
  destruct (call_view s a n v (CExtract (N.of_nat (length past))) SO W Logic.I) as (s' & r & n' & ans & h & f & i' & E1 & D & SO' & W' & _).
  rewrite (in_place_vec _ _ _ _ _ _ _ _ (tick s) v D L Logic.I) in W'. unfold extracts. rewrite E1. cbn [bind]. exists s'. split; [reflexivity|]. split; [assumption|].
  split; [exact (fsub_in _ _ _ (w_node _ _ _ _ W'))|]. now rewrite (w_vec _ _ _ _ W'), (w_vec _ _ _ _ W).
Qed.
Lemma set_nth_split {A} (l : list A) p x y : nth_error l p = Some y -> set_nth l p x = firstn p l ++ x :: skipn (S p) l.
Proof. revert p. induction l as [|z l IH]; intros [|p]; cbn; intros E; try discriminate; [reflexivity|]. now rewrite (IH p E). Qed.
Lemma set_nth_map {A B} (g : A -> B) l p x : map g (set_nth l p x) = set_nth (map g l) p (g x).
Proof. revert p. induction l as [|y l IH]; intros [|p]; cbn; auto. now rewrite IH. Qed.
Lemma extract_pointers (n : knode) p c : nth_error (pointers n) p = Some c ->
  pointers (fst (extract_child n (N.of_nat p))) = firstn p (pointers n) ++ None :: skipn (S p) (pointers n).
Proof.
  intros C. unfold extract_child, cell. rewrite Nat2N.id. unfold pointers in C. rewrite nth_error_map in C. destruct (nth_error (slots_of n) p) as [[d|]|] eqn:E; [| |discriminate].
  - cbn [fst]. unfold pointers. rewrite with_slots_slots, set_nth_map. apply set_nth_split with (y := Some (id_of d)). now rewrite nth_error_map, E.
  - cbn [fst]. cbn in C. injection C as <-. unfold pointers. pose proof (f_equal (option_map (option_map (@id_of V))) E) as E'. rewrite <- nth_error_map in E'. cbn in E'.
    set (l := map _ _) in *. clearbody l. clear - E'. revert p E'. induction l as [|y l IH]; intros [|p] E; cbn in *; try discriminate; [now injection E as ->|]. f_equal. now apply IH.
Qed.
Lemma extracts_from a : forall k p past (s : kst) cs s' n, sound s -> fsub a (roots s) = Some n -> length past = p -> p + k = length (slots_of n) ->
  turns a (extracts max_node_size grow a) (seq p k) past s cs s' ->
  cs = skipn p (pointers n) /\ exists n', fsub a (roots s') = Some n' /\ pointers n' = firstn p (pointers n) ++ repeat None k.
Proof.
  induction k as [|k IH]; intros p past s cs s' n SO E PP LK TU; cbn [seq] in TU; inversion TU; subst.
  - rewrite Nat.add_0_r in LK. rewrite LK, <- pointers_length, skipn_all, firstn_all. split; [reflexivity|]. exists n. cbn. rewrite app_nil_r. auto.
  - match goal with H : fsub a (roots s) = Some n0 |- _ => rewrite E in H; injection H as <- end.
    match goal with H : extracts _ _ _ _ _ _ = _ |- _ => rename H into B end. match goal with H : nth_error _ _ = Some c |- _ => rename H into C end.
    match goal with H : turns _ _ _ _ _ _ _ |- _ => rename H into TU1 end.
    destruct (sound_view s a n SO E) as (v & W).
    destruct (call_view s a n v (CExtract (N.of_nat (length past))) SO W Logic.I) as (s2 & r & n' & ans & h & f & i' & E1 & D & SO' & W' & _).
    unfold extracts in B. rewrite E1 in B. cbn [bind] in B. injection B as <-. cbn [do_call] in D. pose proof (extract_pointers n _ c C) as EP.
    destruct (extract_child n (N.of_nat (length past))) as [n1 o]. injection D as <- _ _ _ _. cbn [fst] in EP.
    assert (LP : length (firstn (length past) (pointers n)) = length past) by (rewrite firstn_length, pointers_length; lia).
    assert (LN : length (slots_of n1) = length (slots_of n)).
    { rewrite <- !pointers_length, EP, app_length, LP. cbn [length]. rewrite skipn_length, pointers_length. lia. }
    destruct (IH (S (length past)) (past ++ [c]) s2 cs0 s' n1 SO' (w_node _ _ _ _ W')) as (E2 & n2 & E3 & E4); [rewrite app_length; cbn; lia|lia|assumption|].
    rewrite EP in E2, E4. rewrite skipn_app, skipn_all2 in E2 by lia. rewrite LP in E2. replace (S (length past) - length past) with 1 in E2 by lia. cbn [skipn app] in E2.
    rewrite firstn_app, firstn_all2 in E4 by lia. rewrite LP in E4. replace (S (length past) - length past) with 1 in E4 by lia. cbn [firstn] in E4.
    split; [rewrite (skipn_nth _ _ _ C), E2; reflexivity|]. exists n2. split; [assumption|]. rewrite E4, <- app_assoc. reflexivity.
Qed.
Lemma loop_extracts (s : kst) a n fuel : sound s -> fsub a (roots s) = Some n -> length (slots_of n) <= fuel ->
  (exists s' n', loop fuel (extracts max_node_size grow a) s a = Val (s', pointers n) /\ sound s' /\ fsub a (roots s') = Some n' /\ pointers n' = repeat None (length (slots_of n))) /\
  (exists s' n', loop_range fuel (extracts max_node_size grow a) s a = Val (s', pointers n) /\ sound s' /\ fsub a (roots s') = Some n' /\ pointers n' = repeat None (length (slots_of n))).
Proof.
  intros SO E L. split.
  - destruct (loop_ok a _ fuel s n (extracts_leaves a) SO E L) as (s' & cs & E1 & TU & SO' & _).
    destruct (extracts_from a _ 0 [] s cs s' n SO E eq_refl eq_refl TU) as (-> & n' & E2 & E3). exists s', n'. auto.
  - destruct (loop_range_ok a _ fuel s n (extracts_leaves a) SO E L) as (s' & cs & E1 & TU & SO' & _).
    destruct (extracts_from a _ 0 [] s cs s' n SO E eq_refl eq_refl TU) as (-> & n' & E2 & E3). exists s', n'. auto.
Qed.

(** ** As stated *)
Lemma bad_use (s : kst) it : good s it = false -> deref s it = UB /\ next s it = UB /\ prev s it = UB /\ forall j, differs s it j = UB.
Proof. intros G. unfold deref, next, prev, differs. rewrite G. auto. Qed.
Lemma issued_run os : forall (s s' : kst) k, sound s -> krun s os = Val s' -> k < tick s -> k < tick s'.
Proof.
  induction os as [|o os IH]; intros s s' k SO E L; cbn [KaryIterModel.krun] in E; [now injection E as <-|].
  destruct (kstep s o) as [[s1 r]| | |] eqn:K; try discriminate. cbn [bind] in E.
  apply (IH s1 s' k (kstep_sound _ _ _ _ SO K) E). destruct o as [a c|v|a]; cbn [KaryIterModel.kstep] in K.
  - destruct (kcall_val s a c s1 r SO K) as (n & v & n' & ans & h & f & i' & _ & _ & _ & _ & _ & -> & _). unfold after_k. cbn [tick]. lia.
  - destruct (knew s v) as [t x] eqn:Ek. injection K as <- _. injection Ek as <- _. cbn [tick]. lia.
  - destruct (kdestroy s a) as [t| | |] eqn:Ek; try discriminate. cbn in K. injection K as <- _.
    destruct (kdestroy_val s a t SO Ek) as (m & I & Em & Ef & Ev & Et & _). lia.
Qed.
Lemma never_again ops later (s s1 s2 : kst) it : sound s -> good s it = true -> krun s ops = Val s1 -> good s1 it = false ->
  krun s1 later = Val s2 -> good s2 it = false /\ deref s2 it = UB /\ next s2 it = UB /\ prev s2 it = UB /\ forall j, differs s2 it j = UB.
Proof.
  intros SO G E B E2. assert (X : good s2 it = false).
  { apply (bad_run later s1 s2 it); auto; [exact (krun_sound _ _ _ SO E)|]. apply (issued_run ops s s1 _ SO E). exact (good_issued s it SO G). }
  split; [exact X|]. now apply bad_use.
Qed.
Lemma spared (s : kst) a o s' r : sound s -> live s a -> spares s a o -> kstep s o = Val (s', r) ->
  live s' a /\ forall it, inode it = a -> good s' it = good s it.
Proof.
  intros SO LI SP E. destruct (spares_ok s a o s' r SO LI SP E) as (SO' & LI' & EV). split; [assumption|]. intros it Ea.
  destruct (in_fsub a _ LI) as (n & En). destruct (in_fsub a _ LI') as (n' & En'). unfold good, vector, node. rewrite Ea, En, En', EV. reflexivity.
Qed.
Lemma undisturbed a body fuel (s : kst) n : leaves a body -> sound s -> fsub a (roots s) = Some n -> length (slots_of n) <= fuel ->
  (exists s' cs, loop fuel body s a = Val (s', cs) /\ turns a body (seq 0 (length (slots_of n))) [] s cs s') /\
  (exists s' cs, loop_range fuel body s a = Val (s', cs) /\ turns a body (seq 0 (length (slots_of n))) [] s cs s') /\
  (exists s' cs, loop_reversed fuel body s a = Val (s', cs) /\ turns a body (rev (seq 0 (length (slots_of n)))) [] s cs s').
Proof.
  intros LE SO E L. split; [|split].
  - destruct (loop_ok a body fuel s n LE SO E L) as (s' & cs & H1 & H2 & _). eauto.
  - destruct (loop_range_ok a body fuel s n LE SO E L) as (s' & cs & H1 & H2 & _). eauto.
  - destruct (loop_reversed_ok a body fuel s n LE SO E L) as (s' & cs & H1 & H2 & _). eauto.
Qed.
Lemma deleting_current (s : kst) a n g fuel : sound s -> fsub a (roots s) = Some n -> 0 < length (slots_of n) ->
  (g 0 = 0 -> loop (S fuel) (deletes max_node_size grow a g) s a = UB /\ loop_range (S fuel) (deletes max_node_size grow a g) s a = UB) /\
  (g 0 < length (slots_of n) -> loop_reversed (S fuel) (deletes max_node_size grow a g) s a = UB).
Proof.
  intros SO E P. destruct (sound_view s a n SO E) as (v & W).
  destruct (broken_loop s a n v (deletes max_node_size grow a g) (CDelete (N.of_nat (g 0))) fuel SO E (w_vec _ _ _ _ W) P) as [H1 H2]; [reflexivity|].
  split; intros G.
  - apply H1. cbn [after_call]. rewrite G. destruct (N.ltb_spec (N.of_nat 0) (N.of_nat (length (slots_of n)))); [reflexivity|lia].
  - apply H2. cbn [after_call]. destruct (N.ltb_spec (N.of_nat (g 0)) (N.of_nat (length (slots_of n)))); [|lia]. apply Nat.ltb_ge. lia.
Qed.
End P.
