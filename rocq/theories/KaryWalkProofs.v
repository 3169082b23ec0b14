(** Proofs about traversals of k-ary trees whose callback changes the nodes. *)
Require Import List NArith Bool Arith Lia.
Require Import Verif.Base Verif.KaryModel Verif.KarySpec Verif.KaryProofs Verif.KaryIterModel Verif.KaryIterSpec Verif.KaryIterProofs
  Verif.KaryWalkModel Verif.KaryWalkSpec.
Import ListNotations.

Section P.
Context {V : Type}.
Variable max_node_size : N.
Hypothesis MAX : (max_node_size < two64)%N.
Notation mx := (N.to_nat max_node_size).
Notation knode := (knode V).
Notation kst := (kst V).
Notation sound := (sound max_node_size).
Notation changed := (changed max_node_size).
Notation taken := (taken max_node_size).
Notation effect := (KaryWalkSpec.effect V).
Notation stamp_at := (view_stamp max_node_size MAX).

(** ** Trees of a state *)
Lemma tree_nodup (s : kst) t : sound s -> In t (roots s) -> NoDup (ids t).
Proof. intros (D & _) I. exact (nodup_elem _ _ I D). Qed.
Lemma tree_fsub (s : kst) t a u : sound s -> In t (roots s) -> sub a t = Some u -> fsub a (roots s) = Some u.
Proof. intros (D & _) I E. rewrite (fsub_of _ t a D I); [assumption|]. exact (sub_in _ _ _ E). Qed.
Lemma tree_view (s : kst) t a u : sound s -> In t (roots s) -> sub a t = Some u -> exists v, view s a u v.
Proof. intros SO I E. exact (sound_view max_node_size s a u SO (tree_fsub _ _ _ _ SO I E)). Qed.
Lemma sub_nodup a (t u : knode) : NoDup (ids t) -> sub a t = Some u -> NoDup (ids u).
Proof.
  intros D E. apply (fsub_nodup a [t]); [unfold fids; cbn; now rewrite app_nil_r|]. cbn. now rewrite E.
Qed.
Lemma outside a (t u u' : knode) x : NoDup (ids t) -> NoDup (ids (put a u' t)) -> sub a t = Some u ->
  In x (ids t) -> ~ In x (ids u) -> In x (ids (put a u' t)) /\ ~ In x (ids u').
Proof. clear MAX.
  intros D D' E I N. pose proof (cnt_put a u' t u x D E) as C. apply cnt_in in I. apply cnt_notin in N. pose proof (proj1 (nodup_cnt _) D' x).
  rewrite cnt_in, cnt_notin. lia.
Qed.
Lemma ids_kid (u c : knode) x : In (Some c) (slots_of u) -> In x (ids c) -> In x (ids u).
Proof. destruct u as [i p v s]. rewrite ids_eq. intros I J. right. apply in_fids. exists c. split; [now apply in_present|assumption]. Qed.
Lemma slot_sub (t u c : knode) a p : NoDup (ids t) -> sub a t = Some u -> nth_error (slots_of u) p = Some (Some c) ->
  sub (id_of c) t = Some c /\ ~ In a (ids c) /\ In (id_of c) (ids u) /\ id_of c <> a.
Proof.
  intros D E N. apply nth_error_In in N. pose proof (sub_nodup _ _ _ D E) as Du. pose proof (sub_id _ _ _ E) as Ei.
  destruct (sub_kid u c (id_of c) Du N (in_id c)) as [S1 S2]. pose proof (ids_kid u c (id_of c) N (in_id c)) as J.
  split; [rewrite (sub_sub _ a t u D E J), S1; apply sub_self|]. split; [|split; [assumption|congruence]].
  intros K. destruct (sub_kid u c a Du N K) as [_ X]. congruence.
Qed.

(** ** Replacing and cutting *)
Lemma cut_notin a (n : knode) : ~ In a (ids n) -> cut a n = n.
Proof.
  induction n as [i p v s IH] using node_ind. rewrite ids_eq. intros N. cbn [cut]. f_equal. rewrite <- (map_id s) at 2. apply map_ext_in.
  intros [c|] I; [|reflexivity]. apply in_present in I. destruct (Nat.eqb_spec (id_of c) a) as [E|E].
  - exfalso. apply N. right. apply in_fids. exists c. split; [assumption|]. rewrite <- E. apply in_id.
  - f_equal. apply (proj1 (Forall_forall _ _) IH c I). intros J. apply N. right. apply in_fids. eauto.
Qed.
Lemma cut_id a (n : knode) : id_of (cut a n) = id_of n.
Proof. now destruct n. Qed.
Lemma graft_id a o (n : knode) : match o with Some u' => id_of u' = a | None => True end -> id_of (graft a o n) = id_of n.
Proof. destruct o as [u'|]; cbn [graft]; intros H; [now apply put_id|apply cut_id]. Qed.
Lemma kid_unique (s : list (option knode)) d e x : NoDup (fids (present s)) -> In (Some d) s -> In (Some e) s -> In x (ids d) -> In x (ids e) -> d = e.
Proof.
  intros D I J K L. apply in_present in I, J. assert (E1 : fsub x (present s) = sub x d) by (apply fsub_of; auto).
  destruct (in_split _ _ I) as (F1 & F2 & EF). rewrite EF in J, D. apply in_app_or in J. rewrite fids_app, fids_cons in D. apply nodup_app in D.
  destruct D as (A1 & A2 & A3). apply nodup_app in A2. destruct A2 as (A4 & A5 & A6). destruct J as [J|[->|J]]; [|reflexivity|]; exfalso.
  - apply (A3 x); [apply in_fids; eauto|]. apply in_or_app. now left.
  - apply (A6 x K). apply in_fids. eauto.
Qed.
Lemma cut_inside a c (n u : knode) : NoDup (ids n) -> sub a n = Some u -> In c (ids u) -> c <> a -> cut c n = put a (cut c u) n.
Proof.
  revert u. induction n as [i p v s IH] using node_ind. intros u D. rewrite sub_eq. rewrite ids_eq in D. apply NoDup_cons_iff in D. destruct D as [D1 D2].
  destruct (Nat.eqb_spec a i) as [->|N].
  - intros [= <-] _ _. rewrite put_eq. now rewrite Nat.eqb_refl.
  - intros H J NE. rewrite put_eq. destruct (Nat.eqb_spec a i); [easy|]. cbn [cut]. f_equal. apply map_ext_in. intros [d|] I; [|reflexivity]. cbn [option_map].
    destruct (fsub_some _ _ _ H) as (e & I' & K'). apply in_present in I'. apply in_present in I as I2.
    destruct (in_dec Nat.eq_dec a (ids d)) as [K|K].
    + assert (e = d) by exact (kid_unique s e d a D2 I' I (sub_in _ _ _ K') K). subst e.
      destruct (Nat.eqb_spec (id_of d) c) as [Ec|Ec].
      * exfalso. pose proof (nodup_elem _ _ I2 D2) as Dd. pose proof (sub_id _ _ _ K') as Eu.
        assert (X : id_of u <> id_of d) by congruence.
        assert (J2 : In (id_of d) (ids u)) by congruence. clear - Dd K' J2 X.
        destruct d as [j q w sl]. rewrite sub_eq in K'. cbn [id_of] in *. destruct (Nat.eqb_spec a j) as [->|N']; [injection K' as <-; easy|].
        rewrite ids_eq in Dd. apply NoDup_cons_iff in Dd. apply Dd. exact (fsub_incl _ _ _ K' _ J2).
      * f_equal. apply (proj1 (Forall_forall _ _) IH d I2); auto. exact (nodup_elem _ _ I2 D2).
    + rewrite put_notin by assumption. assert (L : ~ In c (ids d)).
      { intros L. apply K. rewrite <- (kid_unique s e d c D2 I' I (sub_incl _ _ _ K' _ J) L). exact (sub_in _ _ _ K'). }
      destruct (Nat.eqb_spec (id_of d) c) as [Ec|Ec]; [exfalso; apply L; rewrite <- Ec; apply in_id|]. f_equal. now apply cut_notin.
Qed.
Lemma graft_inside a c o (n u : knode) : NoDup (ids n) -> sub a n = Some u -> In c (ids u) -> c <> a -> graft c o n = put a (graft c o u) n.
Proof. destruct o as [w|]; cbn [graft]; intros D E J NE; [now apply put_inside|now apply cut_inside]. Qed.
Lemma set_nth_map_ext {A} (f : A -> A) (l : list A) p x y : nth_error l p = Some x -> (forall q z, nth_error l q = Some z -> q <> p -> f z = z) -> f x = y ->
  map f l = set_nth l p y.
Proof.
  revert p. induction l as [|z l IH]; intros [|p] E F G; try discriminate.
  - injection E as ->. cbn. rewrite G. f_equal. rewrite <- (map_id l) at 2. apply map_ext_in. intros w I. destruct (In_nth_error _ _ I) as (q & Q). apply (F (S q)); [assumption|easy].
  - cbn. f_equal; [apply (F 0); [reflexivity|easy]|]. apply IH; auto. intros q w Q N. apply (F (S q)); [assumption|congruence].
Qed.
Lemma slots_unique (s : list (option knode)) p q d e x : NoDup (fids (present s)) -> nth_error s p = Some (Some d) -> nth_error s q = Some (Some e) ->
  In x (ids d) -> In x (ids e) -> p = q.
Proof.
  revert p q. induction s as [|[c|] s IH]; intros p q D; [destruct p; discriminate| |].
  - change (present (Some c :: s)) with (c :: present s) in D. rewrite fids_cons in D. apply nodup_app in D. destruct D as (D1 & D2 & D3).
    destruct p as [|p], q as [|q]; cbn; intros E F K L.
    + reflexivity.
    + injection E as ->. exfalso. apply (D3 x K). apply in_fids. exists e. split; [|assumption]. apply in_present. now apply nth_error_In in F.
    + injection F as ->. exfalso. apply (D3 x L). apply in_fids. exists d. split; [|assumption]. apply in_present. now apply nth_error_In in E.
    + f_equal. now apply (IH p q).
  - change (present (None :: s)) with (present s) in D. destruct p as [|p], q as [|q]; cbn; intros E F K L; try discriminate. f_equal. now apply (IH p q).
Qed.
Lemma graft_slot (u c : knode) p o : NoDup (ids u) -> nth_error (slots_of u) p = Some (Some c) -> match o with Some c' => id_of c' = id_of c | None => True end ->
  graft (id_of c) o u = put_slot u p o.
Proof.
  intros D E O. destruct u as [i q v s]. unfold put_slot. cbn [slots_of with_slots] in *. rewrite ids_eq in D. apply NoDup_cons_iff in D. destruct D as [D1 D2].
  assert (NI : id_of c <> i). { intros X. apply D1. rewrite <- X. apply in_fids. exists c. split; [apply in_present; now apply nth_error_In in E|apply in_id]. }
  assert (NO : forall r d, nth_error s r = Some (Some d) -> r <> p -> ~ In (id_of c) (ids d)).
  { intros r d F NE J. apply NE. exact (slots_unique s r p d c (id_of c) D2 F E J (in_id c)). }
  destruct o as [c'|]; cbn [graft].
  - rewrite put_eq. destruct (Nat.eqb_spec (id_of c) i); [easy|]. f_equal. apply (set_nth_map_ext _ _ _ (Some c)); [assumption| |].
    + intros r [d|] F NE; [|reflexivity]. cbn. f_equal. apply put_notin. exact (NO r d F NE).
    + cbn. f_equal. destruct c as [j ? ? ?]. rewrite put_eq. cbn. now rewrite Nat.eqb_refl.
  - cbn [cut]. f_equal. apply (set_nth_map_ext _ _ _ (Some c)); [assumption| |].
    + intros r [d|] F NE; [|reflexivity]. destruct (Nat.eqb_spec (id_of d) (id_of c)) as [X|X]; [exfalso; apply (NO r d F NE); rewrite <- X; apply in_id|].
      f_equal. apply cut_notin. exact (NO r d F NE).
    + now rewrite Nat.eqb_refl.
Qed.

(** ** [changed] and [taken] *)
Lemma changed_taken (s s' : kst) t a u u' : changed s s' t a u u' <-> taken s s' t a u (Some u').
Proof. reflexivity. Qed.
Lemma changed_self (s s' : kst) t a u u' : sub a t = Some u -> changed s s' t a u u' -> sub a (put a u' t) = Some u'.
Proof. intros E (_ & I & _). now apply sub_put_same with (u := u). Qed.
Lemma changed_refl (s : kst) t a u : sound s -> In t (roots s) -> sub a t = Some u -> changed s s t a u u.
Proof.
  intros SO I E. split; [assumption|]. split; [exact (sub_id _ _ _ E)|]. split; [|auto]. now rewrite (put_self a t u (tree_nodup s t SO I) E).
Qed.
Lemma changed_taken_trans (s s1 s2 : kst) t a u u1 o : sound s -> In t (roots s) -> sub a t = Some u -> changed s s1 t a u u1 ->
  taken s1 s2 (put a u1 t) a u1 o -> taken s s2 t a u o.
Proof.
  intros SO I E (SO1 & I1 & R1 & V1) (SO2 & I2 & R2 & V2). pose proof (tree_nodup s t SO I) as D. pose proof (tree_nodup s1 _ SO1 R1) as D1.
  split; [assumption|]. split; [|split].
  - destruct o as [w|]; [assumption|]. now rewrite (put_id a u1 t I1) in I2.
  - destruct o as [w|]; cbn [graft] in *; [now rewrite (put_twice a u1 w t I1) in R2|].
    replace (cut a t) with (cut a (put a u1 t)); [assumption|]. rewrite (put_id a u1 t I1) in I2. clear - I1 I2.
    revert I2. generalize t. clear t. induction t as [i p v s IH] using node_ind. cbn [id_of]. intros NE. rewrite put_eq. destruct (Nat.eqb_spec a i); [congruence|]. cbn [cut].
    f_equal. rewrite map_map. apply map_ext_in. intros [d|] J; [|reflexivity]. cbn [option_map]. rewrite (put_id a u1 d I1).
    destruct (Nat.eqb_spec (id_of d) a); [reflexivity|]. f_equal. apply in_present in J. exact (proj1 (Forall_forall _ _) IH d J n0).
  - intros x J K. destruct (outside a t u u1 x D D1 E J K) as [J1 K1]. now rewrite (V2 x J1 K1), (V1 x J K).
Qed.
Lemma changed_trans (s s1 s2 : kst) t a u u1 u2 : sound s -> In t (roots s) -> sub a t = Some u -> changed s s1 t a u u1 ->
  changed s1 s2 (put a u1 t) a u1 u2 -> changed s s2 t a u u2.
Proof. apply changed_taken_trans with (o := Some u2). Qed.
(** From a child to the node. *)
Lemma taken_lift (s s' : kst) t a u p c o : sound s -> In t (roots s) -> sub a t = Some u -> nth_error (slots_of u) p = Some (Some c) ->
  taken s s' t (id_of c) c o -> changed s s' t a u (put_slot u p o) /\ nth_error (vecs s') a = nth_error (vecs s) a.
Proof.
  intros SO I E P (SO' & IO & R & VE). pose proof (tree_nodup s t SO I) as D. destruct (slot_sub t u c a p D E P) as (S1 & S2 & S3 & S4).
  pose proof (sub_nodup _ _ _ D E) as Du.
  assert (G : graft (id_of c) o u = put_slot u p o) by (apply graft_slot; auto; destruct o; auto).
  split; [|apply VE; [exact (sub_in _ _ _ E)|assumption]]. split; [assumption|]. split; [|split].
  - rewrite <- G, graft_id by (destruct o; auto). exact (sub_id _ _ _ E).
  - rewrite <- G, <- (graft_inside a (id_of c) o t u D E S3 S4). assumption.
  - intros x J K. apply VE; [assumption|]. intros L. apply K. apply nth_error_In in P. exact (ids_kid u c x P L).
Qed.
Lemma put_slot_len (u : knode) p o : length (slots_of (put_slot u p o)) = length (slots_of u).
Proof. unfold put_slot. rewrite with_slots_slots. apply set_nth_length. Qed.

(** ** The loop over the children *)
Definition walks (N : knode -> Prop) (P : knode -> list nat -> option knode -> Prop) (walk : kst -> list nat -> nat -> outcome (kst * list nat * nat)) : Prop :=
  forall s past t c w, sound s -> In t (roots s) -> sub c t = Some w ->
  (walk s past c = NoFuel /\ N w) \/
  exists s' cs o, walk s past c = Val (s', past ++ cs, length cs) /\ P w cs o /\ taken s s' t c w o.
Lemma each_ok N P walk a : walks N P walk -> forall k turns p (s : kst) past t u v tp visited,
  sound s -> In t (roots s) -> sub a t = Some u -> view s a u v -> p + k = length (slots_of u) -> k <= turns -> nth_error (stamps v) p = Some tp ->
  (each turns walk s past (mkI a p tp) visited = NoFuel /\ exists w, In (Some w) (skipn p (slots_of u)) /\ N w) \/
  exists s' cs ss, each turns walk s past (mkI a p tp) visited = Val (s', past ++ cs, visited + length cs) /\ over P (skipn p (slots_of u)) cs ss /\
    changed s s' t a u (with_slots u (firstn p (slots_of u) ++ ss)).
Proof.
  intros WK. induction k as [|k IH]; intros turns p s past t u v tp visited SO I E W L T ST.
  - assert (p = length (slots_of u)) by lia. subst p. right. exists s, [], []. rewrite !app_nil_r, firstn_all, skipn_all. split; [|split; [constructor|]].
    + destruct turns; cbn [each inode]; rewrite (view_end _ _ _ _ _ W ST); cbn [bind]; rewrite (view_differs _ _ _ _ _ _ _ _ W ST ST); cbn [bind];
        rewrite Nat.eqb_refl; cbn; now rewrite Nat.add_0_r.
    + replace (with_slots u (slots_of u)) with u by now destruct u. now apply changed_refl.
  - destruct turns as [|turns]; [lia|]. cbn [each inode]. destruct (stamp_at s a u v (length (slots_of u)) W) as (e & Ee); [lia|].
    rewrite (view_end _ _ _ _ _ W Ee). cbn [bind]. rewrite (view_differs _ _ _ _ _ _ _ _ W ST Ee). cbn [bind].
    destruct (Nat.eqb_spec p (length (slots_of u))); [lia|]. cbn [negb]. rewrite (view_deref _ _ _ _ _ _ W ST). unfold pointers. rewrite nth_error_map.
    destruct (nth_error (slots_of u) p) as [[c|]|] eqn:C; [| |apply nth_error_None in C; lia]; cbn [option_map bind]; rewrite (skipn_nth _ _ _ C).
    + pose proof (tree_nodup s t SO I) as D. destruct (slot_sub t u c a p D E C) as (S1 & S2 & S3 & S4).
      destruct (WK s past t (id_of c) c SO I S1) as [[-> NW]|(s1 & ds & o & -> & PW & TK)].
      { left. split; [reflexivity|]. exists c. split; [now left|assumption]. }
      cbn [bind]. destruct (taken_lift s s1 t a u p c o SO I E C TK) as [CH VE]. set (u1 := put_slot u p o) in *.
      assert (L1 : length (slots_of u1) = length (slots_of u)) by apply put_slot_len.
      pose proof CH as (SO1 & _ & R1 & _). pose proof (changed_self _ _ _ _ _ _ E CH) as E1.
      assert (W1 : view s1 a u1 v).
      { constructor; [exact (tree_fsub _ _ _ _ SO1 R1 E1)|rewrite VE; apply W|rewrite L1; apply W]. }
      rewrite (view_next _ _ _ _ _ _ W1 ST). rewrite L1. destruct (Nat.ltb_spec p (length (slots_of u))); [|lia].
      destruct (stamp_at s1 a u1 v (S p) W1) as (q & Q); [lia|]. rewrite (view_at _ _ _ _ _ _ W1 Q). cbn [bind].
      assert (SK : skipn (S p) (slots_of u1) = skipn (S p) (slots_of u)).
      { unfold u1, put_slot. rewrite with_slots_slots, (set_nth_split _ _ o _ C). rewrite skipn_app, skipn_all2 by (rewrite firstn_length; lia).
        rewrite firstn_length, Nat.min_l by lia. replace (S p - p) with 1 by lia. reflexivity. }
      assert (FI : firstn (S p) (slots_of u1) = firstn p (slots_of u) ++ [o]).
      { unfold u1, put_slot. rewrite with_slots_slots, (set_nth_split _ _ o _ C). rewrite firstn_app, firstn_all2 by (rewrite firstn_length; lia).
        rewrite firstn_length, Nat.min_l by lia. replace (S p - p) with 1 by lia. reflexivity. }
      destruct (IH turns (S p) s1 (past ++ ds) (put a u1 t) u1 v q (visited + length ds) SO1 R1 E1 W1) as [[-> (w & Iw & Nw)]|(s2 & cs & ss & -> & OV & CH2)]; try lia; [assumption| |].
      * left. split; [reflexivity|]. exists w. split; [|assumption]. right. now rewrite <- SK.
      * right. exists s2, (ds ++ cs), (o :: ss). rewrite app_assoc, app_length, Nat.add_assoc. split; [reflexivity|]. split.
        -- rewrite SK in OV. now constructor.
        -- rewrite FI, <- app_assoc in CH2. cbn [app] in CH2. replace (with_slots u1 (firstn p (slots_of u) ++ o :: ss)) with (with_slots u (firstn p (slots_of u) ++ o :: ss)) in CH2
             by (unfold u1, put_slot; now destruct u).
           exact (changed_trans s s1 s2 t a u u1 _ SO I E CH CH2).
    + rewrite (view_next _ _ _ _ _ _ W ST). destruct (Nat.ltb_spec p (length (slots_of u))); [|lia].
      destruct (stamp_at s a u v (S p) W) as (q & Q); [lia|]. rewrite (view_at _ _ _ _ _ _ W Q). cbn [bind]. rewrite Nat.add_0_r.
      assert (FI : firstn (S p) (slots_of u) = firstn p (slots_of u) ++ [None]).
      { clear - C. revert p C. induction (slots_of u) as [|y l IHl]; intros [|p] C; cbn in *; try discriminate; [now injection C as ->|]. f_equal. now apply IHl. }
      destruct (IH turns (S p) s past t u v q visited SO I E W) as [[-> (w & Iw & Nw)]|(s2 & cs & ss & -> & OV & CH2)]; try lia; [assumption| |].
      * left. split; [reflexivity|]. exists w. split; [|assumption]. now right.
      * right. exists s2, cs, (None :: ss). split; [reflexivity|]. split; [now constructor|]. rewrite FI, <- app_assoc in CH2. exact CH2.
Qed.

(** ** The traversals *)
Lemma part_refl {A} (l : list A) : part_of l l.
Proof. induction l; now constructor. Qed.
Lemma part_nil_l {A} (l : list A) : part_of [] l.
Proof. induction l; now constructor. Qed.
Lemma part_length {A} (l m : list A) : part_of l m -> length l <= length m.
Proof. clear MAX. induction 1; cbn; lia. Qed.
Lemma part_incl {A} (l m : list A) : part_of l m -> incl l m.
Proof. induction 1; intros y I; cbn in *; [easy|destruct I; [now left|right; auto]|right; auto]. Qed.
Lemma part_trans {A} (l m n : list A) : part_of l m -> part_of m n -> part_of l n.
Proof.
  intros H1 H2. revert l H1. induction H2; intros k H1; [assumption| |constructor; auto].
  inversion H1; subst; constructor; auto.
Qed.
Lemma part_app {A} (l l' m m' : list A) : part_of l m -> part_of l' m' -> part_of (l ++ l') (m ++ m').
Proof. induction 1; cbn; intros; [assumption|constructor; auto|constructor; auto]. Qed.
Lemma part_app_l {A} (l m n : list A) : part_of l m -> part_of l (m ++ n).
Proof. intros H. rewrite <- (app_nil_r l). apply part_app; [assumption|apply part_nil_l]. Qed.
Lemma part_app_r {A} (l m n : list A) : part_of l m -> part_of l (n ++ m).
Proof. intros H. change l with ([] ++ l). apply part_app; [apply part_nil_l|assumption]. Qed.
Lemma part_nodup {A} (l m : list A) : part_of l m -> NoDup m -> NoDup l.
Proof.
  induction 1; intros D; [constructor| |]; apply NoDup_cons_iff in D; destruct D as [D1 D2]; [|auto]. constructor; [|auto]. intros I. apply D1. now apply (part_incl l m).
Qed.
Lemma kid_length (u c : knode) : In (Some c) (slots_of u) -> length (ids c) < length (ids u).
Proof. clear MAX.
  destruct u as [i p v s]. cbn [slots_of]. rewrite ids_eq. intros I. apply in_present in I. destruct (in_split _ _ I) as (l & m & E). rewrite E.
  rewrite fids_app, fids_cons. cbn [length]. rewrite !app_length. lia.
Qed.

Lemma begin_view (s : kst) a u v tp : view s a u v -> nth_error (stamps v) 0 = Some tp -> begin_ s a = Val (mkI a 0 tp).
Proof. exact (fun W E => view_at s a u v 0 tp W E). Qed.
Lemma tree_width (s : kst) t a u : sound s -> In t (roots s) -> sub a t = Some u -> length (slots_of u) <= mx.
Proof. intros SO I E. exact (sound_width max_node_size s a u SO (tree_fsub _ _ _ _ SO I E)). Qed.

Section Walks.
Variable R : effect.
Variable cb : callback V.
Variable width : nat.
Hypothesis DO : does max_node_size R cb.
Hypothesis WD : mx <= width.
(** If the callback adds no nodes, there is fuel enough. *)
Variable sh : Prop.
Hypothesis SH : sh -> forall b k u u', R b k u u' -> part_of (ids u') (ids u).
Definition late (fuel : nat) (u : knode) : Prop := sh -> fuel < length (ids u).

Lemma pre_ok fuel : walks (late fuel) (pre_walk R) (pre_order cb width fuel).
Proof.
  induction fuel as [|fuel IH]; intros s past t a u SO I E.
  - left. split; [reflexivity|]. intros _. destruct u. rewrite ids_eq. cbn. lia.
  - destruct (tree_view s t a u SO I E) as (v & W). destruct (DO past s t a u v SO I E (w_vec _ _ _ _ W)) as (s1 & b & k & u1 & EC & CH & _ & RR).
    cbn [pre_order]. unfold visit. rewrite EC. cbn [bind]. pose proof (sub_id _ _ _ E) as EI. destruct b.
    + right. exists s1, [a], (Some u1). split; [reflexivity|]. split; [rewrite <- EI; now apply pre_stop with (k := k)|exact CH].
    + pose proof CH as (SO1 & I1 & R1 & _). pose proof (changed_self _ _ _ _ _ _ E CH) as E1.
      destruct (tree_view s1 _ a u1 SO1 R1 E1) as (v1 & W1). destruct (stamp_at s1 a u1 v1 0 W1) as (q & Q); [lia|]. rewrite (begin_view _ _ _ _ _ W1 Q). cbn [bind].
      pose proof (tree_width s1 _ a u1 SO1 R1 E1) as WT.
      destruct (each_ok (late fuel) (pre_walk R) (pre_order cb width fuel) a IH (length (slots_of u1)) width 0 s1 (past ++ [a]) (put a u1 t) u1 v1 q 1 SO1 R1 E1 W1)
        as [[-> (w & Iw & Nw)]|(s2 & cs & ss & -> & OV & CH2)]; [reflexivity|lia|assumption| |].
      * left. split; [reflexivity|]. intros X. specialize (Nw X). pose proof (kid_length u1 w Iw). pose proof (part_length _ _ (SH X _ _ _ _ RR)). lia.
      * right. exists s2, (a :: cs), (Some (with_slots u1 ss)). split; [now rewrite <- app_assoc|]. split.
        -- rewrite <- EI. now apply pre_go with (k := k).
        -- exact (changed_trans s s1 s2 t a u u1 _ SO I E CH CH2).
Qed.

(** in_order *)
Definition in_result (s : kst) (past : list nat) (t : knode) (a : nat) (u : knode) (late : Prop)
  (Q : list nat -> nat -> option bool -> knode -> Prop) (visited : nat) (r : outcome (kst * list nat * nat * bool)) : Prop :=
  (r = NoFuel /\ late) \/
  (exists s' cs n b u', r = Val (s', past ++ cs, visited + n, b) /\ Q cs n (Some b) u' /\ changed s s' t a u u' /\ (sh -> part_of (ids u') (ids u))) \/
  (r = UB /\ exists cs n u', Q cs n None u').
Lemma ids_slot (u c c' : knode) p : nth_error (slots_of u) p = Some (Some c) -> part_of (ids c') (ids c) -> part_of (ids (put_slot u p (Some c'))) (ids u).
Proof.
  destruct u as [i q v s]. unfold put_slot. cbn [slots_of with_slots]. intros E H. rewrite !ids_eq. constructor. rewrite (set_nth_split _ _ (Some c') _ E).
  assert (PE : present s = present (firstn p s) ++ c :: present (skipn (S p) s)).
  { rewrite <- (firstn_skipn p s) at 1. rewrite (skipn_nth _ _ _ E). unfold present. now rewrite flat_map_app. }
  rewrite PE. unfold present. rewrite flat_map_app. fold (present (firstn p s)). cbn [flat_map app]. rewrite !fids_app, !fids_cons.
  apply part_app; [apply part_refl|]. apply part_app; [assumption|apply part_refl].
Qed.
Lemma keeps_next (s : kst) a u v p q k (s' : kst) u' v' : view s a u v -> nth_error (stamps v) p = Some q -> p < length (slots_of u) -> keeps s' a v u u' k -> view s' a u' v' ->
  p < k -> exists q', next s' (mkI a p q) = Val (mkI a (S p) q') /\ nth_error (stamps v') (S p) = Some q'.
Proof.
  intros W Q L [K1 K2] W' PK. pose proof (proj2 (K1 p q Q) PK) as G. pose proof (K2 p PK L) as L'. 
  assert (Q1 : nth_error (stamps v') p = Some q).
  { apply good_iff in G. cbn [inode ipos istamp] in G. destruct G as (n & v0 & _ & G1 & G2). rewrite (w_vec _ _ _ _ W') in G1. injection G1 as <-. assumption. }
  clear G. rename Q1 into G.
  rewrite (view_next _ _ _ _ _ _ W' G). destruct (Nat.ltb_spec p (length (slots_of u'))); [|lia].
  destruct (stamp_at s' a u' v' (S p) W') as (q' & Q'); [lia|]. rewrite (view_at _ _ _ _ _ _ W' Q'). eauto.
Qed.
Lemma in_ok fuel : forall s past t a u, sound s -> In t (roots s) -> sub a t = Some u ->
  in_result s past t a u (late fuel u) (in_walk R u) 0 (in_order cb width fuel s past a).
Proof.
  induction fuel as [|fuel IHf]; intros s past t a u SO I E.
  - left. split; [reflexivity|]. intros _. destruct u. rewrite ids_eq. cbn. lia.
  - pose proof (sub_id _ _ _ E) as EI. destruct (tree_view s t a u SO I E) as (v & W). cbn [in_order]. rewrite (view_size _ _ _ _ W). cbn [bind].
    destruct (length (slots_of u)) eqn:LE.
    + destruct (DO past s t a u v SO I E (w_vec _ _ _ _ W)) as (s1 & b & k & u1 & EC & CH & _ & RR). unfold visit. rewrite EC. cbn [bind].
      right. left. exists s1, [a], 1, false, u1. split; [reflexivity|]. split; [|split; [assumption|eauto]].
      rewrite <- EI. apply in_leaf with (b := b) (k := k); [now apply length_zero_iff_nil|assumption].
    + destruct (stamp_at s a u v 0 W) as (q & Q); [lia|]. rewrite (begin_view _ _ _ _ _ W Q). cbn [bind].
      cut (forall m p turns s past t u1 v q calls visited, (forall u' : knode, sh -> part_of (ids u') (ids u1) -> part_of (ids u') (ids u)) ->
             sound s -> In t (roots s) -> sub a t = Some u1 -> view s a u1 v -> nth_error (stamps v) p = Some q -> p <= length (slots_of u1) ->
             p + m = mx -> m <= turns ->
             in_result s past t a u1 (late (S fuel) u) (in_slots R calls p u1) visited (in_loop cb turns (in_order cb width fuel) a s past (mkI a p q) calls visited)).
      { intros LOOP. pose proof (tree_width s t a u SO I E) as WT. rewrite <- LE.
        destruct (LOOP mx 0 width s past t u v q (N.max (wsub (N.of_nat (length (slots_of u))) 1) 1) 1) as [[-> X]|[(s' & cs & k & b & u' & -> & X & Y & Z)|(-> & cs & k & u' & X)]]; auto; try lia.
        - now left.
        - right. left. exists s', cs, (S k), b, u'. repeat (split; auto). apply in_node; [intros Y0; rewrite Y0 in LE; discriminate|assumption].
        - right. right. split; [reflexivity|]. exists cs, (S k), u'. apply in_node; [intros Y0; rewrite Y0 in LE; discriminate|assumption]. }
      clear s past t SO I E v W q Q. intros m. induction m as [|m IH]; intros p turns s past t u1 v q calls visited PA SO I E W Q LP MP TU.
      * pose proof (tree_width s t a u1 SO I E) as WT. assert (p = length (slots_of u1)) by lia. subst p. right. left. exists s, [], 0, false, u1.
        rewrite app_nil_r, Nat.add_0_r. split; [|split; [now constructor|split; [now apply changed_refl|intros; apply part_refl]]].
        destruct turns; cbn [in_loop inode]; rewrite (view_end _ _ _ _ _ W Q); cbn [bind]; rewrite (view_differs _ _ _ _ _ _ _ _ W Q Q); cbn [bind]; now rewrite Nat.eqb_refl.
      * destruct turns as [|turns]; [lia|]. cbn [in_loop inode]. destruct (stamp_at s a u1 v (length (slots_of u1)) W) as (e & Ee); [lia|].
        rewrite (view_end _ _ _ _ _ W Ee). cbn [bind]. rewrite (view_differs _ _ _ _ _ _ _ _ W Q Ee). cbn [bind].
        destruct (Nat.eqb_spec p (length (slots_of u1))) as [->|NP]; cbn [negb].
        { right. left. exists s, [], 0, false, u1. rewrite app_nil_r, Nat.add_0_r. split; [reflexivity|]. split; [now constructor|split; [now apply changed_refl|intros; apply part_refl]]. }
        rewrite (view_deref _ _ _ _ _ _ W Q). unfold pointers. rewrite nth_error_map.
        (** The node's own call and the rest of the loop. *)
        assert (OWN : forall s1 past1 t1 u2 visited1, sound s1 -> In t1 (roots s1) -> sub a t1 = Some u2 -> view s1 a u2 v -> length (slots_of u2) = length (slots_of u1) ->
          (forall u' : knode, sh -> part_of (ids u') (ids u2) -> part_of (ids u') (ids u)) ->
          in_result s1 past1 t1 a u2 (late (S fuel) u) (in_own R calls p u2) visited1
            (if (calls =? 0)%N then let* it := next s1 (mkI a p q) in in_loop cb turns (in_order cb width fuel) a s1 past1 it (wsub calls 1) visited1
             else let* (s2, past2, stop) := visit cb s1 past1 a in
                  if stop : bool then Val (s2, past2, visited1, true)
                  else let* it := next s2 (mkI a p q) in in_loop cb turns (in_order cb width fuel) a s2 past2 it (wsub calls 1) visited1)).
        { intros s1 past1 t1 u2 visited1 SO1 I1 E1 W1 L1 PA1. destruct (N.eqb_spec calls 0) as [->|NC].
          - rewrite (view_next _ _ _ _ _ _ W1 Q). rewrite L1. destruct (Nat.ltb_spec p (length (slots_of u1))); [|lia].
            destruct (stamp_at s1 a u2 v (S p) W1) as (q1 & Q1); [lia|]. rewrite (view_at _ _ _ _ _ _ W1 Q1). cbn [bind].
            destruct (IH (S p) turns s1 past1 t1 u2 v q1 (wsub 0 1) visited1) as [[-> X]|[(s' & cs & k & b & u' & -> & X & Y & Z)|(-> & cs & k & u' & X)]]; auto; try lia.
            + now left.
            + right. left. exists s', cs, k, b, u'. repeat (split; auto). now constructor.
            + right. right. split; [reflexivity|]. exists cs, k, u'. now constructor.
          - destruct (DO past1 s1 t1 a u2 v SO1 I1 E1 (w_vec _ _ _ _ W1)) as (s2 & b & k & u3 & EC & CH & KE & RR). unfold visit. rewrite EC. cbn [bind].
            pose proof (sub_id _ _ _ E1) as EI1. destruct b.
            { right. left. exists s2, [a], 0, true, u3. rewrite Nat.add_0_r. split; [reflexivity|]. split; [rewrite <- EI1; now apply own_stops with (k := k)|split; [assumption|eauto]]. }
            pose proof CH as (SO2 & I2 & R2 & _). pose proof (changed_self _ _ _ _ _ _ E1 CH) as E2.
            destruct (tree_view s2 _ a u3 SO2 R2 E2) as (v2 & W2). destruct (le_lt_dec k p) as [KP|KP].
            { right. right. split; [|exists [a], 0, u3; rewrite <- EI1; now apply own_bad with (k := k)].
              unfold next. destruct (good s2 (mkI a p q)) eqn:G; [|reflexivity]. destruct KE as [K1 _]. apply (K1 p q Q) in G. lia. }
            destruct (keeps_next s1 a u2 v p q k s2 u3 v2 W1 Q) as (q2 & -> & Q2); auto; [lia|]. cbn [bind].
            assert (L3 : p < length (slots_of u3)) by (destruct KE as [_ K2]; apply K2; lia).
            destruct (IH (S p) turns s2 (past1 ++ [a]) (put a u3 t1) u3 v2 q2 (wsub calls 1) visited1) as [[-> X]|[(s' & cs & n1 & b & u' & -> & X & Y & Z)|(-> & cs & n1 & u' & X)]]; auto; try lia.
            + intros u' X Y. apply PA1; [assumption|]. apply (part_trans _ _ _ Y). eauto.
            + now left.
            + right. left. exists s', (a :: cs), n1, b, u'. rewrite <- app_assoc. split; [reflexivity|]. split; [rewrite <- EI1; now apply own_goes with (k := k) (u1 := u3)|].
              split; [exact (changed_trans s1 s2 s' t1 a u2 u3 u' SO1 I1 E1 CH Y)|]. intros H. apply (part_trans _ _ _ (Z H)). eauto.
            + right. right. split; [reflexivity|]. exists (a :: cs), n1, u'. rewrite <- EI1. now apply own_goes with (k := k) (u1 := u3). }
        destruct (nth_error (slots_of u1) p) as [[c|]|] eqn:C; [| |apply nth_error_None in C; lia]; cbn [option_map bind].
        -- pose proof (tree_nodup s t SO I) as D. destruct (slot_sub t u1 c a p D E C) as (S1 & S2 & S3 & S4).
           destruct (IHf s past t (id_of c) c SO I S1) as [[-> X]|[(s1 & ds & k & b & c' & -> & X & CH & Z)|(-> & ds & k & c' & X)]]; cbn [bind].
           ++ left. split; [reflexivity|]. intros H. specialize (X H). pose proof (kid_length u1 c (nth_error_In _ _ C)). pose proof (part_length _ _ (PA u1 H (part_refl _))). lia.
           ++ rewrite Nat.add_0_l. destruct (taken_lift s s1 t a u1 p c (Some c') SO I E C CH) as [CH1 VE]. set (u2 := put_slot u1 p (Some c')) in *.
              assert (L2 : length (slots_of u2) = length (slots_of u1)) by apply put_slot_len.
              assert (Z2 : sh -> part_of (ids u2) (ids u1)) by (intros H; exact (ids_slot u1 c c' p C (Z H))). destruct b.
              { right. left. exists s1, ds, k, true, u2. split; [reflexivity|]. split; [now apply in_child_stops with (c := c)|]. split; [assumption|auto]. }
              pose proof CH1 as (SO1 & _ & R1 & _). pose proof (changed_self _ _ _ _ _ _ E CH1) as E1.
              assert (W1 : view s1 a u2 v).
              { constructor; [exact (tree_fsub _ _ _ _ SO1 R1 E1)|rewrite VE; apply W|rewrite L2; apply W]. }
              destruct (OWN s1 (past ++ ds) (put a u2 t) u2 (visited + k) SO1 R1 E1 W1 L2) as [[-> Y]|[(s' & cs & n1 & b & u' & -> & Y & CH2 & Y2)|(-> & cs & n1 & u' & Y)]].
              ** intros u' H Y. apply PA; [assumption|]. apply (part_trans _ _ _ Y). auto.
              ** now left.
              ** right. left. exists s', (ds ++ cs), (k + n1), b, u'. rewrite app_assoc, Nat.add_assoc. split; [reflexivity|]. split; [now apply in_child with (c := c) (c' := c')|].
                 split; [exact (changed_trans s s1 s' t a u1 u2 u' SO I E CH1 CH2)|]. intros H. apply (part_trans _ _ _ (Y2 H)). auto.
              ** right. right. split; [reflexivity|]. exists (ds ++ cs), (k + n1), u'. now apply in_child with (c := c) (c' := c').
           ++ right. right. split; [reflexivity|]. exists ds, k, (put_slot u1 p (Some c')). now apply in_child_bad with (c := c).
        -- rewrite Nat.add_0_r. destruct (OWN s past t u1 visited SO I E W eq_refl PA) as [[-> Y]|[(s' & cs & n1 & b & u' & -> & Y & CH2 & Y2)|(-> & cs & n1 & u' & Y)]].
           ++ now left.
           ++ right. left. exists s', cs, n1, b, u'. repeat (split; auto). now apply in_null.
           ++ right. right. split; [reflexivity|]. exists cs, n1, u'. now apply in_null.
Qed.

(** The searches. *)
Lemma changed_deep (s s' : kst) t a u c w w' : sound s -> In t (roots s) -> sub a t = Some u -> sub c u = Some w -> changed s s' t c w w' -> changed s s' t a u (put c w' u).
Proof.
  intros SO I E C (SO' & IO & RT & VE). pose proof (tree_nodup s t SO I) as D. pose proof (sub_id _ _ _ E) as EI. pose proof (sub_in _ _ _ C) as J.
  assert (G : put c w' t = put a (put c w' u) t).
  { destruct (Nat.eq_dec c a) as [->|NE]; [|now apply put_inside].
    f_equal. destruct u as [i p v l]. cbn [id_of] in EI. subst i. rewrite put_eq. now rewrite Nat.eqb_refl. }
  split; [assumption|]. split; [rewrite put_id; assumption|]. split; [now rewrite <- G|].
  intros x K L. apply VE; [assumption|]. intros X. apply L. exact (sub_incl _ _ _ C x X).
Qed.
Lemma children_view (s : kst) a u : fsub a (roots s) = Some u -> children s a = Val (map id_of (kids u)).
Proof.
  intros E. unfold children, node. rewrite E. cbn [bind]. f_equal. unfold kids. induction (slots_of u) as [|[c|] l IH]; cbn; congruence.
Qed.
Lemma kids_in (u c : knode) : In c (kids u) <-> In (Some c) (slots_of u).
Proof. exact (in_present (slots_of u) c). Qed.
Lemma ids_kids (u : knode) : ids u = id_of u :: flat_map ids (kids u).
Proof. destruct u. now rewrite ids_eq. Qed.
Definition waits (u : knode) (us : list knode) : Prop := (forall w, In w us -> sub (id_of w) u = Some w) /\ NoDup (flat_map ids us).
Lemma waits_step (u w w' : knode) us us' : NoDup (ids u) -> NoDup (ids (put (id_of w) w' u)) -> id_of w' = id_of w ->
  waits u (w :: us) -> (forall x, cnt x (flat_map ids us') = cnt x (flat_map ids us) + cnt x (flat_map ids (kids w'))) ->
  (forall z, In z us' -> In z us \/ In z (kids w')) -> waits (put (id_of w) w' u) us'.
Proof. clear MAX WD.
  intros D D' EI [W1 W2] CN SUB. pose proof (W1 w (or_introl eq_refl)) as E. cbn [flat_map] in W2. apply nodup_app in W2. destruct W2 as (A1 & A2 & A3).
  pose proof (sub_put_same _ w' u w E EI) as E'. pose proof (sub_nodup _ _ _ D' E') as Dw'.
  assert (OUT : forall x z, In z us -> In x (ids z) -> In x (ids u) /\ ~ In x (ids w) /\ ~ In x (ids w')).
  { intros x z Z X. pose proof (W1 z (or_intror Z)) as Ez. pose proof (sub_incl _ _ _ Ez x X) as Xu.
    assert (Xw : ~ In x (ids w)) by (intros K; apply (A3 x K); apply in_flat_map; eauto). destruct (outside _ u w w' x D D' E Xu Xw). auto. }
  split.
  - intros z Z. destruct (SUB z Z) as [Z1|Z1].
    + destruct (OUT (id_of z) z Z1 (in_id z)) as (B1 & B2 & B3). rewrite (sub_put_other (id_of w) w' (id_of z) u D EI B3).
      * rewrite (W1 z (or_intror Z1)). cbn. f_equal. apply put_notin. intros K. destruct (OUT _ z Z1 K) as (_ & B4 & _). apply B4, in_id.
      * intros w0 E0. rewrite E in E0. injection E0 as <-. assumption.
    + apply kids_in, In_nth_error in Z1. destruct Z1 as (p & P). destruct (slot_sub _ w' z _ p D' E' P) as (B & _). exact B.
  - apply nodup_cnt. intros x. rewrite CN. rewrite ids_kids in Dw'. apply NoDup_cons_iff in Dw'. destruct Dw' as [_ Dk].
    pose proof (proj1 (nodup_cnt _) A2 x). pose proof (proj1 (nodup_cnt _) Dk x).
    destruct (in_dec Nat.eq_dec x (flat_map ids us)) as [K|K]; [|apply cnt_notin in K; lia].
    apply in_flat_map in K. destruct K as (z & Z & X). destruct (OUT x z Z X) as (_ & _ & B). rewrite ids_kids in B.
    assert (cnt x (flat_map ids (kids w')) = 0) by (apply cnt_notin; intros K; apply B; now right). lia.
Qed.
Definition searches (search : nat -> kst -> list nat -> list nat -> nat -> outcome (kst * list nat * nat)) (join : list knode -> list knode -> list knode) : Prop :=
  forall fuel us s past visited t a u, sound s -> In t (roots s) -> sub a t = Some u -> waits u us ->
  (search fuel s (map id_of us) past visited = NoFuel /\ (sh -> fuel < length (flat_map ids us))) \/
  exists s' cs u', search fuel s (map id_of us) past visited = Val (s', past ++ cs, visited + length cs) /\ search_walk join R us cs /\ changed s s' t a u u'.
Lemma search_ok (join : forall A, list A -> list A -> list A) search :
  (forall A (l m : list A) x, In x (join A l m) -> In x l \/ In x m) ->
  (forall A B (f : A -> B) l m, map f (join A l m) = join B (map f l) (map f m)) ->
  (forall x (l m : list knode), cnt x (flat_map ids (join _ l m)) = cnt x (flat_map ids l) + cnt x (flat_map ids m)) ->
  (forall (l m : list knode), length (flat_map ids (join _ l m)) = length (flat_map ids l) + length (flat_map ids m)) ->
  (forall fuel s past visited, search fuel s [] past visited = Val (s, past, visited)) ->
  (forall s a q past visited, search 0 s (a :: q) past visited = NoFuel) ->
  (forall fuel s a q past visited, search (S fuel) s (a :: q) past visited =
     let* (s, past, stop) := visit cb s past a in let* cs := children s a in
     if stop : bool then Val (s, past, S visited) else search fuel s (join _ q cs) past (S visited)) ->
  searches search (join knode).
Proof. clear MAX WD.
  intros J1 J2 J3 J4 S0 SN SS. intros fuel. induction fuel as [|fuel IH]; intros [|w us] s past visited t a u SO I E WA; cbn [map].
  1,3: right; exists s, [], u; rewrite app_nil_r, Nat.add_0_r, S0; split; [reflexivity|]; split; [constructor|now apply changed_refl].
  - left. split; [apply SN|]. intros _. rewrite flat_map_concat_map. cbn [map concat]. rewrite ids_kids. cbn. lia.
  - rewrite SS. pose proof (proj1 WA w (or_introl eq_refl)) as Ew. pose proof (tree_nodup s t SO I) as D. pose proof (sub_nodup _ _ _ D E) as Du.
    assert (Et : sub (id_of w) t = Some w) by (rewrite (sub_sub _ a t u D E); [assumption|exact (sub_in _ _ _ Ew)]).
    destruct (tree_view s t _ w SO I Et) as (v & W). destruct (DO past s t _ w v SO I Et (w_vec _ _ _ _ W)) as (s1 & b & k & w' & EC & CH & _ & RR).
    unfold visit. rewrite EC. cbn [bind]. pose proof CH as (SO1 & I1 & R1 & _). pose proof (changed_self _ _ _ _ _ _ Et CH) as E1.
    rewrite (children_view s1 _ w' (tree_fsub _ _ _ _ SO1 R1 E1)). cbn [bind]. pose proof (changed_deep s s1 t a u _ w w' SO I E Ew CH) as CHu. destruct b.
    + right. exists s1, [id_of w], (put (id_of w) w' u). cbn [length]. rewrite Nat.add_1_r. split; [reflexivity|]. split; [now apply search_stop with (k := k) (u' := w')|assumption].
    + pose proof CHu as (_ & _ & R2 & _). pose proof (changed_self _ _ _ _ _ _ E CHu) as E2. pose proof (tree_nodup _ _ SO1 R2) as D2.
      rewrite <- J2. destruct (IH (join _ us (kids w')) s1 (past ++ [id_of w]) (S visited) (put a (put (id_of w) w' u) t) a (put (id_of w) w' u) SO1 R2 E2) as [[-> X]|(s2 & cs & u2 & -> & X & CH2)].
      * apply waits_step with (us := us); auto. exact (sub_nodup _ _ _ D2 E2).
      * left. split; [reflexivity|]. intros H. specialize (X H). rewrite J4 in X. pose proof (part_length _ _ (SH H _ _ _ _ RR)) as Y. rewrite !ids_kids in Y. cbn [length] in Y.
        cbn [flat_map]. rewrite app_length, ids_kids. cbn [length]. lia.
      * right. exists s2, (id_of w :: cs), u2. rewrite <- app_assoc, Nat.add_succ_l, <- Nat.add_succ_r. split; [reflexivity|]. split; [now apply search_go with (k := k) (u' := w')|].
        exact (changed_trans s s1 s2 t a u _ u2 SO I E CHu CH2).
Qed.
Lemma cnt_flat (l m : list knode) x : cnt x (flat_map ids (l ++ m)) = cnt x (flat_map ids l) + cnt x (flat_map ids m).
Proof. rewrite flat_map_app. apply cnt_app. Qed.
Lemma bfs_ok : searches (fun fuel s q past visited => bfs cb fuel s q past visited) (fun q cs => q ++ cs).
Proof.
  apply (search_ok (fun A (q cs : list A) => q ++ cs)).
  - intros A l m x. apply in_app_or.
  - intros. apply map_app.
  - intros. apply cnt_flat.
  - intros. rewrite flat_map_app. apply app_length.
  - intros []; reflexivity.
  - reflexivity.
  - reflexivity.
Qed.
Lemma dfs_ok : searches (fun fuel s q past visited => dfs cb fuel s q past visited) (fun q cs => cs ++ q).
Proof. clear MAX WD.
  apply (search_ok (fun A (q cs : list A) => cs ++ q)).
  - intros A l m x. rewrite in_app_iff. tauto.
  - intros. apply map_app.
  - intros. rewrite cnt_flat. lia.
  - intros. rewrite flat_map_app, app_length. lia.
  - intros []; reflexivity.
  - reflexivity.
  - reflexivity.
Qed.
Lemma waits_one (u : knode) : NoDup (ids u) -> waits u [u].
Proof. intros D. split; [intros w [<-|[]]; apply sub_self|]. cbn. now rewrite app_nil_r. Qed.
End Walks.

(** pos_order *)
Lemma pos_ok R cb width fuel : does_or_extracts max_node_size R cb -> mx <= width ->
  walks (fun u => fuel < length (ids u)) (fun u cs o => pos_walk R u cs o /\ cs = postorder u) (pos_order cb width fuel).
Proof.
  intros DO WD. induction fuel as [|fuel IH]; intros s past t a u SO I E.
  - left. split; [reflexivity|]. destruct u. rewrite ids_eq. cbn. lia.
  - cbn [pos_order]. pose proof (sub_id _ _ _ E) as EI. destruct (tree_view s t a u SO I E) as (v & W). destruct (stamp_at s a u v 0 W) as (q & Q); [lia|].
    rewrite (begin_view _ _ _ _ _ W Q). cbn [bind]. pose proof (tree_width s t a u SO I E) as WT.
    destruct (each_ok _ _ _ a IH (length (slots_of u)) width 0 s past t u v q 1 SO I E W) as [[-> (w & Iw & Nw)]|(s1 & cs & ss & -> & OV & CH)]; [reflexivity|lia|assumption| |].
    + left. split; [reflexivity|]. pose proof (kid_length u w Iw). lia.
    + cbn [bind]. pose proof CH as (SO1 & I1 & R1 & _). pose proof (changed_self _ _ _ _ _ _ E CH) as E1.
      destruct (DO (past ++ cs) s1 _ a _ SO1 R1 E1) as (s2 & b & o & EC & TK & RR). unfold visit. rewrite EC. cbn [bind].
      right. exists s2, (cs ++ [a]), o. rewrite app_length, app_assoc. cbn [length]. rewrite Nat.add_1_r. split; [reflexivity|].
      split; [|exact (changed_taken_trans s s1 s2 t a u _ o SO I E CH TK)]. cbn [firstn app skipn] in *. rewrite <- EI. split.
      * apply pos_go with (s' := ss); [|assumption]. clear - OV. induction OV; constructor; tauto.
      * destruct u as [i pp vv sl]. cbn [postorder id_of slots_of] in *. f_equal. clear - OV. unfold slotwise. induction OV as [|? ? ? ? IHo|c ds o s cs s' [_ ->] OV IHo]; cbn; congruence.
Qed.
End P.

(** ** What the walks say *)
Section Consequences.
Context {V : Type}.
Notation knode := (knode V).
Notation effect := (KaryWalkSpec.effect V).

Section PreInd.
Variable R : effect.
Variable P : knode -> list nat -> option knode -> Prop.
Hypothesis Hstop : forall u k u', R true k u u' -> P u [id_of u] (Some u').
Hypothesis Hgo : forall u k u1 cs s', R false k u u1 -> over P (slots_of u1) cs s' -> P u (id_of u :: cs) (Some (with_slots u1 s')).
Fixpoint pre_walk_ind' u cs o (H : pre_walk R u cs o) : P u cs o :=
  match H in pre_walk _ u cs o return P u cs o with
  | pre_stop _ u k u' r => Hstop u k u' r
  | pre_go _ u k u1 cs s' r ov =>
      Hgo u k u1 cs s' r
        ((fix go s cs s' (ov : over (pre_walk R) s cs s') : over P s cs s' :=
            match ov in over _ s cs s' return over P s cs s' with
            | over_nil _ => over_nil _
            | over_null _ s cs s' ov => over_null _ s cs s' (go s cs s' ov)
            | over_child _ c ds o s cs s' w ov => over_child _ c ds o s cs s' (pre_walk_ind' c ds o w) (go s cs s' ov)
            end) (slots_of u1) cs s' ov)
  end.
End PreInd.
Lemma ids_slots (u : knode) : ids u = id_of u :: fids (present (slots_of u)).
Proof. destruct u. now rewrite ids_eq. Qed.
Lemma slots_with (u : knode) s : slots_of (with_slots u s) = s /\ id_of (with_slots u s) = id_of u.
Proof. now destruct u. Qed.
Lemma over_mono (P Q : knode -> list nat -> option knode -> Prop) s cs s' : (forall c ds o, P c ds o -> Q c ds o) -> over P s cs s' -> over Q s cs s'.
Proof. intros H. induction 1; constructor; auto. Qed.

(** No new nodes. *)
Lemma pre_sheds (R : effect) (u : knode) cs o : (forall b k u u', R b k u u' -> part_of (ids u') (ids u)) -> pre_walk R u cs o ->
  part_of cs (ids u) /\ exists u', o = Some u' /\ part_of (ids u') (ids u).
Proof.
  intros SH H. revert u cs o H. apply pre_walk_ind'; [intros u k u' H|intros u k u1 cs s' H OV].
  - split; [|eauto]. rewrite ids_slots. constructor. apply part_nil_l.
  - assert (A : part_of cs (fids (present (slots_of u1))) /\ part_of (fids (present s')) (fids (present (slots_of u1)))).
    { clear H. induction OV as [|s cs s' OV [I1 I2]|c ds o s cs s' [P1 (c' & -> & P2)] OV [I1 I2]].
      - split; constructor.
      - split; assumption.
      - change (present (Some c :: s)) with (c :: present s). change (present (Some c' :: s')) with (c' :: present s'). rewrite !fids_cons. split; now apply part_app. }
    destruct A as [A1 A2]. pose proof (SH _ _ _ _ H) as B. rewrite (ids_slots u1) in B. split.
    + rewrite ids_slots. constructor. apply (part_trans _ _ _ A1). rewrite (ids_slots u) in B. inversion B; subst; [assumption|]. apply part_trans with (m := id_of u1 :: fids (present (slots_of u1))); [|assumption].
      constructor. apply part_refl.
    + exists (with_slots u1 s'). split; [reflexivity|]. rewrite (ids_slots (with_slots u1 s')). destruct (slots_with u1 s') as [-> ->].
      apply part_trans with (m := id_of u1 :: fids (present (slots_of u1))); [now constructor|assumption].
Qed.
Lemma search_sheds (R : effect) join us cs : (forall b k u u', R b k u u' -> part_of (ids u') (ids u)) ->
  (forall x (l m : list knode), cnt x (flat_map ids (join l m)) = cnt x (flat_map ids l) + cnt x (flat_map ids m)) ->
  search_walk join R us cs -> NoDup (flat_map ids us) -> NoDup cs /\ incl cs (flat_map ids us).
Proof.
  intros SH JN. induction 1 as [|u k u' q H|u k u' q cs H W IH]; intros D.
  - split; [constructor|easy].
  - split; [repeat constructor; easy|]. intros x [<-|[]]. cbn. apply in_or_app. left. apply in_id.
  - pose proof (SH _ _ _ _ H) as B. cbn [flat_map] in D. rewrite (ids_kids u) in D. rewrite (ids_kids u), (ids_kids u') in B.
    assert (B2 : part_of (flat_map ids (kids u')) (flat_map ids (kids u))).
    { inversion B; subst; [assumption|]. apply part_trans with (m := id_of u' :: flat_map ids (kids u')); [constructor; apply part_refl|assumption]. }
    apply nodup_app in D. destruct D as (D1 & D2 & D3). apply NoDup_cons_iff in D1. destruct D1 as [D4 D5].
    assert (CN : forall x, cnt x (flat_map ids (join q (kids u'))) > 0 -> In x (flat_map ids q) \/ In x (flat_map ids (kids u))).
    { intros x C. rewrite JN in C. destruct (in_dec Nat.eq_dec x (flat_map ids q)) as [K|K]; [now left|]. apply cnt_notin in K. right. apply (part_incl _ _ B2), cnt_in. lia. }
    destruct IH as [I1 I2].
    { apply nodup_cnt. intros x. rewrite JN. pose proof (proj1 (nodup_cnt _) D2 x). pose proof (proj1 (nodup_cnt _) (part_nodup _ _ B2 D5) x).
      destruct (in_dec Nat.eq_dec x (flat_map ids q)) as [K|K]; [|apply cnt_notin in K; lia].
      assert (cnt x (flat_map ids (kids u')) = 0); [|lia]. apply cnt_notin. intros L. apply (D3 x); [|assumption]. right. now apply (part_incl _ _ B2). }
    split.
    + constructor; [|assumption]. intros K. apply I2, cnt_in, CN in K. destruct K as [K|K]; [|contradiction]. apply (D3 (id_of u)); [now left|assumption].
    + intros x [<-|K]; cbn [flat_map]; [apply in_or_app; left; apply in_id|]. apply I2, cnt_in, CN in K. apply in_or_app. rewrite (ids_kids u). destruct K; [now right|left; now right].
Qed.

Scheme in_walk_mut := Induction for in_walk Sort Prop
  with in_slots_mut := Induction for in_slots Sort Prop
  with in_own_mut := Induction for in_own Sort Prop.
Combined Scheme in_mut from in_walk_mut, in_slots_mut, in_own_mut.
Lemma put_slot_id (u : knode) p o : id_of (put_slot u p o) = id_of u.
Proof. now destruct u. Qed.
Lemma slot_ids (u c : knode) p x : nth_error (slots_of u) p = Some (Some c) -> In x (ids c) -> In x (ids u).
Proof. intros E. exact (ids_kid u c x (nth_error_In _ _ E)). Qed.
Lemma in_sheds (R : effect) (SH : forall b k (u u' : knode), R b k u u' -> part_of (ids u') (ids u)) :
  (forall u cs n r u', in_walk R u cs n r u' -> incl cs (ids u) /\ part_of (ids u') (ids u)) /\
  (forall calls p u cs n r u', in_slots R calls p u cs n r u' -> incl cs (ids u) /\ part_of (ids u') (ids u)) /\
  (forall calls p u cs n r u', in_own R calls p u cs n r u' -> incl cs (ids u) /\ part_of (ids u') (ids u)).
Proof.
  apply in_mut; intros.
  - split; [intros x [<-|[]]; apply in_id|eauto].
  - assumption.
  - split; [easy|apply part_refl].
  - assumption.
  - destruct H as [A1 A2], H0 as [B1 B2]. pose proof (ids_slot u c c' p e A2) as S1. split.
    + apply incl_app; [intros x X; apply (slot_ids u c p x e); auto|]. intros x X. apply (part_incl _ _ S1). auto.
    + now apply part_trans with (m := ids (put_slot u p (Some c'))).
  - destruct H as [A1 A2]. split; [intros x X; apply (slot_ids u c p x e); auto|]. now apply ids_slot with (c := c).
  - destruct H as [A1 A2]. split; [intros x X; apply (slot_ids u c p x e); auto|]. now apply ids_slot with (c := c).
  - assumption.
  - split; [intros x [<-|[]]; apply in_id|eauto].
  - split; [intros x [<-|[]]; apply in_id|eauto].
  - destruct H as [A1 A2]. pose proof (SH _ _ _ _ r0) as S1. split; [|now apply part_trans with (m := ids u1)].
    intros x [<-|X]; [apply in_id|]. apply (part_incl _ _ S1). auto.
Qed.
(** The iterators stay good. *)
Lemma in_defined (R : effect) (KA : forall b k (u u' : knode), R b k u u' -> length (slots_of u) <= k /\ length (slots_of u) <= length (slots_of u')) :
  (forall u cs n r u', in_walk R u cs n r u' -> r <> None) /\
  (forall calls p u cs n r u', in_slots R calls p u cs n r u' -> p <= length (slots_of u) -> r <> None) /\
  (forall calls p u cs n r u', in_own R calls p u cs n r u' -> p < length (slots_of u) -> r <> None).
Proof.
  apply in_mut; intros; try discriminate.
  - apply H. lia.
  - apply H. apply nth_error_Some. congruence.
  - apply H0. rewrite put_slot_len. apply nth_error_Some. congruence.
  - now apply H.
  - apply H. lia.
  - exfalso. pose proof (KA _ _ _ _ r). lia.
  - apply H. pose proof (KA _ _ _ _ r0). lia.
Qed.

(** Only new values. *)
Definition alike (o o' : option knode) : Prop :=
  match o, o' with None, None => True | Some c, Some c' => revalued c c' | _, _ => False end.
Lemma revalued_eq (u u' : knode) : revalued u u' <-> id_of u = id_of u' /\ Forall2 alike (slots_of u) (slots_of u').
Proof.
  destruct u as [i p v s], u' as [i' p' v' s']. cbn [revalued id_of slots_of]. apply and_iff_compat_l. revert s'.
  induction s as [|[c|] s IH]; intros [|[c'|] s']; cbn; split; intros H;
    solve [destruct H as [H1 H2]; constructor; [assumption|now apply IH] | inversion H as [|? ? ? ? H1 H2]; subst; split; [assumption|now apply IH]
          | constructor; [exact Logic.I|now apply IH] | inversion H as [|? ? ? ? H1 H2]; subst; now apply IH | constructor | exact Logic.I | contradiction
          | inversion H; contradiction].
Qed.
Lemma forall2_len {A} (P : A -> A -> Prop) l m : Forall2 P l m -> length l = length m.
Proof. induction 1; cbn; congruence. Qed.
Lemma alike_refl_list s : Forall (fun c : knode => revalued c c) (present s) -> Forall2 alike s s.
Proof.
  induction s as [|[c|] s IH]; intros H; constructor; auto.
  - change (present (Some c :: s)) with (c :: present s) in H. now inversion H.
  - apply IH. change (present (Some c :: s)) with (c :: present s) in H. now inversion H.
  - exact Logic.I.
Qed.
Lemma revalued_refl (u : knode) : revalued u u.
Proof. induction u as [i p v s IH] using node_ind. apply revalued_eq. split; [reflexivity|]. now apply alike_refl_list. Qed.
Lemma revalued_trans (u u1 u2 : knode) : revalued u u1 -> revalued u1 u2 -> revalued u u2.
Proof.
  revert u1 u2. induction u as [i p v s IH] using node_ind. intros u1 u2 H1 H2. apply revalued_eq in H1, H2. apply revalued_eq. split; [now transitivity (id_of u1)|].
  destruct H1 as [_ H1], H2 as [_ H2]. cbn [slots_of] in *. revert H1 H2. generalize (slots_of u1), (slots_of u2). intros l1 l2 H1. revert l2 IH.
  induction H1 as [|x y l l1 A H1 I1]; intros l2 IH H2; inversion H2 as [|y' z l1' l3 B H3]; subst; constructor.
  - destruct x as [c|], y as [c1|], z as [c2|]; try contradiction; [|exact Logic.I]. cbn in *. change (present (Some c :: l)) with (c :: present l) in IH.
    apply Forall_inv in IH. now apply IH with (u1 := c1).
  - apply I1; [|assumption]. destruct x as [c|]; [change (present (Some c :: l)) with (c :: present l) in IH; now apply Forall_inv_tail in IH|exact IH].
Qed.
(** A measure of nodes that does not look at the values is the same. *)
Lemma alike_map {A} (f : knode -> A) (d : A) s s' : Forall2 alike s s' -> Forall (fun c => forall c', revalued c c' -> f c' = f c) (present s) ->
  map (fun c => match c with Some c => f c | None => d end) s' = map (fun c => match c with Some c => f c | None => d end) s.
Proof.
  induction 1 as [|x y l l' A1 H IH]; intros F; [reflexivity|]. cbn [map]. destruct x as [c|], y as [c'|]; try contradiction.
  - change (present (Some c :: l)) with (c :: present l) in F. rewrite IH by now apply Forall_inv_tail in F. f_equal. apply Forall_inv in F. now apply F.
  - now rewrite IH.
Qed.
Lemma revalued_ids (u u' : knode) : revalued u u' -> ids u' = ids u.
Proof.
  revert u'. induction u as [i p v s IH] using node_ind. intros [i' p' v' s'] H. apply revalued_eq in H. cbn [id_of slots_of] in H. destruct H as [<- H]. cbn [ids]. f_equal. f_equal.
  exact (alike_map ids [] s s' H IH).
Qed.
Lemma revalued_inorder (u u' : knode) : revalued u u' -> inorder u' = inorder u.
Proof.
  revert u'. induction u as [i p v s IH] using node_ind. intros [i' p' v' s'] H. apply revalued_eq in H. cbn [id_of slots_of] in H. destruct H as [<- H]. cbn [inorder]. f_equal.
  exact (alike_map inorder [] s s' H IH).
Qed.
Lemma revalued_depth (u u' : knode) : revalued u u' -> depth u' = depth u.
Proof.
  revert u'. induction u as [i p v s IH] using node_ind. intros [i' p' v' s'] H. apply revalued_eq in H. cbn [id_of slots_of] in H. destruct H as [<- H]. cbn [depth]. f_equal. f_equal.
  exact (alike_map depth 0 s s' H IH).
Qed.
Lemma alike_kids (u u' : knode) : revalued u u' -> Forall2 revalued (kids u) (kids u').
Proof.
  intros H. apply revalued_eq in H. destruct H as [_ H]. unfold kids. induction H as [|[c|] [c'|] l l' A H IH]; try contradiction; cbn; [constructor|constructor; assumption|assumption].
Qed.
Lemma revalued_level k (u u' : knode) : revalued u u' -> level k u' = level k u.
Proof.
  revert u u'. induction k as [|k IH]; intros u u' H; cbn [level]; [apply revalued_eq in H; destruct H as [-> _]; reflexivity|].
  apply alike_kids in H. induction H as [|c c' l l' A H I]; [reflexivity|]. cbn. now rewrite I, (IH c c').
Qed.
Lemma revalued_slot (u c c' : knode) p : nth_error (slots_of u) p = Some (Some c) -> revalued c c' -> revalued u (put_slot u p (Some c')).
Proof.
  intros E H. apply revalued_eq. unfold put_slot. destruct (slots_with u (set_nth (slots_of u) p (Some c'))) as [-> ->]. split; [reflexivity|].
  revert p E. generalize (slots_of u). intros l. induction l as [|x l IH]; intros [|p] E; try discriminate; cbn.
  - injection E as ->. constructor; [assumption|]. apply alike_refl_list, Forall_forall. intros; apply revalued_refl.
  - constructor; [destruct x; [apply revalued_refl|exact Logic.I]|]. now apply IH.
Qed.
Lemma revalued_narrow m (u u' : knode) : revalued u u' -> narrow m u -> narrow m u'.
Proof.
  revert u'. induction u as [i p v s IH] using node_ind. intros [i' p' v' s'] H N. apply revalued_eq in H. cbn [id_of slots_of] in H. destruct H as [_ H].
  apply narrow_eq' in N. destruct N as [N1 N2]. apply narrow_eq'. split; [now rewrite <- (forall2_len _ _ _ H)|].
  clear N1. induction H as [|x y l l' A H I]; [constructor|]. destruct x as [c|], y as [c'|]; try contradiction.
  - change (present (Some c :: l)) with (c :: present l) in *. change (present (Some c' :: l')) with (c' :: present l').
    constructor; [apply (Forall_inv IH); [assumption|exact (Forall_inv N2)]|]. apply I; [exact (Forall_inv_tail IH)|exact (Forall_inv_tail N2)].
  - now apply I.
Qed.

Lemma pre_values (u : knode) cs o : pre_walk values_only u cs o -> cs = ids u /\ exists u', o = Some u' /\ revalued u u'.
Proof.
  intros H. revert u cs o H. apply pre_walk_ind'; [intros u k u' H|intros u k u1 cs s' H OV]; destruct H as (H1 & _ & H2); [discriminate|].
  assert (A : cs = fids (present (slots_of u1)) /\ Forall2 alike (slots_of u1) s').
  { clear H2. induction OV as [|s cs s' OV [I1 I2]|c ds o s cs s' [P1 (c' & -> & P2)] OV [I1 I2]].
    - split; [reflexivity|constructor].
    - split; [assumption|constructor; [exact Logic.I|assumption]].
    - split; [|now constructor]. change (present (Some c :: s)) with (c :: present s). rewrite fids_cons. congruence. }
  destruct A as [-> A]. split.
  - pose proof (revalued_ids _ _ H2) as X. rewrite (ids_slots u1) in X. apply revalued_eq in H2. destruct H2 as [H2 _]. rewrite H2. exact X.
  - exists (with_slots u1 s'). split; [reflexivity|]. apply (revalued_trans _ _ _ H2). apply revalued_eq. destruct (slots_with u1 s') as [-> ->]. auto.
Qed.
Lemma dfs_values (us : list knode) cs : dfs_walk values_only us cs -> cs = flat_map ids us.
Proof.
  induction 1 as [|u k u' q H|u k u' q cs H W IH]; [reflexivity| |]; destruct H as (H1 & _ & H2); [discriminate|].
  cbn [flat_map]. rewrite <- (revalued_ids _ _ H2), (ids_kids u'). apply revalued_eq in H2. destruct H2 as [-> _]. cbn [app]. f_equal.
  rewrite IH. apply flat_map_app.
Qed.

(** Level by level. *)
Definition levels (n : nat) (f : list knode) : list nat := flat_map (fun k => flat_map (level k) f) (seq 0 n).
Definition deepest (f : list knode) : nat := list_max (map depth f).
Lemma depth_kids (u : knode) : depth u = S (deepest (kids u)).
Proof.
  destruct u as [i p v s]. cbn [depth]. f_equal. unfold deepest, kids. cbn [slots_of]. induction s as [|[c|] s IH]; [reflexivity| |]; cbn [map flat_map app list_max fold_right] in *.
  - change (fold_right Init.Nat.max 0) with list_max in *. cbn [map list_max fold_right]. change (fold_right Init.Nat.max 0) with list_max. now rewrite IH.
  - change (fold_right Init.Nat.max 0) with list_max in *. now rewrite IH.
Qed.
Lemma deepest_app f g : deepest (f ++ g) = Nat.max (deepest f) (deepest g).
Proof. unfold deepest. rewrite map_app. apply list_max_app. Qed.
Lemma deepest_cons u f : deepest (u :: f) = Nat.max (depth u) (deepest f).
Proof. reflexivity. Qed.
Lemma level_end k (u : knode) : depth u <= k -> level k u = [].
Proof.
  revert u. induction k as [|k IH]; intros u L; rewrite depth_kids in L; [lia|]. cbn [level]. assert (L2 : deepest (kids u) <= k) by lia. clear L. revert L2.
  generalize (kids u). intros l. induction l as [|c l I]; [reflexivity|]. rewrite deepest_cons. intros L. cbn. rewrite IH, I by lia. reflexivity.
Qed.
Lemma levels_more n m (f : list knode) : deepest f <= n -> n <= m -> levels m f = levels n f.
Proof.
  intros L M. unfold levels. replace m with (n + (m - n)) by lia. rewrite seq_app, flat_map_app. cbn [plus]. rewrite <- (app_nil_r (flat_map _ (seq 0 n))) at 2. f_equal.
  assert (H : forall l, (forall k, In k l -> n <= k) -> flat_map (fun k => flat_map (level k) f) l = []).
  { induction l as [|k l IH]; intros H; [reflexivity|]. cbn [flat_map]. rewrite IH by (intros; apply H; now right). rewrite app_nil_r.
    assert (X : n <= k) by (apply H; now left). clear - L X. induction f as [|u f IH]; [reflexivity|]. rewrite deepest_cons in L. cbn. rewrite level_end, IH by lia. reflexivity. }
  apply H. intros k I. apply in_seq in I. lia.
Qed.
Definition by_level (f : list knode) : list nat := levels (deepest f) f.
Lemma level0 (f : list knode) : flat_map (level 0) f = map id_of f.
Proof. induction f as [|u f IH]; cbn in *; congruence. Qed.
Lemma level_next k (f : list knode) : flat_map (level (S k)) f = flat_map (level k) (flat_map kids f).
Proof. induction f as [|u f IH]; [reflexivity|]. cbn [flat_map]. now rewrite IH, flat_map_app. Qed.
Lemma deepest_kids f : f <> [] -> deepest f = S (deepest (flat_map kids f)).
Proof.
  induction f as [|u f IH]; [easy|]. intros _. rewrite deepest_cons, depth_kids. cbn [flat_map]. rewrite deepest_app. destruct f as [|w f]; [cbn; lia|]. rewrite IH by easy. cbn [flat_map]. lia.
Qed.
Lemma by_level_next f : by_level f = map id_of f ++ by_level (flat_map kids f).
Proof.
  destruct f as [|u f]; [reflexivity|]. unfold by_level. rewrite (deepest_kids (u :: f)) by easy. unfold levels. cbn [seq]. rewrite flat_map_concat_map. cbn [map concat].
  rewrite <- flat_map_concat_map, level0. f_equal. rewrite <- seq_shift. rewrite !flat_map_concat_map, map_map. f_equal. apply map_ext. intros k. rewrite <- flat_map_concat_map. apply level_next.
Qed.
Lemma by_level_alike f g : Forall2 revalued f g -> by_level g = by_level f.
Proof.
  intros H. assert (D : deepest g = deepest f). { induction H as [|u u' f g A H IH]; [reflexivity|]. now rewrite !deepest_cons, IH, (revalued_depth _ _ A). }
  unfold by_level, levels. rewrite D. rewrite !flat_map_concat_map. f_equal. apply map_ext. intros k. clear D. induction H as [|u u' f g A H IH]; [reflexivity|]. cbn. now rewrite IH, (revalued_level k _ _ A).
Qed.
Lemma Forall2_refl_list f : Forall2 (@revalued V) f f.
Proof. induction f; constructor; auto. apply revalued_refl. Qed.
Lemma bfs_values (us : list knode) cs : bfs_walk values_only us cs -> forall A B, us = A ++ B -> cs = map id_of A ++ by_level (B ++ flat_map kids A).
Proof.
  induction 1 as [|u k u' q H|u k u' q cs H W IH]; intros A B E.
  - symmetry in E. apply app_eq_nil in E. destruct E as [-> ->]. reflexivity.
  - destruct H as (H1 & _). discriminate.
  - destruct H as (_ & _ & H2). pose proof (alike_kids _ _ H2) as K.
    destruct A as [|w A]; cbn [app] in E.
    + subst B. cbn [map app flat_map]. rewrite app_nil_r, by_level_next. cbn [map app]. f_equal. rewrite (IH q (kids u') eq_refl). f_equal. cbn [flat_map].
      apply by_level_alike. apply Forall2_app; [assumption|apply Forall2_refl_list].
    + injection E as -> ->. cbn [map app flat_map]. f_equal. rewrite (IH A (B ++ kids u')) by now rewrite app_assoc. f_equal. rewrite <- app_assoc.
      apply by_level_alike. apply Forall2_app; [apply Forall2_refl_list|]. apply Forall2_app; [assumption|apply Forall2_refl_list].
Qed.
Lemma bfs_levels (u : knode) cs : bfs_walk values_only [u] cs -> cs = level_order u.
Proof.
  intros H. rewrite (bfs_values _ _ H [] [u] eq_refl). cbn [map app flat_map]. unfold by_level, levels, level_order. rewrite deepest_cons. cbn [deepest map list_max fold_right].
  rewrite Nat.max_0_r, !flat_map_concat_map. f_equal. apply map_ext. intros k. cbn. apply app_nil_r.
Qed.

(** Between the slots. *)
Fixpoint sep (x : nat) (calls : nat) (l : list (list nat)) : list nat :=
  match l with
  | [] => []
  | a :: l => a ++ match calls with 0 => sep x 0 l | S calls => x :: sep x calls l end
  end.
Lemma sep_between x l : l <> [] -> sep x (Nat.max (length l - 1) 1) l = between x l.
Proof.
  destruct l as [|a [|b l]]; [easy|reflexivity|]. intros _. cbn [length between map concat].
  replace (Nat.max (S (S (length l)) - 1) 1) with (S (length l)) by lia. cbn [sep]. f_equal. cbn [app]. f_equal. revert b.
  induction l as [|c l IH]; intros b; cbn [length sep map concat]; [now rewrite app_nil_r|]. f_equal. cbn [app]. f_equal. apply IH.
Qed.
Definition total (l : list (option knode)) : nat := list_sum (map (fun c => match c with Some c => length (ids c) | None => 0 end) l).
Lemma total_ids (u : knode) : length (ids u) = S (total (slots_of u)).
Proof.
  rewrite ids_slots. cbn. f_equal. unfold total. induction (slots_of u) as [|[c|] l IH]; [reflexivity| |assumption].
  change (present (Some c :: l)) with (c :: present l). rewrite fids_cons, app_length, IH. reflexivity.
Qed.
Lemma revalued_slots (u u' : knode) : revalued u u' -> length (slots_of u') = length (slots_of u) /\ slotwise inorder (slots_of u') = slotwise inorder (slots_of u) /\
  forall p, total (skipn p (slots_of u')) = total (skipn p (slots_of u)).
Proof.
  intros H. apply revalued_eq in H. destruct H as [_ H]. split; [now rewrite (forall2_len _ _ _ H)|]. split.
  - apply (alike_map inorder [] _ _ H). apply Forall_forall. intros c _ c'. apply revalued_inorder.
  - intros p. unfold total. f_equal. apply (alike_map (fun c => length (ids c)) 0).
    + revert p. induction H; intros [|p]; cbn; auto.
    + apply Forall_forall. intros c _ c' K. now rewrite (revalued_ids _ _ K).
Qed.
Lemma wsub1' k : (0 < k)%N -> (k < two64)%N -> wsub k 1 = (k - 1)%N.
Proof.
  intros H L. unfold wsub. replace (k + two64 - 1)%N with (k - 1 + 1 * two64)%N by lia. rewrite N.mod_add by easy. apply N.mod_small. lia.
Qed.
Definition due (len p : nat) (calls : N) : Prop :=
  p < len -> calls = N.of_nat (if len =? 1 then 1 else len - 1 - p).
Lemma in_values m (M : (N.of_nat m < two64)%N) :
  (forall (u : knode) cs n r u', in_walk values_only u cs n r u' -> narrow m u -> r = Some false /\ cs = inorder u /\ n = length (ids u) /\ revalued u u') /\
  (forall calls p (u : knode) cs n r u', in_slots values_only calls p u cs n r u' -> narrow m u -> due (length (slots_of u)) p calls ->
    r = Some false /\ cs = sep (id_of u) (N.to_nat calls) (skipn p (slotwise inorder (slots_of u))) /\ n = total (skipn p (slots_of u)) /\ revalued u u') /\
  (forall calls p (u : knode) cs n r u', in_own values_only calls p u cs n r u' -> narrow m u -> due (length (slots_of u)) p calls -> p < length (slots_of u) ->
    r = Some false /\ cs = match N.to_nat calls with 0 => sep (id_of u) 0 (skipn (S p) (slotwise inorder (slots_of u)))
                                                   | S k => id_of u :: sep (id_of u) k (skipn (S p) (slotwise inorder (slots_of u))) end /\
    n = total (skipn (S p) (slots_of u)) /\ revalued u u').
Proof.
  assert (WID : forall u : knode, narrow m u -> length (slots_of u) <= m) by (intros [i p v s] H; apply narrow_eq' in H; apply H).
  assert (KID : forall (u c : knode) p, nth_error (slots_of u) p = Some (Some c) -> narrow m u -> narrow m c).
  { intros [i q v s] c p E H. apply narrow_eq' in H. destruct H as [_ H]. apply (proj1 (Forall_forall _ _) H). apply in_present. exact (nth_error_In _ _ E). }
  assert (SKIP : forall (l : list (option knode)) p c, nth_error l p = Some c -> skipn p (slotwise inorder l) = match c with Some c => inorder c | None => [] end :: skipn (S p) (slotwise inorder l)).
  { intros l p c E. apply skipn_nth. unfold slotwise. now rewrite nth_error_map, E. }
  assert (TOT : forall (l : list (option knode)) p c, nth_error l p = Some c -> total (skipn p l) = match c with Some c => length (ids c) | None => 0 end + total (skipn (S p) l)).
  { intros l p c E. rewrite (skipn_nth _ _ _ E). reflexivity. }
  assert (SEP : forall x k a l, sep x k (a :: l) = a ++ match k with 0 => sep x 0 l | S k => x :: sep x k l end) by reflexivity.
  apply in_mut.
  - intros u b k u' E (-> & _ & H) _. split; [reflexivity|]. destruct u as [i p v s]. cbn [slots_of] in E. subst s. auto.
  - intros u cs n r u' NE IS IH N. pose proof (WID u N) as L. destruct (slots_of u) as [|o l] eqn:El; [easy|]. rewrite <- El in *.
    assert (LN : length (slots_of u) = S (length l)) by now rewrite El.
    assert (C : N.max (wsub (N.of_nat (length (slots_of u))) 1) 1 = N.of_nat (Nat.max (length (slots_of u) - 1) 1)).
    { rewrite wsub1' by (unfold two64 in *; lia). lia. }
    destruct IH as (-> & -> & -> & RV); [assumption| |].
    + rewrite C. intros _. f_equal. destruct (Nat.eqb_spec (length (slots_of u)) 1); lia.
    + split; [reflexivity|]. split; [|split; [rewrite total_ids; reflexivity|assumption]].
      rewrite C, Nat2N.id. cbn [skipn]. replace (length (slots_of u)) with (length (slotwise inorder (slots_of u))) by apply map_length.
      rewrite sep_between; [now destruct u|]. rewrite El. discriminate.
  - intros calls p u -> _ _. split; [reflexivity|]. rewrite !skipn_all2 by (unfold slotwise; rewrite ?map_length; lia). split; [reflexivity|]. split; [reflexivity|apply revalued_refl].
  - intros calls p u cs n r u' E IO IH N DU. destruct IH as (-> & -> & -> & RV); auto; [apply nth_error_Some; congruence|]. rewrite (SKIP _ _ _ E), SEP, (TOT _ _ _ E). auto.
  - intros calls p u c ds k c' cs n r u' E W IH1 IO IH2 N DU. destruct (IH1 (KID _ _ _ E N)) as (_ & -> & -> & RV). pose proof (revalued_slot u c c' p E RV) as RS.
    destruct (revalued_slots _ _ RS) as (X1 & X2 & X3). rewrite X1, X2, X3, put_slot_id in IH2. destruct IH2 as (-> & -> & -> & RV2); auto.
    + exact (revalued_narrow m _ _ RS N).
    + apply nth_error_Some; congruence.
    + rewrite (SKIP _ _ _ E), SEP, (TOT _ _ _ E). split; [reflexivity|]. split; [reflexivity|]. split; [reflexivity|]. exact (revalued_trans _ _ _ RS RV2).
  - intros calls p u c ds k c' E W IH1 N DU. destruct (IH1 (KID _ _ _ E N)) as (X & _). discriminate.
  - intros calls p u c ds k c' E W IH1 N DU. destruct (IH1 (KID _ _ _ E N)) as (X & _). discriminate.
  - intros p u cs n r u' IS IH N DU L. specialize (DU L). assert (LP : p = length (slots_of u) - 1 /\ length (slots_of u) <> 1) by (destruct (Nat.eqb_spec (length (slots_of u)) 1); lia).
    destruct IH as (-> & -> & -> & RV); auto; [intros X; lia|]. split; [reflexivity|]. split; [|auto].
    rewrite skipn_all2 by (unfold slotwise; rewrite map_length; lia). reflexivity.
  - intros calls p u k u' NC (X & _). discriminate.
  - intros calls p u k u' NC (_ & X & _) KP N DU L. lia.
  - intros calls p u k u1 cs n r u' NC (_ & _ & RV) KP IS IH N DU L. destruct (revalued_slots _ _ RV) as (X1 & X2 & X3). rewrite X1, X2, X3 in IH. specialize (DU L).
    pose proof (WID u N) as WU. assert (C : wsub calls 1 = (calls - 1)%N).
    { apply wsub1'; [lia|]. destruct (Nat.eqb_spec (length (slots_of u)) 1); unfold two64 in *; lia. }
    rewrite C in IH. destruct IH as (-> & -> & -> & RV2).
    + exact (revalued_narrow m _ _ RV N).
    + intros L2. destruct (Nat.eqb_spec (length (slots_of u)) 1); lia.
    + split; [reflexivity|]. replace (id_of u1) with (id_of u) by (apply revalued_eq in RV; apply RV). destruct (N.to_nat calls) as [|j] eqn:Ej; [lia|].
      split; [replace (N.to_nat (calls - 1)) with j by lia; reflexivity|]. split; [reflexivity|]. exact (revalued_trans _ _ _ RV RV2).
Qed.

(** A callback that always leaves a child. *)
Lemma pre_grows (u : knode) cs o : pre_walk grows u cs o -> False.
Proof.
  intros H. revert u cs o H. apply pre_walk_ind'; [intros u k u' [H _]|intros u k u1 cs s' [_ H] OV]; [discriminate|]. apply H. clear H.
  unfold kids. induction OV as [|s cs s' OV IH|c ds o s cs s' [] OV IH]; [reflexivity|exact IH].
Qed.
Lemma search_grows join (us : list knode) cs : (forall l m, m <> [] -> join l m <> []) -> search_walk join grows us cs -> us = [].
Proof.
  intros JN. induction 1 as [|u k u' q [H _]|u k u' q cs [_ H] W IH]; [reflexivity|discriminate|]. exfalso. exact (JN _ _ H IH).
Qed.
End Consequences.

(** ** Callbacks *)
Section Callbacks.
Context {V : Type}.
Variable max_node_size : N.
Hypothesis MAX : (max_node_size < two64)%N.
Variable grow : nat -> nat -> nat -> nat.
Notation mx := (N.to_nat max_node_size).
Notation knode := (knode V).
Notation kst := (kst V).
Notation sound := (sound max_node_size).
Notation changed := (changed max_node_size).
Notation taken := (taken max_node_size).
Notation effect := (KaryWalkSpec.effect V).
Notation kcall := (kcall max_node_size grow).

Definition kept_after (n : knode) (v : vec) (c : call V) : nat :=
  let size := length (slots_of n) in
  let app size' := if size' <=? cap v then size else 0 in
  let push := if (N.of_nat size <? max_node_size)%N then app (S size) else S size in
  let write p := if (p <? N.of_nat size)%N then S size else if (p <? max_node_size)%N then app (S (N.to_nat p)) else S size in
  match c with
  | CAdd _ => push
  | CInsertNull _ => if null_slot n then S size else push
  | CInsertAt p _ | CReplaceAt p _ => write p
  | CDelete p => if (p <? N.of_nat size)%N then N.to_nat p else S size
  | CClear => 0
  | CExtract _ | CSetValue _ => S size
  end.
Lemma kept_after_ok (n : knode) v c pos : pos <= length (slots_of n) -> after_call max_node_size n v c pos = (pos <? kept_after n v c).
Proof.
  intros L. assert (T : true = (pos <? S (length (slots_of n)))) by (symmetry; apply Nat.ltb_lt; lia).
  assert (AP : forall size', after_append v (length (slots_of n)) size' pos = (pos <? if size' <=? cap v then length (slots_of n) else 0)).
  { intros size'. unfold after_append. now destruct (size' <=? cap v). }
  unfold after_call, kept_after. destruct c; rewrite ?AP; try (destruct (null_slot n)); try (destruct (_ <? _)%N); try (destruct (_ <? _)%N); auto.
Qed.
Lemma kept_after_size (n : knode) v c p : p < kept_after n v c -> p < length (slots_of n) -> p < size_after max_node_size n c.
Proof.
  unfold kept_after, size_after. intros H L.
  destruct c; try (destruct (null_slot n)); try (destruct (N.ltb_spec child (N.of_nat (length (slots_of n))))); try (destruct (N.ltb_spec position (N.of_nat (length (slots_of n)))));
    try (destruct (_ <? _)%N); try lia.
Qed.
Lemma call_changed (s : kst) t a u v c : sound s -> In t (roots s) -> sub a t = Some u -> view s a u v -> in_range max_node_size c ->
  exists s' ans h f i' u' v', kcall s a c = Val (s', (ans, option_map id_of h)) /\ do_call max_node_size (fresh s) c u = Val (u', (ans, h, f, i')) /\
    changed s s' t a u u' /\ keeps s' a v u u' (kept_after u v c) /\ view s' a u' v' /\ tick s <= tick s' /\
    v' = vec_after grow (tick s) c u u' v /\ (forall x, x <> a -> In x (fids (roots s)) -> nth_error (vecs s') x = nth_error (vecs s) x) /\
    roots s' = fput a u' (roots s) ++ match h with Some m => [m] | None => [] end.
Proof.
  intros SO I E W R. destruct (call_view max_node_size MAX grow s a u v c SO W R) as (s' & r & u' & ans & h & f & i' & EC & D & SO' & W' & ES).
  pose proof (tree_fsub max_node_size s t a u SO I E) as EF. pose proof (sound_width max_node_size s a u SO EF) as L.
  pose proof (do_call_shape max_node_size MAX grow _ _ _ _ _ _ _ _ D L) as SH. pose proof (do_call_effect max_node_size MAX _ _ _ _ _ _ _ _ D L) as EE.
  assert (ER : r = (ans, option_map id_of h)).
  { unfold KaryIterModel.kcall in EC. rewrite (node_val _ _ _ EF) in EC. cbn [bind] in EC. rewrite (vector_val _ _ _ _ EF (w_vec _ _ _ _ W)) in EC. cbn [bind] in EC.
    rewrite D in EC. cbn [bind] in EC. now injection EC as _ <-. }
  subst r. exists s', ans, h, f, i', u', (vec_after grow (tick s) c u u' v). split; [assumption|]. split; [assumption|]. split; [|split; [|split; [assumption|]]].
  - split; [assumption|]. split; [exact (fsub_id _ _ _ (w_node _ _ _ _ W'))|]. split.
    + subst s'. cbn [after_k roots]. apply in_or_app. left. unfold fput. now apply in_map.
    + intros x J K. subst s'. apply (step_vec_other max_node_size MAX); auto.
      * intros ->. apply K. pose proof (sub_id _ _ _ E) as X. rewrite <- X. apply in_id.
      * destruct SO as (_ & B & _). apply (proj1 (Forall_forall _ _) B). apply in_fids. eauto.
  - split.
    + intros p q Q. rewrite (survive max_node_size MAX grow s (KCallOn a c) s' (ans, option_map id_of h) (mkI a p q) SO); [| |exact EC].
      * cbn [survives inode ipos]. assert (LP : p <= length (slots_of u)).
        { pose proof (w_len _ _ _ _ W) as LW. assert (p < length (stamps v)) by (apply nth_error_Some; congruence). lia. }
        rewrite Nat.eqb_refl. split.
        -- intros H. specialize (H u v EF (w_vec _ _ _ _ W)). rewrite (kept_after_ok u v c p LP) in H. now apply Nat.ltb_lt.
        -- intros H n0 v0 H1 H2. rewrite EF in H1. injection H1 as <-. rewrite (w_vec _ _ _ _ W) in H2. injection H2 as <-.
           rewrite (kept_after_ok u v c p LP). now apply Nat.ltb_lt.
      * apply good_iff. exists u, v. repeat split; auto. apply W.
    + intros p P1 P2. rewrite (h_size _ _ _ _ _ _ _ _ SH). exact (kept_after_size u v c p P1 P2).
  - split; [subst s'; cbn [after_k tick]; lia|]. split; [reflexivity|]. split; [|subst s'; reflexivity].
    intros x NE J. subst s'. apply (step_vec_other max_node_size MAX); auto. destruct SO as (_ & B & _). exact (proj1 (Forall_forall _ _) B x J).
Qed.
(** Deleting what was handed back. *)
Lemma fput_root a (m : knode) (ts : list knode) : Forall (fun t => id_of m = a -> id_of (put a m t) = id_of t) ts.
Proof. apply Forall_forall. intros t _ H. now apply put_id. Qed.
Lemma drop_changed (s s1 : kst) t a u u1 v v1 k h drop : sound s -> changed s s1 t a u u1 -> keeps s1 a v u u1 k -> view s1 a u1 v1 -> sub a t = Some u ->
  (forall m, h = Some m -> exists F, roots s1 = fput a u1 (roots s) ++ [m] /\ F = roots s /\ In t F) ->
  exists s2, drops drop s1 (option_map id_of h) = Val s2 /\ changed s s2 t a u u1 /\ keeps s2 a v u u1 k /\ view s2 a u1 v1 /\ tick s1 <= tick s2 /\ vecs s2 = vecs s1 /\
    (forall it, good s1 it = false -> istamp it < tick s1 -> good s2 it = false).
Proof.
  intros SO CH KE W E H. destruct h as [m|]; cbn [option_map drops]; [|exists s1; repeat (split; auto)]. destruct drop; [|exists s1; repeat (split; auto)].
  destruct (H m eq_refl) as (F & ER & _ & _). pose proof CH as (SO1 & I1 & R1 & V1).
  assert (OW : owned s1 (id_of m) = true).
  { unfold owned. apply existsb_exists. exists m. split; [rewrite ER; apply in_or_app; right; now left|apply Nat.eqb_refl]. }
  destruct (kdestroy s1 (id_of m)) as [s2| | |] eqn:EK; unfold kdestroy in EK; rewrite OW in EK; try discriminate. fold (kdestroy s1 (id_of m)) in EK.
  assert (EK' : kdestroy s1 (id_of m) = Val s2) by (unfold kdestroy; now rewrite OW). clear EK.
  pose proof (kdestroy_sound max_node_size grow s1 (id_of m) s2 SO1 EK') as SO2. destruct (kdestroy_val max_node_size s1 (id_of m) s2 SO1 EK') as (n & In1 & Eid & _ & EV & ET & RM & FS).
  assert (Nm : n = m).
  { destruct SO1 as (D1 & _). apply (kid_unique (map Some (roots s1)) n m (id_of m)).
    - replace (present (map Some (roots s1))) with (roots s1); [assumption|]. clear. unfold present. induction (roots s1) as [|x l IH]; cbn; congruence.
    - now apply in_map.
    - apply in_map. rewrite ER. apply in_or_app. right. now left.
    - rewrite <- Eid. apply in_id.
    - apply in_id. }
  subst n. assert (NT : put a u1 t <> m).
  { intros X. destruct SO1 as (D1 & _). rewrite ER in D1. rewrite fids_app in D1. apply nodup_app in D1. destruct D1 as (_ & _ & D1). apply (D1 (id_of m)).
    - apply in_fids. rewrite ER in R1. apply in_app_or in R1. exists m. split; [|apply in_id]. destruct (H m eq_refl) as (F' & _ & -> & IF). rewrite <- X. unfold fput. now apply in_map.
    - apply in_fids. exists m. split; [now left|apply in_id]. }
  assert (R2 : In (put a u1 t) (roots s2)) by (apply RM; auto).
  pose proof (changed_self max_node_size s s1 t a u u1 E CH) as E1.
  assert (W2 : view s2 a u1 v1).
  { constructor; [exact (tree_fsub max_node_size s2 _ a u1 SO2 R2 E1)|rewrite EV; apply W|apply W]. }
  assert (CH2 : changed s s2 t a u u1) by (split; [assumption|]; split; [assumption|]; split; [assumption|]; now rewrite EV).
  exists s2. split; [reflexivity|]. split; [assumption|]. split; [|split; [assumption|split; [lia|split; [assumption|]]]].
  - destruct KE as [K1 K2]. split; [|assumption]. intros p q Q. rewrite <- (K1 p q Q). rewrite !good_iff. cbn [inode ipos istamp].
    rewrite (w_node _ _ _ _ W2), (w_node _ _ _ _ W), EV. reflexivity.
  - intros it B1 B2. exact (proj1 (bad_step max_node_size MAX grow s1 (KDestroy (id_of m)) s2 (ANone, None) it SO1 B1 B2 ltac:(cbn [kstep]; now rewrite EK'))).
Qed.

(** The effects of single calls. *)
Lemma erase_part {A} (l : list A) p : part_of (erase l p) l.
Proof. revert p. induction l as [|x l IH]; intros [|p]; cbn; [constructor|constructor|constructor; apply part_refl|constructor; apply IH]. Qed.
Lemma present_part (l m : list (option knode)) : part_of l m -> part_of (fids (present l)) (fids (present m)).
Proof.
  induction 1 as [|[c|] l m H IH|[c|] l m H IH]; try exact IH; [constructor| |]; change (present (Some c :: m)) with (c :: present m); rewrite fids_cons.
  - change (present (Some c :: l)) with (c :: present l). rewrite fids_cons. apply part_app; [apply part_refl|assumption].
  - now apply part_app_r.
Qed.
Lemma null_part (l : list (option knode)) p : part_of (fids (present (set_nth l p None))) (fids (present l)).
Proof.
  revert p. induction l as [|[c|] l IH]; intros [|p]; cbn [set_nth]; try apply part_refl.
  - change (present (Some c :: l)) with (c :: present l). rewrite fids_cons. change (present (None :: l)) with (present l). apply part_app_r, part_refl.
  - change (present (Some c :: l)) with (c :: present l). change (present (Some c :: set_nth l p None)) with (c :: present (set_nth l p None)). rewrite !fids_cons. apply part_app; [apply part_refl|apply IH].
  - apply IH.
Qed.
Lemma slots_part (u : knode) s : part_of (fids (present s)) (fids (present (slots_of u))) -> part_of (ids (with_slots u s)) (ids u).
Proof. intros H. rewrite (ids_slots (with_slots u s)), (ids_slots u). destruct (slots_with u s) as [-> ->]. now constructor. Qed.
Lemma call_sheds i c (u u' : knode) ans h f i' : match c with CDelete _ | CExtract _ | CClear | CSetValue _ => True | _ => False end ->
  do_call max_node_size i c u = Val (u', (ans, h, f, i')) -> part_of (ids u') (ids u).
Proof.
  destruct c; intros X; try contradiction; cbn [do_call].
  - unfold delete_child. destruct (cell (slots_of u) child); intros [= <- <- <- <- <-]; [|apply part_refl]. apply slots_part, present_part, erase_part.
  - unfold extract_child. destruct (cell (slots_of u) child) as [[d|]|]; intros [= <- <- <- <- <-]; try apply part_refl. apply slots_part, null_part.
  - intros [= <- <- <- <- <-]. apply slots_part, part_nil_l.
  - intros [= <- <- <- <- <-]. destruct u. apply part_refl.
Qed.
Lemma body_ok a p : forall (s : kst) t u v, in_ranges max_node_size p -> sound s -> In t (roots s) -> sub a t = Some u -> view s a u v ->
  exists s' b k u', run_body max_node_size grow s a p = Val (s', b) /\ changed s s' t a u u' /\ keeps s' a v u u' k /\
    (forall it, good s it = false -> istamp it < tick s -> good s' it = false) /\
    (adds_none p -> part_of (ids u') (ids u)) /\
    (extracts_only p -> length (slots_of u) < k /\ length (slots_of u') = length (slots_of u)) /\
    (sets_only p -> b = false /\ length (slots_of u) < k /\ revalued u u').
Proof.
  induction p as [b|c drop k IH]; intros s t u v IR SO I E W.
  - exists s, b, (S (length (slots_of u))), u. cbn [run_body]. split; [reflexivity|]. split; [exact (changed_refl max_node_size s t a u SO I E)|]. split; [|split; [auto|split; [|split]]].
    + split; [|lia]. intros p q Q. pose proof (w_len _ _ _ _ W) as LW. assert (p < length (stamps v)) by (apply nth_error_Some; congruence).
      split; [lia|]. intros _. apply good_iff. exists u, v. repeat split; auto; apply W.
    + intros _. apply part_refl.
    + intros _. split; [lia|reflexivity].
    + intros ->. split; [reflexivity|]. split; [lia|apply revalued_refl].
  - cbn [in_ranges] in IR. destruct IR as [IR1 IR2]. cbn [run_body].
    destruct (call_changed s t a u v c SO I E W IR1) as (s1 & ans & h & f & i' & u1 & v1 & EC & D & CH & KE & W1 & TK & _ & _ & ER). rewrite EC. cbn [bind snd].
    destruct (drop_changed s s1 t a u u1 v v1 _ h drop SO CH KE W1 E) as (s2 & -> & CH2 & KE2 & W2 & TK2 & _ & BD).
    { intros m ->. exists (roots s). auto. }
    cbn [bind]. pose proof CH2 as (SO2 & I2 & R2 & V2). pose proof (changed_self max_node_size s s2 t a u u1 E CH2) as E2. pose proof CH as (SO1 & _).
    destruct (IH (ans, option_map id_of h) s2 (put a u1 t) u1 v1 (IR2 _) SO2 R2 E2 W2) as (s3 & b & k3 & u3 & -> & CH3 & KE3 & BD3 & P1 & P2 & P3).
    assert (BDC : forall it, good s it = false -> istamp it < tick s -> good s1 it = false /\ istamp it < tick s1).
    { intros it B1 B2. destruct (bad_step max_node_size MAX grow s (KCallOn a c) s1 _ it SO B1 B2 EC). split; [assumption|lia]. }
    exists s3, b, (Nat.min (kept_after u v c) k3), u3. split; [reflexivity|]. split; [exact (changed_trans max_node_size s s2 s3 t a u u1 u3 SO I E CH2 CH3)|].
    split; [|split; [|split; [|split]]].
    + destruct KE2 as [K1 K2], KE3 as [K3 K4]. split; [|intros p X Y; apply K4; [lia|apply K2; lia]]. intros p q Q.
      assert (LT : q < tick s).
      { destruct SO as (_ & _ & _ & _ & _ & FI). destruct (FI a u (w_node _ _ _ _ W)) as (v0 & F1 & _ & F3). rewrite (w_vec _ _ _ _ W) in F1. injection F1 as <-.
        apply (proj1 (Forall_forall _ _) F3). exact (nth_error_In _ _ Q). }
      destruct (good s2 (mkI a p q)) eqn:G.
      * pose proof (proj1 (K1 p q Q) G) as PK. apply good_iff in G. cbn [inode ipos istamp] in G. destruct G as (n0 & v0 & _ & G1 & G2). rewrite (w_vec _ _ _ _ W2) in G1. injection G1 as <-.
        rewrite (K3 p q G2). lia.
      * assert (NK : ~ p < kept_after u v c) by (intros X; apply (K1 p q Q) in X; congruence). split; [|lia].
        intros X. rewrite (BD3 _ G) in X; [discriminate|]. cbn [istamp]. lia.
    + intros it B1 B2. destruct (BDC it B1 B2) as [B3 B4]. apply BD3; [now apply BD|lia].
    + cbn [adds_none]. intros [A1 A2]. apply part_trans with (m := ids u1); [auto|]. exact (call_sheds _ _ _ _ _ _ _ _ A1 D).
    + cbn [extracts_only]. intros [A1 A2]. destruct (P2 (A2 _)) as [B1 B2].
      assert (X : kept_after u v c = S (length (slots_of u)) /\ length (slots_of u1) = length (slots_of u)).
      { destruct c; try contradiction; split; try reflexivity; pose proof (sound_width max_node_size s a u SO (w_node _ _ _ _ W)) as L;
          exact (h_size _ _ _ _ _ _ _ _ (do_call_shape max_node_size MAX grow _ _ _ _ _ _ _ _ D L)). }
      destruct X as [-> X]. split; [lia|congruence].
    + cbn [sets_only]. intros [A1 A2]. destruct (P3 (A2 _)) as (B0 & B1 & B2). destruct c; try contradiction. cbn [do_call] in D. injection D as <- _ _ _ _.
      split; [assumption|]. replace (length (slots_of (set_value u v0))) with (length (slots_of u)) in B1 by now destruct u. split; [cbn [kept_after]; lia|].
      apply revalued_trans with (u1 := set_value u v0); [|assumption]. apply revalued_eq. destruct u as [i pp w sl]. cbn. split; [reflexivity|].
      apply alike_refl_list, Forall_forall. intros; apply revalued_refl.
Qed.
Lemma adds_none_ranges (p : body V) : adds_none p -> in_ranges max_node_size p.
Proof. induction p as [b|c drop k IH]; cbn; [auto|]. intros [H1 H2]. split; [now destruct c|]. intros r. now apply IH. Qed.
Lemma extracts_adds (p : body V) : extracts_only p -> adds_none p.
Proof. induction p as [b|c drop k IH]; cbn; [auto|]. intros [H1 H2]. split; [now destruct c|]. intros r. now apply IH. Qed.
Lemma sets_adds (p : body V) : sets_only p -> adds_none p.
Proof. induction p as [b|c drop k IH]; cbn; [auto|]. intros [H1 H2]. split; [now destruct c|]. intros r. now apply IH. Qed.
Lemma own_does (R : effect) f : (forall past a, in_ranges max_node_size (f past a)) ->
  (forall past a b k u u', (adds_none (f past a) -> part_of (ids u') (ids u)) ->
    (extracts_only (f past a) -> length (slots_of u) < k /\ length (slots_of u') = length (slots_of u)) ->
    (sets_only (f past a) -> b = false /\ length (slots_of u) < k /\ revalued u u') -> R b k u u') ->
  does max_node_size R (own max_node_size grow f).
Proof.
  intros IR H past s t a u v SO I E EV. destruct (tree_view max_node_size s t a u SO I E) as (v' & W). pose proof (w_vec _ _ _ _ W) as X. rewrite EV in X. injection X as <-.
  destruct (body_ok a (f past a) s t u v (IR past a) SO I E W) as (s' & b & k & u' & ER & CH & KE & _ & P1 & P2 & P3). exists s', b, k, u'. split; [exact ER|]. split; [assumption|]. split; [assumption|]. eauto.
Qed.
Lemma own_anything f : (forall past a, in_ranges max_node_size (f past a)) -> does max_node_size (@anything V) (own max_node_size grow f).
Proof. intros H. apply own_does; [assumption|]. intros. exact Logic.I. Qed.
Lemma own_sheds f : (forall past a, adds_none (f past a)) -> does max_node_size (@sheds V) (own max_node_size grow f).
Proof. intros H. apply own_does; [intros; now apply adds_none_ranges|]. intros past a b k u u' P1 _ _. apply P1, H. Qed.
Lemma own_spares f : (forall past a, extracts_only (f past a)) ->
  does max_node_size (fun b k (u u' : knode) => sheds b k u u' /\ spares_iterators b k u u') (own max_node_size grow f).
Proof.
  intros H. apply own_does; [intros; now apply adds_none_ranges, extracts_adds|]. intros past a b k u u' P1 P2 _. split; [apply P1, extracts_adds, H|].
  destruct (P2 (H past a)). unfold spares_iterators. lia.
Qed.
Lemma own_values f : (forall past a, sets_only (f past a)) -> does max_node_size (@values_only V) (own max_node_size grow f).
Proof. intros H. apply own_does; [intros; now apply adds_none_ranges, sets_adds|]. intros past a b k u u' _ _ P3. exact (P3 (H past a)). Qed.

(** The parent of a node. *)
Lemma index_of_ok (l : list (option knode)) u : NoDup (fids (present l)) -> In (Some u) l -> nth_error l (index_of (id_of u) l) = Some (Some u).
Proof.
  induction l as [|[c|] l IH]; intros D I; [easy| |]; cbn [index_of].
  - destruct (Nat.eqb_spec (id_of c) (id_of u)) as [E|E].
    + cbn. f_equal. f_equal. apply (kid_unique (Some c :: l) c u (id_of c) D); [now left|assumption|apply in_id|rewrite E; apply in_id].
    + cbn [nth_error]. apply IH; [|destruct I as [[= ->]|I]; [congruence|assumption]]. change (present (Some c :: l)) with (c :: present l) in D. rewrite fids_cons in D. now apply nodup_app in D.
  - cbn [nth_error]. apply IH; [exact D|destruct I as [[=]|I]; assumption].
Qed.
Lemma find_above (n : knode) : forall q a u, NoDup (ids n) -> linked q n -> sub a n = Some u ->
  (id_of n = a /\ u = n) \/ exists p m, sub p n = Some m /\ parent_of u = Some p /\ In (Some u) (slots_of m).
Proof.
  induction n as [i p v s IH] using node_ind. intros q a u D L E. pose proof D as D0. rewrite ids_eq in D0. apply NoDup_cons_iff in D0. destruct D0 as [D1 D2].
  rewrite sub_eq in E. destruct (Nat.eqb_spec a i) as [->|N]; [injection E as <-; now left|]. right.
  destruct (fsub_some _ _ _ E) as (c & I & K). apply linked_eq' in L. destruct L as [_ L]. pose proof (proj1 (Forall_forall _ _) L c I) as Lc. apply in_present in I as J.
  destruct (proj1 (Forall_forall _ _) IH c I (Some i) a u (nodup_elem _ _ I D2) Lc K) as [[E1 ->]|(p' & m & S1 & S2 & S3)].
  - exists i, (KN i p v s). split; [exact (sub_self (KN i p v s))|]. split; [exact (linked_parent _ _ Lc)|exact J].
  - exists p', m. split; [|auto]. destruct (sub_kid (KN i p v s) c p' D J (sub_in _ _ _ S1)) as [-> _]. exact S1.
Qed.
Lemma find_parent (s : kst) t a u : sound s -> In t (roots s) -> sub a t = Some u ->
  (id_of t = a /\ u = t /\ parent_of u = None) \/
  exists p m, sub p t = Some m /\ parent_of u = Some p /\ nth_error (slots_of m) (index_of a (slots_of m)) = Some (Some u) /\ id_of t <> a.
Proof.
  intros SO I E. pose proof (tree_nodup max_node_size s t SO I) as D. pose proof SO as (_ & _ & L & _). pose proof (proj1 (Forall_forall _ _) L t I) as Lt.
  destruct (find_above t None a u D Lt E) as [[E1 ->]|(p & m & S1 & S2 & S3)].
  - left. split; [assumption|]. split; [reflexivity|exact (linked_parent _ _ Lt)].
  - right. exists p, m. split; [assumption|]. split; [assumption|]. pose proof (sub_id _ _ _ E) as Eu. split.
    + rewrite <- Eu. apply index_of_ok; [|assumption]. pose proof (sub_nodup _ _ _ D S1) as Dm. rewrite ids_slots in Dm. now apply NoDup_cons_iff in Dm.
    + intros X. rewrite <- X, sub_self in E. injection E as <-. rewrite (linked_parent _ _ Lt) in S2. discriminate.
Qed.
Lemma cell_nat {A} (l : list A) q : cell l (N.of_nat q) = nth_error l q.
Proof. unfold cell. now rewrite Nat2N.id. Qed.
Lemma extract_self_ok : does_or_extracts max_node_size (fun (u : knode) o => match parent_of u with None => o = Some u | Some _ => o = None end) (extract_self max_node_size grow).
Proof.
  intros past s t a u SO I E. pose proof (tree_fsub max_node_size s t a u SO I E) as EF. unfold extract_self. rewrite (node_val _ _ _ EF). cbn [bind].
  destruct (find_parent s t a u SO I E) as [(E1 & -> & ->)|(p & m & S1 & PE & Q & NT)].
  - exists s, false, (Some t). split; [reflexivity|]. split; [exact (changed_refl max_node_size s t a t SO I E)|reflexivity].
  - rewrite PE. pose proof (tree_fsub max_node_size s t p m SO I S1) as EM. rewrite (node_val _ _ _ EM). cbn [bind]. set (q := index_of a (slots_of m)) in *.
    destruct (tree_view max_node_size s t p m SO I S1) as (v & W). pose proof (tree_nodup max_node_size s t SO I) as D. pose proof (sub_id _ _ _ E) as Eu.
    destruct (call_changed s t p m v (CExtract (N.of_nat q)) SO I S1 W Logic.I) as (s1 & ans & h & f & i' & m1 & v1 & EC & DC & CH & KE & W1 & TK & EV1 & VO & ER). rewrite EC. cbn [bind snd].
    pose proof DC as DC0. cbn [do_call] in DC. unfold extract_child in DC. rewrite cell_nat, Q in DC. injection DC as Em _ Eh _ _. rewrite Nat2N.id in Em. change (put_slot m q None = m1) in Em. subst m1.
    destruct (drop_changed s s1 t p m (put_slot m q None) v v1 _ h true SO CH KE W1 S1) as (s2 & -> & CH2 & KE2 & W2 & TK2 & VS & BD).
    { intros m' ->. exists (roots s). auto. }
    cbn [bind]. exists s2, false, None. split; [reflexivity|]. split; [|reflexivity]. destruct CH2 as (SO2 & _ & R2 & V2).
    destruct (slot_sub t m u p q D S1 Q) as (_ & NP & IM & NE). rewrite Eu in *.
    split; [assumption|]. split; [assumption|]. split.
    + rewrite (graft_inside p a None t m D S1 IM NE). rewrite <- Eu, (graft_slot m u q None (sub_nodup _ _ _ D S1) Q Logic.I). assumption.
    + intros x J K. rewrite VS. destruct (Nat.eq_dec x p) as [->|NX]; [|apply VO; [assumption|apply in_fids; eauto]].
      rewrite (w_vec _ _ _ _ W1), (w_vec _ _ _ _ W). f_equal. rewrite EV1.
      exact (in_place_vec max_node_size MAX grow _ _ _ _ _ _ _ _ (tick s) v DC0 (sound_width max_node_size s p m SO EM) Logic.I).
Qed.

(** Deleting the node through its parent. *)
Lemma each_nulls walk (s : kst) past a u v visited turns : view s a u v -> forall k p tp, nth_error (stamps v) p = Some tp ->
  (forall j, p <= j < p + k -> nth_error (slots_of u) j = Some None) -> p + k <= length (slots_of u) ->
  exists tq, nth_error (stamps v) (p + k) = Some tq /\ each (k + turns) walk s past (mkI a p tp) visited = each turns walk s past (mkI a (p + k) tq) visited.
Proof.
  intros W. induction k as [|k IH]; intros p tp ST NU L.
  - exists tp. rewrite Nat.add_0_r. auto.
  - destruct (view_stamp max_node_size MAX s a u v (S p) W) as (q & Q); [lia|]. destruct (IH (S p) q Q) as (tq & T & EQ); [intros j J; apply NU; lia|lia|].
    exists tq. replace (p + S k) with (S p + k) by lia. split; [assumption|]. cbn [plus] in *. cbn [each inode].
    destruct (view_stamp max_node_size MAX s a u v (length (slots_of u)) W) as (e & Ee); [lia|].
    rewrite (view_end _ _ _ _ _ W Ee). cbn [bind]. rewrite (view_differs _ _ _ _ _ _ _ _ W ST Ee). cbn [bind].
    destruct (Nat.eqb_spec p (length (slots_of u))); [lia|]. cbn [negb]. rewrite (view_deref _ _ _ _ _ _ W ST). unfold pointers. rewrite nth_error_map, (NU p) by lia.
    cbn [option_map bind]. rewrite (view_next _ _ _ _ _ _ W ST). destruct (Nat.ltb_spec p (length (slots_of u))); [|lia]. rewrite (view_at _ _ _ _ _ _ W Q). cbn [bind].
    rewrite Nat.add_0_r. exact EQ.
Qed.
Lemma first_kid (l : list (option knode)) : (exists k c, nth_error l k = Some (Some c) /\ forall j, j < k -> nth_error l j = Some None) \/ (forall j, j < length l -> nth_error l j = Some None).
Proof.
  induction l as [|[c|] l IH].
  - right. cbn. lia.
  - left. exists 0, c. split; [reflexivity|lia].
  - destruct IH as [(k & c & E & H)|H].
    + left. exists (S k), c. split; [exact E|]. intros [|j] J; [reflexivity|]. apply (H j). lia.
    + right. intros [|j] J; [reflexivity|]. apply (H j). cbn in J. lia.
Qed.
Lemma delete_self_ub width fuel : mx <= width -> forall (s : kst) past t a u, sound s -> In t (roots s) -> sub a t = Some u ->
  length (ids u) <= fuel -> kids u <> [] -> pos_order (delete_self max_node_size grow) width fuel s past a = UB.
Proof.
  intros WD. induction fuel as [|fuel IH]; intros s past t a u SO I E F KU; [destruct u; rewrite ids_eq in F; cbn in F; lia|].
  cbn [pos_order]. destruct (tree_view max_node_size s t a u SO I E) as (v & W). destruct (view_stamp max_node_size MAX s a u v 0 W) as (q & Q); [lia|].
  rewrite (begin_view _ _ _ _ _ W Q). cbn [bind]. pose proof (tree_width max_node_size s t a u SO I E) as WT.
  destruct (first_kid (slots_of u)) as [(k & c & C & NU)|NU].
  2: { exfalso. apply KU. unfold kids. assert (X : forall x, In x (slots_of u) -> x = None).
       { intros x J. destruct (In_nth_error _ _ J) as (j & Ej). rewrite (NU j) in Ej; [congruence|]. apply nth_error_Some. congruence. }
       revert X. generalize (slots_of u). intros l. induction l as [|x l IHl]; intros X; [reflexivity|]. cbn. rewrite (X x) by now left. apply IHl. intros; apply X; now right. }
  assert (LK : k < length (slots_of u)) by (apply nth_error_Some; congruence). pose proof (tree_nodup max_node_size s t SO I) as D.
  destruct (slot_sub t u c a k D E C) as (S1 & S2 & S3 & S4).
  destruct (each_nulls (pos_order (delete_self max_node_size grow) width fuel) s past a u v 1 (width - k) W k 0 q Q) as (tq & T & EQ); [intros; apply NU; lia|lia|].
  cbn [plus] in T, EQ. replace (k + (width - k)) with width in EQ by lia. rewrite EQ. clear EQ. destruct (width - k) as [|turns] eqn:Et; [lia|].
  cbn [each inode]. destruct (view_stamp max_node_size MAX s a u v (length (slots_of u)) W) as (e & Ee); [lia|].
  rewrite (view_end _ _ _ _ _ W Ee). cbn [bind]. rewrite (view_differs _ _ _ _ _ _ _ _ W T Ee). cbn [bind].
  destruct (Nat.eqb_spec k (length (slots_of u))); [lia|]. cbn [negb]. rewrite (view_deref _ _ _ _ _ _ W T). unfold pointers. rewrite nth_error_map, C. cbn [option_map bind].
  pose proof (kid_length u c (nth_error_In _ _ C)) as LC. destruct (list_eq_dec (fun x y : nat => Nat.eq_dec x y) (map id_of (kids c)) []) as [KC|KC].
  2: { rewrite (IH s past t (id_of c) c SO I S1); [reflexivity|lia|]. intros X. apply KC. now rewrite X. }
  apply map_eq_nil in KC. destruct fuel as [|fuel]; [destruct c; rewrite ids_eq in LC; cbn in LC; lia|]. cbn [pos_order].
  destruct (tree_view max_node_size s t (id_of c) c SO I S1) as (vc & Wc). destruct (view_stamp max_node_size MAX s _ c vc 0 Wc) as (qc & Qc); [lia|].
  rewrite (begin_view _ _ _ _ _ Wc Qc). cbn [bind]. pose proof (tree_width max_node_size s t _ c SO I S1) as WTc.
  assert (NC : forall j, 0 <= j < 0 + length (slots_of c) -> nth_error (slots_of c) j = Some None).
  { intros j J. destruct (nth_error (slots_of c) j) as [[d|]|] eqn:Ed; [|reflexivity|apply nth_error_None in Ed; lia]. exfalso.
    assert (X : In d (kids c)) by (apply kids_in; exact (nth_error_In _ _ Ed)). rewrite KC in X. easy. }
  destruct (each_nulls (pos_order (delete_self max_node_size grow) width fuel) s past (id_of c) c vc 1 (width - length (slots_of c)) Wc (length (slots_of c)) 0 qc Qc NC) as (tc & Tc & EQ); [lia|].
  cbn [plus] in Tc, EQ. replace (length (slots_of c) + (width - length (slots_of c))) with width in EQ by lia. rewrite EQ. clear EQ.
  assert (EN : forall turns, each turns (pos_order (delete_self max_node_size grow) width fuel) s past (mkI (id_of c) (length (slots_of c)) tc) 1 = Val (s, past, 1)).
  { intros tn. destruct tn; cbn [each inode]; rewrite (view_end _ _ _ _ _ Wc Tc); cbn [bind]; rewrite (view_differs _ _ _ _ _ _ _ _ Wc Tc Tc); cbn [bind]; now rewrite Nat.eqb_refl. }
  rewrite EN. cbn [bind]. unfold visit, delete_self. rewrite (node_val _ _ _ (tree_fsub max_node_size s t _ c SO I S1)). cbn [bind].
  destruct (find_parent s t (id_of c) c SO I S1) as [(E1 & X & _)|(p & m & P1 & PE & PQ & NT)].
  { exfalso. subst c. apply S2. exact (sub_in _ _ _ E). }
  assert (p = a).
  { pose proof SO as (_ & _ & LI & _). pose proof (linked_sub None a t u (proj1 (Forall_forall _ _) LI t I) E) as LU. destruct u as [iu pu vu su]. apply linked_eq' in LU. destruct LU as [_ LU].
    pose proof (proj1 (Forall_forall _ _) LU c (proj2 (in_present su c) (nth_error_In _ _ C))) as LL. apply linked_parent in LL. rewrite PE in LL. injection LL as ->. exact (sub_id _ _ _ E). }
  subst p. rewrite E in P1. injection P1 as <-. rewrite PE. rewrite (node_val _ _ _ (tree_fsub max_node_size s t a u SO I E)). cbn [bind].
  assert (IK : index_of (id_of c) (slots_of u) = k).
  { pose proof (sub_nodup _ _ _ D E) as Du. rewrite ids_slots in Du. apply NoDup_cons_iff in Du. exact (slots_unique (slots_of u) _ k c c (id_of c) (proj2 Du) PQ C (in_id c) (in_id c)). }
  rewrite IK. destruct (call_changed s t a u v (CDelete (N.of_nat k)) SO I E W Logic.I) as (s1 & ans & h & f & i' & u1 & v1 & EC & _ & _ & KE & _). rewrite EC. cbn [bind].
  unfold next. destruct (good s1 (mkI a k tq)) eqn:G; [|reflexivity]. exfalso. apply (proj1 KE k tq T) in G. cbn [kept_after] in G.
  destruct (N.ltb_spec (N.of_nat k) (N.of_nat (length (slots_of u)))); [rewrite Nat2N.id in G|]; lia.
Qed.
End Callbacks.

(** ** The theorems *)
Section Final.
Context {V : Type}.
Variable max_node_size : N.
Hypothesis MAX : (max_node_size < two64)%N.
Variable grow : nat -> nat -> nat -> nat.
Notation mx := (N.to_nat max_node_size).
Notation knode := (knode V).
Notation kst := (kst V).
Notation sound := (sound max_node_size).
Notation changed := (changed max_node_size).
Notation taken := (taken max_node_size).
Notation does := (does max_node_size).
Variable width : nat.
Hypothesis WD : mx <= width.

Lemma pre_some (R : effect V) u cs o : pre_walk R u cs o -> exists u', o = Some u'.
Proof. destruct 1; eauto. Qed.
Lemma pre_order_ok (R : effect V) cb fuel (s : kst) past t a u : does R cb -> sound s -> In t (roots s) -> sub a t = Some u ->
  pre_order cb width fuel s past a = NoFuel \/
  exists s' cs u', pre_order cb width fuel s past a = Val (s', past ++ cs, length cs) /\ pre_walk R u cs (Some u') /\ changed s s' t a u u'.
Proof.
  intros DO SO I E. destruct (pre_ok max_node_size MAX R cb width DO WD False (fun x => match x with end) fuel s past t a u SO I E) as [[H _]|(s' & cs & o & H & PW & TK)]; [now left|right].
  destruct (pre_some _ _ _ _ PW) as (u' & ->). eauto 6.
Qed.
Lemma pre_order_sheds (R : effect V) cb fuel (s : kst) past t a u : does R cb -> (forall b k u u', R b k u u' -> sheds b k u u') -> sound s -> In t (roots s) -> sub a t = Some u ->
  length (ids u) <= fuel ->
  exists s' cs u', pre_order cb width fuel s past a = Val (s', past ++ cs, length cs) /\ pre_walk R u cs (Some u') /\ changed s s' t a u u' /\
    part_of cs (ids u) /\ part_of (ids u') (ids u).
Proof.
  intros DO SH SO I E F. destruct (pre_ok max_node_size MAX R cb width DO WD True (fun _ => SH) fuel s past t a u SO I E) as [[_ H]|(s' & cs & o & H & PW & TK)]; [specialize (H Logic.I); lia|].
  destruct (pre_sheds R u cs o SH PW) as (A & u' & -> & B). eauto 8.
Qed.
Lemma search_starts (s : kst) t a u : sound s -> In t (roots s) -> sub a t = Some u -> waits u [u] /\ id_of u = a.
Proof. intros SO I E. split; [|exact (sub_id _ _ _ E)]. apply waits_one. exact (sub_nodup _ _ _ (tree_nodup max_node_size s t SO I) E). Qed.
Lemma searches_ok (R : effect V) cb fuel (s : kst) past t a u : does R cb -> sound s -> In t (roots s) -> sub a t = Some u ->
  (bfs cb fuel s [a] past 0 = NoFuel \/
   exists s' cs u', bfs cb fuel s [a] past 0 = Val (s', past ++ cs, length cs) /\ bfs_walk R [u] cs /\ changed s s' t a u u') /\
  (dfs cb fuel s [a] past 0 = NoFuel \/
   exists s' cs u', dfs cb fuel s [a] past 0 = Val (s', past ++ cs, length cs) /\ dfs_walk R [u] cs /\ changed s s' t a u u').
Proof.
  intros DO SO I E. destruct (search_starts s t a u SO I E) as [WA <-]. split.
  - destruct (bfs_ok max_node_size R cb DO False (fun x => match x with end) fuel [u] s past 0 t (id_of u) u SO I E WA) as [[H _]|(s' & cs & u' & H & W & CH)]; [now left|right]. eauto 6.
  - destruct (dfs_ok max_node_size R cb DO False (fun x => match x with end) fuel [u] s past 0 t (id_of u) u SO I E WA) as [[H _]|(s' & cs & u' & H & W & CH)]; [now left|right]. eauto 6.
Qed.
Lemma searches_shed (R : effect V) cb fuel (s : kst) past t a u : does R cb -> (forall b k u u', R b k u u' -> sheds b k u u') -> sound s -> In t (roots s) -> sub a t = Some u ->
  length (ids u) <= fuel ->
  (exists s' cs u', bfs cb fuel s [a] past 0 = Val (s', past ++ cs, length cs) /\ bfs_walk R [u] cs /\ changed s s' t a u u' /\ NoDup cs /\ incl cs (ids u)) /\
  (exists s' cs u', dfs cb fuel s [a] past 0 = Val (s', past ++ cs, length cs) /\ dfs_walk R [u] cs /\ changed s s' t a u u' /\ NoDup cs /\ incl cs (ids u)).
Proof.
  intros DO SH SO I E F. destruct (search_starts s t a u SO I E) as [WA <-]. pose proof WA as [_ ND].
  assert (EI : flat_map ids [u] = ids u) by (cbn; apply app_nil_r). split.
  - destruct (bfs_ok max_node_size R cb DO True (fun _ => SH) fuel [u] s past 0 t (id_of u) u SO I E WA) as [[_ H]|(s' & cs & u' & H & W & CH)]; [specialize (H Logic.I); rewrite EI in H; lia|].
    destruct (search_sheds R _ [u] cs SH (fun x l m => cnt_flat l m x) W ND) as [A B]. rewrite EI in B. exists s', cs, u'. auto.
  - destruct (dfs_ok max_node_size R cb DO True (fun _ => SH) fuel [u] s past 0 t (id_of u) u SO I E WA) as [[_ H]|(s' & cs & u' & H & W & CH)]; [specialize (H Logic.I); rewrite EI in H; lia|].
    destruct (search_sheds R (fun q cs => cs ++ q) [u] cs SH) as [A B]; [intros; rewrite cnt_flat; lia|assumption|assumption|]. rewrite EI in B. exists s', cs, u'. auto.
Qed.
Lemma in_order_ok (R : effect V) cb fuel (s : kst) past t a u : does R cb -> sound s -> In t (roots s) -> sub a t = Some u ->
  in_order cb width fuel s past a = NoFuel \/
  (exists s' cs n b u', in_order cb width fuel s past a = Val (s', past ++ cs, n, b) /\ in_walk R u cs n (Some b) u' /\ changed s s' t a u u') \/
  (in_order cb width fuel s past a = UB /\ exists cs n u', in_walk R u cs n None u').
Proof.
  intros DO SO I E. destruct (in_ok max_node_size MAX R cb width DO WD False (fun x => match x with end) fuel s past t a u SO I E) as [[H _]|[(s' & cs & n & b & u' & H & W & CH & _)|H]]; auto.
  right. left. exists s', cs, n, b, u'. auto.
Qed.
Lemma in_order_sheds (R : effect V) cb fuel (s : kst) past t a u : does R cb -> (forall b k u u', R b k u u' -> sheds b k u u') -> sound s -> In t (roots s) -> sub a t = Some u ->
  length (ids u) <= fuel ->
  (exists s' cs n b u', in_order cb width fuel s past a = Val (s', past ++ cs, n, b) /\ in_walk R u cs n (Some b) u' /\ changed s s' t a u u' /\
    incl cs (ids u) /\ part_of (ids u') (ids u)) \/
  (in_order cb width fuel s past a = UB /\ exists cs n u', in_walk R u cs n None u').
Proof.
  intros DO SH SO I E F. destruct (in_ok max_node_size MAX R cb width DO WD True (fun _ => SH) fuel s past t a u SO I E) as [[_ H]|[(s' & cs & n & b & u' & H & W & CH & _)|H]]; auto.
  - specialize (H Logic.I). lia.
  - left. destruct (proj1 (in_sheds R SH) u cs n (Some b) u' W) as [A B]. exists s', cs, n, b, u'. auto.
Qed.
Lemma in_order_spares (R : effect V) cb fuel (s : kst) past t a u : does R cb -> (forall b k u u', R b k u u' -> sheds b k u u' /\ spares_iterators b k u u') ->
  sound s -> In t (roots s) -> sub a t = Some u -> length (ids u) <= fuel ->
  exists s' cs n b u', in_order cb width fuel s past a = Val (s', past ++ cs, n, b) /\ in_walk R u cs n (Some b) u' /\ changed s s' t a u u' /\
    incl cs (ids u) /\ part_of (ids u') (ids u).
Proof.
  intros DO SH SO I E F. destruct (in_order_sheds R cb fuel s past t a u DO (fun b k x y H => proj1 (SH b k x y H)) SO I E F) as [H|[_ (cs & n & u' & H)]]; [assumption|]. exfalso.
  exact (proj1 (in_defined R (fun b k x y H => proj2 (SH b k x y H))) u cs n None u' H eq_refl).
Qed.
Lemma does_as_extracts (R : effect V) cb : does R cb -> does_or_extracts max_node_size (fun u o => exists b k u', o = Some u' /\ R b k u u') cb.
Proof.
  intros DO past s t a u SO I E. destruct (tree_view max_node_size s t a u SO I E) as (v & W). destruct (DO past s t a u v SO I E (w_vec _ _ _ _ W)) as (s' & b & k & u' & H & CH & _ & RR).
  exists s', b, (Some u'). split; [assumption|]. split; [exact CH|]. eauto.
Qed.
Lemma pos_order_ok R cb fuel (s : kst) past t a u : does_or_extracts max_node_size R cb -> sound s -> In t (roots s) -> sub a t = Some u -> length (ids u) <= fuel ->
  exists s' o, pos_order cb width fuel s past a = Val (s', past ++ postorder u, length (postorder u)) /\ pos_walk R u (postorder u) o /\ taken s s' t a u o.
Proof.
  intros DO SO I E F. destruct (pos_ok max_node_size MAX R cb width fuel DO WD s past t a u SO I E) as [[_ H]|(s' & cs & o & H & [PW ->] & TK)]; [lia|]. eauto.
Qed.
Lemma part_values (b : bool) k (u u' : knode) : values_only b k u u' -> sheds b k u u' /\ spares_iterators b k u u'.
Proof.
  intros (_ & L & RV). split; [unfold sheds; rewrite (revalued_ids _ _ RV); apply part_refl|]. destruct (revalued_slots _ _ RV) as (X & _). unfold spares_iterators. lia.
Qed.
Lemma tree_narrow (s : kst) t a u : sound s -> In t (roots s) -> sub a t = Some u -> narrow mx u.
Proof. intros (_ & _ & _ & N & _) I E. exact (narrow_sub _ a t u (proj1 (Forall_forall _ _) N t I) E). Qed.
Lemma values_orders cb fuel (s : kst) past t a u : does (@values_only V) cb -> sound s -> In t (roots s) -> sub a t = Some u -> length (ids u) <= fuel ->
  (exists s' u', pre_order cb width fuel s past a = Val (s', past ++ ids u, length (ids u)) /\ changed s s' t a u u' /\ revalued u u') /\
  (exists s' u', in_order cb width fuel s past a = Val (s', past ++ inorder u, length (ids u), false) /\ changed s s' t a u u' /\ revalued u u') /\
  (exists s' u', pos_order cb width fuel s past a = Val (s', past ++ postorder u, length (postorder u)) /\ changed s s' t a u u') /\
  (exists s' u', bfs cb fuel s [a] past 0 = Val (s', past ++ level_order u, length (level_order u)) /\ changed s s' t a u u') /\
  (exists s' u', dfs cb fuel s [a] past 0 = Val (s', past ++ ids u, length (ids u)) /\ changed s s' t a u u').
Proof.
  intros DO SO I E F. pose proof (fun b k x y H => proj1 (part_values b k x y H)) as SH. split; [|split; [|split; [|]]].
  - destruct (pre_order_sheds values_only cb fuel s past t a u DO SH SO I E F) as (s' & cs & u' & H & PW & CH & _). destruct (pre_values u cs _ PW) as (-> & u0 & [= <-] & RV). eauto 6.
  - destruct (in_order_spares values_only cb fuel s past t a u DO part_values SO I E F) as (s' & cs & n & b & u' & H & W & CH & _).
    assert (M : (N.of_nat mx < two64)%N) by now rewrite N2Nat.id.
    destruct (proj1 (in_values mx M) u cs n (Some b) u' W (tree_narrow s t a u SO I E)) as ([= ->] & -> & -> & RV). eauto 6.
  - destruct (pos_order_ok _ cb fuel s past t a u (does_as_extracts _ _ DO) SO I E F) as (s' & o & H & PW & TK).
    assert (X : exists u', o = Some u') by (destruct PW as [u0 cs s0 o _ (b & k & u' & -> & _)]; eauto). destruct X as (u' & ->). exists s', u'. split; [assumption|exact TK].
  - destruct (searches_shed values_only cb fuel s past t a u DO SH SO I E F) as [(s1 & cs1 & u1 & H1 & W1 & CH1 & _) (s2 & cs2 & u2 & H2 & W2 & CH2 & _)].
    rewrite (bfs_levels u cs1 W1) in H1. pose proof (dfs_values [u] cs2 W2) as X. cbn in X. rewrite app_nil_r in X. rewrite X in H2. split; eauto.
Qed.
Lemma grows_forever cb (s : kst) past t a u : does (@grows V) cb -> sound s -> In t (roots s) -> sub a t = Some u -> forall fuel,
  pre_order cb width fuel s past a = NoFuel /\ bfs cb fuel s [a] past 0 = NoFuel /\ dfs cb fuel s [a] past 0 = NoFuel.
Proof.
  intros DO SO I E fuel. destruct (searches_ok grows cb fuel s past t a u DO SO I E) as [B D]. split; [|split].
  - destruct (pre_order_ok grows cb fuel s past t a u DO SO I E) as [H|(s' & cs & u' & _ & W & _)]; [assumption|]. destruct (pre_grows _ _ _ W).
  - destruct B as [H|(s' & cs & u' & _ & W & _)]; [assumption|]. exfalso. apply search_grows in W; [discriminate|]. intros l m H X. apply app_eq_nil in X. now apply H.
  - destruct D as [H|(s' & cs & u' & _ & W & _)]; [assumption|]. exfalso. apply search_grows in W; [discriminate|]. intros l m H X. apply app_eq_nil in X. now apply H.
Qed.
(** Putting a new node into the first slot. *)
Lemma replacing_grows v : (0 < max_node_size)%N -> does (@grows V) (own max_node_size grow (fun _ _ => Do (CReplaceAt 0 v) true (fun _ => Answer false))).
Proof.
  intros M past s t a u v0 SO I E EV. destruct (tree_view max_node_size s t a u SO I E) as (v' & W). pose proof (w_vec _ _ _ _ W) as X. rewrite EV in X. injection X as <-.
  destruct (call_changed max_node_size MAX grow s t a u v0 (CReplaceAt 0 v) SO I E W M) as (s1 & ans & h & f & i' & u1 & v1 & EC & D & CH & KE & W1 & _ & _ & _ & ER).
  destruct (drop_changed max_node_size MAX grow s s1 t a u u1 v0 v1 _ h true SO CH KE W1 E) as (s2 & ED & CH2 & KE2 & _).
  { intros m ->. exists (roots s). auto. }
  exists s2, false, (kept_after max_node_size u v0 (CReplaceAt 0 v)), u1. split; [|split; [assumption|split; [assumption|split; [reflexivity|]]]].
  - unfold own. cbn [run_body]. rewrite EC. cbn [bind snd]. rewrite ED. reflexivity.
  - cbn [do_call] in D. unfold replace_at in D. destruct (N.ltb_spec 0 max_node_size); [|lia]. intros K. revert D.
    assert (FIRST : forall l : list (option knode), kids (with_slots u (set_nth l (N.to_nat 0) (Some (new_node (fresh s) (Some (id_of u)) v)))) <> [] \/ l = []).
    { intros [|x l]; [now right|left]. unfold kids. destruct (slots_with u (set_nth (x :: l) (N.to_nat 0) (Some (new_node (fresh s) (Some (id_of u)) v)))) as [-> _]. cbn. discriminate. }
    destruct (cell (slots_of u) 0) as [[d|]|] eqn:C.
    + destruct (cell (set_nth (slots_of u) (N.to_nat 0) None) 0) eqn:C2; cbn; [|discriminate]. intros [= <- _ _ _ _].
      destruct (FIRST (set_nth (slots_of u) (N.to_nat 0) None)) as [Y|Y]; [exact (Y K)|]. rewrite Y in C2. discriminate.
    + rewrite C. cbn. intros [= <- _ _ _ _]. destruct (FIRST (slots_of u)) as [Y|Y]; [exact (Y K)|]. rewrite Y in C. discriminate.
    + destruct (cell (resize_null (slots_of u) (N.to_nat (wadd 0 1))) 0) eqn:C2; cbn; [|discriminate]. intros [= <- _ _ _ _].
      destruct (FIRST (resize_null (slots_of u) (N.to_nat (wadd 0 1)))) as [Y|Y]; [exact (Y K)|]. rewrite Y in C2. discriminate.
Qed.

(** Taking every node out. *)
Section PosInd.
Variable R : knode -> option knode -> Prop.
Variable P : knode -> list nat -> option knode -> Prop.
Hypothesis Hgo : forall u cs s' o, over P (slots_of u) cs s' -> R (with_slots u s') o -> P u (cs ++ [id_of u]) o.
Fixpoint pos_walk_ind' u cs o (H : pos_walk R u cs o) : P u cs o :=
  match H in pos_walk _ u cs o return P u cs o with
  | pos_go _ u cs s' o ov r =>
      Hgo u cs s' o
        ((fix go s cs s' (ov : over (pos_walk R) s cs s') : over P s cs s' :=
            match ov in over _ s cs s' return over P s cs s' with
            | over_nil _ => over_nil _
            | over_null _ s cs s' ov => over_null _ s cs s' (go s cs s' ov)
            | over_child _ c ds o s cs s' w ov => over_child _ c ds o s cs s' (pos_walk_ind' c ds o w) (go s cs s' ov)
            end) (slots_of u) cs s' ov) r
  end.
End PosInd.
Lemma extracting_leaves (u : knode) cs o : pos_walk (fun u o => match parent_of u with None => o = Some u | Some _ => o = None end) u cs o ->
  linked (parent_of u) u -> o = match parent_of u with None => Some (with_slots u (map (fun _ => None) (slots_of u))) | Some _ => None end.
Proof.
  revert u cs o. apply (pos_walk_ind' _ (fun u cs o => linked (parent_of u) u ->
    o = match parent_of u with None => Some (with_slots u (map (fun _ => None) (slots_of u))) | Some _ => None end)). intros u cs s' o OV RR L.
  assert (ES : s' = map (fun _ => None) (slots_of u)).
  { destruct u as [i p v s]. apply linked_eq' in L. destruct L as [_ L]. cbn [slots_of] in *. clear RR. induction OV as [|s cs s' OV IH|c ds o' s cs s' H OV IH]; [reflexivity| |].
    - cbn. f_equal. apply IH. exact L.
    - change (present (Some c :: s)) with (c :: present s) in L. cbn. rewrite IH by exact (Forall_inv_tail L). f_equal. pose proof (Forall_inv L) as Lc.
      pose proof (linked_parent _ _ Lc) as PE. rewrite H; rewrite PE; [reflexivity|exact Lc]. }
  subst s'. replace (parent_of (with_slots u (map (fun _ => None) (slots_of u)))) with (parent_of u) in RR by now destruct u. destruct (parent_of u); assumption.
Qed.
Lemma extracting_all fuel (s : kst) past t : sound s -> In t (roots s) -> length (ids t) <= fuel ->
  exists s', pos_order (extract_self max_node_size grow) width fuel s past (id_of t) = Val (s', past ++ postorder t, length (postorder t)) /\ sound s' /\
    In (with_slots t (map (fun _ => None) (slots_of t))) (roots s').
Proof.
  intros SO I F. pose proof (sub_self t) as E. destruct (pos_order_ok _ _ fuel s past t (id_of t) t (extract_self_ok max_node_size MAX grow) SO I E F) as (s' & o & H & PW & TK).
  pose proof SO as (_ & _ & L & _). pose proof (proj1 (Forall_forall _ _) L t I) as Lt. pose proof (linked_parent _ _ Lt) as PE.
  pose proof (extracting_leaves t _ o PW) as X. rewrite PE in X. specialize (X Lt). subst o. destruct TK as (SO' & _ & R' & _). exists s'. split; [assumption|]. split; [assumption|].
  cbn [graft] in R'. destruct t as [i p v sl]. rewrite put_eq in R'. cbn [id_of] in R'. now rewrite Nat.eqb_refl in R'.
Qed.
End Final.
