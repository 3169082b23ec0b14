(** Properties C20-C30 and C96: disjoint sets (union_set.h, union_find.h). *)
Require Import List Arith NArith Bool Lia.
Require Import Verif.Base Verif.UnionModel Verif.UnionSpec Verif.UnionProofs.
Import ListNotations.

(** Evaluates closed instances. *)
Local Ltac run := repeat (apply conj); (vm_compute; reflexivity).

(** A history used by the examples below: 6 elements, joins in both orders, a
    call with an invalid id, a resize. *)
Definition demo : list uop :=
  [UJoin true true 0 1; UJoin false true 2 3; UJoin true false 1 3; UFind 0;
   UJoin true true 9 0; UResize 8; UJoin true true 6 7; USizeOf 2].

Example demo_answers : forall c, exists u,
  urun (uset_of 6 c) demo =
    Val (u, [VBool true; VBool true; VBool true; VId (Some 3); VBool false; VBool true; VBool true; VNum 4])
  /\ disjoint u = 4%N /\ acorn u = 8%N.
Proof. intros []; eexists; run. Qed.
Example demo_universe : universe 6 demo = 8 /\ joined 6 demo = [(0, 1); (2, 3); (1, 3); (6, 7)].
Proof. split; reflexivity. Qed.
Example demo_ok : (N.of_nat 6 < two64)%N /\ Forall uop_ok demo.
Proof. split; [reflexivity|]. repeat constructor. Qed.
Example demo_linked : linked (joined 6 demo) 0 2 /\ ~ linked (joined 6 demo) 0 6.
Proof.
  split.
  - apply linked_trans with 1; [apply linked_pair; cbn; auto|].
    apply linked_trans with 3; [apply linked_pair; cbn; auto|].
    apply linked_sym, linked_pair; cbn; auto.
  - intros H. destruct (same_is_linked 6 true demo (proj1 demo_ok) (proj2 demo_ok) true 0 6)
      as (u & rs & u' & r & E & S & IFF).
    assert (r = true) by (apply IFF; repeat split; try assumption; cbn; lia). subst r.
    vm_compute in E. injection E as <- <-. vm_compute in S. discriminate S.
Qed.

(** C20: after any history, [same(a, b)] answers the equivalence generated by
    the joined pairs. *)
Theorem C20_same_is_generated_equivalence :
  forall n c ops, (N.of_nat n < two64)%N -> Forall uop_ok ops ->
  forall ord a b, exists u rs u' r,
  urun (uset_of n c) ops = Val (u, rs) /\ same ord u a b = Val (u', r) /\
  (r = true <-> a < universe n ops /\ b < universe n ops /\ linked (joined n ops) a b).
Proof. exact same_is_linked. Qed.
Print Assumptions C20_same_is_generated_equivalence.
Example C20_case : exists u rs u' u'', urun (uset_of 6 true) demo = Val (u, rs) /\
  same true u 0 2 = Val (u', true) /\ same false u 0 6 = Val (u'', false).
Proof. do 4 eexists. run. Qed.

(** C21: [disjoint()] is the number of classes: there is a list with exactly
    one representative per class and that many entries. *)
Theorem C21_disjoint_counts_classes :
  forall n c ops, (N.of_nat n < two64)%N -> Forall uop_ok ops ->
  exists u rs, urun (uset_of n c) ops = Val (u, rs) /\
  exists reps, NoDup reps /\ disjoint u = N.of_nat (length reps) /\
    (forall r, In r reps -> r < universe n ops) /\
    forall x, x < universe n ops -> exists r, In r reps /\ linked (joined n ops) x r /\
      forall r', In r' reps -> linked (joined n ops) x r' -> r' = r.
Proof. exact disjoint_counts_classes. Qed.
Print Assumptions C21_disjoint_counts_classes.
Example C21_case : exists u rs, urun (uset_of 6 true) demo = Val (u, rs) /\ disjoint u = 4%N.
Proof. do 2 eexists. run. Qed.

(** C22: [size_of(x)] is the number of elements linked to [x] (0 for an invalid
    id), with or without path compression. *)
Theorem C22_size_of_is_class_size :
  forall n c ops, (N.of_nat n < two64)%N -> Forall uop_ok ops ->
  forall x, exists u rs u' k,
  urun (uset_of n c) ops = Val (u, rs) /\ size_of u x = Val (u', k) /\
  exists l, NoDup l /\ k = N.of_nat (length l) /\
    forall y, In y l <-> x < universe n ops /\ y < universe n ops /\ linked (joined n ops) x y.
Proof. exact size_of_is_class_size. Qed.
Print Assumptions C22_size_of_is_class_size.
Example C22_case : exists u rs u', urun (uset_of 6 true) demo = Val (u, rs) /\ size_of u 1 = Val (u', 4%N).
Proof. do 3 eexists. run. Qed.

(** C23: [join] reports true exactly when it merged two classes. *)
Theorem C23_join_reports_merge :
  forall n c ops, (N.of_nat n < two64)%N -> Forall uop_ok ops ->
  forall o1 o2 a b, exists u rs u' r,
  urun (uset_of n c) ops = Val (u, rs) /\ join o1 o2 u a b = Val (u', r) /\
  (r = true <-> a < universe n ops /\ b < universe n ops /\ ~ linked (joined n ops) a b).
Proof. exact join_reports. Qed.
Print Assumptions C23_join_reports_merge.
Example C23_case : exists u rs u' u'', urun (uset_of 6 true) demo = Val (u, rs) /\
  join true true u 0 6 = Val (u', true) /\ join true true u 0 2 = Val (u'', false).
Proof. do 4 eexists. run. Qed.

(** C24: [find] ends, answers [None] (not_found) exactly for invalid ids, a
    member of the class otherwise, the same one for linked elements; and
    whatever calls follow, their answers do not depend on whether [find] was
    called. *)
Theorem C24_find_canonical_and_silent :
  forall n c ops, (N.of_nat n < two64)%N -> Forall uop_ok ops ->
  exists u rs, urun (uset_of n c) ops = Val (u, rs) /\
  forall x, exists u' r, find u x = Val (u', r) /\
    (r = None <-> universe n ops <= x) /\
    (forall i, r = Some i -> i < universe n ops /\ linked (joined n ops) x i) /\
    (forall y, x < universe n ops -> y < universe n ops -> exists v ry, find u y = Val (v, ry) /\
       (r = ry <-> linked (joined n ops) x y)) /\
    (forall later, Forall uop_ok later -> exists answers v v',
       urun u later = Val (v, answers) /\ urun u' later = Val (v', answers)).
Proof. exact find_canonical. Qed.
Print Assumptions C24_find_canonical_and_silent.
(** In this case [find 0] really rewrites the tree. *)
Example C24_case : exists u rs u',
  urun (uset_of 6 true) [UJoin true true 0 1; UJoin true true 2 3; UJoin true true 1 3] = Val (u, rs) /\
  find u 0 = Val (u', Some 3) /\ parents u = [1; 3; 3; 3; 4; 5] /\ parents u' = [3; 3; 3; 3; 4; 5].
Proof. do 3 eexists. run. Qed.

(** C25: [find_ (S k)] succeeds only if at most [k] links are followed. *)
Theorem C25_depth_logarithmic :
  forall n c ops, (N.of_nat n < two64)%N -> Forall uop_ok ops ->
  forall x, x < universe n ops -> exists u rs u' r k,
  urun (uset_of n c) ops = Val (u, rs) /\ find_ (S (Nat.log2 k)) u x = Val (u', r) /\
  exists l, NoDup l /\ k = length l /\
    forall y, In y l <-> y < universe n ops /\ linked (joined n ops) x y.
Proof. exact depth_logarithmic. Qed.
Print Assumptions C25_depth_logarithmic.
(** The bound is reached: four elements, two links. *)
Example C25_case : exists u rs u',
  urun (uset_of 4 true) [UJoin true true 0 1; UJoin true true 2 3; UJoin true true 1 3] = Val (u, rs) /\
  find_ (S (Nat.log2 4)) u 0 = Val (u', 3) /\ find_ (Nat.log2 4) u 0 = NoFuel.
Proof. do 3 eexists. run. Qed.

(** C26: resize keeps every relation, adds singletons, never shrinks. *)
Theorem C26_resize_adds_singletons :
  forall n c ops, (N.of_nat n < two64)%N -> Forall uop_ok ops ->
  forall m, (N.of_nat m < two64)%N -> exists u rs,
  urun (uset_of n c) ops = Val (u, rs) /\
  snd (resize u m) = (universe n ops <? m) /\
  disjoint (fst (resize u m)) = (disjoint u + N.of_nat (m - universe n ops))%N /\
  length (parents (fst (resize u m))) = Nat.max (universe n ops) m /\
  (m <= universe n ops -> fst (resize u m) = u) /\
  forall ord a b, exists u' r, same ord (fst (resize u m)) a b = Val (u', r) /\
    (r = true <-> (a < Nat.max (universe n ops) m /\ b < Nat.max (universe n ops) m /\
                   (a = b \/ (a < universe n ops /\ b < universe n ops /\ linked (joined n ops) a b)))).
Proof. exact resize_adds_singletons. Qed.
Print Assumptions C26_resize_adds_singletons.
Example C26_case : exists u rs, urun (uset_of 6 true) demo = Val (u, rs) /\
  disjoint u = 4%N /\ disjoint (fst (resize u 11)) = 7%N /\ snd (resize u 11) = true.
Proof. do 2 eexists. run. Qed.

(** C27: [insert] of an existing element is not silent.  On a fresh structure
    it inflates both counters; on the root of a class it also forgets the size
    of the class; on a member it tears it out of the class. *)
Theorem C27_insert_existing_silent_refuted :
  (exists u, u = uset_of 2 true /\ disjoint u = 2%N /\ disjoint (fst (insert u 0)) = 3%N /\
     acorn (fst (insert u 0)) = 3%N /\ snd (insert u 0) = false) /\
  (exists u rs v v', urun (uset_of 2 true) [UJoin true true 0 1] = Val (u, rs) /\
     size_of u 0 = Val (v, 2%N) /\ size_of (fst (insert u 1)) 0 = Val (v', 1%N)) /\
  (exists u rs v v', urun (uset_of 2 true) [UJoin true true 0 1] = Val (u, rs) /\
     same true u 0 1 = Val (v, true) /\ same true (fst (insert u 0)) 0 1 = Val (v', false)).
Proof.
  split; [eexists; run|].
  split; do 4 eexists; run.
Qed.
Print Assumptions C27_insert_existing_silent_refuted.

(** What holds instead: inserting an id outside the structure changes nothing
    (and answers true although nothing was inserted). *)
Theorem C27_insert_missing_is_ignored_partial :
  forall u x, length (parents u) <= x -> insert u x = (u, true).
Proof.
  intros u x H. unfold insert, exists_. destruct (Nat.ltb_spec x (length (parents u))); [lia|reflexivity].
Qed.
Print Assumptions C27_insert_missing_is_ignored_partial.
Example C27_case : insert (uset_of 2 true) 7 = (uset_of 2 true, true).
Proof. reflexivity. Qed.

(** C28: union_find over elements.  [members] are the inserted elements in
    order, [ejoined] the joined pairs of inserted elements. *)
Definition edemo : list (eop nat) :=
  [EInsert 70; EInsert 50; EInsert 70; EInsert 90; EJoin true false 70 90; EJoin true true 70 11; EFind 70].
Example edemo_answers : exists f, erun Nat.eq_dec (ufind_new true) edemo =
  Val (f, [VBool true; VBool true; VBool false; VBool true; VBool true; VBool false; VId (Some 2)]) /\
  members Nat.eq_dec [] edemo = [70; 50; 90] /\ ejoined Nat.eq_dec [] edemo = [(70, 90)].
Proof. eexists. run. Qed.

Theorem C28_members_are_the_inserted_elements :
  forall (T : Type) (teq : forall a b : T, {a = b} + {a <> b}) e ops,
  In e (members teq [] ops) <-> In (EInsert e) ops.
Proof. intros T teq e ops. rewrite (members_spec teq e ops []). cbn. tauto. Qed.
Print Assumptions C28_members_are_the_inserted_elements.

Theorem C28_insert_and_exists :
  forall (T : Type) (teq : forall a b : T, {a = b} + {a <> b}) c ops,
  (N.of_nat (S (length ops)) < two64)%N -> forall e,
  exists f rs, erun teq (ufind_new c) ops = Val (f, rs) /\
  has teq f e = tin teq e (members teq [] ops) /\
  snd (uf_insert teq f e) = negb (tin teq e (members teq [] ops)) /\
  (In e (members teq [] ops) -> fst (uf_insert teq f e) = f).
Proof. intros T teq. exact (elements_insert teq). Qed.
Print Assumptions C28_insert_and_exists.

Theorem C28_same_set_is_generated_equivalence :
  forall (T : Type) (teq : forall a b : T, {a = b} + {a <> b}) c ops,
  (N.of_nat (S (length ops)) < two64)%N -> forall ord a b,
  exists f rs f' r, erun teq (ufind_new c) ops = Val (f, rs) /\ uf_same teq ord f a b = Val (f', r) /\
  (r = true <-> In a (members teq [] ops) /\ In b (members teq [] ops) /\ linked (ejoined teq [] ops) a b).
Proof. intros T teq. exact (elements_same teq). Qed.
Print Assumptions C28_same_set_is_generated_equivalence.

Theorem C28_join_sets_reports_merge :
  forall (T : Type) (teq : forall a b : T, {a = b} + {a <> b}) c ops,
  (N.of_nat (S (length ops)) < two64)%N -> forall o1 o2 a b,
  exists f rs f' r, erun teq (ufind_new c) ops = Val (f, rs) /\ uf_join teq o1 o2 f a b = Val (f', r) /\
  (r = true <-> In a (members teq [] ops) /\ In b (members teq [] ops) /\ ~ linked (ejoined teq [] ops) a b).
Proof. intros T teq. exact (elements_join teq). Qed.
Print Assumptions C28_join_sets_reports_merge.

Theorem C28_find_by_elem_canonical :
  forall (T : Type) (teq : forall a b : T, {a = b} + {a <> b}) c ops,
  (N.of_nat (S (length ops)) < two64)%N ->
  exists f rs, erun teq (ufind_new c) ops = Val (f, rs) /\
  forall a, exists f' r, uf_find teq f a = Val (f', r) /\
    (r = None <-> ~ In a (members teq [] ops)) /\
    (forall i, r = Some i -> exists e, nth_error (elems f) i = Some e /\ linked (ejoined teq [] ops) a e) /\
    forall b, In a (members teq [] ops) -> In b (members teq [] ops) ->
      exists g rb, uf_find teq f b = Val (g, rb) /\ (r = rb <-> linked (ejoined teq [] ops) a b).
Proof. intros T teq. exact (elements_find teq). Qed.
Print Assumptions C28_find_by_elem_canonical.

Theorem C28_size_of_is_class_size :
  forall (T : Type) (teq : forall a b : T, {a = b} + {a <> b}) c ops,
  (N.of_nat (S (length ops)) < two64)%N -> forall x,
  exists f rs f' k, erun teq (ufind_new c) ops = Val (f, rs) /\ uf_size_of teq f x = Val (f', k) /\
  exists l, NoDup l /\ k = N.of_nat (length l) /\
    forall y, In y l <-> In x (members teq [] ops) /\ In y (members teq [] ops) /\ linked (ejoined teq [] ops) x y.
Proof. intros T teq. exact (elements_size teq). Qed.
Print Assumptions C28_size_of_is_class_size.

Theorem C28_disjoint_counts_classes :
  forall (T : Type) (teq : forall a b : T, {a = b} + {a <> b}) c ops,
  (N.of_nat (S (length ops)) < two64)%N ->
  exists f rs, erun teq (ufind_new c) ops = Val (f, rs) /\
  elems f = members teq [] ops /\ acorn (core f) = N.of_nat (length (members teq [] ops)) /\
  exists reps, NoDup reps /\ disjoint (core f) = N.of_nat (length reps) /\
    (forall r, In r reps -> In r (members teq [] ops)) /\
    forall x, In x (members teq [] ops) -> exists r, In r reps /\ linked (ejoined teq [] ops) x r /\
      forall r', In r' reps -> linked (ejoined teq [] ops) x r' -> r' = r.
Proof. intros T teq. exact (elements_counts teq). Qed.
Print Assumptions C28_disjoint_counts_classes.
Example C28_case : exists f rs g, erun Nat.eq_dec (ufind_new true) edemo = Val (f, rs) /\
  uf_same Nat.eq_dec true f 90 70 = Val (g, true) /\ uf_same Nat.eq_dec true f 50 70 = Val (g, false) /\
  uf_size_of Nat.eq_dec f 70 = Val (g, 2%N) /\ disjoint (core f) = 2%N.
Proof. do 3 eexists. run. Qed.

(** C29: the id-level members test whether the id, read as an element, was
    inserted.  With one inserted element 100, [find(100)] reads outside the
    arrays, and the only id ever handed out, 0, is reported missing. *)
Theorem C29_ids_accepted_refuted :
  exists f, erun Nat.eq_dec (ufind_new true) [EInsert 100] = Val (f, [VBool true]) /\
    uf_find_id Nat.eq_dec (fun i => i) f 100 = UB /\
    uf_find Nat.eq_dec f 100 = Val (f, Some 0) /\
    uf_find_id Nat.eq_dec (fun i => i) f 0 = Val (f, None).
Proof. eexists. run. Qed.
Print Assumptions C29_ids_accepted_refuted.

(** Exactly when [find(id)] is undefined, and: if the inserted elements are the
    ids themselves the id-level members agree with the element-level ones. *)
Theorem C29_ids_partial :
  forall (T : Type) (teq : forall a b : T, {a = b} + {a <> b}) c ops,
  (N.of_nat (S (length ops)) < two64)%N -> forall conv : nat -> T,
  exists f rs, erun teq (ufind_new c) ops = Val (f, rs) /\
  let M := members teq [] ops in
  (forall i, uf_find_id teq conv f i = UB <-> In (conv i) M /\ length M <= i) /\
  ((forall i, In (conv i) M <-> i < length M) ->
   (forall i e, nth_error M i = Some e ->
      uf_find_id teq conv f i = uf_find teq f e /\ uf_size_of_id teq conv f i = uf_size_of teq f e) /\
   (forall i, length M <= i ->
      uf_find_id teq conv f i = Val (f, None) /\ uf_size_of_id teq conv f i = Val (f, 0%N)) /\
   (forall o1 o2 i j a b, nth_error M i = Some a -> nth_error M j = Some b ->
      uf_same_id teq conv o1 f i j = uf_same teq o1 f a b /\
      uf_join_id teq conv o1 o2 f i j = uf_join teq o1 o2 f a b) /\
   (forall o1 o2 i j, length M <= i \/ length M <= j ->
      uf_same_id teq conv o1 f i j = Val (f, false) /\ uf_join_id teq conv o1 o2 f i j = Val (f, false))).
Proof. intros T teq. exact (ids_are_positions teq). Qed.
Print Assumptions C29_ids_partial.
Example C29_case : let M := members Nat.eq_dec [] [EInsert 2; EInsert 0; EInsert 1] in
  forall i, In i M <-> i < length M.
Proof. cbn. intros i. lia. Qed.

(** C30: [acorn()] is documented as the number of root sets; after a join it is
    larger than the number of classes. *)
Theorem C30_acorn_counts_root_sets_refuted :
  exists u rs, urun (uset_of 2 true) [UJoin true true 0 1] = Val (u, rs) /\
    acorn u = 2%N /\ disjoint u = 1%N.
Proof. do 2 eexists. run. Qed.
Print Assumptions C30_acorn_counts_root_sets_refuted.

(** What it is instead, after every history. *)
Theorem C30_acorn_is_element_count_partial :
  forall n c ops, (N.of_nat n < two64)%N -> Forall uop_ok ops ->
  exists u rs, urun (uset_of n c) ops = Val (u, rs) /\ acorn u = N.of_nat (universe n ops).
Proof. exact acorn_is_length. Qed.
Print Assumptions C30_acorn_is_element_count_partial.
Example C30_case : exists u rs, urun (uset_of 6 true) demo = Val (u, rs) /\ acorn u = 8%N.
Proof. do 2 eexists. run. Qed.

(** C96: path compression and the compiler's evaluation orders are not
    observable: the same calls give the same answers. *)
Theorem C96_compression_unobservable :
  forall n ops1 ops2 c1 c2, (N.of_nat n < two64)%N -> Forall uop_ok ops1 ->
  Forall2 same_call ops1 ops2 -> exists answers u1 u2,
    urun (uset_of n c1) ops1 = Val (u1, answers) /\ urun (uset_of n c2) ops2 = Val (u2, answers).
Proof. exact compression_unobservable. Qed.
Print Assumptions C96_compression_unobservable.

Theorem C96_compression_unobservable_elements :
  forall (T : Type) (teq : forall a b : T, {a = b} + {a <> b}) ops1 ops2 c1 c2,
  (N.of_nat (length ops1) < two64)%N -> Forall2 same_ecall ops1 ops2 ->
  exists answers f1 f2,
    erun teq (ufind_new c1) ops1 = Val (f1, answers) /\ erun teq (ufind_new c2) ops2 = Val (f2, answers).
Proof. intros T teq. exact (ecompression_unobservable teq). Qed.
Print Assumptions C96_compression_unobservable_elements.
(** The states do differ. *)
Example C96_case : exists u1 u2 a,
  urun (uset_of 4 true) [UJoin true true 0 1; UJoin true true 2 3; UJoin true true 1 3; UFind 0] = Val (u1, a) /\
  urun (uset_of 4 false) [UJoin false true 0 1; UJoin true false 2 3; UJoin true true 1 3; UFind 0] = Val (u2, a) /\
  parents u1 = [3; 3; 3; 3] /\ parents u2 = [1; 3; 3; 3].
Proof. do 3 eexists. run. Qed.
