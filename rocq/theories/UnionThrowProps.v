(** C142: calls of union_find and union_set that throw. *)
Require Import List NArith Bool Arith.
Require Import Verif.Base Verif.UnionModel Verif.UnionSpec Verif.UnionThrowModel Verif.UnionThrowSpec Verif.UnionThrowProofs.
Import ListNotations.

Ltac run := repeat split; vm_compute; reflexivity.

(** Insertions that throw, at any point except in the second vector of emplace, and
    calls of join_sets that throw, do not change the answers of any other call, as long as
    no call asks for an element whose insertion failed. *)
Theorem C142_isolation :
  forall (T : Type) (teq : forall a b : T, {a = b} + {a <> b}) c ops,
  spared teq [] [] ops -> (forall o, In o ops -> ~ half_done o) -> (N.of_nat (length ops) < two64)%N ->
  exists f f' rs, erun teq (ufind_new c) (calls ops) = Val (f, rs) /\ trun teq (ufind_new c) ops = Val (f', rs).
Proof. intros T teq. exact (isolation teq). Qed.
Print Assumptions C142_isolation.
Definition throwing : list (top nat) :=
  [TCall (EInsert 70); TInsert InItems 11; TCall (EInsert 50); TEmplace InItems 12; TInsert InMap 13; TInsert InRanks 70;
   TCall (EInsert 90); TJoin true 90; TCall (EJoin true false 70 90); TInsert InRanks 14; TCall (EFind 70);
   TCall (ESizeOf 90); TCall EDisjoint; TCall EAcorn].
Example C142_isolation_case : spared Nat.eq_dec [] [] throwing /\ (forall o, In o throwing -> ~ half_done o) /\
  (N.of_nat (length throwing) < two64)%N /\
  (exists f f', erun Nat.eq_dec (ufind_new true) (calls throwing) =
    Val (f, [VBool true; VBool true; VBool true; VBool true; VId (Some 2); VNum 2; VNum 2; VNum 3]) /\
  trun Nat.eq_dec (ufind_new true) throwing =
    Val (f', [VBool true; VBool true; VBool true; VBool true; VId (Some 2); VNum 2; VNum 2; VNum 3]) /\
  has Nat.eq_dec f' 11 = true /\ has Nat.eq_dec f 11 = false /\ length (ranks (core f')) = 4).
Proof.
  split; [|split; [|split; [reflexivity|do 2 eexists; run]]].
  - cbn. repeat split; try (intros e H; repeat (destruct H as [H|H]; [subst; intuition discriminate|]); contradiction).
  - intros o H. repeat (destruct H as [H|H]; [subst; cbn; tauto|]). contradiction.
Qed.

(** The element itself: it counts as present although nothing was inserted; inserting it
    again is refused; asking for its set reads outside the vectors.  (With no element at
    all the read is outside too; the model has no step left to show it.) *)
Theorem C142_failed_element :
  forall (T : Type) (teq : forall a b : T, {a = b} + {a <> b}) c ops e,
  (N.of_nat (length ops) < two64)%N -> ~ In e (members teq [] ops) ->
  exists f rs, erun teq (ufind_new c) ops = Val (f, rs) /\ forall f', left_over teq f e f' ->
  estep teq f' (EExists e) = Val (f', VBool true) /\
  estep teq f' (EInsert e) = Val (f', VBool false) /\
  (members teq [] ops <> [] -> estep teq f' (EFind e) = UB).
Proof. intros T teq. exact (reached_dead teq). Qed.
Print Assumptions C142_failed_element.
Example C142_failed_element_case : ~ In 11 (members Nat.eq_dec [] [EInsert 70; EInsert 50]) /\
  members Nat.eq_dec [] [EInsert 70; EInsert 50] <> [] /\
  trun Nat.eq_dec (ufind_new true) [TCall (EInsert 70); TCall (EInsert 50); TInsert InItems 11; TCall (EFind 11)] = UB.
Proof. split; [cbn; intuition discriminate|]. split; [discriminate|]. vm_compute. reflexivity. Qed.

(** The next element inserted shares the number of the one that failed: from then on every
    call about [e] is answered, and carried out, as a call about [x]. *)
Theorem C142_failed_element_becomes_alias :
  forall (T : Type) (teq : forall a b : T, {a = b} + {a <> b}) c ops e x later,
  (N.of_nat (length ops + S (length later)) < two64)%N ->
  ~ In e (members teq [] ops) -> ~ In x (members teq [] ops) -> x <> e ->
  exists f rs f1 rs1, erun teq (ufind_new c) ops = Val (f, rs) /\
    erun teq f (EInsert x :: map (renamed (alias teq e x)) later) = Val (f1, rs1) /\
    forall f', left_over teq f e f' -> exists f1', erun teq f' (EInsert x :: later) = Val (f1', rs1).
Proof. intros T teq. exact (reached_alias teq). Qed.
Print Assumptions C142_failed_element_becomes_alias.
Example C142_alias_case : exists f, trun Nat.eq_dec (ufind_new true)
  [TCall (EInsert 70); TEmplace InItems 11; TCall (EInsert 50); TCall (ESame true 11 50); TCall (EJoin true true 11 70);
   TCall (ESame true 50 70); TCall (ESizeOf 11)] =
  Val (f, [VBool true; VBool true; VBool true; VBool true; VBool true; VNum 2]) /\
  map (renamed (alias Nat.eq_dec 11 50)) [ESame true 11 50; EJoin true true 11 70] = [ESame true 50 50; EJoin true true 50 70].
Proof. eexists. run. Qed.

(** emplace throws in the second vector: from then on, whatever calls return, asking for
    the set of the element inserted last reads outside the vectors. *)
Theorem C142_emplace_half_done :
  forall (T : Type) (teq : forall a b : T, {a = b} + {a <> b}) c ops e later f1 rs1,
  (N.of_nat (length ops) < two64)%N -> ~ In e (members teq [] ops) ->
  exists f rs, erun teq (ufind_new c) ops = Val (f, rs) /\
  (erun teq (emplace_throws teq InRanks f e) later = Val (f1, rs1) ->
   estep teq f1 (EFind (newest teq (e :: members teq [] ops) e later)) = UB).
Proof. intros T teq. exact (reached_half teq). Qed.
Print Assumptions C142_emplace_half_done.
Example C142_emplace_half_done_case :
  let later := [EInsert 50; EFind 11; EJoin true true 11 70; EInsert 90; EFind 50] in
  newest Nat.eq_dec (11 :: members Nat.eq_dec [] [EInsert 70]) 11 later = 90 /\
  (exists f, trun Nat.eq_dec (ufind_new true) (TCall (EInsert 70) :: TEmplace InRanks 11 :: map TCall later ++ [TCall EDisjoint]) =
    Val (f, [VBool true; VBool true; VId (Some 1); VBool true; VBool true; VId (Some 2); VNum 2])) /\
  trun Nat.eq_dec (ufind_new true) (TCall (EInsert 70) :: TEmplace InRanks 11 :: map TCall later ++ [TCall (EFind 90)]) = UB.
Proof. split; [vm_compute; reflexivity|]. split; [eexists; vm_compute; reflexivity|vm_compute; reflexivity]. Qed.

(** union_set: resize throws between the vectors.  No later resize up to that size does
    anything; the new ids count as present but asking for their set reads outside the
    vector; the old ids are not affected; and once a larger resize succeeds, the ids in
    between are in the set of 0, which nobody asked for. *)
Theorem C142_union_set_resize :
  forall k c ops, (N.of_nat k < two64)%N -> Forall uop_ok ops -> forall m, universe k ops < m ->
  exists u rs, urun (uset_of k c) ops = Val (u, rs) /\
  let u' := resize_throws InRanks u m in
  (forall j, j <= m -> ustep u' (UResize j) = Val (u', VBool false)) /\
  (forall x, universe k ops <= x < m -> ustep u' (UExists x) = Val (u', VBool true) /\ ustep u' (UFind x) = UB) /\
  (forall later, (forall o, In o later -> only_old (universe k ops) o) ->
     exists v v' a, urun u later = Val (v, a) /\ urun u' later = Val (v', a)) /\
  (forall x j o, 0 < universe k ops -> universe k ops <= x < m -> m < j ->
     exists w w', ustep u' (UResize j) = Val (w, VBool true) /\ ustep w (USame o 0 x) = Val (w', VBool true)).
Proof. exact set_resize_throws. Qed.
Print Assumptions C142_union_set_resize.
Example C142_union_set_resize_case : exists u rs, urun (uset_of 3 true) [UJoin true true 0 1] = Val (u, rs) /\
  let u' := resize_throws InRanks u 5 in
  (exists v, urun u' [USame true 0 1; USame true 0 2; UResize 5; UExists 4] = Val (v, [VBool true; VBool false; VBool false; VBool true])) /\
  urun u' [UResize 5; UFind 4] = UB /\
  exists v, urun u' [UResize 6; USame true 0 4; UFind 4; USame true 0 5; UDisjoint] = Val (v, [VBool true; VBool true; VId (Some 1); VBool false; VNum 3]).
Proof. do 2 eexists. split; [vm_compute; reflexivity|]. cbv zeta. split; [eexists; vm_compute; reflexivity|].
  split; [vm_compute; reflexivity|]. eexists; vm_compute; reflexivity. Qed.

(** Refuted: an insertion that throws leaves everything as it was. *)
Theorem C142_strong_guarantee_refuted :
  exists (f : ufind nat) rs, erun Nat.eq_dec (ufind_new true) [EInsert 70] = Val (f, rs) /\
  exists p e, estep Nat.eq_dec f (EExists e) = Val (f, VBool false) /\
    estep Nat.eq_dec (insert_throws Nat.eq_dec p f e) (EExists e) = Val (insert_throws Nat.eq_dec p f e, VBool true).
Proof. do 2 eexists. split; [vm_compute; reflexivity|]. exists InRanks, 11. run. Qed.
Print Assumptions C142_strong_guarantee_refuted.

(** Refuted: after an insertion that throws, elements that were never joined are in
    different sets. *)
Theorem C142_sets_apart_refuted :
  exists ops : list (top nat), (forall o, In o ops -> match o with TCall (EJoin _ _ _ _) | TJoin _ _ => False | _ => True end) /\
  exists f f', trun Nat.eq_dec (ufind_new true) ops = Val (f, [VBool true]) /\
    estep Nat.eq_dec f (ESame true 11 50) = Val (f', VBool true).
Proof.
  exists [TInsert InItems 11; TCall (EInsert 50)]. split.
  - intros o H. repeat (destruct H as [H|H]; [subst; exact Logic.I|]). contradiction.
  - do 2 eexists. run.
Qed.
Print Assumptions C142_sets_apart_refuted.
