(** Proofs for SegmentThrowProps.v *)
Require Import List Arith NArith ZArith Bool Lia.
Require Import Verif.Base Verif.HeapModel Verif.SegmentModel Verif.SegmentSpec Verif.SegmentProofs.
Require Import Verif.HeapProofs Verif.SegmentOrderSpec Verif.SegmentOrderProofs Verif.SegmentBracketSpec Verif.SegmentBracketProofs.
Require Import Verif.SegmentThrowModel Verif.SegmentThrowSpec.
Import ListNotations.
Local Open Scope N_scope.

Lemma bind_val : forall A B (x : outcome A) (f : A -> outcome B) y, bind x f = Val y -> exists a, x = Val a /\ f a = Val y.
Proof. intros A B x f y H. destruct x; try discriminate. eauto. Qed.

Section Proofs.
Context {T R U : Type}.
Variable tr : transform T R U.
Variable required : N -> N.
Local Notation node := (node R U).
Local Notation script := (@script R U).
Implicit Types h : list node.
Implicit Types sc : script.

(** ** The operations on nodes throw nothing of their own *)
Lemma get_no_exn : forall h pos x, get h pos <> Exn x.
Proof. intros h pos x. unfold get. destruct (cell h pos); discriminate. Qed.
Lemma put_no_exn : forall h pos n x, put h pos n <> Exn x.
Proof. intros h pos n x. unfold put. pose proof (get_no_exn h pos) as G. destruct (get h pos) as [m|y| |]; cbn; try discriminate. intros _. exact (G y eq_refl). Qed.
Lemma bind_exn : forall A B (x : outcome A) (f : A -> outcome B) e, bind x f = Exn e -> x = Exn e \/ exists a, x = Val a /\ f a = Exn e.
Proof. intros A B x f e H. destruct x; try discriminate; cbn in H; [right; eauto|left; congruence]. Qed.
Lemma after_exn : forall A B (x : result A) (k : list node -> A -> script -> result B) e,
  after x k = Exn e -> x = Exn e \/ exists h a sc, x = Val (h, Returned a, sc) /\ k h a sc = Exn e.
Proof. intros A B x k e H. destruct x as [[[h0 [a|]] sc0]| | |]; try discriminate; cbn in H; [right; eauto|left; congruence]. Qed.
Lemma point_no_exn : forall A h (x : A) sc e, point h x sc <> Exn e.
Proof. intros A h x sc e. unfold point. destruct (here sc); discriminate. Qed.
Ltac no_exn H := match type of H with
  | get _ _ = Exn _ => exact (get_no_exn _ _ _ H)
  | put _ _ _ = Exn _ => exact (put_no_exn _ _ _ _ H)
  | point _ _ _ = Exn _ => exact (point_no_exn _ _ _ _ _ H)
  | bind _ _ = Exn _ => let K := fresh in let a := fresh in apply bind_exn in H as [K|(a & K & H)]; [no_exn K|no_exn H]
  | after _ _ = Exn _ => let K := fresh in let a := fresh in let b := fresh in let c := fresh in apply after_exn in H as [K|(a & b & c & K & H)]; [no_exn K|no_exn H]
  | Val _ = Exn _ => discriminate H
  | UB = Exn _ => discriminate H
  | NoFuel = Exn _ => discriminate H
  | match ?x with _ => _ end = Exn _ => destruct x; no_exn H
  | _ => eauto
  end.
Lemma write_no_exn : forall h pos c sc e, t_write h pos c sc <> Exn e.
Proof. intros h pos c sc e H. unfold t_write in H. no_exn H. Qed.
Lemma push_no_exn : forall h pos lb rb sc e, t_push_down tr h pos lb rb sc <> Exn e.
Proof. intros h pos lb rb sc e H. unfold t_push_down in H. no_exn H. Qed.
Lemma pull_no_exn : forall h pos lb rb sc e, t_pull_up tr h pos lb rb sc <> Exn e.
Proof. intros h pos lb rb sc e H. unfold t_pull_up, t_write in H. no_exn H. Qed.
Lemma no_exn_query : forall fuel h s e pos v sc x, t_range_query tr fuel h s e pos v sc <> Exn x.
Proof.
  induction fuel as [|fuel IH]; intros h s e pos v sc x H; cbn [t_range_query] in H; cbv zeta in H; [discriminate|]. pose proof push_no_exn. pose proof pull_no_exn. unfold not in *.
  no_exn H.
Qed.
Lemma no_exn_update : forall fuel h s e pos u v sc x, t_range_update tr fuel h s e pos u v sc <> Exn x.
Proof.
  induction fuel as [|fuel IH]; intros h s e pos u v sc x H; cbn [t_range_update] in H; cbv zeta in H; [discriminate|]. pose proof push_no_exn. pose proof pull_no_exn. unfold not in *.
  unfold t_apply_change, t_write in H. no_exn H.
Qed.

(** ** A call that returns *)
Lemma after_val : forall A B (x : result A) (k : list node -> A -> script -> result B) h b sc,
  after x k = Val (h, Returned b, sc) -> exists h0 a sc0, x = Val (h0, Returned a, sc0) /\ k h0 a sc0 = Val (h, Returned b, sc).
Proof. intros A B x k h b sc H. destruct x as [[[h0 [a|]] sc0]| | |]; try discriminate. eauto. Qed.
Lemma point_val : forall A h (x : A) sc h' y sc', point h x sc = Val (h', Returned y, sc') -> h' = h /\ y = x.
Proof. intros A h x sc h' y sc' H. unfold point in H. destruct (here sc); [discriminate|]. injection H as <- <- _. auto. Qed.
Lemma write_val : forall h pos c sc h' y sc', t_write h pos c sc = Val (h', Returned y, sc') ->
  exists n, get h pos = Val n /\ put h pos (with_content n c) = Val h'.
Proof.
  intros h pos c sc h' y sc' H. unfold t_write in H. apply bind_val in H as (n & G & H). exists n. split; [trivial|].
  destruct (here sc) as [[|a b d]|]; [discriminate| |]; apply bind_val in H as (h1 & P & H); [discriminate|]. injection H as <- _ _. trivial.
Qed.
Lemma push_val : forall h pos lb rb sc h' y sc', t_push_down tr h pos lb rb sc = Val (h', Returned y, sc') -> push_down tr h pos lb rb = Val h'.
Proof.
  intros h pos lb rb sc h' y sc' H. unfold t_push_down in H. unfold push_down.
  apply bind_val in H as (n & -> & H). apply bind_val in H as (l & -> & H). apply bind_val in H as (r & -> & H). cbn [bind].
  destruct (has_lazy_updates tr n); [|injection H as <- _ _; trivial]. destruct (here sc) as [[|a b c]|]; [discriminate| |].
  - apply bind_val in H as (h1 & _ & H). apply bind_val in H as (h2 & _ & H). apply bind_val in H as (h3 & _ & H). discriminate.
  - destruct (propagate tr (start n) (end_ n) (content n) (content l) (content r)) as [[cn cl] cr].
    apply bind_val in H as (h1 & -> & H). cbn [bind]. apply bind_val in H as (h2 & -> & H). cbn [bind]. apply bind_val in H as (h3 & E & H). injection H as <- _ _. trivial.
Qed.
Lemma pull_val : forall h pos lb rb sc h' y sc', t_pull_up tr h pos lb rb sc = Val (h', Returned y, sc') -> pull_up tr h pos lb rb = Val h'.
Proof.
  intros h pos lb rb sc h' y sc' H. unfold t_pull_up in H. unfold pull_up.
  apply bind_val in H as (l & -> & H). apply bind_val in H as (r & -> & H). apply bind_val in H as (n & G & H). rewrite G. cbn [bind].
  apply write_val in H as (n2 & G2 & H). rewrite G in G2. injection G2 as <-. trivial.
Qed.
Lemma query_val : forall fuel h s e pos v sc h' y sc', t_range_query tr fuel h s e pos v sc = Val (h', Returned y, sc') ->
  range_query tr fuel h s e pos v = Val (h', y).
Proof.
  induction fuel as [|fuel IH]; intros h s e pos v sc h' y sc' H; cbn [t_range_query range_query] in *; [discriminate|].
  apply bind_val in H as (n & -> & H). cbn [bind].
  destruct ((start n =? s) && (e =? end_ n) && (leaf n || negb (has_lazy_updates tr n))); [apply point_val in H as (-> & ->); trivial|].
  destruct (leaf n); [injection H as <- <- _; trivial|].
  apply after_val in H as (h1 & [] & sc1 & P & H). rewrite (push_val _ _ _ _ _ _ _ _ P). cbn [bind].
  apply after_val in H as (h2 & v2 & sc2 & Q & H). apply after_val in H as (h3 & [] & sc3 & L & H). injection H as <- <- _. apply pull_val in L.
  destruct ((s <=? center n) && (center n <? e)).
  - apply after_val in Q as (h4 & l & sc4 & Q1 & Q). apply after_val in Q as (h5 & r & sc5 & Q2 & Q). apply point_val in Q as (-> & ->).
    rewrite (IH _ _ _ _ _ _ _ _ _ Q1). cbn [bind]. rewrite (IH _ _ _ _ _ _ _ _ _ Q2). cbn [bind]. rewrite L. reflexivity.
  - destruct (s <=? center n); [|destruct (center n <? e)].
    + rewrite (IH _ _ _ _ _ _ _ _ _ Q). cbn [bind]. rewrite L. reflexivity.
    + rewrite (IH _ _ _ _ _ _ _ _ _ Q). cbn [bind]. rewrite L. reflexivity.
    + injection Q as <- <- _. cbn [bind]. rewrite L. reflexivity.
Qed.
Lemma apply_val : forall h pos u sc h' y sc', t_apply_change tr h pos u sc = Val (h', Returned y, sc') -> apply_change tr h pos u = Val h'.
Proof.
  intros h pos u sc h' y sc' H. unfold t_apply_change in H. unfold apply_change. apply bind_val in H as (n & G & H). rewrite G. cbn [bind].
  destruct (active tr u); [|injection H as <- _ _; trivial]. apply write_val in H as (n2 & G2 & H). rewrite G in G2. injection G2 as <-. trivial.
Qed.
Lemma update_val : forall fuel h s e pos u v sc h' y sc', t_range_update tr fuel h s e pos u v sc = Val (h', Returned y, sc') ->
  range_update tr fuel h s e pos u v = Val (h', y).
Proof.
  induction fuel as [|fuel IH]; intros h s e pos u v sc h' y sc' H; cbn [t_range_update range_update] in *; [discriminate|].
  apply bind_val in H as (n & G & H). rewrite G. cbn [bind]. cbv zeta in H.
  apply after_val in H as (h0 & w & sc0 & C & H).
  assert (CW : h0 = h /\ w = (start n =? s) && (e =? end_ n) && (leaf n || (negb (has_lazy_updates tr n) || criteria tr (start n) (end_ n) (content n)))).
  { destruct ((start n =? s) && (e =? end_ n)); cbn [andb] in C |- *; [|injection C as <- <- _; auto].
    destruct (leaf n || negb (has_lazy_updates tr n)) eqn:Q; cbn [negb] in C.
    - injection C as <- <- _. split; [trivial|]. rewrite orb_assoc, Q. reflexivity.
    - apply point_val in C as (-> & ->). split; [trivial|]. rewrite orb_assoc, Q. reflexivity. }
  destruct CW as (-> & CW). rewrite <- CW. destruct w.
  - apply after_val in H as (h1 & [] & sc1 & A & H). rewrite (apply_val _ _ _ _ _ _ _ A). cbn [bind].
    apply bind_val in H as (n1 & -> & H). cbn [bind]. apply point_val in H as (-> & ->). trivial.
  - destruct (leaf n); [injection H as <- <- _; trivial|].
    apply after_val in H as (h1 & [] & sc1 & P & H). rewrite (push_val _ _ _ _ _ _ _ _ P). cbn [bind].
    apply after_val in H as (h2 & v2 & sc2 & Q & H). apply after_val in H as (h3 & [] & sc3 & L & H). injection H as <- <- _. apply pull_val in L.
    destruct ((s <=? center n) && (center n <? e)).
    + apply after_val in Q as (h4 & l & sc4 & Q1 & Q). apply after_val in Q as (h5 & r & sc5 & Q2 & Q). apply point_val in Q as (-> & ->).
      rewrite (IH _ _ _ _ _ _ _ _ _ _ Q1). cbn [bind]. rewrite (IH _ _ _ _ _ _ _ _ _ _ Q2). cbn [bind]. rewrite L. reflexivity.
    + destruct (s <=? center n); [|destruct (center n <? e)].
      * rewrite (IH _ _ _ _ _ _ _ _ _ _ Q). cbn [bind]. rewrite L. reflexivity.
      * rewrite (IH _ _ _ _ _ _ _ _ _ _ Q). cbn [bind]. rewrite L. reflexivity.
      * injection Q as <- <- _. cbn [bind]. rewrite L. reflexivity.
Qed.
Lemma build_range_val : forall fuel h input pos sc h' y sc', t_build_range tr fuel h input pos sc = Val (h', Returned y, sc') ->
  build_range tr fuel h input pos = Val h'.
Proof.
  induction fuel as [|fuel IH]; intros h input pos sc h' y sc' H; cbn [t_build_range build_range] in *; [discriminate|].
  apply bind_val in H as (n & G & H). rewrite G. cbn [bind]. destruct (start n <? end_ n).
  - cbv zeta in H. apply bind_val in H as (h1 & -> & H). cbn [bind]. apply bind_val in H as (h2 & -> & H). cbn [bind].
    apply after_val in H as (h3 & [] & sc3 & B1 & H). rewrite (IH _ _ _ _ _ _ _ B1). cbn [bind].
    apply after_val in H as (h4 & [] & sc4 & B2 & H). rewrite (IH _ _ _ _ _ _ _ B2). cbn [bind]. eapply pull_val; eassumption.
  - destruct (cell input (start n)); [|discriminate]. apply write_val in H as (n2 & G2 & H). rewrite G in G2. injection G2 as <-. trivial.
Qed.
Lemma build_val : forall fuel t v k sc t' y sc', t_build tr required fuel t v k sc = Val (t', Returned y, sc') -> build tr required fuel t v k = Val t'.
Proof.
  intros fuel t v k sc t' y sc' H. unfold t_build in H. unfold build. cbv zeta in *. set (n := if k <? sizeN v then k else sizeN v) in *.
  destruct (n =? 0); [injection H as <- _ _; trivial|].
  assert (FILL : forall h sc, (let* h0 := set_root h (mkNode 0 (wsub n 1) 0 (no_value tr, no_update tr)) in
      let* (h1, r, sc0) := t_build_range tr fuel h0 v 0 sc in
      Val (mkTree n h1 (match r with Returned _ => true | Thrown => built_heap t end), r, sc0)) = Val (t', Returned y, sc') ->
    (let* h0 := set_root h (mkNode 0 (wsub n 1) 0 (no_value tr, no_update tr)) in let* h1 := build_range tr fuel h0 v 0 in Val (mkTree n h1 true)) = Val t').
  { intros h sc0 F. apply bind_val in F as (h0 & -> & F). cbn [bind]. apply bind_val in F as ([[h1 [[]|]] sc1] & B & F); [|discriminate].
    rewrite (build_range_val _ _ _ _ _ _ _ _ B). cbn [bind]. injection F as <- _ _. trivial. }
  destruct (sizeN (heap t) <? required n); [destruct (here sc); [discriminate|]|]; apply FILL in H; exact H.
Qed.
Lemma step_val : forall fuel t o sc t' a sc', t_step tr required fuel t o sc = Val (t', Returned a, sc') -> step tr required fuel t o = Val (t', a).
Proof.
  intros fuel t o sc t' a sc' H. destruct o as [s e|s e u|v k]; cbn [t_step step] in *; cbv zeta in H.
  - unfold query. destruct (negb (built_heap t)); [injection H as <- <- _; trivial|].
    destruct (head (heap t)); cbn [bind] in *; try discriminate; [|injection H as <- <- _; trivial].
    destruct (t_range_query tr fuel (heap t) (fixed_start t s e) (fixed_end t s e) 0 (no_value tr) sc) as [[[h [r|]] sc1]| | |] eqn:Q; try discriminate.
    + injection H as <- <- _. rewrite (query_val _ _ _ _ _ _ _ _ _ _ Q). reflexivity.
    + exfalso. clear H. revert Q. apply no_exn_query.
  - unfold query_update. destruct (negb (built_heap t)); [injection H as <- <- _; trivial|].
    destruct (head (heap t)); cbn [bind] in *; try discriminate; [|injection H as <- <- _; trivial].
    destruct (t_range_update tr fuel (heap t) (fixed_start t s e) (fixed_end t s e) 0 u (no_value tr) sc) as [[[h [r|]] sc1]| | |] eqn:Q; try discriminate.
    + injection H as <- <- _. rewrite (update_val _ _ _ _ _ _ _ _ _ _ _ Q). reflexivity.
    + exfalso. clear H. revert Q. apply no_exn_update.
  - apply bind_val in H as ([[t1 [y|]] sc1] & B & H); [|discriminate]. injection H as <- <- _. rewrite (build_val _ _ _ _ _ _ _ _ B). reflexivity.
Qed.

(** ** Nothing throws at the end of the script *)
Definition quiet {A} (x : outcome (list node * A)) : result A := let* (h, v) := x in Val (h, Returned v, []).
Definition quiet_unit (x : outcome (list node)) : result unit := let* h := x in Val (h, Returned tt, []).
Lemma after_quiet : forall A B (x : outcome (list node * A)) (k : list node -> A -> script -> result B), after (quiet x) k = let* (h, v) := x in k h v [].
Proof. intros A B x k. destruct x as [[h v]| | |]; reflexivity. Qed.
Lemma after_quiet_unit : forall B (x : outcome (list node)) (k : list node -> unit -> script -> result B), after (quiet_unit x) k = let* h := x in k h tt [].
Proof. intros B x k. destruct x as [h| | |]; reflexivity. Qed.
Lemma write_quiet : forall h pos c, t_write h pos c [] = quiet_unit (let* n := get h pos in put h pos (with_content n c)).
Proof. intros h pos c. unfold t_write, quiet_unit. cbn [here later]. destruct (get h pos); reflexivity. Qed.
Lemma push_quiet : forall h pos lb rb, t_push_down tr h pos lb rb [] = quiet_unit (push_down tr h pos lb rb).
Proof.
  intros h pos lb rb. unfold t_push_down, push_down, quiet_unit. cbn [here later].
  destruct (get h pos) as [n| | |]; [|reflexivity..]. cbn [bind]. destruct (get h lb) as [l| | |]; [|reflexivity..]. cbn [bind]. destruct (get h rb) as [r| | |]; [|reflexivity..]. cbn [bind].
  destruct (has_lazy_updates tr n); [|reflexivity]. destruct (propagate tr (start n) (end_ n) (content n) (content l) (content r)) as [[cn cl] cr].
  destruct (put h pos (with_content n cn)) as [h1| | |]; [|reflexivity..]. cbn [bind]. destruct (put h1 lb (with_content l cl)) as [h2| | |]; reflexivity.
Qed.
Lemma pull_quiet : forall h pos lb rb, t_pull_up tr h pos lb rb [] = quiet_unit (pull_up tr h pos lb rb).
Proof.
  intros h pos lb rb. unfold t_pull_up, pull_up. destruct (get h lb) as [l| | |]; [|reflexivity..]. cbn [bind]. destruct (get h rb) as [r| | |]; [|reflexivity..]. cbn [bind].
  destruct (get h pos) as [n| | |] eqn:G; [|reflexivity..]. cbn [bind]. rewrite write_quiet, G. reflexivity.
Qed.
Lemma query_quiet : forall fuel h s e pos v, t_range_query tr fuel h s e pos v [] = quiet (range_query tr fuel h s e pos v).
Proof.
  induction fuel as [|fuel IH]; intros h s e pos v; cbn [t_range_query range_query]; [reflexivity|].
  destruct (get h pos) as [n| | |]; [|reflexivity..]. cbn [bind].
  destruct ((start n =? s) && (e =? end_ n) && (leaf n || negb (has_lazy_updates tr n))); [reflexivity|]. destruct (leaf n); [reflexivity|]. cbv zeta.
  rewrite push_quiet, after_quiet_unit. destruct (push_down tr h pos (lower_bound n) (upper_bound n)) as [h1| | |]; [|reflexivity..]. cbn [bind].
  assert (END : forall x : outcome (list node * R), after (quiet x) (fun h v sc => after (t_pull_up tr h pos (lower_bound n) (upper_bound n) sc) (fun h _ sc => Val (h, Returned v, sc)))
    = quiet (let* (h, v) := x in let* h := pull_up tr h pos (lower_bound n) (upper_bound n) in Val (h, v))).
  { intros x. rewrite after_quiet. destruct x as [[h2 v2]| | |]; [|reflexivity..]. cbn [bind]. rewrite pull_quiet, after_quiet_unit.
    destruct (pull_up tr h2 pos (lower_bound n) (upper_bound n)); reflexivity. }
  rewrite <- END. f_equal. destruct ((s <=? center n) && (center n <? e)).
  - rewrite IH, after_quiet. destruct (range_query tr fuel h1 s (N.min e (center n)) (lower_bound n) (no_value tr)) as [[h2 l]| | |]; [|reflexivity..]. cbn [bind].
    rewrite IH, after_quiet. destruct (range_query tr fuel h2 (wadd (center n) 1) e (upper_bound n) (no_value tr)) as [[h3 r]| | |]; reflexivity.
  - destruct (s <=? center n); [apply IH|]. destruct (center n <? e); [apply IH|reflexivity].
Qed.
Lemma apply_quiet : forall h pos u, t_apply_change tr h pos u [] = quiet_unit (apply_change tr h pos u).
Proof.
  intros h pos u. unfold t_apply_change, apply_change. destruct (get h pos) as [n| | |] eqn:G; [|reflexivity..]. cbn [bind]. destruct (active tr u); [|reflexivity]. rewrite write_quiet, G. reflexivity.
Qed.
Lemma update_quiet : forall fuel h s e pos u v, t_range_update tr fuel h s e pos u v [] = quiet (range_update tr fuel h s e pos u v).
Proof.
  induction fuel as [|fuel IH]; intros h s e pos u v; cbn [t_range_update range_update]; [reflexivity|].
  destruct (get h pos) as [n| | |]; [|reflexivity..]. cbn [bind]. cbv zeta.
  assert (C : (if (start n =? s) && (e =? end_ n) && negb (leaf n || negb (has_lazy_updates tr n)) then point h (criteria tr (start n) (end_ n) (content n)) []
     else Val (h, Returned ((start n =? s) && (e =? end_ n)), []) : result bool)
     = Val (h, Returned ((start n =? s) && (e =? end_ n) && (leaf n || (negb (has_lazy_updates tr n) || criteria tr (start n) (end_ n) (content n)))), @nil (option (mishap (R * U))))).
  { destruct ((start n =? s) && (e =? end_ n)); [|reflexivity]. rewrite orb_assoc. destruct (leaf n || negb (has_lazy_updates tr n)); reflexivity. }
  match type of C with _ = ?y => match goal with |- after ?x _ = _ => replace x with y by (symmetry; exact C) end end. cbn [after]. clear C. destruct ((start n =? s) && (e =? end_ n) && _).
  - rewrite apply_quiet, after_quiet_unit. destruct (apply_change tr h pos u) as [h1| | |]; [|reflexivity..]. cbn [bind]. destruct (get h1 pos); reflexivity.
  - destruct (leaf n); [reflexivity|].
    rewrite push_quiet, after_quiet_unit. destruct (push_down tr h pos (lower_bound n) (upper_bound n)) as [h1| | |]; [|reflexivity..]. cbn [bind].
    assert (END : forall x : outcome (list node * R), after (quiet x) (fun h v sc => after (t_pull_up tr h pos (lower_bound n) (upper_bound n) sc) (fun h _ sc => Val (h, Returned v, sc)))
      = quiet (let* (h, v) := x in let* h := pull_up tr h pos (lower_bound n) (upper_bound n) in Val (h, v))).
    { intros x. rewrite after_quiet. destruct x as [[h2 v2]| | |]; [|reflexivity..]. cbn [bind]. rewrite pull_quiet, after_quiet_unit.
      destruct (pull_up tr h2 pos (lower_bound n) (upper_bound n)); reflexivity. }
    rewrite <- END. f_equal. destruct ((s <=? center n) && (center n <? e)).
    + rewrite IH, after_quiet. destruct (range_update tr fuel h1 s (center n) (lower_bound n) u (no_value tr)) as [[h2 l]| | |]; [|reflexivity..]. cbn [bind].
      rewrite IH, after_quiet. destruct (range_update tr fuel h2 (wadd (center n) 1) e (upper_bound n) u (no_value tr)) as [[h3 r]| | |]; reflexivity.
    + destruct (s <=? center n); [apply IH|]. destruct (center n <? e); [apply IH|reflexivity].
Qed.
Lemma build_range_quiet : forall fuel h input pos, t_build_range tr fuel h input pos [] = quiet_unit (build_range tr fuel h input pos).
Proof.
  induction fuel as [|fuel IH]; intros h input pos; cbn [t_build_range build_range]; [reflexivity|].
  destruct (get h pos) as [n| | |] eqn:G; [|reflexivity..]. cbn [bind]. destruct (start n <? end_ n).
  - cbv zeta. destruct (set_range tr h (lower_bound n) (start n) (center n)) as [h1| | |]; [|reflexivity..]. cbn [bind].
    destruct (set_range tr h1 (upper_bound n) (wadd (center n) 1) (end_ n)) as [h2| | |]; [|reflexivity..]. cbn [bind].
    rewrite IH, after_quiet_unit. destruct (build_range tr fuel h2 input (lower_bound n)) as [h3| | |]; [|reflexivity..]. cbn [bind].
    rewrite IH, after_quiet_unit. destruct (build_range tr fuel h3 input (upper_bound n)) as [h4| | |]; [|reflexivity..]. cbn [bind]. apply pull_quiet.
  - destruct (cell input (start n)); [|reflexivity]. rewrite write_quiet, G. reflexivity.
Qed.
Lemma step_quiet : forall fuel t o, t_step tr required fuel t o [] = let* (t', a) := step tr required fuel t o in Val (t', Returned a, []).
Proof.
  intros fuel t o. destruct o as [s e|s e u|v k]; cbn [t_step step]; cbv zeta.
  - unfold query. destruct (negb (built_heap t)); [reflexivity|]. destruct (head (heap t)); cbn [bind]; try reflexivity. rewrite query_quiet.
    destruct (range_query tr fuel (heap t) (fixed_start t s e) (fixed_end t s e) 0 (no_value tr)) as [[h v]| | |]; reflexivity.
  - unfold query_update. destruct (negb (built_heap t)); [reflexivity|]. destruct (head (heap t)); cbn [bind]; try reflexivity. rewrite update_quiet.
    destruct (range_update tr fuel (heap t) (fixed_start t s e) (fixed_end t s e) 0 u (no_value tr)) as [[h v]| | |]; reflexivity.
  - unfold t_build, build. cbn [here later]. cbv zeta. set (n := if k <? sizeN v then k else sizeN v). destruct (n =? 0); [reflexivity|].
    destruct (sizeN (heap t) <? required n).
    + destruct (set_root (resize (blank tr) (heap t) (required n)) (mkNode 0 (wsub n 1) 0 (no_value tr, no_update tr))) as [h| | |]; [|reflexivity..]. cbn [bind].
      rewrite build_range_quiet. destruct (build_range tr fuel h v 0); reflexivity.
    + destruct (set_root (heap t) (mkNode 0 (wsub n 1) 0 (no_value tr, no_update tr))) as [h| | |]; [|reflexivity..]. cbn [bind].
      rewrite build_range_quiet. destruct (build_range tr fuel h v 0); reflexivity.
Qed.

(** ** Whatever is left behind, no call leaves the heap *)
Definition sound h : Prop := forall q n, cell h q = Some n -> leaf n = false -> index n = q /\ q < 2 ^ 62 /\ 2 * q + 2 < sizeN h.
Definition goes_on {A} h (x : result A) : Prop := exists h' r sc', x = Val (h', r, sc') /\ sound h' /\ sizeN h' = sizeN h.
Lemma sound_put : forall h pos n c, cell h pos = Some n -> sound h -> sound (set_nth h (N.to_nat pos) (with_content n c)).
Proof.
  intros h pos n c C S q m Q L. rewrite sizeN_set. destruct (N.eq_dec q pos) as [->|NE].
  - erewrite cell_put_eq in Q by eassumption. injection Q as <-. exact (S pos n C L).
  - rewrite cell_put_neq in Q by trivial. exact (S q m Q L).
Qed.
Lemma goes_after : forall A B h (x : result A) (k : list node -> A -> script -> result B), goes_on h x ->
  (forall h' a sc', sound h' -> sizeN h' = sizeN h -> goes_on h' (k h' a sc')) -> goes_on h (after x k).
Proof.
  intros A B h x k (h1 & r & sc1 & -> & S1 & Z1) K. destruct r as [a|]; cbn [after].
  - destruct (K h1 a sc1 S1 Z1) as (h2 & r2 & sc2 & E & S2 & Z2). exists h2, r2, sc2. split; [trivial|]. split; [trivial|congruence].
  - exists h1, Thrown, sc1. auto.
Qed.
Lemma goes_val : forall A h (r : ended A) sc, sound h -> goes_on h (Val (h, r, sc)).
Proof. intros A h r sc S. exists h, r, sc. auto. Qed.
Lemma goes_point : forall A h (x : A) sc, sound h -> goes_on h (point h x sc).
Proof. intros A h x sc S. unfold point. destruct (here sc); now apply goes_val. Qed.
Lemma goes_write : forall h pos n c sc, sound h -> cell h pos = Some n -> goes_on h (t_write h pos c sc).
Proof.
  intros h pos n c sc S C. unfold t_write. rewrite (get_ok _ _ _ C). cbn [bind]. destruct (here sc) as [[|a b d]|]; [now apply goes_val| |];
    rewrite (put_ok _ _ _ _ C); cbn [bind]; eexists _, _, _; (split; [reflexivity|]); (split; [now apply sound_put|apply sizeN_set]).
Qed.
Lemma put_cell : forall h pos q n m x, cell h pos = Some n -> cell h q = Some m -> exists m', cell (set_nth h (N.to_nat pos) x) q = Some m' /\ (q <> pos -> m' = m).
Proof.
  intros h pos q n m x C Q. destruct (N.eq_dec q pos) as [->|NE].
  - exists x. split; [eapply cell_put_eq; eassumption|congruence].
  - exists m. split; [now rewrite cell_put_neq|auto].
Qed.
Lemma goes_push : forall h pos lb rb n l r sc, sound h -> cell h pos = Some n -> cell h lb = Some l -> cell h rb = Some r ->
  lb <> pos -> rb <> pos -> rb <> lb -> goes_on h (t_push_down tr h pos lb rb sc).
Proof.
  intros h pos lb rb n l r sc S C Cl Cr N1 N2 N3. unfold t_push_down. rewrite (get_ok _ _ _ C). cbn [bind]. rewrite (get_ok _ _ _ Cl). cbn [bind]. rewrite (get_ok _ _ _ Cr). cbn [bind].
  destruct (has_lazy_updates tr n); [|now apply goes_val].
  assert (W : forall a b c (y : ended unit), goes_on h (let* h1 := put h pos (with_content n a) in let* h2 := put h1 lb (with_content l b) in let* h3 := put h2 rb (with_content r c) in Val (h3, y, later sc))).
  { intros a b c y. rewrite (put_ok _ _ _ _ C). cbn [bind].
    assert (Cl1 : cell (set_nth h (N.to_nat pos) (with_content n a)) lb = Some l) by (rewrite cell_put_neq; trivial).
    assert (Cr1 : cell (set_nth h (N.to_nat pos) (with_content n a)) rb = Some r) by (rewrite cell_put_neq; trivial).
    rewrite (put_ok _ _ _ _ Cl1). cbn [bind].
    assert (Cr2 : cell (set_nth (set_nth h (N.to_nat pos) (with_content n a)) (N.to_nat lb) (with_content l b)) rb = Some r) by (rewrite cell_put_neq; trivial).
    rewrite (put_ok _ _ _ _ Cr2). cbn [bind]. eexists _, _, _. split; [reflexivity|]. split; [|now rewrite !sizeN_set].
    apply sound_put; [trivial|]. apply sound_put; [trivial|]. now apply sound_put. }
  destruct (here sc) as [[|a b c]|]; [now apply goes_val|apply W|].
  destruct (propagate tr (start n) (end_ n) (content n) (content l) (content r)) as [[cn cl] cr]. apply W.
Qed.
Lemma goes_pull : forall h pos lb rb sc, sound h -> pos < sizeN h -> lb < sizeN h -> rb < sizeN h -> goes_on h (t_pull_up tr h pos lb rb sc).
Proof.
  intros h pos lb rb sc S P L Q. destruct (cell_lt h pos P) as (n & C). destruct (cell_lt h lb L) as (l & Cl). destruct (cell_lt h rb Q) as (r & Cr).
  unfold t_pull_up. rewrite (get_ok _ _ _ Cl). cbn [bind]. rewrite (get_ok _ _ _ Cr). cbn [bind]. rewrite (get_ok _ _ _ C). cbn [bind]. eapply goes_write; eassumption.
Qed.
Lemma query_goes : forall fuel h s e pos v sc, sound h -> pos < sizeN h -> sizeN h < (pos + 1) * 2 ^ N.of_nat fuel -> goes_on h (t_range_query tr fuel h s e pos v sc).
Proof.
  induction fuel as [|fuel IH]; intros h s e pos v sc S P F; [cbn in F; lia|]. cbn [t_range_query]. destruct (cell_lt h pos P) as (n & C). rewrite (get_ok _ _ _ C). cbn [bind].
  destruct ((start n =? s) && (e =? end_ n) && (leaf n || negb (has_lazy_updates tr n))); [now apply goes_point|].
  destruct (leaf n) eqn:L; [now apply goes_val|]. cbv zeta. destruct (S pos n C L) as (I & B & Z). unfold lower_bound, upper_bound. rewrite I, left_small, right_small by trivial.
  replace (N.of_nat (Datatypes.S fuel)) with (N.succ (N.of_nat fuel)) in F by lia. rewrite N.pow_succ_r' in F. set (w := 2 ^ N.of_nat fuel) in *.
  destruct (cell_lt h (2 * pos + 1)) as (l & Cl); [lia|]. destruct (cell_lt h (2 * pos + 2)) as (r & Cr); [lia|].
  assert (FL : sizeN h < (2 * pos + 1 + 1) * w) by nia. assert (FR : sizeN h < (2 * pos + 2 + 1) * w) by nia.
  apply goes_after; [eapply goes_push; eauto; lia|]. intros h1 _ sc1 S1 Z1. apply goes_after.
  - destruct ((s <=? center n) && (center n <? e)).
    + apply goes_after; [apply IH; trivial; rewrite Z1; trivial; lia|]. intros h2 x sc2 S2 Z2. apply goes_after; [apply IH; trivial; rewrite Z2, Z1; trivial; lia|].
      intros h3 y sc3 S3 Z3. now apply goes_point.
    + destruct (s <=? center n); [apply IH; trivial; rewrite Z1; trivial; lia|]. destruct (center n <? e); [apply IH; trivial; rewrite Z1; trivial; lia|now apply goes_val].
  - intros h2 x sc2 S2 Z2. apply goes_after; [apply goes_pull; trivial; lia|]. intros h3 _ sc3 S3 Z3. now apply goes_val.
Qed.
Lemma update_goes : forall fuel h s e pos u v sc, sound h -> pos < sizeN h -> sizeN h < (pos + 1) * 2 ^ N.of_nat fuel -> goes_on h (t_range_update tr fuel h s e pos u v sc).
Proof.
  induction fuel as [|fuel IH]; intros h s e pos u v sc S P F; [cbn in F; lia|]. cbn [t_range_update]. destruct (cell_lt h pos P) as (n & C). rewrite (get_ok _ _ _ C). cbn [bind]. cbv zeta.
  assert (GC : exists r sc', (if (start n =? s) && (e =? end_ n) && negb (leaf n || negb (has_lazy_updates tr n)) then point h (criteria tr (start n) (end_ n) (content n)) sc
      else Val (h, Returned ((start n =? s) && (e =? end_ n)), sc) : result bool) = Val (h, r, sc')).
  { destruct ((start n =? s) && (e =? end_ n) && negb (leaf n || negb (has_lazy_updates tr n))); [unfold point; destruct (here sc)|]; eauto. }
  destruct GC as (r0 & sc0 & GC). match type of GC with _ = ?y => match goal with |- goes_on _ (after ?x _) => replace x with y by (symmetry; exact GC) end end. clear GC. destruct r0 as [[|]|]; cbn [after]; [| |now apply goes_val].
  - apply goes_after.
    + unfold t_apply_change. rewrite (get_ok _ _ _ C). cbn [bind]. destruct (active tr u); [eapply goes_write; eassumption|now apply goes_val].
    + intros h1 _ sc1 S1 Z1. destruct (cell_lt h1 pos) as (n1 & C1); [lia|]. rewrite (get_ok _ _ _ C1). cbn [bind]. now apply goes_point.
  - destruct (leaf n) eqn:L; [now apply goes_val|]. destruct (S pos n C L) as (I & B & Z). unfold lower_bound, upper_bound. rewrite I, left_small, right_small by trivial.
    replace (N.of_nat (Datatypes.S fuel)) with (N.succ (N.of_nat fuel)) in F by lia. rewrite N.pow_succ_r' in F. set (w := 2 ^ N.of_nat fuel) in *.
    destruct (cell_lt h (2 * pos + 1)) as (l & Cl); [lia|]. destruct (cell_lt h (2 * pos + 2)) as (r & Cr); [lia|].
    assert (FL : sizeN h < (2 * pos + 1 + 1) * w) by nia. assert (FR : sizeN h < (2 * pos + 2 + 1) * w) by nia.
    apply goes_after; [eapply goes_push; eauto; lia|]. intros h1 _ sc1 S1 Z1. apply goes_after.
    + destruct ((s <=? center n) && (center n <? e)).
      * apply goes_after; [apply IH; trivial; rewrite Z1; trivial; lia|]. intros h2 x sc2 S2 Z2. apply goes_after; [apply IH; trivial; rewrite Z2, Z1; trivial; lia|].
        intros h3 y sc3 S3 Z3. now apply goes_point.
      * destruct (s <=? center n); [apply IH; trivial; rewrite Z1; trivial; lia|]. destruct (center n <? e); [apply IH; trivial; rewrite Z1; trivial; lia|now apply goes_val].
    + intros h2 x sc2 S2 Z2. apply goes_after; [apply goes_pull; trivial; lia|]. intros h3 _ sc3 S3 Z3. now apply goes_val.
Qed.

Lemma sound_set : forall h pos n, sound h -> (leaf n = false -> index n = pos /\ pos < 2 ^ 62 /\ 2 * pos + 2 < sizeN h) -> pos < sizeN h -> sound (set_nth h (N.to_nat pos) n).
Proof.
  intros h pos n S K P q m Q L. rewrite sizeN_set. destruct (N.eq_dec q pos) as [->|NE].
  - rewrite cell_set_eq in Q by trivial. injection Q as <-. auto.
  - rewrite cell_put_neq in Q by trivial. exact (S q m Q L).
Qed.
Lemma leaf_range : forall (n : node) s e, start n = s -> end_ n = e -> s <= e -> e < 2 ^ 62 -> leaf n = false -> s < e.
Proof. intros n s e S E L B F. rewrite (leaf_eq n s e) in F by trivial. destruct (N.eqb_spec s e); [discriminate|lia]. Qed.
Lemma set_range_any : forall h pos s e, pos < sizeN h -> exists n, set_range tr h pos s e = Val (set_nth h (N.to_nat pos) n) /\ start n = s /\ end_ n = e /\ index n = pos.
Proof. intros h pos s e H. destruct (cell_lt h pos H) as (m & C). unfold set_range. rewrite (get_ok _ _ _ C). cbn [bind]. rewrite (put_ok _ _ _ _ C). eexists. split; [reflexivity|]. auto. Qed.
Lemma write_frame : forall h pos c sc h' r sc', t_write h pos c sc = Val (h', r, sc') -> forall q, q <> pos -> cell h' q = cell h q.
Proof.
  intros h pos c sc h' r sc' H q Q. unfold t_write in H. apply bind_val in H as (n & G & H).
  assert (PT : forall x h1, put h pos x = Val h1 -> cell h1 q = cell h q).
  { intros x h1 P. unfold put in P. apply bind_val in P as (m & _ & P). injection P as <-. now apply cell_put_neq. }
  destruct (here sc) as [[|a b d]|]; [injection H as <- _ _; trivial| |]; apply bind_val in H as (h1 & P & H); injection H as <- _ _; eauto.
Qed.
Lemma pull_frame : forall h pos lb rb sc h' r sc', t_pull_up tr h pos lb rb sc = Val (h', r, sc') -> forall q, q <> pos -> cell h' q = cell h q.
Proof.
  intros h pos lb rb sc h' r sc' H. unfold t_pull_up in H. apply bind_val in H as (l & _ & H). apply bind_val in H as (x & _ & H). apply bind_val in H as (n & _ & H). eapply write_frame; eassumption.
Qed.
Section Build.
Variable input : list T.
Variable size : N.
Hypothesis INPUT : size <= sizeN input.
Hypothesis SIZE : size < 2 ^ 60.
Lemma build_range_goes : forall fuel h pos s e n k K sc, sound h -> cell h pos = Some n ->
  start n = s -> end_ n = e -> index n = pos -> s <= e -> e < size ->
  K <= 61 -> k <= K -> pos + 1 < 2 ^ (k + 1) -> e - s + 1 <= 2 ^ (K - k) -> (forall q, takes pos (e - s + 1) q -> q < sizeN h) ->
  (N.to_nat (e - s) < fuel)%nat ->
  exists h' r sc', t_build_range tr fuel h input pos sc = Val (h', r, sc') /\ sound h' /\ sizeN h' = sizeN h /\ forall q, ~ under pos q -> cell h' q = cell h q.
Proof.
  induction fuel as [|fuel IH]; intros h pos s e n k K sc SO C S E I LE EA K61 KK PK LK HK F; [lia|].
  assert (B60 : 2 ^ 62 = 4 * 2 ^ 60) by reflexivity.
  cbn [t_build_range]. rewrite (get_ok _ _ _ C). cbn [bind]. rewrite S, E.
  destruct (N.ltb_spec s e) as [L|L].
  - rewrite (center_eq n s e) by (trivial; lia).
    pose proof (center_between s e L) as CB.
    assert (C2 : 2 * ((s + e) / 2) <= s + e) by (apply N.mul_div_le; discriminate).
    assert (C3 : s + e < 2 * ((s + e) / 2) + 2).
    { pose proof (N.mul_succ_div_gt (s + e) 2 ltac:(discriminate)). lia. }
    set (c := (s + e) / 2) in *.
    assert (Kk : k < K).
    { destruct (N.eq_dec k K) as [->|]; [|lia]. rewrite N.sub_diag in LK. cbn in LK. lia. }
    assert (LK' : 2 ^ (K - k) = 2 * 2 ^ (K - (k + 1))).
    { rewrite <- N.pow_succ_r'. f_equal. lia. }
    assert (PK' : 2 ^ (k + 1 + 1) = 2 * 2 ^ (k + 1)).
    { rewrite <- N.pow_succ_r'. f_equal. lia. }
    assert (PK1 : 2 ^ (k + 1) <= 2 ^ 61) by (apply N.pow_le_mono_r; lia).
    assert (B61 : 2 ^ 62 = 2 * 2 ^ 61) by reflexivity.
    assert (PK2 : 2 * pos + 2 < 2 ^ 62) by lia.
    destruct (halves s e L) as (HL & HR). fold c in HL, HR.
    assert (BL : forall q, takes (2 * pos + 1) (c - s + 1) q -> q < sizeN h) by (intros q Q; apply HK; apply takes_left; [lia|now rewrite HL]).
    assert (BR : forall q, takes (2 * pos + 2) (e - (c + 1) + 1) q -> q < sizeN h) by (intros q Q; apply HK; apply takes_right; [lia|now rewrite HR]).
    pose proof (BL _ (takes_one _ _)) as BL0. pose proof (BR _ (takes_one _ _)) as BR0.
    unfold lower_bound, upper_bound. rewrite I, left_small, right_small by lia. cbv zeta.
    destruct (set_range_any h (2 * pos + 1) s c) as (nl & E1 & Sl & El & Il); [lia|].
    rewrite E1. cbn [bind]. set (h1 := set_nth h (N.to_nat (2 * pos + 1)) nl).
    assert (Z1 : sizeN h1 = sizeN h) by apply sizeN_set.
    assert (S1 : sound h1).
    { apply sound_set; trivial. intros LF. pose proof (leaf_range nl s c Sl El ltac:(lia) ltac:(lia) LF). split; [trivial|]. split; [lia|].
      apply BL. apply takes_right; [lia|]. apply takes_one. }
    rewrite wadd1 by lia.
    destruct (set_range_any h1 (2 * pos + 2) (c + 1) e) as (nr & E2 & Sr & Er & Ir); [lia|].
    rewrite E2. cbn [bind]. set (h2 := set_nth h1 (N.to_nat (2 * pos + 2)) nr).
    assert (Z2 : sizeN h2 = sizeN h) by (unfold h2; now rewrite sizeN_set).
    assert (S2 : sound h2).
    { apply sound_set; trivial; [|lia]. intros LF. pose proof (leaf_range nr (c + 1) e Sr Er ltac:(lia) ltac:(lia) LF). split; [trivial|]. split; [lia|].
      rewrite Z1. apply BR. apply takes_right; [lia|]. apply takes_one. }
    assert (Cl2 : cell h2 (2 * pos + 1) = Some nl).
    { unfold h2. rewrite cell_put_neq by lia. unfold h1. apply cell_set_eq. lia. }
    assert (Cr2 : cell h2 (2 * pos + 2) = Some nr) by (unfold h2; apply cell_set_eq; lia).
    assert (K2 : forall q, ~ under pos q -> cell h2 q = cell h q).
    { intros q Q. unfold h2, h1. rewrite !cell_put_neq; trivial; intros ->; apply Q; [apply under_left|apply under_right]; constructor. }
    destruct (IH h2 (2 * pos + 1) s c nl (k + 1) K sc S2 Cl2) as (h3 & r3 & sc3 & E3 & S3 & Z3 & K3); trivial; try lia.
    { intros q Q. rewrite Z2. auto. }
    rewrite E3. assert (K3' : forall q, ~ under pos q -> cell h3 q = cell h q).
    { intros q Q. rewrite K3; [auto|]. intro. apply Q. now apply under_left. }
    destruct r3 as [u3|]; cbn [after]; [|exists h3, Thrown, sc3; split; [trivial|]; split; [trivial|]; split; [congruence|trivial]].
    assert (Cr3 : cell h3 (2 * pos + 2) = Some nr).
    { rewrite K3; [trivial|]. intro Q. apply (under_disjoint pos (2 * pos + 2) Q). constructor. }
    destruct (IH h3 (2 * pos + 2) (c + 1) e nr (k + 1) K sc3 S3 Cr3) as (h4 & r4 & sc4 & E4 & S4 & Z4 & K4); trivial; try lia.
    { intros q Q. rewrite Z3, Z2. auto. }
    rewrite E4. assert (K4' : forall q, ~ under pos q -> cell h4 q = cell h q).
    { intros q Q. rewrite K4; [auto|]. intro. apply Q. now apply under_right. }
    destruct r4 as [u4|]; cbn [after]; [|exists h4, Thrown, sc4; split; [trivial|]; split; [trivial|]; split; [congruence|trivial]].
    assert (P4 : pos < sizeN h) by (assert (Q : nth_error h (N.to_nat pos) <> None) by (unfold cell in C; congruence); apply nth_error_Some in Q; unfold sizeN; lia).
    destruct (goes_pull h4 pos (2 * pos + 1) (2 * pos + 2) sc4 S4) as (h5 & r5 & sc5 & E5 & S5 & Z5); [lia..|].
    exists h5, r5, sc5. split; [trivial|]. split; [trivial|]. split; [congruence|]. intros q Q.
    rewrite (pull_frame _ _ _ _ _ _ _ _ E5); [auto|]. intros ->. apply Q. constructor.
  - assert (s = e) by lia. subst s. destruct (cell_lt input e) as (x & Cx); [lia|].
    replace (start n) with e by congruence. rewrite Cx. destruct (goes_write h pos n (build_leaf tr x e, lazy_update n) sc SO C) as (h1 & r1 & sc1 & E1 & S1 & Z1).
    exists h1, r1, sc1. split; [trivial|]. split; [trivial|]. split; [trivial|]. intros q Q. apply (write_frame _ _ _ _ _ _ _ E1). intros ->. apply Q. constructor.
Qed.
End Build.
Hypothesis ENOUGH : enough required.
Definition safe_tree (fuel : nat) (t : tree R U) : Prop := sound (heap t) /\ sizeN (heap t) < 2 ^ N.of_nat fuel /\ (built_heap t = true -> 0 < sizeN (heap t)).
Lemma sound_resize : forall h n, sizeN h <= n -> sound h -> sound (resize (blank tr) h n) /\ sizeN (resize (blank tr) h n) = n.
Proof.
  intros h n L S. assert (Z : sizeN (resize (blank tr) h n) = n) by (rewrite resize_size; lia). split; [|trivial]. intros q m Q LF. rewrite Z.
  unfold resize in Q. rewrite firstn_all2 in Q by (unfold sizeN in L; lia). destruct (N.lt_ge_cases q (sizeN h)) as [B|B].
  - unfold cell in Q. rewrite nth_error_app1 in Q by (unfold sizeN in B; lia). destruct (S q m Q LF) as (A1 & A2 & A3). repeat split; trivial. lia.
  - unfold cell in Q. rewrite nth_error_app2 in Q by (unfold sizeN in B; lia). apply nth_error_In in Q. apply repeat_spec in Q. subst m. discriminate LF.
Qed.
Lemma build_goes : forall fuel t v k sc, throw_fair required fuel (ORebuild (U := U) v k) -> safe_tree fuel t ->
  exists t' r sc', t_build tr required fuel t v k sc = Val (t', r, sc') /\ safe_tree fuel t'.
Proof.
  intros fuel t v k sc ((V & K0 & B & F) & RQ) (SO & SZ & BU). unfold t_build. cbv zeta. set (n := if k <? sizeN v then k else sizeN v).
  assert (Lv : 0 < sizeN v) by (unfold sizeN; destruct v; [congruence|cbn [length]; lia]).
  assert (N0 : 0 < n <= sizeN v) by (unfold n; destruct (N.ltb_spec k (sizeN v)); lia).
  destruct (N.eqb_spec n 0) as [|_]; [lia|]. pose proof (ENOUGH n ltac:(lia)) as EN. pose proof (RQ n ltac:(lia)) as RN.
  assert (FILL : forall h sc0, sound h -> sizeN h < 2 ^ N.of_nat fuel -> required n <= sizeN h ->
    exists t' r sc', (let* h0 := set_root h (mkNode 0 (wsub n 1) 0 (no_value tr, no_update tr)) in
      let* (h1, r, sc1) := t_build_range tr fuel h0 v 0 sc0 in
      Val (mkTree n h1 (match r with Returned _ => true | Thrown => built_heap t end), r, sc1)) = Val (t', r, sc') /\ safe_tree fuel t').
  { intros h sc0 SH SZ0 RH. assert (H0 : 0 < sizeN h) by (pose proof (EN 0 (takes_one _ _)); lia).
    unfold set_root. rewrite at_put_ok by lia. cbn [bind]. assert (B64 : two64 = 16 * 2 ^ 60) by reflexivity. rewrite wsub1 by lia.
    set (nr := mkNode 0 (n - 1) 0 (no_value tr, no_update tr)). set (h1 := set_nth h (N.to_nat 0) nr).
    assert (Z1 : sizeN h1 = sizeN h) by apply sizeN_set.
    assert (C1 : cell h1 0 = Some nr) by (apply cell_set_eq; lia).
    assert (LOG : N.log2 n < 60) by (apply N.log2_lt_pow2; lia).
    destruct (N.log2_spec n ltac:(lia)) as (_ & LG). assert (B62 : 2 ^ 62 = 4 * 2 ^ 60) by reflexivity.
    assert (S1 : sound h1).
    { apply sound_set; trivial. intros LF. pose proof (leaf_range nr 0 (n - 1) eq_refl eq_refl ltac:(lia) ltac:(lia) LF). split; [reflexivity|]. split; [lia|].
      assert (2 * 0 + 2 < required n); [|lia]. apply EN. apply takes_right; [lia|]. apply takes_one. }
    destruct (build_range_goes v n ltac:(lia) ltac:(lia) fuel h1 0 0 (n - 1) nr 0 (N.log2 n + 1) sc0) as (h2 & r2 & sc2 & E2 & S2 & Z2 & _); trivial; try lia.
    - replace (N.log2 n + 1 - 0) with (N.succ (N.log2 n)) by lia. lia.
    - intros q Q. replace (n - 1 - 0 + 1) with n in Q by lia. apply EN in Q. lia.
    - unfold sizeN in *. lia.
    - rewrite E2. cbn [bind]. eexists _, _, _. split; [reflexivity|]. split; [exact S2|]. cbn [heap]. rewrite Z2, Z1. split; [trivial|]. intros _. trivial. }
  destruct (N.ltb_spec (sizeN (heap t)) (required n)) as [L|L].
  - destruct (here sc).
    + eexists _, _, _. split; [reflexivity|]. split; [exact SO|]. split; [exact SZ|exact BU].
    + destruct (sound_resize (heap t) (required n) ltac:(lia) SO) as (S1 & Z1). apply FILL; trivial; lia.
  - apply FILL; trivial.
Qed.
Lemma step_goes : forall fuel t o sc, throw_fair required fuel o -> safe_tree fuel t -> exists t' r sc', t_step tr required fuel t o sc = Val (t', r, sc') /\ safe_tree fuel t'.
Proof.
  intros fuel t o sc F ST. destruct o as [s e|s e u|v k]; cbn [t_step]; cbv zeta.
  - destruct (built_heap t) eqn:BU; cbn [negb]; [|eauto]. pose proof ST as (SO & SZ & BH). specialize (BH BU). destruct (cell_lt (heap t) 0 BH) as (n & C).
    unfold head. rewrite (at_ok _ _ _ C). cbn [bind].
    destruct (query_goes fuel (heap t) (fixed_start t s e) (fixed_end t s e) 0 (no_value tr) sc SO BH) as (h' & r & sc' & E & S' & Z'); [lia|]. rewrite E.
    destruct r as [x|]; eexists _, _, _; (split; [reflexivity|]); (split; [exact S'|]); cbn [heap]; rewrite Z'; split; trivial; intros _; trivial.
  - destruct (built_heap t) eqn:BU; cbn [negb]; [|eauto]. pose proof ST as (SO & SZ & BH). specialize (BH BU). destruct (cell_lt (heap t) 0 BH) as (n & C).
    unfold head. rewrite (at_ok _ _ _ C). cbn [bind].
    destruct (update_goes fuel (heap t) (fixed_start t s e) (fixed_end t s e) 0 u (no_value tr) sc SO BH) as (h' & r & sc' & E & S' & Z'); [lia|]. rewrite E.
    destruct r as [x|]; eexists _, _, _; (split; [reflexivity|]); (split; [exact S'|]); cbn [heap]; rewrite Z'; split; trivial; intros _; trivial.
  - destruct (build_goes fuel t v k sc F ST) as (t' & r & sc' & E & S'). rewrite E. cbn [bind]. eauto.
Qed.
Lemma run_goes : forall ops fuel t sc, Forall (throw_fair required fuel) ops -> safe_tree fuel t -> exists t' l, t_run tr required fuel t ops sc = Val (t', l) /\ safe_tree fuel t'.
Proof.
  induction ops as [|o ops IH]; intros fuel t sc F S; cbn [t_run]; [eauto|]. apply Forall_cons_iff in F. destruct F as (Fo & Fr).
  destruct (step_goes fuel t o sc Fo S) as (t1 & r & sc1 & E & S1). rewrite E. cbn [bind]. destruct (IH fuel t1 sc1 Fr S1) as (t2 & l & E2 & S2). rewrite E2. cbn [bind]. eauto.
Qed.
Lemma histories_go : forall ops fuel sc, Forall (throw_fair required fuel) ops -> exists t l, t_run tr required fuel empty_tree ops sc = Val (t, l).
Proof.
  intros ops fuel sc F. destruct (run_goes ops fuel empty_tree sc F) as (t & l & E & _); [|eauto]. split; [|split; [|discriminate]].
  - intros q n C. unfold cell in C. cbn in C. destruct (N.to_nat q); discriminate.
  - cbn. apply N.neq_0_lt_0. apply N.pow_nonzero. discriminate.
Qed.
End Proofs.
