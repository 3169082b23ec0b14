(** Proofs for FenwickThrowProps.v *)
Require Import List Arith NArith ZArith Lia Bool.
Require Import Verif.Base Verif.FenwickModel Verif.FenwickSpec Verif.FenwickProofs Verif.FenwickThrowModel Verif.FenwickThrowSpec.
Import ListNotations.
Local Open Scope N_scope.

Section Throw.
Context {T : Type} (tr : transform T).

(** ** Calls that return *)
Lemma update_returns : forall fuel cells p v sc c u sc', t_update_cells tr fuel cells p v sc = Val (c, Returns u, sc') ->
  update_cells tr fuel cells p v = Val c.
Proof.
  induction fuel as [|fuel IH]; intros cells p v sc c u sc' E; cbn [t_update_cells update_cells] in *.
  - destruct (_ && _); [discriminate|]. now injection E as <- _ _.
  - destruct (_ && _); [|now injection E as <- _ _]. destruct (cell cells p); [|discriminate]. destruct (here sc); [discriminate|]. eapply IH; eauto.
Qed.
Lemma loop_returns : forall fuel cells i v sc r sc', t_query_loop tr fuel cells i v sc = Val (Returns r, sc') -> query_loop tr fuel cells i v = Val r.
Proof.
  induction fuel as [|fuel IH]; intros cells i v sc r sc' E; cbn [t_query_loop query_loop] in *.
  - destruct (_ =? _); [now injection E as <- _|discriminate].
  - destruct (_ =? _); [now injection E as <- _|]. destruct (cell cells _); [|discriminate]. destruct (here sc); [discriminate|]. eapply IH; eauto.
Qed.
Lemma prefix_returns : forall cells p sc r sc', t_prefix_query tr cells p sc = Val (Returns r, sc') -> prefix_query tr cells p = Val r.
Proof.
  intros cells p sc r sc' E. unfold t_prefix_query, prefix_query in *. destruct (cell cells p); [|discriminate]. destruct (here sc); [discriminate|].
  eapply loop_returns; eauto.
Qed.
Lemma range_returns : forall cells a b sc r sc', t_range_query tr cells a b sc = Val (Returns r, sc') -> range_query tr cells a b = Val r.
Proof.
  intros cells a b sc r sc' E. unfold t_range_query, range_query in *.
  assert (S : forall d s, (d = f_zero tr /\ s = sc /\ (a <=? 1) = true) \/ ((a <=? 1) = false /\ t_prefix_query tr cells (a - 1) sc = Val (Returns d, s)) ->
    (if a <=? 1 then Val (f_zero tr) else prefix_query tr cells (a - 1)) = Val d).
  { intros d s [(-> & _ & ->)|(-> & P)]; [reflexivity|]. eapply prefix_returns; eauto. }
  destruct (if a <=? 1 then Val (Returns (f_zero tr), sc) else t_prefix_query tr cells (a - 1) sc) as [[[d|] s]| | |] eqn:E1; cbn [bind] in E; try discriminate.
  rewrite (S d s).
  2:{ destruct (a <=? 1); [injection E1 as <- <-; auto|auto]. }
  cbn [bind]. destruct (t_prefix_query tr cells b s) as [[[v|] s2]| | |] eqn:E2; cbn [bind] in E; try discriminate.
  rewrite (prefix_returns _ _ _ _ _ E2). cbn [bind]. destruct (f_truthy tr d).
  - destruct (here s2); [discriminate|]. destruct (f_discard tr v d); [|discriminate]. now injection E as <- _.
  - now injection E as <- _.
Qed.
Lemma build_loop_returns : forall inp cells ii sc c u sc', t_build_loop tr hops cells ii inp sc = Val (c, Returns u, sc') -> build_loop tr hops cells ii inp = Val c.
Proof.
  induction inp as [|v inp IH]; intros cells ii sc c u sc' E; cbn [t_build_loop build_loop] in *; [now injection E as <- _ _|].
  destruct (t_update_cells tr hops cells ii v sc) as [[[c1 [u1|]] s1]| | |] eqn:E1; cbn [bind] in E; try discriminate.
  rewrite (update_returns _ _ _ _ _ _ _ _ E1). cbn [bind]. eapply IH; eauto.
Qed.
Lemma build_returns : forall t input n sc t' u sc', t_build tr t input n sc = Val (t', Returns u, sc') -> build tr t input n = Val t'.
Proof.
  intros t input n sc t' u sc' E. unfold t_build, build in *. set (size := if n <? sizeN input then n + 1 else sizeN input + 1) in *. clearbody size.
  set (inp := firstn (N.to_nat (size - 1)) input) in *. clearbody inp.
  assert (K : forall cells s, (let* (c, f, sc) := t_build_loop tr hops cells 1 inp s in match f with Throws => Val (mkF c (built t), Throws, sc) | Returns _ => Val (mkF c true, Returns tt, sc) end) = Val (t', Returns u, sc') ->
    (let* c := build_loop tr hops cells 1 inp in Val (mkF c true)) = Val t').
  { intros cells s K. destruct (t_build_loop tr hops cells 1 inp s) as [[[c1 [u1|]] s1]| | |] eqn:E1; cbn [bind] in K; try discriminate.
    rewrite (build_loop_returns _ _ _ _ _ _ _ E1). cbn [bind]. now injection K as -> _ _. }
  destruct (fsize t <? size).
  - destruct (here sc); [discriminate|]. eapply K; eauto.
  - destruct (built t); [destruct (here sc); [discriminate|]|]; eapply K; eauto.
Qed.
Lemma step_returns : forall t o sc t' r sc', t_step tr t o sc = Val (t', Returns r, sc') -> fstep tr t o = Val (t', r).
Proof.
  intros t o sc t' r sc' E. destruct o as [input n|p v|p v|s e|p|m| | |]; cbn [t_step fstep] in *.
  - destruct (t_build tr t input n sc) as [[[t1 [u|]] s1]| | |] eqn:E1; cbn [bind] in E; try discriminate. rewrite (build_returns _ _ _ _ _ _ _ E1). cbn [bind].
    now injection E as <- <- _.
  - unfold update. destruct (negb (built t)); [now injection E as <- <- _|]. unfold t_update in E.
    destruct ((p <? fsize t) && f_truthy tr v); cbn [bind] in E; [|now injection E as <- <- _].
    destruct (t_update_cells tr hops (processed t) p v sc) as [[[c1 [u|]] s1]| | |] eqn:E1; cbn [bind] in E; try discriminate.
    rewrite (update_returns _ _ _ _ _ _ _ _ E1). cbn [bind]. now injection E as <- <- _.
  - unfold set_value. destruct (negb (built t)); [now injection E as <- <- _|]. unfold t_set_value in E.
    destruct ((p <? fsize t) && negb (p =? 0)); cbn [bind] in E; [|now injection E as <- <- _].
    destruct (t_range_query tr (processed t) p p sc) as [[[w|] s1]| | |] eqn:E1; cbn [bind] in E; try discriminate.
    rewrite (range_returns _ _ _ _ _ _ E1). cbn [bind]. destruct (here s1); [discriminate|]. destruct (f_discard tr v w) as [d|]; [|discriminate].
    destruct (f_truthy tr d); cbn [bind] in E; [|now injection E as <- <- _].
    destruct (t_update_cells tr hops (processed t) p d (later s1)) as [[[c1 [u|]] s2]| | |] eqn:E2; cbn [bind] in E; try discriminate.
    rewrite (update_returns _ _ _ _ _ _ _ _ E2). cbn [bind]. now injection E as <- <- _.
  - unfold query, t_query in *. destruct (negb (built t)); [now injection E as <- <- _|].
    destruct (t_range_query tr (processed t) (N.min (N.min s e) (wsub (fsize t) 1)) (N.min (N.max s e) (wsub (fsize t) 1)) sc) as [[[w|] s1]| | |] eqn:E1; cbn [bind] in E; try discriminate.
    rewrite (range_returns _ _ _ _ _ _ E1). now injection E as <- <- _.
  - unfold at_. injection E as <- <- _. destruct (cell (processed t) p); reflexivity.
  - now injection E as <- <- _.
  - now injection E as <- <- _.
  - now injection E as <- <- _.
  - now injection E as <- <- _.
Qed.

(** ** Nothing throws at the end of the script *)
Lemma update_quiet : forall fuel cells p v c, update_cells tr fuel cells p v = Val c -> t_update_cells tr fuel cells p v [] = Val (c, Returns tt, []).
Proof.
  induction fuel as [|fuel IH]; intros cells p v c E; cbn [t_update_cells update_cells] in *; (destruct (_ && _); [|now injection E as <-]); [discriminate|].
  destruct (cell cells p); [|discriminate]. cbn [here later]. auto.
Qed.
Lemma loop_quiet : forall fuel cells i v r, query_loop tr fuel cells i v = Val r -> t_query_loop tr fuel cells i v [] = Val (Returns r, []).
Proof.
  induction fuel as [|fuel IH]; intros cells i v r E; cbn [t_query_loop query_loop] in *; (destruct (_ =? _); [now injection E as <-|]); [discriminate|].
  destruct (cell cells _); [|discriminate]. cbn [here later]. auto.
Qed.
Lemma prefix_quiet : forall cells p r, prefix_query tr cells p = Val r -> t_prefix_query tr cells p [] = Val (Returns r, []).
Proof. intros cells p r E. unfold t_prefix_query, prefix_query in *. destruct (cell cells p); [|discriminate]. cbn [here later]. now apply loop_quiet. Qed.
Lemma loop_exn : forall fuel cells i v e, query_loop tr fuel cells i v <> Exn e.
Proof.
  induction fuel as [|fuel IH]; intros cells i v e; cbn [query_loop]; (destruct (_ =? _); [discriminate|]); [discriminate|]. destruct (cell cells _); [|discriminate]. auto.
Qed.
Lemma prefix_exn : forall cells p e, prefix_query tr cells p <> Exn e.
Proof. intros. unfold prefix_query. destruct (cell _ _); [apply loop_exn|discriminate]. Qed.
Lemma update_exn : forall fuel cells p v e, update_cells tr fuel cells p v <> Exn e.
Proof.
  induction fuel as [|fuel IH]; intros cells p v e; cbn [update_cells]; (destruct (_ && _); [|discriminate]); [discriminate|]. destruct (cell cells _); [|discriminate]. auto.
Qed.
Lemma range_exn : forall cells a b e, range_query tr cells a b <> Exn e.
Proof.
  intros cells a b e. unfold range_query. destruct (a <=? 1).
  - cbn [bind]. destruct (prefix_query tr cells b) eqn:E; cbn [bind]; try discriminate; [|now apply prefix_exn in E]. destruct (f_truthy tr _); [|discriminate]. destruct (f_discard tr _ _); discriminate.
  - destruct (prefix_query tr cells (a - 1)) eqn:E1; cbn [bind]; try discriminate; [|now apply prefix_exn in E1].
    destruct (prefix_query tr cells b) eqn:E; cbn [bind]; try discriminate; [|now apply prefix_exn in E]. destruct (f_truthy tr _); [|discriminate]. destruct (f_discard tr _ _); discriminate.
Qed.
Lemma range_quiet : forall cells a b r, range_query tr cells a b = Val r -> t_range_query tr cells a b [] = Val (Returns r, []).
Proof.
  intros cells a b r E. unfold t_range_query, range_query in *.
  assert (K : forall d, (let* value := prefix_query tr cells b in if f_truthy tr d then match f_discard tr value d with Some r => Val r | None => UB end else Val value) = Val r ->
    (let* (value, sc) := t_prefix_query tr cells b [] in match value with Throws => Val (Throws, sc) | Returns value => if f_truthy tr d then match here sc with Some _ => Val (Throws, later sc) | None => match f_discard tr value d with Some r => Val (Returns r, later sc) | None => UB end end else Val (Returns value, sc) end) = Val (Returns r, [])).
  { intros d K. destruct (prefix_query tr cells b) as [v| | |] eqn:E2; cbn [bind] in K; try discriminate. rewrite (prefix_quiet _ _ _ E2). cbn [bind].
    destruct (f_truthy tr d); [|now injection K as ->]. cbn [here later]. destruct (f_discard tr v d); [now injection K as ->|discriminate]. }
  destruct (a <=? 1); cbn [bind] in *; [now apply K|].
  destruct (prefix_query tr cells (a - 1)) as [d| | |] eqn:E1; cbn [bind] in E; try discriminate. rewrite (prefix_quiet _ _ _ E1). cbn [bind]. now apply K.
Qed.
Lemma build_loop_quiet : forall inp cells ii c, build_loop tr hops cells ii inp = Val c -> t_build_loop tr hops cells ii inp [] = Val (c, Returns tt, []).
Proof.
  induction inp as [|v inp IH]; intros cells ii c E; cbn [t_build_loop build_loop] in *; [now injection E as <-|].
  destruct (update_cells tr hops cells ii v) as [c1| | |] eqn:E1; cbn [bind] in E; try discriminate. rewrite (update_quiet _ _ _ _ _ E1). cbn [bind]. auto.
Qed.
Lemma build_quiet : forall t input n t', build tr t input n = Val t' -> t_build tr t input n [] = Val (t', Returns tt, []).
Proof.
  intros t input n t' E. unfold t_build, build in *. set (size := if n <? sizeN input then n + 1 else sizeN input + 1) in *. clearbody size.
  set (inp := firstn (N.to_nat (size - 1)) input) in *. clearbody inp. cbn [here later].
  assert (K : forall cells, (let* c := build_loop tr hops cells 1 inp in Val (mkF c true)) = Val t' ->
    (let* (c, f, sc) := t_build_loop tr hops cells 1 inp [] in match f with Throws => Val (mkF c (built t), Throws, sc) | Returns _ => Val (mkF c true, Returns tt, sc) end) = Val (t', Returns tt, [])).
  { intros cells K. destruct (build_loop tr hops cells 1 inp) as [c| | |] eqn:E1; cbn [bind] in K; try discriminate. rewrite (build_loop_quiet _ _ _ _ E1). cbn [bind]. now injection K as <-. }
  destruct (fsize t <? size); [now apply K|]. destruct (built t); now apply K.
Qed.
Lemma step_quiet : forall t o t' r, fstep tr t o = Val (t', r) -> t_step tr t o [] = Val (t', Returns r, []).
Proof.
  intros t o t' r E. destruct o as [input n|p v|p v|s e|p|m| | |]; cbn [t_step fstep] in *.
  - destruct (build tr t input n) as [t1| | |] eqn:E1; cbn [bind] in E; try discriminate. rewrite (build_quiet _ _ _ _ E1). cbn [bind]. now injection E as <- <-.
  - unfold update, t_update in *. destruct (negb (built t)); [now injection E as <- <-|]. destruct ((p <? fsize t) && f_truthy tr v); cbn [bind]; [|now injection E as <- <-].
    destruct (update_cells tr hops (processed t) p v) as [c1| | |] eqn:E1; cbn [bind] in E; try discriminate; [|now apply update_exn in E1].
    rewrite (update_quiet _ _ _ _ _ E1). cbn [bind]. now injection E as <- <-.
  - unfold set_value, t_set_value in *. destruct (negb (built t)); [now injection E as <- <-|]. destruct ((p <? fsize t) && negb (p =? 0)); cbn [bind]; [|now injection E as <- <-].
    destruct (range_query tr (processed t) p p) as [w| | |] eqn:E1; cbn [bind] in E; try discriminate; [|now apply range_exn in E1].
    rewrite (range_quiet _ _ _ _ E1). cbn [bind here later]. destruct (f_discard tr v w) as [d|]; [|discriminate]. destruct (f_truthy tr d); cbn [bind]; [|now injection E as <- <-].
    destruct (update_cells tr hops (processed t) p d) as [c1| | |] eqn:E2; cbn [bind] in E; try discriminate; [|now apply update_exn in E2].
    rewrite (update_quiet _ _ _ _ _ E2). cbn [bind]. now injection E as <- <-.
  - unfold query, t_query in *. destruct (negb (built t)); [now injection E as <- <-|].
    match goal with |- context [t_range_query tr ?x ?y ?z []] => destruct (range_query tr x y z) as [w| | |] eqn:E1 end; try discriminate; [|now apply range_exn in E1].
    rewrite (range_quiet _ _ _ _ E1). cbn [bind]. now injection E as <- <-.
  - unfold at_ in E. destruct (cell (processed t) p); now injection E as <- <-.
  - now injection E as <- <-.
  - now injection E as <- <-.
  - now injection E as <- <-.
  - now injection E as <- <-.
Qed.
Lemma run_quiet : forall ops t t' rs, frun tr t ops = Val (t', rs) -> t_run tr t ops [] = Val (t', map Returns rs).
Proof.
  induction ops as [|o ops IH]; intros t t' rs E; cbn [frun t_run] in *; [now injection E as <- <-|].
  destruct (fstep tr t o) as [[t1 r]| | |] eqn:E1; cbn [bind] in E; try discriminate. rewrite (step_quiet _ _ _ _ E1). cbn [bind].
  destruct (frun tr t1 ops) as [[t2 rs2]| | |] eqn:E2; cbn [bind] in E; try discriminate. rewrite (IH _ _ _ E2). cbn [bind]. now injection E as <- <-.
Qed.

(** ** Exceptions at the first point *)
Lemma update_first : forall fuel cells p v k sc c sc', t_update_cells tr fuel cells p v (Some k :: sc) = Val (c, Throws, sc') -> c = cells.
Proof.
  intros [|fuel] cells p v k sc c sc' E; cbn [t_update_cells] in E; (destruct (_ && _); [|discriminate]); [discriminate|]. destruct (cell cells p); [|discriminate].
  now injection E as <- _.
Qed.
Lemma prefix_first : forall cells p k sc f sc', t_prefix_query tr cells p (Some k :: sc) = Val (f, sc') -> f = Throws.
Proof. intros cells p k sc f sc' E. unfold t_prefix_query in E. destruct (cell cells p); [|discriminate]. now injection E as <- _. Qed.
Lemma range_first : forall cells a b k sc f sc', t_range_query tr cells a b (Some k :: sc) = Val (f, sc') -> f = Throws.
Proof.
  intros cells a b k sc f sc' E. unfold t_range_query in E. destruct (a <=? 1); cbn [bind] in E.
  - destruct (t_prefix_query tr cells b (Some k :: sc)) as [[v s]| | |] eqn:E1; cbn [bind] in E; try discriminate. apply prefix_first in E1. subst v. now injection E as <- _.
  - destruct (t_prefix_query tr cells (a - 1) (Some k :: sc)) as [[v s]| | |] eqn:E1; cbn [bind] in E; try discriminate. apply prefix_first in E1. subst v. now injection E as <- _.
Qed.
Lemma step_first : forall t o k sc t' sc', t_step tr t o (Some k :: sc) = Val (t', Throws, sc') -> (forall i n, o <> ORebuild i n) -> t' = t.
Proof.
  intros t o k sc t' sc' E NB. destruct o as [input n|p v|p v|s e|p|m| | |]; cbn [t_step] in E; try discriminate.
  - now destruct (NB input n).
  - destruct (negb (built t)); [discriminate|]. unfold t_update in E. destruct ((p <? fsize t) && f_truthy tr v); cbn [bind] in E; [|discriminate].
    destruct (t_update_cells tr hops (processed t) p v (Some k :: sc)) as [[[c f] s1]| | |] eqn:E1; cbn [bind] in E; try discriminate.
    destruct f; cbn [bind] in E; [discriminate|]. apply update_first in E1. subst c. injection E as <- _. now destruct t.
  - destruct (negb (built t)); [discriminate|]. unfold t_set_value in E. destruct ((p <? fsize t) && negb (p =? 0)); cbn [bind] in E; [|discriminate].
    destruct (t_range_query tr (processed t) p p (Some k :: sc)) as [[f s1]| | |] eqn:E1; cbn [bind] in E; try discriminate. apply range_first in E1. subst f. now injection E as <- _.
  - destruct (negb (built t)); [discriminate|]. destruct (t_query tr t s e (Some k :: sc)) as [[f s1]| | |]; cbn [bind] in E; try discriminate. now injection E as <- _ _.
Qed.
Lemma query_keeps : forall t s e sc t' f sc', t_step tr t (OQuery s e) sc = Val (t', f, sc') -> t' = t.
Proof.
  intros t s e sc t' f sc' E. cbn [t_step] in E. destruct (negb (built t)); [now injection E as <- _ _|]. destruct (t_query tr t s e sc) as [[g s1]| | |]; cbn [bind] in E; try discriminate.
  now injection E as <- _ _.
Qed.

(** ** is_built *)
Lemma step_built : forall t o sc t' f sc', t_step tr t o sc = Val (t', f, sc') -> built t' = true ->
  built t = true \/ exists i n, o = ORebuild i n /\ f = Returns RUnit.
Proof.
  intros t o sc t' f sc' E B. destruct o as [input n|p v|p v|s e|p|m| | |]; cbn [t_step] in E.
  - destruct (t_build tr t input n sc) as [[[t1 g] s1]| | |] eqn:E1; cbn [bind] in E; try discriminate. injection E as -> <- _. destruct g as [u|]; [right; now exists input, n|]. left.
    unfold t_build in E1. set (size := if n <? sizeN input then n + 1 else sizeN input + 1) in *. clearbody size.
    set (inp := firstn (N.to_nat (size - 1)) input) in *. clearbody inp.
    assert (K : forall cells s, (let* (c, f, sc) := t_build_loop tr hops cells 1 inp s in match f with Throws => Val (mkF c (built t), Throws, sc) | Returns _ => Val (mkF c true, Returns tt, sc) end) = Val (t', Throws, s1) -> built t' = built t).
    { intros cells s K. destruct (t_build_loop tr hops cells 1 inp s) as [[[c1 [u1|]] s2]| | |]; cbn [bind] in K; try discriminate. now injection K as <- _. }
    rewrite <- B. symmetry. destruct (fsize t <? size).
    + destruct (here sc); [now injection E1 as <- _|]. eapply K; eauto.
    + destruct (built t) eqn:BT; [destruct (here sc); [now injection E1 as <- _|]|]; eapply K; eauto.
  - destruct (negb (built t)); [injection E as <- _ _; auto|]. unfold t_update in E. destruct ((p <? fsize t) && f_truthy tr v); cbn [bind] in E; [|injection E as <- _ _; auto].
    destruct (t_update_cells tr hops (processed t) p v sc) as [[[c [u|]] s1]| | |]; cbn [bind] in E; try discriminate; injection E as <- _ _; auto.
  - destruct (negb (built t)); [injection E as <- _ _; auto|]. unfold t_set_value in E. destruct ((p <? fsize t) && negb (p =? 0)); cbn [bind] in E; [|injection E as <- _ _; auto].
    destruct (t_range_query tr (processed t) p p sc) as [[[w|] s1]| | |]; cbn [bind] in E; try discriminate; [|injection E as <- _ _; auto].
    destruct (here s1); cbn [bind] in E; [injection E as <- _ _; auto|]. destruct (f_discard tr v w) as [d|]; [|discriminate]. destruct (f_truthy tr d); cbn [bind] in E; [|injection E as <- _ _; auto].
    destruct (t_update_cells tr hops (processed t) p d (later s1)) as [[[c [u|]] s2]| | |]; cbn [bind] in E; try discriminate; injection E as <- _ _; auto.
  - destruct (negb (built t)); [injection E as <- _ _; auto|]. destruct (t_query tr t s e sc) as [[g s1]| | |]; cbn [bind] in E; try discriminate. injection E as <- _ _; auto.
  - injection E as <- _ _; auto.
  - injection E as <- _ _. left. unfold resize in B. destruct (m <? fsize t); exact B.
  - injection E as <- _ _; auto.
  - injection E as <- _ _; auto.
  - injection E as <- _ _. discriminate B.
Qed.

Lemma throw_keeps : forall t o sc t' sc', t_step tr t o sc = Val (t', Throws, sc') -> built t' = built t /\ (fsize t' = fsize t \/ exists i n, o = ORebuild i n).
Proof.
  assert (UL : forall fuel cells p v sc c f sc', t_update_cells tr fuel cells p v sc = Val (c, f, sc') -> length c = length cells).
  { induction fuel as [|fuel IH]; intros cells p v sc c f sc' E; cbn [t_update_cells] in E; (destruct (_ && _); [|now injection E as <- _ _]); [discriminate|].
    destruct (cell cells p); [|discriminate]. destruct (here sc); [now injection E as <- _ _|]. apply IH in E. now rewrite set_nth_length in E. }
  intros t o sc t' sc' E. destruct o as [input n|p v|p v|s e|p|m| | |]; cbn [t_step] in E; try discriminate.
  - destruct (t_build tr t input n sc) as [[[t1 g] s1]| | |] eqn:E1; cbn [bind] in E; try discriminate. destruct g as [u|]; [discriminate|]. injection E as -> _. split; [|right; now exists input, n].
    unfold t_build in E1. set (size := if n <? sizeN input then n + 1 else sizeN input + 1) in *. clearbody size.
    set (inp := firstn (N.to_nat (size - 1)) input) in *. clearbody inp.
    assert (K : forall cells s, (let* (c, f, sc) := t_build_loop tr hops cells 1 inp s in match f with Throws => Val (mkF c (built t), Throws, sc) | Returns _ => Val (mkF c true, Returns tt, sc) end) = Val (t', Throws, s1) -> built t' = built t).
    { intros cells s K. destruct (t_build_loop tr hops cells 1 inp s) as [[[c1 [u1|]] s2]| | |]; cbn [bind] in K; try discriminate. now injection K as <- _. }
    destruct (fsize t <? size).
    + destruct (here sc); [now injection E1 as <- _|]. eapply K; eauto.
    + destruct (built t) eqn:BT; [destruct (here sc); [now injection E1 as <- _|]|]; eapply K; eauto.
  - destruct (negb (built t)); [discriminate|]. unfold t_update in E. destruct ((p <? fsize t) && f_truthy tr v); cbn [bind] in E; [|discriminate].
    destruct (t_update_cells tr hops (processed t) p v sc) as [[[c [u|]] s1]| | |] eqn:EU; cbn [bind] in E; try discriminate. injection E as <- _. apply UL in EU.
    unfold fsize, sizeN. cbn [built processed]. rewrite EU. auto.
  - destruct (negb (built t)); [discriminate|]. unfold t_set_value in E. destruct ((p <? fsize t) && negb (p =? 0)); cbn [bind] in E; [|discriminate].
    destruct (t_range_query tr (processed t) p p sc) as [[[w|] s1]| | |]; cbn [bind] in E; try discriminate; [|injection E as <- _; auto].
    destruct (here s1); cbn [bind] in E; [injection E as <- _; auto|]. destruct (f_discard tr v w) as [d|]; [|discriminate]. destruct (f_truthy tr d); cbn [bind] in E; [|discriminate].
    destruct (t_update_cells tr hops (processed t) p d (later s1)) as [[[c [u|]] s2]| | |] eqn:EU; cbn [bind] in E; try discriminate. injection E as <- _. apply UL in EU.
    unfold fsize, sizeN. cbn [built processed]. rewrite EU. auto.
  - destruct (negb (built t)); [discriminate|]. destruct (t_query tr t s e sc) as [[g s1]| | |]; cbn [bind] in E; try discriminate. injection E as <- _ _; auto.
Qed.

(** ** Building again *)
Lemma rebuild_right : forall t input n sc t' r sc', t_step tr t (ORebuild input n) sc = Val (t', Returns r, sc') ->
  built t = true \/ fsize t <= N.min n (sizeN input) -> fstep tr fenwick_default (ORebuild input n) = Val (t', RUnit).
Proof.
  intros t input n sc t' r sc' E H. apply step_returns in E. cbn [fstep] in *. destruct (build tr t input n) as [t1| | |] eqn:E1; cbn [bind] in E; try discriminate. injection E as -> _.
  replace (build tr fenwick_default input n) with (build tr t input n); [now rewrite E1|]. unfold build.
  set (size := if n <? sizeN input then n + 1 else sizeN input + 1).
  assert (SZ : size = N.min n (sizeN input) + 1) by (unfold size; destruct (N.ltb_spec n (sizeN input)); lia).
  assert (F0 : fsize (@fenwick_default T) = 0) by reflexivity. rewrite F0. destruct (N.ltb_spec 0 size); [|lia].
  destruct (N.ltb_spec (fsize t) size); [reflexivity|]. destruct H as [->|H]; [reflexivity|lia].
Qed.

(** ** An update that throws *)
Lemma keeps_below : forall fuel cells p v c q, p < two64 -> q < p \/ p = 0 -> update_cells tr fuel cells p v = Val c -> cell c q = cell cells q.
Proof.
  induction fuel as [|fuel IH]; intros cells p v c q P Q E; cbn [update_cells] in E.
  - destruct (_ && _); [discriminate|]. now injection E as <-.
  - destruct (N.eqb_spec p 0) as [Z|NZ]; cbn [negb andb] in E; [now injection E as <-|]. destruct (_ <? _); [|now injection E as <-].
    destruct (cell cells p) as [x|] eqn:C; [|discriminate]. destruct Q as [Q|Q]; [|contradiction].
    destruct (next_update_step p 0) as [NU _]; [lia|trivial|exists p; rewrite N.pow_0_r; lia|].
    assert (NB : next_update p < two64) by (destruct NU as [[-> ?]|[-> ?]]; lia).
    apply IH with (q := q) in E; [|exact NB|destruct NU as [[-> _]|[-> _]]; lia]. rewrite E. unfold cell. apply nth_error_set_nth_neq. lia.
Qed.
Lemma update_throws : forall fuel cells p v sc c sc' c1, p < two64 -> t_update_cells tr fuel cells p v sc = Val (c, Throws, sc') -> update_cells tr fuel cells p v = Val c1 ->
  length c = length cells /\ exists b, p <= b /\ b < sizeN cells /\ (forall q, q < b -> cell c q = cell c1 q) /\ forall q, b <= q -> cell c q = cell cells q.
Proof.
  induction fuel as [|fuel IH]; intros cells p v sc c sc' c1 P E E1; cbn [t_update_cells] in E; [destruct (_ && _); discriminate|].
  destruct (N.eqb_spec p 0) as [Z|NZ]; cbn [negb andb] in E; [discriminate|]. destruct (N.ltb_spec p (sizeN cells)) as [L|L]; [|discriminate].
  destruct (cell cells p) as [x|] eqn:C; [|discriminate]. destruct (here sc).
  - injection E as <- _. split; [reflexivity|]. exists p. split; [lia|]. split; [exact L|]. split; [|reflexivity].
    intros q Q. symmetry. eapply keeps_below; eauto.
  - cbn [update_cells] in E1. rewrite C in E1. destruct (N.eqb_spec p 0); [contradiction|]. cbn [negb andb] in E1. destruct (N.ltb_spec p (sizeN cells)); [|lia].
    destruct (next_update_step p 0) as [NU _]; [lia|trivial|exists p; rewrite N.pow_0_r; lia|].
    assert (NB : next_update p < two64) by (destruct NU as [[-> ?]|[-> ?]]; lia).
    destruct NU as [[NU _]|[NU _]].
    2:{ rewrite NU in E. destruct fuel; cbn [t_update_cells N.eqb negb andb] in E; discriminate. }
    destruct (IH _ _ _ _ _ _ _ NB E E1) as (LE & b & B1 & B2 & B3 & B4). split; [rewrite LE; apply set_nth_length|]. exists b.
    assert (p < b) by (rewrite NU in B1; pose proof (lowbit_pos_N p); lia). split; [lia|]. split; [unfold sizeN in *; rewrite set_nth_length in B2; exact B2|]. split; [exact B3|].
    intros q Q. rewrite B4 by exact Q. unfold cell. apply nth_error_set_nth_neq. lia.
Qed.
Lemma loop_agree : forall c1 c2 fuel i v, i < two64 -> (forall q, q <= i -> cell c1 q = cell c2 q) -> query_loop tr fuel c1 i v = query_loop tr fuel c2 i v.
Proof.
  intros c1 c2. induction fuel as [|fuel IH]; intros i v I H; cbn [query_loop].
  - reflexivity.
  - destruct (N.eqb_spec (next_query i) 0) as [Z|Z]; [reflexivity|].
    destruct (N.eq_dec i 0) as [->|NI]; [exfalso; apply Z; reflexivity|].
    destruct (next_query_step i 0) as [NQ _]; [lia|trivial|exists i; rewrite N.pow_0_r; lia|].
    rewrite <- (H (next_query i)) by lia. destruct (cell c1 (next_query i)); [|reflexivity]. apply IH; [lia|]. intros q Q. apply H. lia.
Qed.
Lemma prefix_agree : forall c1 c2 p, p < two64 -> (forall q, q <= p -> cell c1 q = cell c2 q) -> prefix_query tr c1 p = prefix_query tr c2 p.
Proof. intros c1 c2 p P H. unfold prefix_query. rewrite (H p) by lia. destruct (cell c2 p); [|reflexivity]. now apply loop_agree. Qed.
Lemma range_agree : forall c1 c2 a b, a <= b -> b < two64 -> (forall q, q <= b -> cell c1 q = cell c2 q) -> range_query tr c1 a b = range_query tr c2 a b.
Proof.
  intros c1 c2 a b A B H. unfold range_query. rewrite (prefix_agree c1 c2 b B H). destruct (N.leb_spec a 1); [reflexivity|].
  rewrite (prefix_agree c1 c2 (a - 1)); [reflexivity|lia|]. intros q Q. apply H. lia.
Qed.

Context (D : T -> Prop) (L : fenwick_laws tr D).
Lemma sizes : forall n, n + 1 < two64 -> wsub (n + 1) 1 = n.
Proof. intros n H. unfold wsub. replace (n + 1 + two64 - 1) with (n + 1 * two64) by lia. rewrite N.mod_add by (unfold two64; lia). rewrite N.mod_small; lia. Qed.
Lemma boundary : forall l l2 c b, Forall D l2 -> sizeN l2 = sizeN l -> sizeN l + 1 < two64 -> length c = length (rep tr l) -> b <= sizeN l ->
  (forall q, q < b -> cell c q = cell (rep tr l2) q) -> (forall q, b <= q -> cell c q = cell (rep tr l) q) ->
  fsize (mkF c true) = sizeN l + 1 /\ (forall s e, N.max s e < b -> query tr (mkF c true) s e = Val (range_value tr l2 s e)) /\
  (forall q, b <= q -> at_ (mkF c true) q = at_ (mkF (rep tr l) true) q).
Proof.
  intros l l2 c b FC SC SL LE BL B3 B4.
  assert (SZ : fsize (mkF c true) = sizeN l + 1) by (unfold fsize, sizeN; cbn [processed]; rewrite LE, rep_length; lia). split; [exact SZ|]. split.
  - intros s e M. rewrite <- (query_rel tr D L l2 s e FC) by (rewrite SC; exact SL). unfold query. cbn [built negb processed]. rewrite SZ, fsize_rep, SC. rewrite sizes by exact SL.
    apply range_agree; [lia|lia|]. intros q Q. apply B3. lia.
  - intros q Q. unfold at_. cbn [processed]. now rewrite B4 by exact Q.
Qed.
Lemma thrown_update : forall ops l rs o p v l2 r sc, Forall (fop_ok tr D) ops -> srun tr Unbuilt ops = Some (Built l, rs) ->
  o = OUpdate p v \/ o = OSet p v -> fop_ok tr D o -> sstep tr (Built l) o = Some (Built l2, r) -> exists t, frun tr fenwick_default ops = Val (t, rs) /\
  forall t' sc', t_step tr t o sc = Val (t', Throws, sc') ->
  built t' = true /\ fsize t' = sizeN l + 1 /\ exists b, p <= b /\ b <= sizeN l /\
    (forall s e, N.max s e < b -> query tr t' s e = Val (range_value tr l2 s e)) /\
    (forall q, b <= q -> at_ t' q = at_ t q).
Proof.
  intros ops l rs o p v l2 r sc OK R O V NX. pose proof (run_rel tr D L ops _ _ (RelUnbuilt tr D) OK) as H. rewrite R in H. destruct H as (t & E & RL).
  pose proof (step_rel tr D L _ _ _ RL V) as H2. rewrite NX in H2. destruct H2 as (t1 & E1 & RL2).
  inversion RL as [| |l' FL SL X1 X2]; subst l' t. inversion RL2 as [| |l' FL2 SL2 X1 X2]; subst l' t1. clear RL RL2. exists (mkF (rep tr l) true). split; [exact E|].
  assert (SC : sizeN l2 = sizeN l).
  { destruct O as [-> | ->]; cbn [sstep] in NX; match type of NX with context [if ?x then _ else _] => destruct x end; try discriminate; injection NX as <- _; unfold sizeN; rewrite ?change_length; reflexivity. }
  intros t' sc' S.
  assert (K : exists c b, t' = mkF c true /\ length c = length (rep tr l) /\ p <= b /\ b <= sizeN l /\ (forall q, q < b -> cell c q = cell (rep tr l2) q) /\ (forall q, b <= q -> cell c q = cell (rep tr l) q)).
  { assert (RS : sizeN (rep tr l) = sizeN l + 1) by (unfold sizeN; rewrite rep_length; lia).
    assert (KU : forall d c s s1, p < two64 -> t_update_cells tr hops (rep tr l) p d s = Val (c, Throws, s1) -> update_cells tr hops (rep tr l) p d = Val (rep tr l2) -> t' = mkF c true ->
      exists c b, t' = mkF c true /\ length c = length (rep tr l) /\ p <= b /\ b <= sizeN l /\ (forall q, q < b -> cell c q = cell (rep tr l2) q) /\ (forall q, b <= q -> cell c q = cell (rep tr l) q)).
    { intros d c s s1 P64 EC UR ->. destruct (update_throws _ _ _ _ _ _ _ _ P64 EC UR) as (LE & b & B1 & B2 & B3 & B4). exists c, b. rewrite RS in B2. repeat split; auto. lia. }
    destruct O as [-> | ->]; cbn [t_step fstep built negb] in S, E1.
    - unfold t_update in S. unfold update in E1. rewrite fsize_rep in S, E1. cbn [built negb] in E1. destruct (N.ltb_spec p (sizeN l + 1)) as [PL|PL]; [|discriminate].
      destruct (f_truthy tr v) eqn:TV; [|discriminate]. cbn [andb processed built] in S, E1.
      destruct (t_update_cells tr hops (rep tr l) p v sc) as [[[c [u|]] s1]| | |] eqn:EC; cbn [bind] in S; try discriminate. injection S as <- _.
      destruct (update_cells tr hops (rep tr l) p v) as [c1| | |] eqn:EU; cbn [bind] in E1; try discriminate; [|now apply update_exn in EU]. injection E1 as -> _. apply (KU v c sc s1); auto. lia.
    - unfold t_set_value in S. unfold set_value in E1. rewrite fsize_rep in S, E1. cbn [built negb processed] in S, E1. destruct (N.ltb_spec p (sizeN l + 1)) as [PL|PL]; [|discriminate].
      destruct (N.eqb_spec p 0) as [PZ|PZ]; [discriminate|]. cbn [andb negb] in S, E1.
      destruct (range_query tr (rep tr l) p p) as [w| | |] eqn:ER; cbn [bind] in E1; try discriminate; [|now apply range_exn in ER].
      destruct (f_discard tr v w) as [d|] eqn:ED; [|discriminate].
      assert (SAME : t' = mkF (rep tr l) true -> exists c b, t' = mkF c true /\ length c = length (rep tr l) /\ p <= b /\ b <= sizeN l /\ (forall q, q < b -> cell c q = cell (rep tr l2) q) /\ (forall q, b <= q -> cell c q = cell (rep tr l) q)).
      { intros ->. exists (rep tr l), p. repeat split; auto; [lia| |].
        - lia.
        - intros q Q. destruct (f_truthy tr d).
          + destruct (update_cells tr hops (rep tr l) p d) as [c1| | |] eqn:EU; cbn [bind] in E1; try discriminate; [|now apply update_exn in EU]. injection E1 as -> _. symmetry. eapply keeps_below; [|left; exact Q|exact EU]. lia.
          + apply (f_equal (fun o => match o with Val (x, _) => processed x | _ => [] end)) in E1. cbn [processed] in E1. now rewrite E1. }
      destruct (t_range_query tr (rep tr l) p p sc) as [[[w'|] s1]| | |] eqn:EQ; cbn [bind] in S; try discriminate; [|injection S as <- _; now apply SAME].
      rewrite (range_returns _ _ _ _ _ _ EQ) in ER. injection ER as ->. destruct (here s1); cbn [bind] in S; [injection S as <- _; now apply SAME|]. rewrite ED in S.
      destruct (f_truthy tr d); cbn [bind] in S; [|discriminate].
      destruct (t_update_cells tr hops (rep tr l) p d (later s1)) as [[[c [u|]] s2]| | |] eqn:EC; cbn [bind] in S; try discriminate. injection S as <- _.
      destruct (update_cells tr hops (rep tr l) p d) as [c1| | |] eqn:EU; cbn [bind] in E1; try discriminate; [|now apply update_exn in EU]. injection E1 as -> _. apply (KU d c (later s1) s2); auto. lia. }
  destruct K as (c & b & -> & LE & B1 & B2 & B3 & B4). split; [reflexivity|]. destruct (boundary l l2 c b FL2 SC SL LE B2 B3 B4) as (SZ & K1 & K2). split; [exact SZ|]. exists b. auto.
Qed.
End Throw.

(** ** No undefined behaviour *)
Section Safe.
Context {T : Type} (tr : transform T) (total_discard : forall a b, exists c, f_discard tr a b = Some c).
Lemma loop_shape : forall fuel (cells : list T) i v (w : Z), (exists r, query_loop sumZ fuel (map (fun _ => 0%Z) cells) i w = Val r) -> exists r, query_loop tr fuel cells i v = Val r.
Proof.
  induction fuel as [|fuel IH]; intros cells i v w (r & E); cbn [query_loop] in *; (destruct (_ =? _); [now exists v|]); [discriminate|].
  unfold cell in *. rewrite nth_error_map in E. destruct (nth_error cells _); [|discriminate]. cbn [option_map] in E. eapply IH. eexists. exact E.
Qed.
Lemma zeros : forall cells : list T, (0 < length cells)%nat -> map (fun _ => 0%Z) cells = rep sumZ (repeat 0%Z (pred (length cells))).
Proof.
  intros cells H. rewrite (rep_repeat_null sumZ (fun _ => True) sumZ_laws). replace (S (pred (length cells))) with (length cells) by lia. clear H.
  induction cells as [|x cells IH]; [reflexivity|]. cbn [map length repeat]. now rewrite IH.
Qed.
Lemma prefix_val : forall (cells : list T) p, sizeN cells < two64 -> p < sizeN cells -> exists r, prefix_query tr cells p = Val r.
Proof.
  intros cells p S P. unfold prefix_query. destruct (cell cells p) as [c|] eqn:C.
  2:{ unfold cell in C. apply nth_error_None in C. unfold sizeN in P. lia. }
  apply loop_shape with (w := match cell (map (fun _ => 0%Z) cells) p with Some z => z | None => 0%Z end). rewrite zeros by (unfold sizeN in P; lia).
  set (l := repeat 0%Z (pred (length cells))).
  assert (SL : sizeN l + 1 = sizeN cells) by (unfold l, sizeN in *; rewrite repeat_length; lia).
  pose proof (prefix_query_rep sumZ (fun _ => True) sumZ_laws l p ltac:(apply Forall_forall; trivial) ltac:(lia) ltac:(lia)) as Q. unfold prefix_query in Q.
  rewrite cell_rep in * by lia. eexists. exact Q.
Qed.
Lemma loop_ends : forall fuel cells i v sc, (exists r, query_loop tr fuel cells i v = Val r) -> exists f sc', t_query_loop tr fuel cells i v sc = Val (f, sc').
Proof.
  induction fuel as [|fuel IH]; intros cells i v sc (r & E); cbn [query_loop t_query_loop] in *; (destruct (_ =? _); [do 2 eexists; reflexivity|]); [discriminate|].
  destruct (cell cells _); [|discriminate]. destruct (here sc); [do 2 eexists; reflexivity|]. apply IH. eexists. exact E.
Qed.
Lemma prefix_ends : forall cells p sc, sizeN cells < two64 -> p < sizeN cells -> exists f sc', t_prefix_query tr cells p sc = Val (f, sc').
Proof.
  intros cells p sc S P. destruct (prefix_val cells p S P) as (r & E). unfold prefix_query, t_prefix_query in *. destruct (cell cells p); [|discriminate].
  destruct (here sc); [do 2 eexists; reflexivity|]. apply loop_ends. eexists. exact E.
Qed.
Lemma range_ends : forall cells a b sc, sizeN cells < two64 -> a <= b -> b < sizeN cells -> exists f sc', t_range_query tr cells a b sc = Val (f, sc').
Proof.
  intros cells a b sc S A B. unfold t_range_query.
  assert (K : forall d s, exists f sc', (let* (value, sc) := t_prefix_query tr cells b s in match value with Throws => Val (Throws, sc) | Returns value => if f_truthy tr d then match here sc with Some _ => Val (Throws, later sc) | None => match f_discard tr value d with Some r => Val (Returns r, later sc) | None => UB end end else Val (Returns value, sc) end) = Val (f, sc')).
  { intros d s. destruct (prefix_ends cells b s S B) as (f & s1 & ->). cbn [bind]. destruct f as [v|]; [|do 2 eexists; reflexivity].
    destruct (f_truthy tr d); [|do 2 eexists; reflexivity]. destruct (here s1); [do 2 eexists; reflexivity|]. destruct (total_discard v d) as (x & ->). do 2 eexists; reflexivity. }
  destruct (N.leb_spec a 1); cbn [bind]; [apply K|]. destruct (prefix_ends cells (a - 1) sc S ltac:(lia)) as (f & s1 & ->). cbn [bind]. destruct f; [apply K|do 2 eexists; reflexivity].
Qed.
Lemma update_ends : forall fuel cells p v sc, (exists c, update_cells tr fuel cells p v = Val c) -> exists c f sc', t_update_cells tr fuel cells p v sc = Val (c, f, sc') /\ length c = length cells.
Proof.
  induction fuel as [|fuel IH]; intros cells p v sc (r & E); cbn [update_cells t_update_cells] in *; (destruct (_ && _); [|do 3 eexists; split; reflexivity]); [discriminate|].
  destruct (cell cells _); [|discriminate]. destruct (here sc); [do 3 eexists; split; reflexivity|].
  edestruct IH as (c & f & s & R & LE); [eexists; exact E|]. exists c, f, s. split; [exact R|]. now rewrite LE, set_nth_length.
Qed.
Lemma update_ends' : forall cells p v sc, sizeN cells < two64 -> p < two64 -> exists c f sc', t_update_cells tr hops cells p v sc = Val (c, f, sc') /\ length c = length cells.
Proof.
  intros cells p v sc S P. apply update_ends. destruct (update_cells_hits tr hops cells p v) as (c & R & _); trivial; [|now exists c].
  exists p. change (2 ^ N.of_nat (64 - hops)) with 1. lia.
Qed.
Lemma build_loop_ends : forall inp cells ii sc, sizeN cells < two64 -> ii + sizeN inp < two64 -> exists c f sc', t_build_loop tr hops cells ii inp sc = Val (c, f, sc') /\ length c = length cells.
Proof.
  induction inp as [|v inp IH]; intros cells ii sc S I; cbn [t_build_loop]; [do 3 eexists; split; reflexivity|].
  assert (SZ : sizeN (v :: inp) = 1 + sizeN inp) by (unfold sizeN; cbn [length]; lia). rewrite SZ in I.
  destruct (update_ends' cells ii v sc S ltac:(lia)) as (c & f & s & -> & LE). cbn [bind]. destruct f; [|do 3 eexists; split; [reflexivity|exact LE]].
  destruct (IH c (ii + 1) s) as (c' & f' & s' & R & LE'); [unfold sizeN in *; now rewrite LE|lia|]. exists c', f', s'. split; [exact R|congruence].
Qed.
Definition sound (t : fenwick T) : Prop := sizeN (processed t) < two64 /\ (built t = true -> 0 < sizeN (processed t)).
Lemma step_ends : forall t o sc, sound t -> call_fits o -> exists t' f sc', t_step tr t o sc = Val (t', f, sc') /\ sound t'.
Proof.
  intros t o sc (S & NE) OK. destruct o as [input n|p v|p v|s e|p|m| | |]; cbn [t_step call_fits] in *.
  - unfold t_build. set (size := if n <? sizeN input then n + 1 else sizeN input + 1).
    assert (SZ : 0 < size /\ size <= sizeN input + 1) by (unfold size; destruct (N.ltb_spec n (sizeN input)); lia). clearbody size.
    set (inp := firstn (N.to_nat (size - 1)) input). assert (SI : 1 + sizeN inp < two64) by (unfold inp, sizeN in *; rewrite firstn_length; lia). clearbody inp.
    assert (K : forall cells s, sizeN cells < two64 -> 0 < sizeN cells -> exists t' f sc', (let* (t', f, sc) := (let* (c, f, sc) := t_build_loop tr hops cells 1 inp s in match f with Throws => Val (mkF c (built t), Throws, sc) | Returns _ => Val (mkF c true, Returns tt, sc) end) in
       Val (t', match f with Returns _ => Returns (@RUnit T) | Throws => Throws end, sc)) = Val (t', f, sc') /\ sound t').
    { intros cells s C1 C2. destruct (build_loop_ends inp cells 1 s C1 SI) as (c & f & s1 & -> & LE). cbn [bind].
      destruct f; cbn [bind]; do 3 eexists; (split; [reflexivity|]); unfold sound, sizeN in *; cbn [processed built]; rewrite LE; auto. }
    assert (RS : sizeN (repeat (f_null tr) (N.to_nat size)) = size) by (unfold sizeN; rewrite repeat_length; lia).
    assert (OV : forall k cells, length (overwritten tr k cells) = length cells) by (intros k cells; unfold overwritten; rewrite app_length, repeat_length, skipn_length; lia).
    destruct (N.ltb_spec (fsize t) size) as [Q|Q].
    + destruct (here sc) as [k|]; [|apply K; rewrite RS; lia]. cbn [bind]. do 3 eexists. split; [reflexivity|]. unfold sound, sizeN in *. cbn [processed built]. rewrite OV. auto.
    + destruct (built t) eqn:BT.
      * destruct (here sc) as [k|]; [|apply K; rewrite RS; lia]. cbn [bind]. do 3 eexists. split; [reflexivity|]. unfold sound, sizeN, fsize in *. cbn [processed built]. rewrite OV, firstn_length.
        split; [|intros _]; lia.
      * apply K; [exact S|]. unfold fsize in Q. lia.
  - destruct (built t) eqn:BT; cbn [negb]; [|do 3 eexists; split; [reflexivity|split; [exact S|congruence]]]. unfold t_update, fsize.
    destruct (N.ltb_spec p (sizeN (processed t))) as [Q|Q]; cbn [andb]; [|do 3 eexists; split; [reflexivity|split; auto]]. destruct (f_truthy tr v); [|do 3 eexists; split; [reflexivity|split; auto]].
    destruct (update_ends' (processed t) p v sc S ltac:(lia)) as (c & f & s1 & -> & LE). cbn [bind]. destruct f; cbn [bind]; do 3 eexists; (split; [reflexivity|]); unfold sound, sizeN in *; cbn [processed built]; rewrite LE; auto.
  - destruct (built t) eqn:BT; cbn [negb]; [|do 3 eexists; split; [reflexivity|split; [exact S|congruence]]]. unfold t_set_value, fsize.
    destruct (N.ltb_spec p (sizeN (processed t))) as [Q|Q]; cbn [andb]; [|do 3 eexists; split; [reflexivity|split; auto]]. destruct (negb (p =? 0)); [|do 3 eexists; split; [reflexivity|split; auto]].
    destruct (range_ends (processed t) p p sc S ltac:(lia) Q) as (f & s1 & ->). cbn [bind]. destruct f as [w|]; [|do 3 eexists; split; [reflexivity|split; auto]].
    destruct (here s1); cbn [bind]; [do 3 eexists; split; [reflexivity|split; auto]|]. destruct (total_discard v w) as (d & ->). destruct (f_truthy tr d); cbn [bind]; [|do 3 eexists; split; [reflexivity|split; auto]].
    destruct (update_ends' (processed t) p d (later s1) S ltac:(lia)) as (c & f & s2 & -> & LE). cbn [bind]. destruct f; cbn [bind]; do 3 eexists; (split; [reflexivity|]); unfold sound, sizeN in *; cbn [processed built]; rewrite LE; auto.
  - destruct (built t) eqn:BT; cbn [negb]; [|do 3 eexists; split; [reflexivity|split; [exact S|congruence]]]. unfold t_query, fsize. specialize (NE eq_refl).
    assert (W : wsub (sizeN (processed t)) 1 = sizeN (processed t) - 1).
    { replace (sizeN (processed t)) with (sizeN (processed t) - 1 + 1) at 1 by lia. apply sizes. lia. }
    rewrite W. destruct (range_ends (processed t) (N.min (N.min s e) (sizeN (processed t) - 1)) (N.min (N.max s e) (sizeN (processed t) - 1)) sc S ltac:(lia) ltac:(lia)) as (f & s1 & ->).
    cbn [bind]. do 3 eexists. split; [reflexivity|]. split; auto.
  - do 3 eexists. split; [reflexivity|]. now split.
  - do 3 eexists. split; [reflexivity|]. unfold resize, fsize, sound. destruct (N.ltb_spec m (sizeN (processed t))) as [Q|Q]; [|auto]. cbn [processed built]. unfold sizeN in *. rewrite firstn_length. split; [lia|intros _; lia].
  - do 3 eexists. split; [reflexivity|]. now split.
  - do 3 eexists. split; [reflexivity|]. now split.
  - do 3 eexists. split; [reflexivity|]. split; [reflexivity|discriminate].
Qed.
Lemma run_ends : forall ops t sc, sound t -> Forall call_fits ops -> exists t' fs, t_run tr t ops sc = Val (t', fs).
Proof.
  induction ops as [|o ops IH]; intros t sc S OK; cbn [t_run]; [do 2 eexists; reflexivity|]. apply Forall_cons_iff in OK. destruct OK as (O & OK).
  destruct (step_ends t o sc S O) as (t1 & f & s1 & -> & S1). cbn [bind]. destruct (IH t1 s1 S1 OK) as (t2 & fs & ->). cbn [bind]. do 2 eexists; reflexivity.
Qed.
Lemma history_ends : forall ops sc, Forall call_fits ops -> exists t' fs, t_run tr fenwick_default ops sc = Val (t', fs).
Proof. intros. apply run_ends; trivial. split; [reflexivity|discriminate]. Qed.
End Safe.

(** ** Building on what an exception left behind *)
Section Leftovers.
Local Open Scope Z_scope.
Definition sums (left right both : list Z) : Prop := length left = length right /\ length both = length right /\
  forall q x y, nth_error left q = Some x -> nth_error right q = Some y -> nth_error both q = Some (x + y).
Lemma update_length : forall cells p v c fuel, update_cells sumZ fuel cells p v = Val c -> length c = length cells.
Proof.
  intros cells p v c fuel. revert cells p. induction fuel as [|fuel IH]; intros cells p E; cbn [update_cells] in E; (destruct (_ && _)%bool; [|now injection E as <-]); [discriminate|].
  destruct (cell cells p); [|discriminate]. apply IH in E. now rewrite set_nth_length in E.
Qed.
Lemma sums_update : forall left right both p v, sums left right both -> (sizeN right < two64)%N -> (p < two64)%N ->
  exists r b, update_cells sumZ hops right p v = Val r /\ update_cells sumZ hops both p v = Val b /\ sums left r b.
Proof.
  intros left right both p v (L1 & L2 & E) S P. assert (DV : (2 ^ N.of_nat (64 - hops) | p)%N) by (exists p; change (2 ^ N.of_nat (64 - hops))%N with 1%N; lia).
  destruct (update_cells_hits sumZ hops right p v) as (r & Er & Hr); trivial. destruct (update_cells_hits sumZ hops both p v) as (b & Eb & Hb); trivial; [unfold sizeN in *; now rewrite L2|].
  exists r, b. split; [exact Er|]. split; [exact Eb|]. rewrite <- (update_length _ _ _ _ _ Er) in L1. pose proof (update_length _ _ _ _ _ Eb) as LB.
  split; [exact L1|]. split; [rewrite LB, L2; symmetry; exact (update_length _ _ _ _ _ Er)|]. intros q x y X Y. rewrite Hr in Y. rewrite Hb.
  destruct (nth_error right q) as [z|] eqn:Z; [|discriminate]. rewrite (E q x z X Z). cbn [option_map] in *. injection Y as <-. destruct (_ && _)%bool; cbn [f_op sumZ]; f_equal; lia.
Qed.
Lemma sums_build : forall inp left right both ii, sums left right both -> (sizeN right < two64)%N -> (ii + sizeN inp < two64)%N ->
  exists r b, build_loop sumZ hops right ii inp = Val r /\ build_loop sumZ hops both ii inp = Val b /\ sums left r b.
Proof.
  induction inp as [|v inp IH]; intros left right both ii S L I; cbn [build_loop]; [now exists right, both|].
  assert (SZ : (sizeN (v :: inp) = 1 + sizeN inp)%N) by (unfold sizeN; cbn [length]; lia). rewrite SZ in I.
  destruct (sums_update left right both ii v S L ltac:(lia)) as (r & b & Er & Eb & S'). rewrite Er, Eb. cbn [bind].
  apply IH; [exact S'| |lia]. unfold sizeN in *. now rewrite (update_length _ _ _ _ _ Er).
Qed.
Lemma leftovers : forall t input sc t' r sc', built t = false -> fsize t = (sizeN input + 1)%N -> (sizeN input + 1 < two64)%N ->
  t_step sumZ t (ORebuild input (sizeN input)) sc = Val (t', Returns r, sc') ->
  forall q x, nth_error (processed t) (N.to_nat q) = Some x -> at_ t' q = Val (x + block_value sumZ input q).
Proof.
  intros t input sc t' r sc' B F S E. apply step_returns in E. cbn [fstep] in E. unfold build in E. rewrite N.ltb_irrefl, F, N.ltb_irrefl, B in E.
  replace (N.to_nat (sizeN input + 1 - 1)) with (length input) in E by (unfold sizeN; lia). rewrite firstn_all in E.
  set (right := rep sumZ (repeat 0 (length input))).
  assert (LR : length right = length (processed t)) by (unfold right; rewrite rep_length, repeat_length; unfold fsize, sizeN in F; lia).
  destruct (sums_build input (processed t) right (processed t) 1) as (r' & b & Er & Eb & SM).
  - split; [now symmetry|]. split; [now symmetry|]. intros q x y X Y. unfold right in Y. rewrite (rep_repeat_null sumZ (fun _ => True) sumZ_laws) in Y.
    apply nth_error_In, repeat_spec in Y. subst y. cbn [f_null sumZ]. now rewrite Z.add_0_r.
  - unfold sizeN in *. rewrite LR. unfold fsize, sizeN in F. lia.
  - lia.
  - rewrite Eb in E. cbn [bind] in E. injection E as <- _.
    pose proof (build_loop_rep sumZ (fun _ => True) sumZ_laws input [] (Forall_nil _) ltac:(apply Forall_forall; trivial) ltac:(unfold sizeN in *; cbn [length]; lia)) as BR.
    cbn [app] in BR. change (sizeN (@nil Z) + 1)%N with 1%N in BR. unfold right in Er. cbn [f_null sumZ] in BR. rewrite BR in Er. injection Er as <-.
    intros q x X. destruct SM as (L1 & L2 & SM). unfold at_, cell. cbn [processed].
    assert (Q : (N.to_nat q < length (processed t))%nat) by (apply nth_error_Some; congruence).
    rewrite (SM (N.to_nat q) x (block_value sumZ input q) X); [reflexivity|]. rewrite nth_error_rep.
    destruct (Nat.leb_spec (N.to_nat q) (length input)); [now rewrite N2Nat.id|]. unfold fsize, sizeN in F. lia.
Qed.
End Leftovers.
