(** Theorems about timestamp.h. *)
Require Import ZArith List.
Require Import Verif.StampModel Verif.StampSpec Verif.StampProofs.
Import ListNotations.
Local Open Scope Z_scope.
Local Ltac run := repeat (apply conj); (vm_compute; reflexivity).

(** C116: difference answers the whole units since the last reset (or the
    construction), whatever was called before, if the clock is not behind it then. *)
Theorem C116_difference : forall t0 cs unit now d, nth_error (program t0 (cs ++ [(now, Difference unit)])) (length cs) = Some (Some d) ->
  0 < unit -> since t0 cs <= now -> 0 <= d /\ whole unit (now - since t0 cs) d.
Proof. exact difference_ok. Qed.
Print Assumptions C116_difference.
(** elapsed answers that number rounded to a double: exactly up to 2^53 units, with a
    relative error of at most 2^-53 above. *)
Theorem C116_elapsed : forall t0 cs unit now x, nth_error (program t0 (cs ++ [(now, Elapsed unit)])) (length cs) = Some (Some x) ->
  0 < unit -> since t0 cs <= now -> 0 <= x /\ exists n, whole unit (now - since t0 cs) n /\ Z.abs (x - n) * 2 ^ 53 <= n /\ (n <= 2 ^ 53 -> x = n).
Proof. exact elapsed_ok. Qed.
Print Assumptions C116_elapsed.
(** Without a reset in between, later answers of elapsed are not smaller. *)
Theorem C116_later : forall t0 cs unit now1 mid now2 x y, 0 < unit -> since t0 cs <= now1 <= now2 ->
  (forall t c, In (t, c) mid -> c <> Reset) ->
  nth_error (program t0 (cs ++ [(now1, Elapsed unit)])) (length cs) = Some (Some x) ->
  nth_error (program t0 ((cs ++ [(now1, Elapsed unit)] ++ mid) ++ [(now2, Elapsed unit)])) (length (cs ++ [(now1, Elapsed unit)] ++ mid)) = Some (Some y) ->
  x <= y.
Proof. exact later. Qed.
Print Assumptions C116_later.
(** Laps (read, then reset, at each of the times) add up to at most the whole time,
    and miss less than a unit per lap. *)
Theorem C116_laps : forall unit times t0, 0 < unit -> steady t0 times ->
  let d := last times t0 - t0 in let n := total (program t0 (laps unit times)) in
  n * unit <= d /\ d <= n * unit + Z.of_nat (length times) * (unit - 1).
Proof. exact laps_ok. Qed.
Print Assumptions C116_laps.
(** The loss is real: three laps of 1.999999 ms each, read in milliseconds, add up to
    3 of the 5 whole milliseconds that passed. *)
Theorem C116_laps_exact_refuted : exists t0 times, steady t0 times /\
  total (program t0 (laps 1000000 times)) = 3 /\ (last times t0 - t0) / 1000000 = 5.
Proof.
  exists 0, [1999999; 3999998; 5999997]. split; [repeat (apply steady_cons; [vm_compute; discriminate|]); apply steady_nil|]. run.
Qed.
Print Assumptions C116_laps_exact_refuted.
(** The clock, std::chrono::high_resolution_clock, may be one that can be set back.
    Then the answer may be negative. *)
Theorem C116_not_negative_refuted : exists t0 now, program t0 [(now, Elapsed 1000000); (now, Difference 1000000)] = [Some (-5); Some (-5)].
Proof. exists 7000000, 1999999. run. Qed.
Print Assumptions C116_not_negative_refuted.
(** In nanoseconds elapsed and difference differ after 104.25 days. *)
Theorem C116_same_refuted : exists now, steady 0 [now; now] /\
  program 0 [(now, Elapsed 1); (now, Difference 1)] = [Some (2 ^ 53); Some (2 ^ 53 + 1)].
Proof.
  exists (2 ^ 53 + 1). split; [repeat (apply steady_cons; [vm_compute; discriminate|]); apply steady_nil|]. run.
Qed.
Print Assumptions C116_same_refuted.

(** A stopwatch with a reset, read in milliseconds and seconds. *)
Local Definition day : list (Z * call) := [(1500000000, Elapsed 1000000); (2000000000, Reset); (2000999999, Difference 1000000)].
Example C116_case :
  program 0 (day ++ [(5999999999, Difference 1000000000)]) = [Some 1500; None; Some 0; Some 3] /\
  nth_error (program 0 (day ++ [(5999999999, Elapsed 1000000)])) (length day) = Some (Some 3999) /\ since 0 day = 2000000000 /\
  program 10 (laps 1000 [1020; 2500; 2500; 9999]) = [Some 1; None; Some 1; None; Some 0; None; Some 7; None] /\
  to_double (2 ^ 53 + 1) = 2 ^ 53 /\ to_double (2 ^ 53 + 3) = 2 ^ 53 + 4 /\ to_double (- (2 ^ 54) - 3) = - (2 ^ 54) - 4 /\
  to_double (2 ^ 63 - 1) = 2 ^ 63.
Proof. run. Qed.
