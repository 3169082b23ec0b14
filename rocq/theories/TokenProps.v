(** C74: delimiters.h. *)
Require Import List Arith NArith ZArith Lia Bool.
Require Import Verif.Base Verif.TokenModel Verif.TokenSpec Verif.TokenProofs.
Import ListNotations.
Local Ltac run := repeat (apply conj); (vm_compute; reflexivity).

(** C74: for a filter that answers [g] for every char, the words read are the
    maximal runs of accepted characters. *)
Theorem C74_maximal_runs : forall char_signed f g, (forall ii, (ii < 256)%N -> f (char_of char_signed ii) = Val (g ii)) ->
  forall s, Forall (fun c => (c < 256)%N) s -> exists ws, words char_signed f s = Val ws /\ runs g s ws.
Proof. exact words_ok. Qed.
Print Assumptions C74_maximal_runs.
(** Which means: no word is empty or has a rejected character, together they are
    the accepted characters; and the text determines them. *)
Theorem C74_meaning : forall g s ws, runs g s ws ->
  Forall (fun w => w <> [] /\ Forall (fun c => g c = true) w) ws /\ concat ws = filter g s /\
  forall ws', runs g s ws' -> ws = ws'.
Proof. exact (fun g s ws R => conj (runs_words g s ws R) (conj (runs_concat g s ws R) (runs_unique g s ws R))). Qed.
Print Assumptions C74_meaning.
(** The filters of the library, where char is unsigned or the ctype functions
    accept negative char values (as glibc does). *)
Theorem C74_shipped_filters_partial : forall char_signed lenient s, char_signed = false \/ lenient = true ->
  Forall (fun c => (c < 256)%N) s ->
  (exists ws, words char_signed (alpha_filter lenient) s = Val ws /\ runs (member (upper_case ++ lower_case)) s ws) /\
  (exists ws, words char_signed (alpha_num_filter lenient) s = Val ws /\ runs (member (upper_case ++ lower_case ++ digit_chars)) s ws) /\
  (exists ws, words char_signed (lower_filter lenient) s = Val ws /\ runs (member lower_case) s ws) /\
  (exists ws, words char_signed (upper_filter lenient) s = Val ws /\ runs (member upper_case) s ws) /\
  (exists ws, words char_signed (digit_filter lenient) s = Val ws /\ runs (member digit_chars) s ws).
Proof. exact filters_ok. Qed.
Print Assumptions C74_shipped_filters_partial.
(** "Ab1 c;;De\xff9" *)
Example C74_case : Forall (fun c => (c < 256)%N) [65; 98; 49; 32; 99; 59; 59; 68; 101; 255; 57]%N /\
  words true (alpha_filter true) [65; 98; 49; 32; 99; 59; 59; 68; 101; 255; 57]%N = Val [[65; 98]; [99]; [68; 101]]%N /\
  words true (digit_filter true) [65; 98; 49; 32; 99; 59; 59; 68; 101; 255; 57]%N = Val [[49]; [57]]%N /\
  words true (upper_filter true) [65; 98; 49; 32; 99; 59; 59; 68; 101; 255; 57]%N = Val [[65]; [68]]%N /\
  words true (lower_filter true) [65; 98; 49; 32; 99; 59; 59; 68; 101; 255; 57]%N = Val [[98]; [99]; [101]]%N /\
  words true (alpha_num_filter true) [65; 98; 49; 32; 99; 59; 59; 68; 101; 255; 57]%N
    = Val [[65; 98; 49]; [99]; [68; 101]; [57]]%N /\
  words true (alpha_filter true) [49; 32]%N = Val [].
Proof. split; [repeat constructor|run]. Qed.
(** By the C standard alone, with signed char, making the table of any of them is
    undefined: the filter passes negative values to the ctype function. *)
Theorem C74_shipped_filters_refuted : exists f, f = alpha_filter false /\ get_table true f = UB /\
  (forall s, words true f s = UB) /\ get_table true (alpha_num_filter false) = UB /\
  get_table true (lower_filter false) = UB /\ get_table true (upper_filter false) = UB /\ get_table true (digit_filter false) = UB.
Proof.
  exists (alpha_filter false). split; [trivial|]. split; [apply shipped_ub|].
  split; [|repeat split; apply shipped_ub]. intros s. unfold words, alpha_filter. now rewrite shipped_ub.
Qed.
Print Assumptions C74_shipped_filters_refuted.
