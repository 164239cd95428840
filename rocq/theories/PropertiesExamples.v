(** Property theorems: the example program, numbers in files, text on the console. *)
From Coq Require Import String List Bool ZArith Arith Reals.
From Flocq Require Import Core.
From Verif Require Import Num Outcome Vec Orthtree AdaptiveTree Fields FieldSpec Interfaces RoundedCases Minimal MinimalProofs Text TextProofs.
Import ListNotations.
Local Open Scope R_scope.

(** C101: the example program.  [rand] is any sequence of results of [rand()], [rmax] is [RAND_MAX], [N] the number of sources.
    The sources are in the square of side 32 around the origin; … *)
Theorem C101_square rmax (rand : nat -> Z) N s j : (0 < rmax)%Z -> (forall k, (0 <= rand k <= rmax)%Z) -> In s (minimal_sources rmax rand N) -> (j < 2)%nat ->
  -16 <= nth j (ps_pos s) 0 <= 16.
Proof. exact (fun RM RB => minimal_in_square rmax rand N RM RB s j). Qed.
Print Assumptions C101_square.
(** … if they lie on both sides of the axes, no more than fifty at one place, and the absolute values of the charges sum up to more
    than 10, the program prints the position of the first source and two numbers, the second of which is the potential of the sources
    elsewhere; the square of the difference of the numbers is at most 15 times that sum. *)
Theorem C101_prints rmax (rand : nat -> Z) N : (0 < rmax)%Z -> (forall k, (0 <= rand k <= rmax)%Z) -> (Z.of_nat N <= 2 ^ 64)%Z ->
  (forall j, (j < 2)%nat -> (exists i, (i < N)%nat /\ (2 * rand (3 * i + j)%nat <= rmax)%Z) /\ (exists i, (i < N)%nat /\ (rmax <= 2 * rand (3 * i + j)%nat)%Z)) ->
  let total := fold_right Z.add 0%Z (map (fun i => rand (3 * i + 2)%nat) (seq 0 N)) in
  (10 * rmax < total)%Z ->
  (forall k, (k < N)%nat -> (length (filter (fun i => (rand (3 * i)%nat =? rand (3 * k)%nat)%Z && (rand (3 * i + 1)%nat =? rand (3 * k + 1)%nat)%Z) (seq 0 N)) <= 50)%nat) ->
  exists fuel x v w, (forall r, minimal_main rmax rand N fuel r <-> r = Ok (x, v, w)) /\
    nth_error (minimal_sources rmax rand N) 0 = Some (PSrc x (- (IZR (rand 2%nat) / IZR rmax))) /\
    w = direct_potential 2 true (filter (fun s => negb (is_at x s)) (minimal_sources rmax rand N)) x /\
    (v - w) ^ 2 <= 15 * (IZR total / IZR rmax).
Proof. exact (minimal_prints rmax rand N). Qed.
Print Assumptions C101_prints.
(** It does not get as far if the sum is at most 10, … *)
Theorem C101_small_charges rmax (rand : nat -> Z) N fuel : (0 < rmax)%Z -> (forall k, (0 <= rand k <= rmax)%Z) -> (50 < N)%nat ->
  (fold_right Z.add 0 (map (fun i => rand (3 * i + 2)%nat) (seq 0 N)) <= 10 * rmax)%Z -> forall v, ~ minimal_main rmax rand N fuel (Ok v).
Proof. exact (minimal_small_charges rmax rand N fuel). Qed.
Print Assumptions C101_small_charges.
(** … or if there are more than fifty at one place. *)
Theorem C101_crowded rmax (rand : nat -> Z) N k fuel : (0 < rmax)%Z -> (forall k, (0 <= rand k <= rmax)%Z) ->
  (forall j, (j < 2)%nat -> (exists i, (i < N)%nat /\ (2 * rand (3 * i + j)%nat <= rmax)%Z) /\ (exists i, (i < N)%nat /\ (rmax <= 2 * rand (3 * i + j)%nat)%Z)) ->
  (k < N)%nat -> (50 < length (filter (fun i => (rand (3 * i)%nat =? rand (3 * k)%nat)%Z && (rand (3 * i + 1)%nat =? rand (3 * k + 1)%nat)%Z) (seq 0 N)))%nat ->
  forall v, ~ minimal_main rmax rand N fuel (Ok v).
Proof. exact (minimal_runs_on rmax rand N k fuel). Qed.
Print Assumptions C101_crowded.
Example C101_case : (forall k, (0 <= corners k <= 1)%Z) /\
  (forall j, (j < 2)%nat -> (exists i, (i < 100)%nat /\ (2 * corners (3 * i + j) <= 1)%Z) /\ (exists i, (i < 100)%nat /\ (1 <= 2 * corners (3 * i + j))%Z)) /\
  (10 * 1 < charge_total corners 100)%Z /\ (forall k, (k < 100)%nat -> (length (filter (same_place corners k) (seq 0 100)) <= 50)%nat).
Proof. exact corners_case. Qed.
Example C101_failing_cases : (charge_total (fun k => if (k mod 3 =? 2)%nat then 0 else corners k)%Z 100 <= 10 * 1)%Z /\
  (50 < length (filter (same_place (fun k => if (k <? 153)%nat then 1 else corners k)%Z 0) (seq 0 100)))%nat.
Proof. exact zero_charges_case. Qed.

(** C102: numbers written to a file, sixteen digits each, and read again: as many as before, in weakly the same order, each changed
    by at most 0.62 in the fifteenth digit behind the first. *)
Theorem C102_round_trip xs : let ys := doublesFromFile (iterableToFile xs) in
  length ys = length xs /\
  (forall i, Rabs (nth i ys 0 - nth i xs 0) <= 62 / 10 ^ 17 * Rabs (nth i xs 0)) /\
  (forall i j, (i < length xs)%nat -> (j < length xs)%nat -> nth i xs 0 <= nth j xs 0 -> nth i ys 0 <= nth j ys 0).
Proof. exact (file_round_trip xs). Qed.
Print Assumptions C102_round_trip.
(** Doubles with at most sixteen decimal digits are unchanged. *)
Theorem C102_exact_partial xs : (forall x, In x xs -> double_round x = x /\ exists m e, x = IZR m * bpow radix10 e /\ (Z.abs m < 10 ^ 16)%Z) ->
  doublesFromFile (iterableToFile xs) = xs.
Proof. exact (file_exact xs). Qed.
Print Assumptions C102_exact_partial.
(** Not all doubles are: two different ones become equal. *)
Theorem C102_exact_refuted : exists x y, double_round x = x /\ double_round y = y /\ y <> x /\ doublesFromFile (iterableToFile [x; y]) = [x; x].
Proof. exact (ex_intro _ 1 (ex_intro _ next_one file_not_exact)). Qed.
Print Assumptions C102_exact_refuted.
(** Positions of sources are written in the same way, coordinate by coordinate; … *)
Theorem C102_locations srcs : doublesFromFile (locationsToFile srcs) = doublesFromFile (iterableToFile (concat (map (@ps_pos R) srcs))).
Proof. exact (eq_trans (from_locations srcs) (eq_sym (from_iterable _))). Qed.
Print Assumptions C102_locations.
(** … so the adaptive tree of three sources, one in a leaf, can be built before they are stored but not after. *)
Theorem C102_stored_sources_refuted : NoDup (map (@ps_pos R) three_sources) /\
  (exists fuel t, build_adaptive 2 (@ps_pos R) 1 fuel three_sources = Ok t) /\
  regroup2 (doublesFromFile (locationsToFile three_sources)) = [[1; 1]; [1; 1]; [-1; -1]] /\
  forall fuel t, build_adaptive 2 (fun x => x) 1 fuel [[1; 1]; [1; 1]; [-1; -1]] <> Ok t.
Proof. exact stored_sources_diverge. Qed.
Print Assumptions C102_stored_sources_refuted.
(** The first [len] elements of a vector; [len] must not exceed its length. *)
Theorem C102_vector vec len : ((len <= length vec)%nat -> vecToFile vec len = Ok (iterableToFile (firstn len vec))) /\
  ((length vec < len)%nat -> vecToFile vec len = UB).
Proof. exact (conj (vec_prefix vec len) (vec_beyond vec len)). Qed.
Print Assumptions C102_vector.
Example C102_case : (double_round 1 = 1 /\ exists m e, 1 = IZR m * bpow radix10 e /\ (Z.abs m < 10 ^ 16)%Z) /\
  exists srcs, same_dim 2 srcs /\ concat (map (@ps_pos R) srcs) = [1; 1; next_one; 1; -1; -1].
Proof. exact stored_case. Qed.

(** C103: [printVec] prints what [printIterable] prints for the first [len] elements; [len] must not exceed the length; … *)
Theorem C103_print {A} (show : A -> string) vec len sep : ((len <= length vec)%nat -> printVec show vec len sep = Ok (printIterable show (firstn len vec) sep)) /\
  ((length vec < len)%nat -> printVec show vec len sep = UB).
Proof. exact (conj (print_prefix show vec len sep) (print_beyond show vec len sep)). Qed.
Print Assumptions C103_print.
(** … stamps of different iterations or processes differ, … *)
Theorem C103_stamps i p i' p' : time_proc_stamp i p = time_proc_stamp i' p' -> i = i' /\ p = p'.
Proof. exact (stamps_differ i p i' p'). Qed.
Print Assumptions C103_stamps.
(** … the process is at the same column in all stamps of fewer than ten thousand iterations; … *)
Theorem C103_columns i p : (i < 100 * 100)%nat -> exists n, String.length n = 4%nat /\ number n = Some i /\
  time_proc_stamp i p = ("[" ++ n ++ "][p" ++ digits p ++ "]: ")%string.
Proof. exact (stamp_columns i p). Qed.
Print Assumptions C103_columns.
(** … durations in seconds are short by less than a nanosecond. *)
Theorem C103_durations num den : (0 <= num)%Z -> (0 < den)%Z ->
  IZR num / IZR den - / IZR (10 ^ 9) < chrono_duration num den <= IZR num / IZR den.
Proof. exact (duration_error num den). Qed.
Print Assumptions C103_durations.
Example C103_case : time_proc_stamp 42 7 = "[0042][p7]: "%string /\ printVec digits [1; 2; 3]%nat 2 "," = Ok ("[ 1, 2, ]" ++ String (Ascii.ascii_of_nat 10) "")%string.
Proof. exact (conj eq_refl eq_refl). Qed.
