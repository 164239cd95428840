(** Property theorems: the spherical harmonics of the three-dimensional expansions in rounded arithmetic. *)
From Coq Require Import Reals List ZArith.
From Coquelicot Require Import Complex.
From Verif Require Import Num Outcome Vec AdaptiveTree TreeSpec FieldSpec FmmPasses FmmTree3D Tables3D Expansion3D Exp3Loops Exp3Theorems Spherical RoundedSpec RoundedCases RoundedTree RoundedTreeSpec RoundedTreeCases RoundedExpansion2D
  RoundedExpansion3D RoundedComplexSpec RoundedHarmonicSpec RoundedFmmSpec RoundedFmmSpec3 RoundedApi RoundedApi3 RoundedFmmTheorems3 RoundedFmmCases RoundedFmmCases3
  RoundedHarmonicTable RoundedTableSpec RoundedTable RoundedTableCases.
Import ListNotations.
Local Open Scope R_scope.

(** C109: the table of spherical harmonics that an expansion builds for a vector is right up to rounding errors.  This fails: whatever the
    library's Legendre functions and complex operations deliver, for one of two directions 2^-27 apart the entry (1, 1) is wrong by 2^-29,
    sixteen million times the error of a rounding, because the code only hands on the rounded cosine of the polar angle. *)
Theorem C109_harmonics_refuted Y : (forall x y, y_hyp Y x y = double_round (sqrt (x * x + y * y))) -> (forall y x, y_atan2 Y y x = double_round (Expansion2D.atan2 y x)) ->
  (forall t, y_cos Y t = double_round (cos t)) ->
  exists v, (v = [0; 0; 1] \/ v = [/ 134217728; 0; 1]) /\
    forall r th ph tab y, to_spherical 3 v = Ok [r; th; ph] -> ylm_table 1 th ph = Ok tab -> ylm_get tab 1 1 = Ok y ->
    / 536870912 <= Cmod (harmonic_r Y v 1 1 - y)%C.
Proof. exact (polar_loss Y). Qed.
Print Assumptions C109_harmonics_refuted.
(** Every table the code builds for a vector holds, for each degree and order, the number [harmonic_r] of that vector. *)
Theorem C109_table_entries Y v l m lmax : (Z.abs m <= l <= lmax)%Z ->
  exists tab, ylm_table_r Y lmax (fst (angles_r Y v)) (snd (angles_r Y v)) = Ok tab /\ ylm_get tab l m = Ok (harmonic_r Y v l m).
Proof. exact (table_entries Y v l m lmax). Qed.
Print Assumptions C109_table_entries.
(** What remains true: with operations accurate to [w], the error of an entry of degree l is that of (kl + 4) (l + 1) roundings, plus that of
    turning the vector by 5 sqrt w; away from the polar axis, by 25 w / sin theta. *)
Theorem C109_harmonics_partial w kl Y x y z r th ph lmax tab l m V : 0 <= w <= 1 / 2 -> accurate_table w kl Y -> w <= 1 / 25 ->
  to_spherical 3 [x; y; z] = Ok [r; th; ph] -> ylm_table lmax th ph = Ok tab -> (Z.abs m <= l <= lmax)%Z -> ylm_get tab l m = Ok V ->
  Cmod (harmonic_r Y [x; y; z] l m - V)%C <= ((1 + w) ^ ((kl + 4) * (Z.to_nat l + 1)) - 1) + ((1 + 5 * sqrt w) ^ (2 * Z.to_nat l) - 1) /\
  (0 < sin th -> Cmod (harmonic_r Y [x; y; z] l m - V)%C <= ((1 + w) ^ ((kl + 4) * (Z.to_nat l + 1)) - 1) + ((1 + 25 * w / sin th) ^ (2 * Z.to_nat l) - 1)).
Proof. exact (fun Hw HY => harmonic_accuracy w Hw kl Y HY x y z r th ph lmax tab l m V). Qed.
Print Assumptions C109_harmonics_partial.
(** The three-dimensional adaptive tree with the table of the code: as C106, with the spherical harmonics computed from the library's Legendre
    functions, cosines and exponentials instead of assumed accurate. *)
Theorem C109_tree rnd hyp lg w u e kl Y alm K0 mforce lforce eps srcs cap fuel h orders tb :
  double_like rnd hyp -> accurate_space w u e rnd hyp -> accurate_log e lg -> w <= / 10000000 -> accurate_table w kl Y -> 5 * sqrt w <= INR K0 * w ->
  (forall n m a, close w (alm n m a) a) ->
  0 < eps -> INR (length srcs) * u <= / 10000 -> 1001 / 1000 * eps < abs_charge srcs <= 2 ^ 41 * eps ->
  (1 <= cap)%nat -> (h <= fuel)%nat -> in_refinable_range 3 h (@ps_pos R) srcs -> tables3_after orders = Ok tb ->
  let A := table_harith Y rnd (fun a b => rnd (a - b)) hyp alm in
  exists o, (forall r, adaptive_fmm3_r rnd hyp lg A mforce lforce cap fuel eps srcs tb r <-> r = Ok o) /\
  forall m M K x field n, space_range h m M srcs -> lists_within K (f3_fmm o) -> length x = 3%nat -> representable rnd x ->
    containing_leaf (N := NumRnd rnd) 3 (f_tree (f3_fmm o)) x = Ok (Some n) ->
    exists v, potential3_at_r rnd hyp lg A mforce lforce field srcs o x = Ok v /\
      Rabs (v - direct_potential 3 field (others x srcs) x) <=
        bound3 w (f3_order o) h (roundings3 (kl + 4 + 2 * K0) (f3_order o) cap K (at_height (f_tree (f3_fmm o)))) m (others x srcs) x.
Proof. exact (table_tree rnd hyp lg w u e kl Y alm K0 mforce lforce eps srcs cap fuel h orders tb). Qed.
Print Assumptions C109_tree.
Example C109_double : accurate_table (/ 562949953421312) 1 double_table /\ exists K, INR K = 134217728 /\
  5 * sqrt (/ 562949953421312) <= INR K * / 562949953421312 /\ accurate_harmonics (/ 562949953421312) (1 + 4 + 2 * K) double_table_harith.
Proof. exact (conj double_table_accurate double_table_budget). Qed.
Example C109_rounded_operations : (forall x y, y_hyp double_table x y = double_round (sqrt (x * x + y * y))) /\
  (forall y x, y_atan2 double_table y x = double_round (Expansion2D.atan2 y x)) /\ (forall t, y_cos double_table t = double_round (cos t)).
Proof. exact (conj (fun _ _ => eq_refl) (conj (fun _ _ => eq_refl) (fun _ => eq_refl))). Qed.
Example C109_case : exists tb o v, tables3_after [] = Ok tb /\
  adaptive_fmm3_r double_round double_norm double_log double_table_harith (fun _ _ => UB) (fun _ _ => UB) 1 12 (1 / 100) ten_charges tb (Ok o) /\
  potential3_at_r double_round double_norm double_log double_table_harith (fun _ _ => UB) (fun _ _ => UB) true ten_charges o [1 / 2; 1 / 2; 1 / 2] = Ok v.
Proof. exact ten_case_table. Qed.
