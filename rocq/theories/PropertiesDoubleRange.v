(** A range of units, orders and tree heights in which the two-dimensional expansions are finite in IEEE doubles. *)
From Coq Require Import Reals List Bool ZArith Arith.
From Verif Require Import Num Outcome Vec FloatCases FloatFit FloatExpansion2D FloatExpansionSpec FloatExpansionCases FloatRangeSpec FloatRange FloatRangeCases.
From Coq Require Import Floats.
Import ListNotations.
Local Open Scope R_scope.

(** C115: for charges of at most [2^a] and distances between [2^-b] and [2^b], every multipole expansion of order [p] of at most [2^N] sources, also after [h]
    rounds of merging at most [2^n] expansions, has finite coefficients, and its potential and force are finite, if
    [a + N + h n + g + p (2 b + 2 h + 5) + b + 4 <= 960], where [2^g] bounds the logarithms. *)
Theorem C115_multipole A p a b g n N h e x : usual_product (f_mul A) -> bounded_quotient (f_div A) -> bounded_log g (S b) (f_log A) ->
  (1 <= p)%nat -> (b <= 198)%nat -> (N <= 50)%nat -> (n <= 50)%nat -> (a + N + h * n + g + p * (2 * b + 2 * h + 5) + b + 4 <= 960)%nat ->
  multipole_range A p a b n N h e -> apart b x (center_of e) ->
  Forall (fun z => PrimFloat.is_finite (fst z) = true /\ PrimFloat.is_finite (snd z) = true) (sf_co e) /\
  exists v f, me2_potF A e x = Ok v /\ me2_forceF A e x = Ok f /\ length f = 2%nat /\ forall y, In y (v :: f) -> PrimFloat.is_finite y = true.
Proof. exact (fun HM HD HG P1 HB HN Hn T R => multipole_values A HM HD p a b g n N HG P1 HB HN Hn h e x R T). Qed.
Print Assumptions C115_multipole.
(** The same holds for the local expansions converted from at most [2^N] of these, or made from at most [2^N] sources, also after [j] rounds of shifts and
    additions, if [a + 2 N + h n + g + 4 + p (4 b + 2 h + j + 14) <= 960]. *)
Theorem C115_local A p a b g n N h j e x : usual_product (f_mul A) -> bounded_quotient (f_div A) -> bounded_log g (S b) (f_log A) ->
  (1 <= p)%nat -> (b <= 198)%nat -> (N <= 50)%nat -> (n <= 50)%nat -> (a + 2 * N + h * n + g + 4 + p * (4 * b + 2 * h + j + 14) <= 960)%nat ->
  local_range A p a b n N h j e -> near b x (center_of e) ->
  Forall (fun z => PrimFloat.is_finite (fst z) = true /\ PrimFloat.is_finite (snd z) = true) (sf_co e) /\
  length (le2_forceF A e x) = 2%nat /\ forall y, In y (le2_potF A e x :: le2_forceF A e x) -> PrimFloat.is_finite y = true.
Proof. exact (fun HM HD HG P1 HB HN Hn T R => local_values A HM HD p a b g n N HG P1 HB HN Hn h j e x R T). Qed.
Print Assumptions C115_local.
(** The textbook formulas, and a function of at most twice the size of its argument in the place of the logarithm. *)
Example C115_arithmetic : usual_product (f_mul plain) /\ bounded_quotient (f_div plain) /\ bounded_log 3 3 (f_log plain).
Proof. exact (conj plain_usual (conj plain_bounded (plain_log 2))). Qed.
(** Order 18 with few sources; order 14 with ten rounds of merging of four expansions, twenty rounds of shifts and additions, and a million sources in a leaf. *)
Example C115_sizes : (1 + 2 + 1 * 2 + 3 + 18 * (2 * 2 + 2 * 1 + 5) + 2 + 4 <= 960)%nat /\ (1 + 2 * 2 + 1 * 2 + 3 + 4 + 18 * (4 * 2 + 2 * 1 + 1 + 14) <= 960)%nat /\
  (1 + 2 * 20 + 10 * 2 + 3 + 4 + 14 * (4 * 2 + 2 * 10 + 20 + 14) <= 960)%nat.
Proof. repeat split; apply Nat.leb_le; reflexivity. Qed.
(** Four sources about two centers; merged, converted and shifted. *)
Example C115_case : exists e r s t1 t2 t3, me2_mergeF plain (mkbtF 0 []) origin2 [right_part; left_part] = Ok (e, t1) /\ multipole_range plain 18 1 2 2 2 1 e /\ sf_ctr e = (0, 0)%float /\
  le2_m2l_manyF plain t1 far2 [e] = Ok (r, t2) /\ local_range plain 18 1 2 2 2 1 0 r /\
  le2_l2lF plain t2 above2 r = Ok (s, t3) /\ local_range plain 18 1 2 2 2 1 1 s /\ sf_ctr s = (4, 1)%float.
Proof. exact moved_range. Qed.
Example C115_points : forall e s, sf_ctr e = (0, 0)%float -> sf_ctr s = (4, 1)%float -> apart 2 far2 (center_of e) /\ near 2 far2 (center_of s).
Proof. exact evaluation_case. Qed.
