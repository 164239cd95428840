(** Accuracy of the two-dimensional multipole expansions in IEEE doubles, with underflow. *)
From Coq Require Import Reals List Bool ZArith Arith.
From Coquelicot Require Import Complex.
From Verif Require Import Num Outcome Vec FloatCases FloatFit FloatExpansion2D FloatExpansionSpec FloatExpansionCases FloatRangeSpec FloatRangeCases FloatCoefficientSpec FloatAccuracy FloatAccuracyCases.
From Verif Require FloatMultipole.
From Coq Require Import Floats.
Import ListNotations.
Local Open Scope R_scope.

(** C116: coefficient [k] of the expansion of [n] sources with charges of at most [q] at distances of at most [rho] from the center, if finite, is within
    [(n + 1) (5 (n + 1) + 24 k + 12)] units in the last place of [q rho^k] of the exact coefficient: the total charge, or [- sum q (z - c)^k / k]. *)
Theorem C116_coefficients A a b p k c srcs rho q z : usual_product (f_mul A) -> (k <= p)%nat -> (1 <= b)%nat -> (a + b * k <= 1000)%nat -> INR (length srcs) + 1 <= 1048576 -> / 2 ^ a <= q -> / 2 ^ b <= rho ->
  (forall s, In s srcs -> Rabs (real_of (ps_q s)) <= q /\ separation (ps_pos s) c <= rho) -> nth_error (sf_co (me2_sourcesF A c p srcs)) k = Some z -> finite_complex z ->
  Cmod (value_of z - coefficient c k srcs)%C <= (INR (length srcs) + 1) * (5 * (INR (length srcs) + 1) + 24 * INR k + 12) * / 9007199254740992 * (q * rho ^ k).
Proof. exact (coefficient_accuracy A a b p k c srcs rho q z). Qed.
Print Assumptions C116_coefficients.
(** The potential, if finite, is within rounding errors of the exact value of the expansion. *)
Theorem C116_expansion A a b p c srcs x rho q v : usual_product (f_mul A) -> accurate_quotient (f_div A) -> accurate_logarithm (f_log A) ->
  (1 <= b <= 398)%nat -> (a + 2 * b * (p + 1) <= 1000)%nat -> INR (length srcs) + 1 <= 1048576 ->
  PrimFloat.is_finite (nth 0 x 0%float) = true -> PrimFloat.is_finite (nth 1 x 0%float) = true -> PrimFloat.is_finite (nth 0 c 0%float) = true -> PrimFloat.is_finite (nth 1 c 0%float) = true ->
  / 2 ^ a <= q -> / 2 ^ b <= rho -> rho <= separation x c -> separation x c <= 2 ^ b -> (forall s, In s srcs -> Rabs (real_of (ps_q s)) <= q /\ separation (ps_pos s) c <= rho) ->
  me2_potF A (me2_sourcesF A c p srcs) x = Ok v -> PrimFloat.is_finite v = true ->
  Rabs (real_of v - expansion_value c p srcs x) <= (INR (length srcs) + 1) * q * / 9007199254740992 * (INR b + INR p + 1) * (12 * (INR (length srcs) + 1) + 83 * INR p + 62).
Proof. exact (fun HM HD HL => FloatMultipole.potential_error A HM HD HL a b p c srcs x rho q v). Qed.
Print Assumptions C116_expansion.
(** In a range of units the potential is finite and within the truncation error and these rounding errors of the sum over the sources. *)
Theorem C116_direct_sum A a b g N p c srcs x rho q : usual_product (f_mul A) -> accurate_quotient (f_div A) -> accurate_logarithm (f_log A) -> bounded_quotient (f_div A) -> bounded_log g (S b) (f_log A) ->
  (1 <= p)%nat -> (1 <= b <= 198)%nat -> (N <= 19)%nat -> (a + N + g + p * (2 * b + 5) + 2 * b + 4 <= 960)%nat -> (length srcs <= 2 ^ N)%nat ->
  (forall s, In s srcs -> part a (ps_q s) /\ near b (ps_pos s) c) -> apart b x c -> length c = 2%nat ->
  / 2 ^ a <= q -> / 2 ^ b <= rho -> rho < separation x c -> (forall s, In s srcs -> Rabs (real_of (ps_q s)) <= q /\ separation (ps_pos s) c <= rho) ->
  exists v, me2_potF A (me2_sourcesF A c p srcs) x = Ok v /\ PrimFloat.is_finite v = true /\
  Rabs (real_of v - direct_value srcs x) <= INR (length srcs) * q * ((rho / separation x c) ^ (p + 1) / (INR (p + 1) * (1 - rho / separation x c))) +
    (INR (length srcs) + 1) * q * / 9007199254740992 * (INR b + INR p + 1) * (12 * (INR (length srcs) + 1) + 83 * INR p + 62).
Proof. exact (direct_range A a b g N p c srcs x rho q). Qed.
Print Assumptions C116_direct_sum.
(** The textbook formulas and a logarithm rounded once. *)
Example C116_arithmetic : usual_product (f_mul plain2) /\ accurate_quotient (f_div plain2) /\ accurate_logarithm (f_log plain2) /\ bounded_quotient (f_div plain2) /\ bounded_log 3 3 (f_log plain2).
Proof. exact (conj plain_usual (conj plain_accurate (conj rounded_log_accurate (conj plain_bounded rounded_log_bounded)))). Qed.
(** A charge 2 at (1, 1) and a charge -1 at (2, 0), order 18, seen from (4, 0): the exact sum is [ln 5]. *)
Example C116_case : exists v, me2_potF plain2 (me2_sourcesF plain2 origin2 18 two_sources) far2 = Ok v /\ PrimFloat.is_finite v = true /\ Rabs (real_of v - ln 5) <= / 1000000.
Proof. exact two_case. Qed.
