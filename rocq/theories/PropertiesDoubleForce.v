(** Accuracy of the forces of two-dimensional multipole expansions in IEEE doubles, with underflow. *)
From Coq Require Import Reals List Bool ZArith Arith.
From Coquelicot Require Import Complex.
From Verif Require Import Num Outcome Vec FloatCases FloatFit FloatExpansion2D FloatExpansionSpec FloatExpansionCases FloatRangeSpec FloatRangeCases FloatCoefficientSpec FloatAccuracyCases FloatForceSpec FloatForceCases.
From Verif Require FloatForceError.
From Coq Require Import Floats.
Import ListNotations.
Local Open Scope R_scope.

(** C117: the force that the expansion of [n] sources with charges of at most [q] at distances of at most [rho] from the center gives at a point not closer to the
    center than [rho], if finite, is within [(n + 1) (p + 1)^2 (6 (n + 1) + 25 p + 75)] units in the last place of [q / D] of the exact force of the expansion. *)
Theorem C117_expansion A a b p c srcs x rho q f : usual_product (f_mul A) -> accurate_quotient (f_div A) -> (1 <= b <= 198)%nat -> (a + 2 * b * (p + 2) <= 1000)%nat -> INR (length srcs) + 1 <= 1048576 ->
  PrimFloat.is_finite (nth 0 x 0%float) = true -> PrimFloat.is_finite (nth 1 x 0%float) = true -> PrimFloat.is_finite (nth 0 c 0%float) = true -> PrimFloat.is_finite (nth 1 c 0%float) = true ->
  / 2 ^ a <= q -> / 2 ^ b <= rho -> rho <= separation x c -> separation x c <= 2 ^ b -> (forall s, In s srcs -> Rabs (real_of (ps_q s)) <= q /\ separation (ps_pos s) c <= rho) ->
  me2_forceF A (me2_sourcesF A c p srcs) x = Ok f -> Forall (fun y => PrimFloat.is_finite y = true) f ->
  Cmod (point_of f - expansion_force c p srcs x)%C <= (INR (length srcs) + 1) * q * / 9007199254740992 * (INR p + 1) ^ 2 * (6 * (INR (length srcs) + 1) + 25 * INR p + 75) / separation x c.
Proof. exact (FloatForceError.force_error A a b p c srcs x rho q f). Qed.
Print Assumptions C117_expansion.
(** In a range of units the force is finite and within the truncation error and these rounding errors of the sum of [- q (x - y) / |x - y|^2] over the sources. *)
Theorem C117_direct_sum A a b g N p c srcs x rho q : usual_product (f_mul A) -> accurate_quotient (f_div A) -> bounded_quotient (f_div A) -> bounded_log g (S b) (f_log A) ->
  (1 <= p)%nat -> (1 <= b <= 198)%nat -> (N <= 19)%nat -> (a + N + g + p * (2 * b + 5) + 4 * b + 4 <= 960)%nat -> (length srcs <= 2 ^ N)%nat ->
  (forall s, In s srcs -> part a (ps_q s) /\ near b (ps_pos s) c) -> apart b x c -> length c = 2%nat ->
  / 2 ^ a <= q -> / 2 ^ b <= rho -> rho < separation x c -> (forall s, In s srcs -> Rabs (real_of (ps_q s)) <= q /\ separation (ps_pos s) c <= rho) ->
  exists f, me2_forceF A (me2_sourcesF A c p srcs) x = Ok f /\ length f = 2%nat /\ Forall (fun y => PrimFloat.is_finite y = true) f /\
  Cmod (point_of f - direct_force_value srcs x)%C <= INR (length srcs) * q * ((rho / separation x c) ^ (p + 1) / (separation x c - rho)) +
    (INR (length srcs) + 1) * q * / 9007199254740992 * (INR p + 1) ^ 2 * (6 * (INR (length srcs) + 1) + 25 * INR p + 75) / separation x c.
Proof. exact (force_range A a b g N p c srcs x rho q). Qed.
Print Assumptions C117_direct_sum.
(** The textbook formulas and a logarithm rounded once. *)
Example C117_arithmetic : usual_product (f_mul plain2) /\ accurate_quotient (f_div plain2) /\ bounded_quotient (f_div plain2) /\ bounded_log 3 3 (f_log plain2).
Proof. exact (conj plain_usual (conj plain_accurate (conj plain_bounded rounded_log_bounded))). Qed.
(** A charge 2 at (1, 1) and a charge -1 at (2, 0), order 18, seen from (4, 0): the exact force is (-1/10, 1/5). *)
Example C117_case : exists f, me2_forceF plain2 (me2_sourcesF plain2 origin2 18 two_sources) far2 = Ok f /\ length f = 2%nat /\ Forall (fun y => PrimFloat.is_finite y = true) f /\ Cmod (point_of f - ((- / 10)%R, (/ 5)%R))%C <= / 100000.
Proof. exact two_force_case. Qed.
