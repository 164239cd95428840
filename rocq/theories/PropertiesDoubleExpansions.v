(** Overflow in the two-dimensional expansions in IEEE doubles. *)
From Coq Require Import Reals List Bool ZArith Arith.
From Verif Require Import Num Outcome Vec Fields FieldSpec RoundedFields RoundedSpec FloatCases FloatFit FloatSpec FloatFields FloatFieldsSpec FloatExpansion2D FloatExpansionSpec FloatExpansionProofs FloatExpansionCases.
From Coq Require Import Floats.
Import ListNotations.
Local Open Scope R_scope.

(** C113: in IEEE doubles the coefficients of the expansion of order [p] of fewer than [2^53] finite sources, with charges of at most [2^a] at distances of at
    most [2^b] from the center, are finite if [a + p (b + 1) <= 960].  (Missing: the later operations, for which C115 proves
    it in a smaller range, and all larger distances, for which it is false.) *)
Theorem C113_coefficients_partial A a b p c srcs : usual_product (f_mul A) -> (1 <= p)%nat -> (a + p * (b + 1) <= 960)%nat -> (Z.of_nat (length srcs) < 9007199254740992)%Z ->
  (forall y, In y c -> PrimFloat.is_finite y = true) -> (forall s y, In s srcs -> In y (ps_pos s) -> PrimFloat.is_finite y = true) ->
  (forall s, In s srcs -> PrimFloat.is_finite (ps_q s) = true /\ Rabs (real_of (ps_q s)) <= 2 ^ a /\ separation (ps_pos s) c <= 2 ^ b) ->
  Forall (fun z => PrimFloat.is_finite (fst z) = true /\ PrimFloat.is_finite (snd z) = true) (sf_co (me2_sourcesF A c p srcs)).
Proof. exact (coefficients_in_range A a b p c srcs). Qed.
Print Assumptions C113_coefficients_partial.
(** If the [k]-th power of the distance of one source from the center overflows, [k <= p], then at every point neither the potential nor a component of the
    force of the expansion, or of any expansion into which it is merged, is finite. *)
Theorem C113_multipole_overflow A p k e x : usual_product (f_mul A) -> (k <= p)%nat -> touched A p k e ->
  (exists v, me2_potF A e x = Ok v /\ PrimFloat.is_finite v = false) /\
  (exists f, me2_forceF A e x = Ok f /\ length f = 2%nat /\ forall y, In y f -> PrimFloat.is_finite y = false).
Proof. exact (fun HM => multipole_overflow A HM p k e x). Qed.
Print Assumptions C113_multipole_overflow.
(** The same holds for the local expansions derived from these, for those converted from an expansion so close that a power of the reciprocal of the
    distance of the centers overflows, and for those of sources one of which is so close to the center, whatever is added to them and wherever they are shifted; for the forces, if [k < p]. *)
Theorem C113_local_overflow A p k e x : usual_product (f_mul A) -> (k <= p)%nat -> touched_local A p k e ->
  PrimFloat.is_finite (le2_potF A e x) = false /\
  ((k < p)%nat -> length (le2_forceF A e x) = 2%nat /\ forall y, In y (le2_forceF A e x) -> PrimFloat.is_finite y = false).
Proof. exact (fun HM => local_overflow A HM p k e x). Qed.
Print Assumptions C113_local_overflow.
(** In large units: a source at distance [2^53] and the order 20.  The direct sum is finite, the expansion is not. *)
Theorem C113_large_units_refuted : exists srcs center p, moderate_sources 2 srcs /\ moderate 2 center /\
  (forall hypF hyp lgF lg e grav x, 0 <= e <= / 1000 -> norm_of 2 hypF hyp -> accurate_norm e hyp -> log_of lgF lg -> accurate_log e lg ->
    moderate 2 x -> evaluable true (map real_of x) (map real_src srcs) -> PrimFloat.is_finite (potential_sumF hypF lgF 2 grav true srcs x) = true) /\
  (forall A x, usual_product (f_mul A) -> exists v f, me2_potF A (me2_sourcesF A center p srcs) x = Ok v /\ me2_forceF A (me2_sourcesF A center p srcs) x = Ok f /\
    length f = 2%nat /\ forall y, In y (v :: f) -> PrimFloat.is_finite y = false).
Proof. exact far_refuted. Qed.
Print Assumptions C113_large_units_refuted.
(** In small units: two boxes at distance [2^-35] and the order 32, with the products and quotients of complex numbers computed by the textbook formulas.  The
    coefficients of the multipole expansion are finite, the local expansion converted from it is not. *)
Theorem C113_small_units_refuted : exists srcs c1 c2 p r tb, (forall s y, In s srcs -> In y (ps_q s :: ps_pos s) -> PrimFloat.is_finite y = true) /\
  (forall y, In y (c1 ++ c2) -> PrimFloat.is_finite y = true) /\
  Forall (fun z => PrimFloat.is_finite (fst z) = true /\ PrimFloat.is_finite (snd z) = true) (sf_co (me2_sourcesF plain c1 p srcs)) /\
  le2_m2l_manyF plain (mkbtF 0 []) c2 [me2_sourcesF plain c1 p srcs] = Ok (r, tb) /\
  forall x, PrimFloat.is_finite (le2_potF plain r x) = false /\ length (le2_forceF plain r x) = 2%nat /\ forall y, In y (le2_forceF plain r x) -> PrimFloat.is_finite y = false.
Proof. exact near_refuted. Qed.
Print Assumptions C113_small_units_refuted.
Example C113_usual : usual_product (f_mul plain) /\ usual_reciprocal (f_div plain) /\ usual_quotient (f_div plain).
Proof. exact (conj plain_usual (conj plain_reciprocal plain_quotient)). Qed.
Example C113_points_case : touched_local plain 32 31 (le2_sourcesF plain origin2 32 [PSrc near_center 1%float]).
Proof. exact near_points. Qed.
Example C113_coefficients_case : (2 + 30 * (1 + 1) <= 960)%nat /\ (forall y, In y origin2 -> PrimFloat.is_finite y = true) /\
  (forall s y, In s unit_sources -> In y (ps_pos s) -> PrimFloat.is_finite y = true) /\
  (forall s, In s unit_sources -> PrimFloat.is_finite (ps_q s) = true /\ Rabs (real_of (ps_q s)) <= 2 ^ 2 /\ separation (ps_pos s) origin2 <= 2 ^ 1).
Proof. exact unit_case. Qed.
Example C113_multipole_case : touched plain 20 20 (me2_sourcesF plain origin2 20 [far_source]).
Proof. exact (far_touched plain). Qed.
Example C113_local_case : exists r tb, le2_m2l_manyF plain (mkbtF 0 []) origin2 [near_multipole] = Ok (r, tb) /\ touched_local plain 32 31 r.
Proof. exact near_local. Qed.
