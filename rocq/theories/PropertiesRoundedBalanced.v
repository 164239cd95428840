(** Property theorems: the balanced tree of the plane in rounded arithmetic. *)
From Coq Require Import Reals List Permutation.
From Verif Require Import Num Outcome Vec AdaptiveTree TreeSpec CAux FieldSpec BalancedTree BalancedFmm Expansion2D Exp2Theorems Exp2Errors RoundedSpec RoundedProofs RoundedCases RoundedTree RoundedTreeSpec RoundedTreeCases
  RoundedExpansion2D RoundedComplexSpec TextbookComplex RoundedFmmSpec RoundedFmmCases RoundedBalancedFmm RoundedBalancedSpec RoundedBalancedTheorems RoundedBalancedCases.
Import ListNotations.
Local Open Scope R_scope.

(** C94: with rounding errors as in double precision in the boxes and in the expansions, for sources in range, the constructor of the
    two-dimensional balanced tree succeeds for every height up to 16, under every schedule of its parallel loops with the same result; … *)
Theorem C94_balanced_construction rnd hyp w A p orders h m M srcs : double_like rnd hyp -> 0 <= w <= 1 / 2 -> accurate_complex w A ->
  (1 <= p)%nat -> bal_range h m M srcs ->
  exists f, bt_height (b_tree f) = h /\ forall r, make_bal_r rnd hyp (ops2_r A p) 2 h srcs (table_after orders) r <-> r = Ok f.
Proof. exact (rounded_bal_constructs rnd hyp w A p orders h m M srcs). Qed.
Print Assumptions C94_balanced_construction.
(** … its potential at every point of the bounding box of the sources, sources included, is the direct sum over the other sources up to the
    truncation error of the expansions, the error of the logarithm near 1, and a rounding error that grows with the number of sources of
    a leaf and the height, not with the number of all sources. *)
Theorem C94_balanced_potential rnd hyp lg w u e A p h cap m M B srcs orders f x field :
  double_like rnd hyp -> accurate_real w u e rnd hyp lg -> accurate_complex w A -> (1 <= p)%nat ->
  bal_range h m M srcs -> logs_within h m M B ->
  make_bal_r rnd hyp (ops2_r A p) 2 h srcs (table_after orders) (Ok f) -> leaves_within cap f ->
  among 2 (@ps_pos R) srcs x -> representable rnd x ->
  exists v, bal_pot_r rnd hyp lg (ops2_r A p) 2 field f x = Ok v /\
    Rabs (v - direct_potential 2 field (others x srcs) x) <=
      ((3 / 4) ^ S p / (INR (S p) * (1 - 3 / 4)) + - ln ((1 - e) * (1 - u))) * abs_charge (others x srcs)
      + rounding_part w (roundings p cap 27 h) B (- ln ((1 - e) * (1 - u))) (others x srcs) x.
Proof.
  exact (fun HD HE HA Hp HR HL Hf Hc Hx Hrep => rounded_bal_potential rnd hyp lg w u e HD HE A HA p Hp h cap m M srcs HR orders f Hf Hc x Hx Hrep B field HL).
Qed.
Print Assumptions C94_balanced_potential.
Example C94_arithmetic : double_like double_round double_norm /\ accurate_complex (/ 562949953421312) (textbook double_round double_norm double_log) /\
  accurate_real (/ 562949953421312) (/ 9007199254740992) (/ 4503599627370496) double_round double_norm double_log.
Proof. exact (conj double_is_double_like (conj double_complex double_real)). Qed.
Example C94_data : exists m M, bal_range 3 m M charges.
Proof. exact charges_bal. Qed.
Example C94_case : exists f v,
  make_bal_r double_round double_norm (ops2_r (textbook double_round double_norm double_log) 10) 2 3 charges (table_after []) (Ok f) /\
  bt_height (b_tree f) = 3%nat /\ leaves_within 9 f /\ among 2 (@ps_pos R) charges [1 / 2; 1 / 2] /\ representable double_round [1 / 2; 1 / 2] /\
  bal_pot_r double_round double_norm double_log (ops2_r (textbook double_round double_norm double_log) 10) 2 true f [1 / 2; 1 / 2] = Ok v.
Proof. exact charges_bal_case. Qed.

(** C95: the force field without smoothing of such a tree at every point of the bounding box of the sources is in each component the direct
    sum over the other sources up to the truncation error of the expansions and a rounding error that does not grow with the number of
    all sources.  With [m] the distance from the origin to which the sources extend at least, [m / 2 ^ h] is at most the radius of a leaf.  … *)
Theorem C95_balanced_force rnd hyp lg w u e A p h cap m M srcs orders f x field :
  double_like rnd hyp -> accurate_real w u e rnd hyp lg -> accurate_complex w A -> (1 <= p)%nat -> bal_range h m M srcs ->
  make_bal_r rnd hyp (ops2_r A p) 2 h srcs (table_after orders) (Ok f) -> leaves_within cap f ->
  among 2 (@ps_pos R) srcs x -> representable rnd x ->
  exists v, bal_force_r rnd hyp (ops2_r A p) 2 field 0 f x = Ok v /\ length v = 2%nat /\ forall j, (j < 2)%nat ->
    Rabs (nth j v 0 - nth j (direct_force 2 field 0 (others x srcs) x) 0) <=
      3 * (3 / 4) ^ p / (m / 2 ^ h) * abs_charge (others x srcs)
      + ((1 + w) ^ roundings p cap 27 h - 1) *
        rsum (fun s => 3 / (m / 2 ^ h) * Rabs (ps_q s) + Rabs (force_on 2 field 0 s x j)) (others x srcs).
Proof.
  exact (fun HD HE HA Hp HR Hf Hc Hx Hrep => rounded_bal_force_plain rnd hyp lg w u e HD HE A HA p Hp h cap m M srcs HR orders f Hf Hc x Hx Hrep field).
Qed.
Print Assumptions C95_balanced_force.
(** … with smoothing, the other sources fall into near ones, whose forces are smoothed, and far ones, no nearer than a third of that
    radius, whose forces are not; the same bounds hold. *)
Theorem C95_balanced_smoothed_force rnd hyp lg w u e A p h cap m M srcs orders f x field eps :
  double_like rnd hyp -> accurate_real w u e rnd hyp lg -> accurate_complex w A -> (1 <= p)%nat -> bal_range h m M srcs ->
  make_bal_r rnd hyp (ops2_r A p) 2 h srcs (table_after orders) (Ok f) -> leaves_within cap f ->
  among 2 (@ps_pos R) srcs x -> representable rnd x -> 0 <= eps ->
  exists near far v, Permutation (near ++ far) (others x srcs) /\ (forall s, In s far -> m / 2 ^ h / 3 <= dist (ps_pos s) x) /\
    bal_force_r rnd hyp (ops2_r A p) 2 field eps f x = Ok v /\ length v = 2%nat /\ forall j, (j < 2)%nat ->
    Rabs (nth j v 0 - (rsum (fun s => force_on 2 field eps s x j) near + rsum (fun s => force_on 2 field 0 s x j) far)) <=
      3 * (3 / 4) ^ p / (m / 2 ^ h) * abs_charge far
      + ((1 + w) ^ roundings p cap 27 h - 1) *
        (3 / (m / 2 ^ h) * abs_charge far + rsum (fun s => Rabs (force_on 2 field eps s x j)) near).
Proof.
  exact (fun HD HE HA Hp HR Hf Hc Hx Hrep => rounded_bal_force rnd hyp lg w u e HD HE A HA p Hp h cap m M srcs HR orders f Hf Hc x Hx Hrep field eps).
Qed.
Print Assumptions C95_balanced_smoothed_force.
Example C95_case : exists f v,
  make_bal_r double_round double_norm (ops2_r (textbook double_round double_norm double_log) 10) 2 3 charges (table_after []) (Ok f) /\
  leaves_within 9 f /\ among 2 (@ps_pos R) charges [1 / 2; 1 / 2] /\ representable double_round [1 / 2; 1 / 2] /\
  bal_force_r double_round double_norm (ops2_r (textbook double_round double_norm double_log) 10) 2 true (1 / 8) f [1 / 2; 1 / 2] = Ok v /\ length v = 2%nat.
Proof. exact charges_bal_force_case. Qed.
