(** Property theorems: the force field of the two-dimensional adaptive method in rounded arithmetic. *)
From Coq Require Import Reals List Permutation.
From Verif Require Import Num Outcome Vec AdaptiveTree TreeSpec CAux FieldSpec FmmPasses Expansion2D Exp2Theorems Exp2Errors RoundedSpec RoundedProofs RoundedCases RoundedTree RoundedTreeSpec RoundedTreeCases
  RoundedExpansion2D RoundedComplexSpec TextbookComplex RoundedFmmSpec RoundedFmmTheorems RoundedFmmCases.
Import ListNotations.
Local Open Scope R_scope.

(** C93: with rounding errors as in double precision, for sources in range, the force field without smoothing of the two-dimensional
    adaptive tree at a point whose look-up finds a leaf, sources included, is in each component the direct sum over the other sources up to
    the truncation error of the expansions and a rounding error that does not grow with the number of sources.  With [m] the distance from
    the origin to which the sources extend at least, [m / 2 ^ height] is at most the radius of the smallest box.  … *)
Theorem C93_rounded_force rnd hyp lg w u e A p h cap fuel K m M srcs orders f x field n :
  double_like rnd hyp -> accurate_real w u e rnd hyp lg -> accurate_complex w A -> (1 <= p)%nat -> plane_range h m M srcs ->
  make_fmm_r rnd hyp (ops2_r A p) 2 cap fuel srcs (table_after orders) (Ok f) -> (at_height (f_tree f) <= h)%nat -> lists_within K f ->
  length x = 2%nat -> representable rnd x -> containing_leaf (N := NumRnd rnd) 2 (f_tree f) x = Ok (Some n) ->
  exists v, eval_force_r rnd hyp (ops2_r A p) 2 field 0 srcs f x = Ok v /\ length v = 2%nat /\ forall j, (j < 2)%nat ->
    Rabs (nth j v 0 - nth j (direct_force 2 field 0 (others x srcs) x) 0) <=
      3 * (3 / 4) ^ p / (m / 2 ^ at_height (f_tree f)) * abs_charge (others x srcs)
      + ((1 + w) ^ roundings p cap K (at_height (f_tree f)) - 1) *
        rsum (fun s => 3 / (m / 2 ^ at_height (f_tree f)) * Rabs (ps_q s) + Rabs (force_on 2 field 0 s x j)) (others x srcs).
Proof. exact (rounded_force_0 rnd hyp lg w u e A p h cap fuel K m M srcs orders f x field n). Qed.
Print Assumptions C93_rounded_force.
(** … with smoothing, the other sources fall into near ones, whose forces are smoothed, and far ones, no nearer than a third of that
    radius, whose forces are not; the same bounds hold. … *)
Theorem C93_rounded_smoothed_force rnd hyp lg w u e A p h cap fuel K m M srcs orders f x field eps n :
  double_like rnd hyp -> accurate_real w u e rnd hyp lg -> accurate_complex w A -> (1 <= p)%nat -> plane_range h m M srcs ->
  make_fmm_r rnd hyp (ops2_r A p) 2 cap fuel srcs (table_after orders) (Ok f) -> (at_height (f_tree f) <= h)%nat -> lists_within K f ->
  length x = 2%nat -> representable rnd x -> 0 <= eps -> containing_leaf (N := NumRnd rnd) 2 (f_tree f) x = Ok (Some n) ->
  exists near far v, Permutation (near ++ far) (others x srcs) /\ (forall s, In s far -> m / 2 ^ at_height (f_tree f) / 3 <= dist (ps_pos s) x) /\
    eval_force_r rnd hyp (ops2_r A p) 2 field eps srcs f x = Ok v /\ length v = 2%nat /\ forall j, (j < 2)%nat ->
    Rabs (nth j v 0 - (rsum (fun s => force_on 2 field eps s x j) near + rsum (fun s => force_on 2 field 0 s x j) far)) <=
      3 * (3 / 4) ^ p / (m / 2 ^ at_height (f_tree f)) * abs_charge far
      + ((1 + w) ^ roundings p cap K (at_height (f_tree f)) - 1) *
        (3 / (m / 2 ^ at_height (f_tree f)) * abs_charge far + rsum (fun s => Rabs (force_on 2 field eps s x j)) near).
Proof. exact (rounded_force rnd hyp lg w u e A p h cap fuel K m M srcs orders f x field eps n). Qed.
Print Assumptions C93_rounded_smoothed_force.
(** … where the look-up finds no leaf and there is no source, the force field is the smoothed direct sum up to the rounding errors of the
    summation. *)
Theorem C93_rounded_force_outside rnd hyp lg w u e A p h m M srcs f x field eps :
  accurate_real w u e rnd hyp lg -> plane_range h m M srcs -> length x = 2%nat -> representable rnd x ->
  0 <= eps -> containing_leaf (N := NumRnd rnd) 2 (f_tree f) x = Ok None -> (forall s, In s srcs -> ps_pos s <> x) ->
  exists v, eval_force_r rnd hyp (ops2_r A p) 2 field eps srcs f x = Ok v /\ length v = 2%nat /\ forall j, (j < 2)%nat ->
    Rabs (nth j v 0 - nth j (direct_force 2 field eps srcs x) 0) <= ((1 + w) ^ (length srcs + 14) - 1) * rsum (fun s => Rabs (force_on 2 field eps s x j)) srcs.
Proof. exact (fun HE HR Hx Hrep => rounded_force_outside rnd hyp lg w u e HE A p h m M srcs HR f x Hx Hrep field eps). Qed.
Print Assumptions C93_rounded_force_outside.
Example C93_arithmetic : double_like double_round double_norm /\ accurate_complex (/ 562949953421312) (textbook double_round double_norm double_log) /\
  accurate_real (/ 562949953421312) (/ 9007199254740992) (/ 4503599627370496) double_round double_norm double_log.
Proof. exact (conj double_is_double_like (conj double_complex double_real)). Qed.
Example C93_data : exists m M, plane_range 12 m M charges.
Proof. exact charges_plane. Qed.
Example C93_case : exists f v,
  make_fmm_r double_round double_norm (ops2_r (textbook double_round double_norm double_log) 10) 2 1 12 charges (table_after []) (Ok f) /\
  (at_height (f_tree f) <= 12)%nat /\
  eval_force_r double_round double_norm (ops2_r (textbook double_round double_norm double_log) 10) 2 true (1 / 8) charges f [1 / 2; 1 / 2] = Ok v /\ length v = 2%nat.
Proof. exact charges_force_case. Qed.
