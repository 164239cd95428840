(** Property theorems: the two-dimensional adaptive method in rounded arithmetic. *)
From Coq Require Import Reals List.
From Verif Require Import Num Outcome Vec AdaptiveTree TreeSpec FieldSpec FmmPasses Expansion2D Exp2Theorems Exp2Errors RoundedSpec RoundedProofs RoundedCases RoundedTree RoundedTreeSpec RoundedTreeCases
  RoundedExpansion2D RoundedComplexSpec TextbookComplex RoundedFmmSpec RoundedFmmTheorems RoundedFmmCases.
Import ListNotations.
Local Open Scope R_scope.

(** C90: with rounding errors as in double precision in the boxes and in the expansions, for data in range whose sources are apart, the
    constructor of the two-dimensional adaptive tree succeeds, and under every schedule of its parallel loops with the same result. *)
Theorem C90_rounded_construction rnd hyp w A p orders h cap fuel srcs : double_like rnd hyp -> 0 <= w <= 1 / 2 -> accurate_complex w A ->
  (1 <= p)%nat -> in_refinable_range 2 h (@ps_pos R) srcs -> (1 <= cap)%nat -> (h <= fuel)%nat ->
  exists f, (at_height (f_tree f) <= h)%nat /\
    forall r, make_fmm_r rnd hyp (ops2_r A p) 2 cap fuel srcs (table_after orders) r <-> r = Ok f.
Proof. exact (rounded_constructs rnd hyp w A p orders h cap fuel srcs). Qed.
Print Assumptions C90_rounded_construction.
Example C90_double : double_like double_round double_norm /\ accurate_complex (/ 562949953421312) (textbook double_round double_norm double_log).
Proof. exact (conj double_is_double_like double_complex). Qed.
Example C90_data : in_refinable_range 2 12 (@ps_pos R) charges.
Proof. exact charges_refinable. Qed.

(** C91: the potential of such a tree at a point whose look-up finds a leaf, sources included, is the direct sum over the other sources up to
    the truncation error of the expansions, the error of the logarithm near 1, and a rounding error that does not grow with the number of
    sources; … *)
Theorem C91_rounded_potential rnd hyp lg w u e A p h cap fuel K m M B srcs orders f x field n :
  double_like rnd hyp -> accurate_real w u e rnd hyp lg -> accurate_complex w A -> (1 <= p)%nat ->
  plane_range h m M srcs -> logs_within h m M B ->
  make_fmm_r rnd hyp (ops2_r A p) 2 cap fuel srcs (table_after orders) (Ok f) -> (at_height (f_tree f) <= h)%nat -> lists_within K f ->
  length x = 2%nat -> representable rnd x -> containing_leaf (N := NumRnd rnd) 2 (f_tree f) x = Ok (Some n) ->
  exists v, eval_pot_r rnd hyp lg (ops2_r A p) 2 field srcs f x = Ok v /\
    Rabs (v - direct_potential 2 field (others x srcs) x) <=
      ((3 / 4) ^ S p / (INR (S p) * (1 - 3 / 4)) + - ln ((1 - e) * (1 - u))) * abs_charge (others x srcs)
      + rounding_part w (roundings p cap K (at_height (f_tree f))) B (- ln ((1 - e) * (1 - u))) (others x srcs) x.
Proof.
  exact (fun HD HE HA Hp HR HL Hf Ht HK Hx Hrep => rounded_potential_found rnd hyp lg w u e HD HE A HA p Hp h cap fuel K m M B srcs HR HL orders f Hf Ht HK x Hx Hrep field n).
Qed.
Print Assumptions C91_rounded_potential.
(** … the look-up always ends; … *)
Theorem C91_rounded_lookup_ends rnd hyp lg w u e A p h cap fuel K m M B srcs orders f x :
  double_like rnd hyp -> accurate_real w u e rnd hyp lg -> accurate_complex w A -> (1 <= p)%nat ->
  plane_range h m M srcs -> logs_within h m M B ->
  make_fmm_r rnd hyp (ops2_r A p) 2 cap fuel srcs (table_after orders) (Ok f) -> (at_height (f_tree f) <= h)%nat -> lists_within K f ->
  exists ol, containing_leaf (N := NumRnd rnd) 2 (f_tree f) x = Ok ol.
Proof.
  exact (fun HD HE HA Hp HR HL Hf Ht HK => rounded_lookup_ends rnd hyp lg w u e HD HE A HA p Hp h cap fuel K m M B srcs HR HL orders f Hf Ht HK x).
Qed.
Print Assumptions C91_rounded_lookup_ends.
(** … and where it finds no leaf and there is no source, the potential is the direct sum up to the rounding errors of the summation. *)
Theorem C91_rounded_potential_outside rnd hyp lg w u e A p h cap fuel K m M B srcs orders f x field :
  double_like rnd hyp -> accurate_real w u e rnd hyp lg -> accurate_complex w A -> (1 <= p)%nat ->
  plane_range h m M srcs -> logs_within h m M B ->
  make_fmm_r rnd hyp (ops2_r A p) 2 cap fuel srcs (table_after orders) (Ok f) -> (at_height (f_tree f) <= h)%nat -> lists_within K f ->
  length x = 2%nat -> representable rnd x -> containing_leaf (N := NumRnd rnd) 2 (f_tree f) x = Ok None -> (forall s, In s srcs -> ps_pos s <> x) ->
  exists v, eval_pot_r rnd hyp lg (ops2_r A p) 2 field srcs f x = Ok v /\
    Rabs (v - direct_potential 2 field srcs x) <=
      - ln ((1 - e) * (1 - u)) * abs_charge srcs + rounding_part w (length srcs + 2) B (- ln ((1 - e) * (1 - u))) srcs x.
Proof.
  exact (fun HD HE HA Hp HR HL Hf Ht HK Hx Hrep => rounded_potential_outside rnd hyp lg w u e HD HE A HA p Hp h cap fuel K m M B srcs HR HL orders f Hf Ht HK x Hx Hrep field).
Qed.
Print Assumptions C91_rounded_potential_outside.
Example C91_double : accurate_real (/ 562949953421312) (/ 9007199254740992) (/ 4503599627370496) double_round double_norm double_log.
Proof. exact double_real. Qed.
Example C91_data : exists m M, plane_range 12 m M charges.
Proof. exact charges_plane. Qed.
Example C91_bounds h m M : 0 < m <= M -> exists B, logs_within h m M B.
Proof. exact (logs_within_ex h m M). Qed.
Example C91_case : exists f v,
  make_fmm_r double_round double_norm (ops2_r (textbook double_round double_norm double_log) 10) 2 1 12 charges (table_after []) (Ok f) /\
  (at_height (f_tree f) <= 12)%nat /\
  eval_pot_r double_round double_norm double_log (ops2_r (textbook double_round double_norm double_log) 10) 2 true charges f [1 / 2; 1 / 2] = Ok v.
Proof. exact charges_case. Qed.
