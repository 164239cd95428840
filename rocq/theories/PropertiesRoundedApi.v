(** Property theorems: the order and the height computed in rounded arithmetic, and the constructors of the trees of the plane that use them.
    [bal_height_r rnd lg d n cap]: the height computed for [n] sources and [cap] sources per cell; [order_of_r rnd lg eps srcs]: the order;
    [abs_charge srcs]: the sum of the absolute values of the charges. *)
From Coq Require Import Reals List.
From Verif Require Import Num Outcome Vec AdaptiveTree BalancedTree TreeSpec CAux FieldSpec FmmPasses FmmApi BalancedFmm Expansion2D Exp2Theorems Exp2Errors RoundedSpec RoundedCases RoundedTree RoundedTreeSpec RoundedTreeCases
  RoundedExpansion2D RoundedComplexSpec TextbookComplex RoundedFmmSpec RoundedFmmCases RoundedBalancedFmm RoundedBalancedSpec RoundedBalancedTheorems RoundedApi RoundedHeight RoundedApiProofs RoundedHeightCases.
Import ListNotations.
Local Open Scope R_scope.

(** C97: with relative errors of at most 1e-7 in the quotients, the sum of the charges and the logarithm, the height is defined where exact
    arithmetic defines it by a margin of a thousandth, and is, up to a thousandth of the capacity, the least that gives enough leaves; … *)
Theorem C97_height rnd lg u e d n cap : 0 <= u <= / 10000000 -> 0 <= e <= / 10000000 -> accurate_rounding u rnd -> accurate_log e lg ->
  (1 <= d)%nat -> (1 <= cap)%nat -> / 2 ^ 64 <= INR n / INR cap <= 2 ^ 64 -> 1001 / 1000 * INR cap <= INR n * 2 ^ d ->
  exists k, bal_height_r rnd lg d n cap = Ok k /\ INR n <= 1001 / 1000 * (INR cap * (2 ^ d) ^ k) /\
    forall j, (j < k)%nat -> INR cap * (2 ^ d) ^ j < 1001 / 1000 * INR n.
Proof. exact (fun Hu He Hr Hl => height_rounded rnd lg u e Hu He Hr Hl d n cap). Qed.
Print Assumptions C97_height.
Theorem C97_height_undefined rnd lg u e d n cap : 0 <= u <= / 10000000 -> 0 <= e <= / 10000000 -> accurate_rounding u rnd -> accurate_log e lg ->
  (1 <= d)%nat -> (1 <= cap)%nat -> / 2 ^ 64 <= INR n / INR cap <= 2 ^ 64 -> 1001 / 1000 * (INR n * 2 ^ d) <= INR cap ->
  bal_height_r rnd lg d n cap = UB.
Proof. exact (fun Hu He Hr Hl => height_rounded_undefined rnd lg u e Hu He Hr Hl d n cap). Qed.
Print Assumptions C97_height_undefined.
(** … it differs from the height of exact arithmetic by at most one, and not at all unless the ratio of sources to capacity is within a
    thousandth of a power of the number of children; … *)
Theorem C97_height_off_by_one rnd lg u e d n cap h k : 0 <= u <= / 10000000 -> 0 <= e <= / 10000000 -> accurate_rounding u rnd -> accurate_log e lg ->
  (1 <= d)%nat -> (1 <= cap)%nat -> / 2 ^ 64 <= INR n / INR cap <= 2 ^ 64 ->
  bal_height d n cap = Ok h -> bal_height_r rnd lg d n cap = Ok k -> (k <= S h)%nat /\ (h <= S k)%nat.
Proof. exact (fun Hu He Hr Hl Hd Hc HQ => height_off_by_one rnd lg u e Hu He Hr Hl d n cap Hd Hc HQ h k). Qed.
Print Assumptions C97_height_off_by_one.
Theorem C97_height_same rnd lg u e d n cap : 0 <= u <= / 10000000 -> 0 <= e <= / 10000000 -> accurate_rounding u rnd -> accurate_log e lg ->
  (1 <= d)%nat -> (1 <= cap)%nat -> / 2 ^ 64 <= INR n / INR cap <= 2 ^ 64 -> 1001 / 1000 * INR cap <= INR n * 2 ^ d ->
  (forall j, INR n < 1000 / 1001 * (INR cap * (2 ^ d) ^ j) \/ 1001 / 1000 * (INR cap * (2 ^ d) ^ j) < INR n) ->
  exists k, bal_height_r rnd lg d n cap = Ok k /\ bal_height d n cap = Ok k.
Proof. exact (fun Hu He Hr Hl => height_same rnd lg u e Hu He Hr Hl d n cap). Qed.
Print Assumptions C97_height_same.
Example C97_height_case : exists k, bal_height_r double_round double_log 2 (length charges) 2 = Ok k /\ bal_height 2 (length charges) 2 = Ok k.
Proof. exact charges_height. Qed.
(** … and likewise the order, if the number of sources is not so large that their rounding errors add up to 1e-4. *)
Theorem C97_order rnd lg u e eps srcs : 0 <= u <= / 10000000 -> 0 <= e <= / 10000000 -> accurate_rounding u rnd -> accurate_log e lg ->
  0 < eps -> INR (length srcs) * u <= / 10000 -> / 2 ^ 100 <= abs_charge srcs / eps <= 2 ^ 100 -> 1001 / 1000 * (eps / 2) <= abs_charge srcs ->
  exists p, order_of_r rnd lg eps srcs = Ok p /\ abs_charge srcs / 2 ^ p <= 1001 / 1000 * eps /\
    forall q, (q < p)%nat -> eps < 1001 / 1000 * (abs_charge srcs / 2 ^ q).
Proof. exact (fun Hu He Hr Hl => order_rounded rnd lg u e Hu He Hr Hl eps srcs). Qed.
Print Assumptions C97_order.
Theorem C97_order_undefined rnd lg u e eps srcs : 0 <= u <= / 10000000 -> 0 <= e <= / 10000000 -> accurate_rounding u rnd -> accurate_log e lg ->
  0 < eps -> INR (length srcs) * u <= / 10000 -> / 2 ^ 100 <= abs_charge srcs / eps <= 2 ^ 100 -> 1001 / 1000 * abs_charge srcs <= eps / 2 ->
  order_of_r rnd lg eps srcs = UB.
Proof. exact (fun Hu He Hr Hl => order_rounded_undefined rnd lg u e Hu He Hr Hl eps srcs). Qed.
Print Assumptions C97_order_undefined.
Theorem C97_order_off_by_one rnd lg u e eps srcs p q : 0 <= u <= / 10000000 -> 0 <= e <= / 10000000 -> accurate_rounding u rnd -> accurate_log e lg ->
  0 < eps -> INR (length srcs) * u <= / 10000 -> / 2 ^ 100 <= abs_charge srcs / eps <= 2 ^ 100 ->
  order_of eps srcs = Ok p -> order_of_r rnd lg eps srcs = Ok q -> (q <= S p)%nat /\ (p <= S q)%nat.
Proof. exact (fun Hu He Hr Hl Hp Hn HQ => order_off_by_one rnd lg u e Hu He Hr Hl eps srcs Hp Hn HQ p q). Qed.
Print Assumptions C97_order_off_by_one.
Example C97_double : accurate_rounding (/ 9007199254740992) double_round /\ accurate_log (/ 4503599627370496) double_log.
Proof. exact (conj double_accurate double_log_accurate). Qed.
Example C97_order_case : 1001 / 1000 * (1 / 100) < abs_charge charges <= 2 ^ 100 * (1 / 100) /\ INR (length charges) * / 9007199254740992 <= / 10000.
Proof. exact charges_order_data. Qed.
(** In double precision with a correctly rounded logarithm the order is one more than needed for a charge of [2^29] and accuracy 1. *)
Theorem C97_order_one_more : exists eps srcs, order_of eps srcs = Ok 29%nat /\ order_of_r double_round double_log eps srcs = Ok 30%nat.
Proof. exact (ex_intro _ 1 (ex_intro _ heavy (conj heavy_exact heavy_rounded))). Qed.
Print Assumptions C97_order_one_more.

(** C98: the whole constructor of the two-dimensional balanced tree, called with the sources, the sources per cell and the accuracy, in
    rounded arithmetic: it has exactly one result under every schedule; the order makes [A / 2^p] at most the accuracy and the height
    gives enough leaves, both up to a thousandth; and the potential it reports satisfies the bound of C94. *)
Theorem C98_balanced_constructor rnd hyp lg w u e A eps srcs cap H m M B orders :
  double_like rnd hyp -> accurate_real w u e rnd hyp lg -> w <= / 10000000 -> accurate_complex w A ->
  0 < eps -> INR (length srcs) * u <= / 10000 -> 1001 / 1000 * eps < abs_charge srcs <= 2 ^ 100 * eps ->
  (1 <= cap)%nat -> 1001 / 1000 * INR cap <= INR (length srcs) * 4 -> 1001 / 1000 * INR (length srcs) <= INR cap * 4 ^ H ->
  bal_range H m M srcs -> logs_within H m M B ->
  exists o, (forall r, balanced_fmm2_r rnd hyp lg A cap eps srcs (table_after orders) r <-> r = Ok o) /\
  abs_charge srcs / 2 ^ bo_order o <= 1001 / 1000 * eps /\
  INR (length srcs) <= 1001 / 1000 * (INR cap * 4 ^ bt_height (b_tree (bo_fmm o))) /\ (bt_height (b_tree (bo_fmm o)) <= H)%nat /\
  forall K x field, leaves_within K (bo_fmm o) -> among 2 (@ps_pos R) srcs x -> representable rnd x ->
    exists v, bal_potential_at_r rnd hyp lg A field o x = Ok v /\
      Rabs (v - direct_potential 2 field (others x srcs) x) <=
        ((3 / 4) ^ S (bo_order o) / (INR (S (bo_order o)) * (1 - 3 / 4)) + - ln ((1 - e) * (1 - u))) * abs_charge (others x srcs)
        + rounding_part w (roundings (bo_order o) K 27 (bt_height (b_tree (bo_fmm o)))) B (- ln ((1 - e) * (1 - u))) (others x srcs) x.
Proof.
  exact (fun HD HE Hw HA Heps Hn Hq Hcap Hlo Hhi HR HL => balanced_rounded rnd hyp lg w u e A HD HE Hw HA eps srcs Heps Hn Hq cap H m M B Hcap Hlo Hhi HR HL orders).
Qed.
Print Assumptions C98_balanced_constructor.
(** The adaptive tree; the potential satisfies the bound of C91. *)
Theorem C98_adaptive_constructor rnd hyp lg w u e A eps srcs cap fuel h orders :
  double_like rnd hyp -> accurate_real w u e rnd hyp lg -> w <= / 10000000 -> accurate_complex w A ->
  0 < eps -> INR (length srcs) * u <= / 10000 -> 1001 / 1000 * eps < abs_charge srcs <= 2 ^ 100 * eps ->
  (1 <= cap)%nat -> (h <= fuel)%nat -> in_refinable_range 2 h (@ps_pos R) srcs ->
  exists o, (forall r, adaptive_fmm2_r rnd hyp lg A cap fuel eps srcs (table_after orders) r <-> r = Ok o) /\
  abs_charge srcs / 2 ^ fo_order o <= 1001 / 1000 * eps /\ (at_height (f_tree (fo_fmm o)) <= h)%nat /\
  forall m M B K x field n, plane_range h m M srcs -> logs_within h m M B -> lists_within K (fo_fmm o) -> length x = 2%nat -> representable rnd x ->
    containing_leaf (N := NumRnd rnd) 2 (f_tree (fo_fmm o)) x = Ok (Some n) ->
    exists v, potential_at_r rnd hyp lg A field srcs o x = Ok v /\
      Rabs (v - direct_potential 2 field (others x srcs) x) <=
        ((3 / 4) ^ S (fo_order o) / (INR (S (fo_order o)) * (1 - 3 / 4)) + - ln ((1 - e) * (1 - u))) * abs_charge (others x srcs)
        + rounding_part w (roundings (fo_order o) cap K (at_height (f_tree (fo_fmm o)))) B (- ln ((1 - e) * (1 - u))) (others x srcs) x.
Proof.
  exact (fun HD HE Hw HA Heps Hn Hq Hcap Hf HR => adaptive_rounded rnd hyp lg w u e A HD HE Hw HA eps srcs Heps Hn Hq cap fuel h Hcap Hf HR orders).
Qed.
Print Assumptions C98_adaptive_constructor.
Example C98_balanced_case : 1001 / 1000 * INR 2 <= INR (length charges) * 4 /\ 1001 / 1000 * INR (length charges) <= INR 2 * 4 ^ 3 /\ exists m M, bal_range 3 m M charges.
Proof. exact charges_bal_data. Qed.
Example C98_adaptive_case : in_refinable_range 2 12 (@ps_pos R) charges.
Proof. exact charges_refinable. Qed.
