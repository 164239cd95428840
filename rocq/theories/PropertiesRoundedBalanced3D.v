(** Property theorems: the three-dimensional balanced tree in rounded arithmetic. *)
From Coq Require Import Reals List ZArith.
From Verif Require Import Num Outcome Vec AdaptiveTree TreeSpec FieldSpec FmmPasses BalancedTree BalancedFmm Tables3D FmmTree3D Exp3Theorems RoundedSpec RoundedCases RoundedTree RoundedTreeSpec RoundedTreeCases
  RoundedExpansion3D RoundedHarmonicSpec RoundedFmmSpec RoundedFmmSpec3 RoundedApi RoundedFmmTheorems3 RoundedFmmCases RoundedFmmCases3 RoundedTableCases RoundedBalancedFmm RoundedBalancedSpec RoundedBalancedSpec3
  RoundedBalancedApi3 RoundedBalancedTheorems3 RoundedBalancedCases3.
Import ListNotations.
Local Open Scope R_scope.

(** C110: the constructor of the three-dimensional balanced tree, called with the sources, the sources per cell and the accuracy, in rounded
    arithmetic: it has exactly one result under every schedule; the order makes [A / 2^p] at most the accuracy up to a thousandth, and the
    height makes [cap * 8^h] at least the number of sources up to a thousandth; the potential at every point of the bounding box of the sources,
    sources included, is the direct sum over the other sources up to the truncation error and a rounding error that grows with the number of
    sources of a leaf and the height, not with the number of all sources. *)
Theorem C110_balanced_tree rnd hyp lg w u e ky A mforce lforce eps srcs cap H m M orders tb :
  double_like rnd hyp -> accurate_space w u e rnd hyp -> accurate_log e lg -> w <= / 10000000 -> accurate_harmonics w ky A ->
  0 < eps -> INR (length srcs) * u <= / 10000 -> 1001 / 1000 * eps < abs_charge srcs <= 2 ^ 41 * eps ->
  (1 <= cap)%nat -> 1001 / 1000 * INR cap <= INR (length srcs) * 8 -> 1001 / 1000 * INR (length srcs) <= INR cap * 8 ^ H ->
  bal_range3 H m M srcs -> tables3_after orders = Ok tb ->
  exists o, (forall r, balanced_fmm3_r rnd hyp lg A mforce lforce cap eps srcs tb r <-> r = Ok o) /\
  abs_charge srcs / 2 ^ b3_order o <= 1001 / 1000 * eps /\
  INR (length srcs) <= 1001 / 1000 * (INR cap * 8 ^ bt_height (b_tree (b3_fmm o))) /\ (bt_height (b_tree (b3_fmm o)) <= H)%nat /\
  leaves_within (length srcs) (b3_fmm o) /\
  forall K x field, leaves_within K (b3_fmm o) -> among 3 (@ps_pos R) srcs x -> representable rnd x ->
    exists v, bal_potential3_at_r rnd hyp lg A mforce lforce field o x = Ok v /\
      Rabs (v - direct_potential 3 field (others x srcs) x) <=
        bound3 w (b3_order o) (bt_height (b_tree (b3_fmm o))) (roundings3 ky (b3_order o) K 189 (bt_height (b_tree (b3_fmm o)))) m (others x srcs) x.
Proof.
  exact (fun HD HE HL Hw HA Heps Hn Hq Hcap Hlo Hhi HR HT => balanced_rounded3 rnd hyp lg w u e HD HE HL Hw ky A HA mforce lforce eps srcs Heps Hn Hq cap H m M Hcap Hlo Hhi HR orders tb HT).
Qed.
Print Assumptions C110_balanced_tree.
(** The same for a given order and height. *)
Theorem C110_given_height rnd hyp w ky A mforce lforce p orders tb h m M srcs : double_like rnd hyp -> 0 <= w <= 1 / 2 -> accurate_harmonics w ky A ->
  (1 <= p <= max_order3 orders)%nat -> tables3_after orders = Ok tb -> bal_range3 h m M srcs ->
  exists f, bt_height (b_tree f) = h /\ forall r, make_bal_r rnd hyp (ops3_r A mforce lforce p) 3 h srcs tb r <-> r = Ok f.
Proof.
  exact (fun HD Hw HA Hp HT => rounded_bal_constructs3 rnd hyp w ky A mforce lforce p tb h m M srcs HD Hw HA (proj1 Hp) (tables3_for orders tb p HT Hp)).
Qed.
Print Assumptions C110_given_height.
Theorem C110_given_height_potential rnd hyp lg w u e ky A mforce lforce p orders tb h cap m M srcs f x field :
  double_like rnd hyp -> accurate_space w u e rnd hyp -> accurate_harmonics w ky A -> (1 <= p <= max_order3 orders)%nat -> tables3_after orders = Ok tb ->
  bal_range3 h m M srcs -> make_bal_r rnd hyp (ops3_r A mforce lforce p) 3 h srcs tb (Ok f) -> leaves_within cap f ->
  among 3 (@ps_pos R) srcs x -> representable rnd x ->
  exists v, bal_pot_r rnd hyp lg (ops3_r A mforce lforce p) 3 field f x = Ok v /\
    Rabs (v - direct_potential 3 field (others x srcs) x) <= bound3 w p h (roundings3 ky p cap 189 h) m (others x srcs) x.
Proof.
  exact (fun HD HE HA Hp HT HR Hf HK Hx Hrep => rounded_bal_potential3 rnd hyp lg w u e HD HE ky A HA mforce lforce p (proj1 Hp) h cap m M srcs HR tb
    (tables3_for orders tb p HT Hp) f Hf HK x Hx Hrep field).
Qed.
Print Assumptions C110_given_height_potential.
Example C110_double : double_like double_round double_norm /\ accurate_space (/ 562949953421312) (/ 9007199254740992) (/ 4503599627370496) double_round double_norm /\
  accurate_log (/ 4503599627370496) double_log /\ accurate_harmonics (/ 562949953421312) 1 double_harith.
Proof. exact (conj double_is_double_like (conj double_space (conj double_log_accurate double_harmonics))). Qed.
Example C110_data : bal_range3 2 (1 / 10) 100 ten_charges /\ 1001 / 1000 * INR 1 <= INR (length ten_charges) * 8 /\
  1001 / 1000 * INR (length ten_charges) <= INR 1 * 8 ^ 2 /\
  1001 / 1000 * (1 / 100) < abs_charge ten_charges <= 2 ^ 41 * (1 / 100) /\ INR (length ten_charges) * / 9007199254740992 <= / 10000.
Proof. exact (conj ten_bal (conj (proj1 ten_height) (conj (proj2 ten_height) ten_order))). Qed.
Example C110_case : exists tb o v, tables3_after [] = Ok tb /\
  balanced_fmm3_r double_round double_norm double_log double_table_harith (fun _ _ => UB) (fun _ _ => UB) 1 (1 / 100) ten_charges tb (Ok o) /\
  leaves_within 10 (b3_fmm o) /\ among 3 (@ps_pos R) ten_charges [1 / 2; 1 / 2; 1 / 2] /\ representable double_round [1 / 2; 1 / 2; 1 / 2] /\
  bt_height (b_tree (b3_fmm o)) = 2%nat /\
  bal_potential3_at_r double_round double_norm double_log double_table_harith (fun _ _ => UB) (fun _ _ => UB) true o [1 / 2; 1 / 2; 1 / 2] = Ok v.
Proof. exact ten_bal_case. Qed.
