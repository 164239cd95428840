(** Property theorems: three-dimensional expansions and the three-dimensional adaptive tree in rounded arithmetic, and composition of shifts. *)
From Coq Require Import Reals List ZArith.
From Verif Require Import Num Outcome Vec AdaptiveTree TreeSpec FieldSpec FmmPasses FmmTree3D Tables3D Expansion3D Exp3Loops Exp3Errors Exp3Theorems Exp3Cases CasesExpansions RoundedSpec RoundedCases RoundedTree RoundedTreeSpec
  RoundedTreeCases RoundedExpansion2D RoundedExpansion3D RoundedComplexSpec RoundedHarmonicSpec RoundedFmmSpec RoundedFmmSpec3 RoundedApi RoundedApi3 RoundedFmmTheorems3 RoundedFmmCases RoundedFmmCases3
  RoundedChain3 ShiftTheorems3.
Import ListNotations.
Local Open Scope R_scope.

(** C106: the constructor of the three-dimensional adaptive tree, called with the sources, the sources per cell and the accuracy, in rounded
    arithmetic: it has exactly one result under every schedule; the order makes [A / 2^p] at most the accuracy up to a thousandth; looking up
    a point ends; where it finds a leaf the potential is the direct sum over the other sources up to the truncation error and a rounding
    error that does not grow with the number of sources, and elsewhere it is the direct sum up to the rounding errors of the summation. *)
Theorem C106_rounded_tree rnd hyp lg w u e ky A mforce lforce eps srcs cap fuel h orders tb :
  double_like rnd hyp -> accurate_space w u e rnd hyp -> accurate_log e lg -> w <= / 10000000 -> accurate_harmonics w ky A ->
  0 < eps -> INR (length srcs) * u <= / 10000 -> 1001 / 1000 * eps < abs_charge srcs <= 2 ^ 41 * eps ->
  (1 <= cap)%nat -> (h <= fuel)%nat -> in_refinable_range 3 h (@ps_pos R) srcs -> tables3_after orders = Ok tb ->
  exists o, (forall r, adaptive_fmm3_r rnd hyp lg A mforce lforce cap fuel eps srcs tb r <-> r = Ok o) /\
  abs_charge srcs / 2 ^ f3_order o <= 1001 / 1000 * eps /\ (at_height (f_tree (f3_fmm o)) <= h)%nat /\
  forall m M K x field, space_range h m M srcs -> lists_within K (f3_fmm o) -> length x = 3%nat -> representable rnd x ->
    (exists ol, containing_leaf (N := NumRnd rnd) 3 (f_tree (f3_fmm o)) x = Ok ol) /\
    (forall n, containing_leaf (N := NumRnd rnd) 3 (f_tree (f3_fmm o)) x = Ok (Some n) ->
      exists v, potential3_at_r rnd hyp lg A mforce lforce field srcs o x = Ok v /\
        Rabs (v - direct_potential 3 field (others x srcs) x) <=
          bound3 w (f3_order o) h (roundings3 ky (f3_order o) cap K (at_height (f_tree (f3_fmm o)))) m (others x srcs) x) /\
    (containing_leaf (N := NumRnd rnd) 3 (f_tree (f3_fmm o)) x = Ok None -> (forall s, In s srcs -> ps_pos s <> x) ->
      exists v, potential3_at_r rnd hyp lg A mforce lforce field srcs o x = Ok v /\
        Rabs (v - direct_potential 3 field srcs x) <= ((1 + u) ^ (length srcs + 1) / ((1 - e) * (1 - u)) - 1) * magnitude3 srcs x).
Proof.
  exact (fun HD HE HL Hw HA Heps Hn Hq Hcap Hf HR HT => adaptive_rounded3 rnd hyp lg w u e HD HE HL Hw ky A HA mforce lforce eps srcs Heps Hn Hq cap fuel h Hcap Hf HR orders tb HT).
Qed.
Print Assumptions C106_rounded_tree.
(** The same for a given order. *)
Theorem C106_given_order rnd hyp w ky A mforce lforce p orders tb h cap fuel srcs : double_like rnd hyp -> 0 <= w <= 1 / 2 -> accurate_harmonics w ky A ->
  (1 <= p <= max_order3 orders)%nat -> tables3_after orders = Ok tb -> in_refinable_range 3 h (@ps_pos R) srcs -> (1 <= cap)%nat -> (h <= fuel)%nat ->
  exists f, (at_height (f_tree f) <= h)%nat /\ forall r, make_fmm_r rnd hyp (ops3_r A mforce lforce p) 3 cap fuel srcs tb r <-> r = Ok f.
Proof.
  exact (fun HD Hw HA Hp HT => rounded_constructs3 rnd hyp w ky A mforce lforce p tb h cap fuel srcs HD Hw HA (proj1 Hp) (tables3_for orders tb p HT Hp)).
Qed.
Print Assumptions C106_given_order.
Theorem C106_given_order_potential rnd hyp lg w u e ky A mforce lforce p orders tb h cap fuel K m M srcs f x field n :
  double_like rnd hyp -> accurate_space w u e rnd hyp -> accurate_harmonics w ky A -> (1 <= p <= max_order3 orders)%nat -> tables3_after orders = Ok tb ->
  space_range h m M srcs -> make_fmm_r rnd hyp (ops3_r A mforce lforce p) 3 cap fuel srcs tb (Ok f) -> (at_height (f_tree f) <= h)%nat -> lists_within K f ->
  length x = 3%nat -> representable rnd x -> containing_leaf (N := NumRnd rnd) 3 (f_tree f) x = Ok (Some n) ->
  exists v, eval_pot_r rnd hyp lg (ops3_r A mforce lforce p) 3 field srcs f x = Ok v /\
    Rabs (v - direct_potential 3 field (others x srcs) x) <= bound3 w p h (roundings3 ky p cap K (at_height (f_tree f))) m (others x srcs) x.
Proof.
  exact (fun HD HE HA Hp HT HR Hf Ht HK Hx Hrep => rounded_potential_found3 rnd hyp lg w u e HD HE ky A HA mforce lforce p (proj1 Hp) h cap fuel K m M srcs HR tb
    (tables3_for orders tb p HT Hp) f Hf Ht HK x Hx Hrep field n).
Qed.
Print Assumptions C106_given_order_potential.
Example C106_double : double_like double_round double_norm /\ accurate_space (/ 562949953421312) (/ 9007199254740992) (/ 4503599627370496) double_round double_norm /\
  accurate_log (/ 4503599627370496) double_log /\ accurate_harmonics (/ 562949953421312) 1 double_harith.
Proof. exact (conj double_is_double_like (conj double_space (conj double_log_accurate double_harmonics))). Qed.
Example C106_data : in_refinable_range 3 12 (@ps_pos R) ten_charges /\ (exists m M, space_range 12 m M ten_charges) /\
  1001 / 1000 * (1 / 100) < abs_charge ten_charges <= 2 ^ 41 * (1 / 100) /\ INR (length ten_charges) * / 9007199254740992 <= / 10000.
Proof. exact (conj ten_refinable (conj ten_space ten_order)). Qed.
Example C106_case : exists tb o v, tables3_after [] = Ok tb /\
  adaptive_fmm3_r double_round double_norm double_log double_harith (fun _ _ => UB) (fun _ _ => UB) 1 12 (1 / 100) ten_charges tb (Ok o) /\
  potential3_at_r double_round double_norm double_log double_harith (fun _ _ => UB) (fun _ _ => UB) true ten_charges o [1 / 2; 1 / 2; 1 / 2] = Ok v.
Proof. exact ten_case. Qed.

(** C107: three-dimensional expansions used by hand in rounded arithmetic.  The potential of a multipole expansion of sources within [a] of its
    centre, at points at least [r] from it; … *)
Theorem C107_multipole_rounded w ky A p c srcs a r x : 0 <= w <= 1 / 2 -> accurate_harmonics w ky A ->
  length c = 3%nat -> same_dim 3 srcs -> (forall s, In s srcs -> dist (ps_pos s) c <= a) -> 0 <= a < r -> length x = 3%nat -> r <= dist x c ->
  exists e v, me3_sources_r A c (Z.of_nat p) srcs = Ok e /\ me3_pot_r A e x = Ok v /\
  Rabs (v - direct_potential 3 true srcs x) <= trunc3 a r p * abs_charge srcs +
    (growth3 w p (2 * (ky * (2 * p + 1) + 40 * p + 40) + (p + 1) * (p + 1) + length srcs) - 1) * (2 * (INR p + 1) ^ 3 * magnitude3 srcs x).
Proof. exact (fun Hw HA => multipole_rounded w Hw ky A HA p c srcs a r x). Qed.
Print Assumptions C107_multipole_rounded.
(** … of a local expansion of sources at least [r] from its centre, at points within [b] of it; … *)
Theorem C107_local_rounded w ky A p c srcs b r x : 0 <= w <= 1 / 2 -> accurate_harmonics w ky A ->
  length c = 3%nat -> same_dim 3 srcs -> 0 <= b < r -> (forall s, In s srcs -> r <= dist (ps_pos s) c) -> length x = 3%nat -> dist x c <= b ->
  exists e v, le3_sources_r A c (Z.of_nat p) srcs = Ok e /\ le3_pot_r A e x = Ok v /\
  Rabs (v - direct_potential 3 true srcs x) <= trunc3 b r p * abs_charge srcs +
    (growth3 w p (2 * (ky * (2 * p + 1) + 40 * p + 40) + (p + 1) * (p + 1) + length srcs) - 1) * (2 * (INR p + 1) ^ 3 * magnitude3 srcs x).
Proof. exact (fun Hw HA => local_rounded w Hw ky A HA p c srcs b r x). Qed.
Print Assumptions C107_local_rounded.
(** … and of the expansion obtained from sources near [cs] by shifting the multipole expansion to [ct], converting it to a local expansion about
    [cu] and translating that to [cv]: the only error besides the rounding is the truncation error of the conversion. *)
Theorem C107_chain_rounded w ky A p orders tb cs ct cu cv srcs a a' b b' r x : 0 <= w <= 1 / 2 -> accurate_harmonics w ky A ->
  tables3_after orders = Ok tb -> (1 <= p <= max_order3 orders)%nat ->
  length cs = 3%nat -> length ct = 3%nat -> length cu = 3%nat -> length cv = 3%nat -> length x = 3%nat -> same_dim 3 srcs ->
  0 <= a -> 0 <= b' -> (forall s, In s srcs -> dist (ps_pos s) cs <= a) -> a + dist cs ct <= a' -> a' + b < r -> r <= dist ct cu ->
  b' + dist cu cv <= b -> dist x cv <= b' ->
  exists e1 e2 e3 e4 v, me3_sources_r A cs (Z.of_nat p) srcs = Ok e1 /\ me3_merge_r A tb ct [e1] = Ok e2 /\ le3_convert_r A tb cu e2 = Ok e3 /\
    le3_translate_r A tb cv e3 = Ok e4 /\ le3_pot_r A e4 x = Ok v /\
  Rabs (v - direct_potential 3 true srcs x) <= trunc3_two a' b r p * abs_charge srcs +
    (growth3 w p (5 * (ky * (2 * p + 1) + 40 * p + 40) + (p + 1) * (p + 1) + length srcs + 1) - 1) * (2 * (INR p + 1) ^ 3 * magnitude3 srcs x).
Proof. exact (fun Hw HA => chain_rounded w Hw ky A HA p orders tb cs ct cu cv srcs a a' b b' r x). Qed.
Print Assumptions C107_chain_rounded.
Example C107_case : same_dim 3 chain_pair /\ (forall s, In s chain_pair -> dist (ps_pos s) [0; 0; 0] <= 1 / 2) /\
  1 / 2 + dist [0; 0; 0] [1; 0; 0] <= 3 / 2 /\ 3 / 2 + 3 / 2 < 7 /\ 7 <= dist [1; 0; 0] [8; 0; 0] /\ 1 / 2 + dist [8; 0; 0] [9; 0; 0] <= 3 / 2 /\ dist [9; 0; 0] [9; 0; 0] <= 1 / 2.
Proof. exact chain_case. Qed.

(** C108: in exact arithmetic, merging groups of multipole expansions and then the results is merging all at once; … *)
Theorem C108_merge_in_steps orders tb p (groups : list (list R * list se3)) c es : tables3_after orders = Ok tb -> (1 <= p <= max_order3 orders)%nat ->
  length c = 3%nat -> groups <> [] -> (forall g, In g groups -> length (fst g) = 3%nat /\ snd g <> [] /\ forall e, In e (snd g) -> wf3 p e) ->
  omapM (fun g => me3_merge tb (fst g) (snd g)) groups = Ok es -> me3_merge tb c es = me3_merge tb c (flat_map snd groups).
Proof. exact (fun HT Hp => merge_steps orders tb p HT Hp groups c es). Qed.
Print Assumptions C108_merge_in_steps.
(** … a shift of a multipole expansion can be undone; … *)
Theorem C108_merge_undone orders tb p c e : tables3_after orders = Ok tb -> (1 <= p <= max_order3 orders)%nat -> length c = 3%nat -> wf3 p e ->
  exists e', me3_merge tb c [e] = Ok e' /\ me3_merge tb (s3_ctr e) [e'] = Ok e.
Proof. exact (fun HT Hp => merge_back orders tb p HT Hp c e). Qed.
Print Assumptions C108_merge_undone.
(** … translating a local expansion twice is translating it once, and translating it back restores every coefficient. *)
Theorem C108_translations orders tb p c1 c2 e : tables3_after orders = Ok tb -> (1 <= p <= max_order3 orders)%nat -> length c1 = 3%nat -> length c2 = 3%nat -> wf3 p e ->
  exists e1, le3_translate tb c1 e = Ok e1 /\ le3_translate tb c2 e1 = le3_translate tb c2 e /\ le3_translate tb (s3_ctr e) e1 = Ok e.
Proof. exact (fun HT Hp => translate_steps orders tb p HT Hp c1 c2 e). Qed.
Print Assumptions C108_translations.
Example C108_case : exists tb1 tb2 e1 e2, tables3_after [5; 2; 8]%nat = Ok tb1 /\ tables3_after [6]%nat = Ok tb2 /\
  (1 <= 6 <= max_order3 [5; 2; 8]%nat)%nat /\ (1 <= 6 <= max_order3 [6]%nat)%nat /\ wf3 6 e1 /\ wf3 6 e2 /\ e1 <> e2 /\ s3_ctr e1 = s3_ctr e2 /\ s3_ctr e1 <> [1; 0; 0].
Proof. exact history3_case. Qed.
