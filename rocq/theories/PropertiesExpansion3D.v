(** Properties C13-C15, C50-C57: tables and three-dimensional expansions.
    [tables3_after orders] is the outcome of constructing expansions of these orders, oldest first, in a fresh program: the
    static tables they leave behind.  [wf3 p e]: [e] has order [p], a centre in space and [(p+1)^2] coefficients, like every
    expansion made by a constructor. *)
From Coq Require Import Reals List Arith ZArith.
From Coquelicot Require Import Complex.
From Verif Require Import Num Outcome Vec Tables3D Expansion3D CAux FieldSpec Fields Exp3Theorems Exp3Cases CasesExpansions.
Import ListNotations.
Local Open Scope R_scope.

(** C50: the tables can be made iff no order is above 42. *)
Theorem C50_order_limit orders : (forall o, In o orders -> (o <= 42)%nat) <-> exists tb, tables3_after orders = Ok tb.
Proof. exact (tables3_iff orders). Qed.
Print Assumptions C50_order_limit.
Theorem C50_order_above_limit orders tb p : tables3_after orders = Ok tb -> (42 < p)%nat -> tables3_after (orders ++ [p]) = Abort.
Proof. exact (tables3_abort orders tb p). Qed.
Print Assumptions C50_order_above_limit.
Example C50_case : exists tb, tables3_after [5; 2; 8]%nat = Ok tb.
Proof. exact tables_case. Qed.

(** C13 *)
Theorem C13_alm_lookup orders tb l m : tables3_after orders = Ok tb -> (1 <= max_order3 orders)%nat -> (Z.abs m <= l <= 2 * Z.of_nat (max_order3 orders))%Z ->
  alm_get (t_alm tb) l m = Ok ((-1) ^ Z.to_nat l / sqrt (INR (fact (Z.to_nat (l - m))) * INR (fact (Z.to_nat (l + m))))).
Proof. exact (alm_lookup orders tb l m). Qed.
Print Assumptions C13_alm_lookup.
Theorem C13_slots_distinct l m l' m' : (Z.abs m <= l)%Z -> (Z.abs m' <= l')%Z -> sh_index l m = sh_index l' m' -> l = l' /\ m = m'.
Proof. exact (alm_slots l m l' m'). Qed.
Print Assumptions C13_slots_distinct.

(** C14 *)
Theorem C14_sign_functions k m :
  (exists s, sign_fun1 k m = Ok s /\ RtoC s = i_pow (Z.abs k - Z.abs m - Z.abs (k - m))) /\
  (exists s, sign_fun2 k m = Ok s /\ RtoC s = i_pow (Z.abs (k - m) - Z.abs k - Z.abs m)) /\
  (exists s, sign_fun3 k m = Ok s /\ RtoC s = i_pow (Z.abs m - Z.abs (m - k) - Z.abs k)).
Proof. exact (sign_functions k m). Qed.
Print Assumptions C14_sign_functions.
Theorem C14_sign_lookup orders tb k m : tables3_after orders = Ok tb -> (1 <= max_order3 orders)%nat ->
  (Z.abs k <= Z.of_nat (max_order3 orders))%Z -> (Z.abs m <= Z.of_nat (max_order3 orders))%Z ->
  st_get (t_s1 tb) k m = sign_fun1 k m /\ st_get (t_s2 tb) k m = sign_fun2 k m /\ st_get (t_s3 tb) k m = sign_fun3 k m.
Proof. exact (sign_lookup orders tb k m). Qed.
Print Assumptions C14_sign_lookup.
Example C13_C14_case : exists tb, tables3_after [5; 2; 8]%nat = Ok tb /\ (1 <= max_order3 [5; 2; 8]%nat)%nat /\ (Z.abs (-7) <= 9 <= 2 * Z.of_nat (max_order3 [5; 2; 8]%nat))%Z /\
  (Z.abs (-7) <= Z.of_nat (max_order3 [5; 2; 8]%nat))%Z /\ (Z.abs 8 <= Z.of_nat (max_order3 [5; 2; 8]%nat))%Z.
Proof. exact tables3_case. Qed.

(** C15: an access outside a table would give the outcome [UB]; from order 1 on there is none.  With orders 0 only, every
    access is. *)
Theorem C15_lookups_in_bounds_partial orders tb p c e x : tables3_after orders = Ok tb -> (1 <= p <= max_order3 orders)%nat -> length c = 3%nat -> wf3 p e ->
  (exists e', me3_merge tb c [e] = Ok e' /\ wf3 p e') /\
  (exists e', le3_translate tb c e = Ok e' /\ wf3 p e') /\
  (s3_ctr e <> c -> exists e', le3_convert tb c e = Ok e' /\ wf3 p e') /\
  (length x = 3%nat -> exists v, le3_pot e x = Ok v) /\
  (length x = 3%nat -> x <> s3_ctr e -> exists v, me3_pot e x = Ok v).
Proof. exact (operations_succeed orders tb p c e x). Qed.
Print Assumptions C15_lookups_in_bounds_partial.
Theorem C15_order_zero_refuted : exists tb e, tables3_after [0%nat] = Ok tb /\ me3_sources [0; 0; 0] 0 [PSrc [1; 0; 0] 1] = Ok e /\ wf3 0 e /\
  me3_merge tb [0; 0; 1] [e] = UB /\ le3_translate tb [0; 0; 1] e = UB /\ le3_convert tb [0; 0; 1] e = UB.
Proof. exact order_zero_out_of_bounds. Qed.
Print Assumptions C15_order_zero_refuted.
Example C15_case : exists tb e, tables3_after [5; 2; 8]%nat = Ok tb /\ (1 <= 8 <= max_order3 [5; 2; 8])%nat /\
  me3_sources [0; 0; 0] 8 [PSrc [1; 0; 0] 1; PSrc [0; 1; 1] (-2)] = Ok e /\ wf3 8 e.
Proof. exact operations_case. Qed.

(** C51, C52, C53: truncation errors of the potential. *)
Theorem C51_multipole3_error center p srcs x rad r : length center = 3%nat -> length x = 3%nat -> same_dim 3 srcs ->
  0 <= rad < r -> (forall s, In s srcs -> dist (ps_pos s) center <= rad) -> r <= dist x center ->
  exists e v, me3_sources center (Z.of_nat p) srcs = Ok e /\ me3_pot e x = Ok v /\
    Rabs (v - direct_potential 3 true srcs x) <= abs_charge srcs * ((rad / r) ^ (p + 1) / (r - rad)).
Proof. exact (me3_error' center p srcs x rad r). Qed.
Print Assumptions C51_multipole3_error.
Theorem C52_p2l3_error center p srcs x rad r : length center = 3%nat -> length x = 3%nat -> same_dim 3 srcs ->
  0 <= rad < r -> (forall s, In s srcs -> r <= dist (ps_pos s) center) -> dist x center <= rad ->
  exists e v, le3_sources center (Z.of_nat p) srcs = Ok e /\ le3_pot e x = Ok v /\
    Rabs (v - direct_potential 3 true srcs x) <= abs_charge srcs * ((rad / r) ^ (p + 1) / (r - rad)).
Proof. exact (le3_error' center p srcs x rad r). Qed.
Print Assumptions C52_p2l3_error.
Theorem C53_m2l3_error orders tb center c p srcs x r1 r2 D : tables3_after orders = Ok tb -> (1 <= p <= max_order3 orders)%nat ->
  length center = 3%nat -> length c = 3%nat -> length x = 3%nat -> same_dim 3 srcs ->
  0 <= r1 -> 0 <= r2 -> r1 + r2 < D -> D <= dist c center ->
  (forall s, In s srcs -> dist (ps_pos s) c <= r2) -> dist x center <= r1 ->
  exists me e v, me3_sources c (Z.of_nat p) srcs = Ok me /\ le3_convert tb center me = Ok e /\ le3_pot e x = Ok v /\
    Rabs (v - direct_potential 3 true srcs x)
    <= abs_charge srcs * (((r2 / (D - r1)) ^ (p + 1) + (r1 / (D - r2)) ^ (p + 1)) / (D - r1 - r2)).
Proof. exact (m2l3_error' orders tb center c p srcs x r1 r2 D). Qed.
Print Assumptions C53_m2l3_error.
Example C51_case : length [0; 0; 0] = 3%nat /\ length [4; 0; 0] = 3%nat /\ same_dim 3 unit_pair3 /\ 0 <= 1 < 4 /\
  (forall s, In s unit_pair3 -> dist (ps_pos s) [0; 0; 0] <= 1) /\ 4 <= dist [4; 0; 0] [0; 0; 0].
Proof. exact unit_pair3_case. Qed.
Example C52_case : 0 <= 1 < 4 /\ (forall s, In s [PSrc [4; 0; 0] 1] -> 4 <= dist (ps_pos s) [0; 0; 0]) /\ dist [0; 1; 0] [0; 0; 0] <= 1.
Proof. exact p2l3_case. Qed.
Example C53_case : 0 <= 1 /\ 1 + 1 < 4 /\ 4 <= dist [4; 0; 0] [0; 0; 0] /\
  (forall s, In s [PSrc [4; 1; 0] 1] -> dist (ps_pos s) [4; 0; 0] <= 1) /\ dist [0; 1; 0] [0; 0; 0] <= 1.
Proof. exact m2l3_case. Qed.

(** C54: merging multipole expansions gives the multipole expansion of the union. *)
Theorem C54_multipole3_merge_exact orders tb center p (parts : list (list R * list (psrc R))) es : tables3_after orders = Ok tb -> (1 <= p <= max_order3 orders)%nat ->
  length center = 3%nat -> parts <> [] -> (forall u, In u parts -> length (fst u) = 3%nat /\ same_dim 3 (snd u)) ->
  omapM (fun u => me3_sources (fst u) (Z.of_nat p) (snd u)) parts = Ok es ->
  exists e, me3_merge tb center es = Ok e /\ me3_sources center (Z.of_nat p) (flat_map snd parts) = Ok e.
Proof. exact (me3_merge_exact' orders tb center p parts es). Qed.
Print Assumptions C54_multipole3_merge_exact.
Theorem C54_multipole3_total center p srcs : length center = 3%nat -> same_dim 3 srcs -> exists e, me3_sources center (Z.of_nat p) srcs = Ok e /\ wf3 p e.
Proof. exact (me3_sources_total center p srcs). Qed.
Print Assumptions C54_multipole3_total.
Example C54_case : exists tb es, tables3_after [5; 2; 8]%nat = Ok tb /\ (1 <= 6 <= max_order3 [5; 2; 8]%nat)%nat /\ length [1; 0; 0] = 3%nat /\
  (let parts := [([0; 0; 0], unit_pair3); ([0; 2; 0], [PSrc [0; 3; 1] 5])] in
   parts <> [] /\ (forall u, In u parts -> length (fst u) = 3%nat /\ same_dim 3 (snd u)) /\ omapM (fun u => me3_sources (fst u) (Z.of_nat 6) (snd u)) parts = Ok es).
Proof. exact merge3_case. Qed.

(** C55: translating a local expansion keeps its potential. *)
Theorem C55_local3_translation_exact orders tb center p e : tables3_after orders = Ok tb -> (1 <= p <= max_order3 orders)%nat ->
  length center = 3%nat -> wf3 p e ->
  exists e', le3_translate tb center e = Ok e' /\ s3_ctr e' = center /\ wf3 p e' /\
    forall x, length x = 3%nat -> exists v, le3_pot e x = Ok v /\ le3_pot e' x = Ok v.
Proof. exact (le3_translate_exact' orders tb center p e). Qed.
Print Assumptions C55_local3_translation_exact.

(** C56: no operation depends on the history of the tables. *)
Theorem C56_history_independent h1 h2 tb1 tb2 p c e es : tables3_after h1 = Ok tb1 -> tables3_after h2 = Ok tb2 ->
  (1 <= p <= max_order3 h1)%nat -> (1 <= p <= max_order3 h2)%nat -> length c = 3%nat -> wf3 p e -> (forall e', In e' es -> wf3 p e') ->
  me3_merge tb1 c es = me3_merge tb2 c es /\ le3_translate tb1 c e = le3_translate tb2 c e /\
  le3_convert tb1 c e = le3_convert tb2 c e.
Proof. exact (history_independent h1 h2 tb1 tb2 p c e es). Qed.
Print Assumptions C56_history_independent.

Example C55_C56_C57_case : exists tb1 tb2 e1 e2, tables3_after [5; 2; 8]%nat = Ok tb1 /\ tables3_after [6]%nat = Ok tb2 /\
  (1 <= 6 <= max_order3 [5; 2; 8]%nat)%nat /\ (1 <= 6 <= max_order3 [6]%nat)%nat /\ wf3 6 e1 /\ wf3 6 e2 /\ e1 <> e2 /\ s3_ctr e1 = s3_ctr e2 /\ s3_ctr e1 <> [1; 0; 0].
Proof. exact history3_case. Qed.

(** C57: addition. *)
Theorem C57_add3_guarded a b : (length (s3_co a) <> length (s3_co b) \/ s3_ctr a <> s3_ctr b) <-> s3_add a b = Throw.
Proof. exact (add3_guarded a b). Qed.
Print Assumptions C57_add3_guarded.
Theorem C57_add3_pointwise p a b : wf3 p a -> wf3 p b -> s3_ctr a = s3_ctr b ->
  exists e, s3_add a b = Ok e /\ s3_ctr e = s3_ctr a /\ wf3 p e /\
  (forall k, (k < length (s3_co a))%nat -> nth k (s3_co e) (RtoC 0) = nth k (s3_co a) (RtoC 0) + nth k (s3_co b) (RtoC 0))%C /\
  (forall x va vb, length x = 3%nat -> le3_pot a x = Ok va -> le3_pot b x = Ok vb -> le3_pot e x = Ok (va + vb)).
Proof. exact (add3_pointwise p a b). Qed.
Print Assumptions C57_add3_pointwise.
Theorem C57_add3_multipole_potential p a b e : wf3 p a -> wf3 p b -> s3_ctr a = s3_ctr b -> s3_add a b = Ok e ->
  forall x va vb, length x = 3%nat -> x <> s3_ctr a -> me3_pot a x = Ok va -> me3_pot b x = Ok vb -> me3_pot e x = Ok (va + vb).
Proof. exact (add3_multipoles p a b e). Qed.
Print Assumptions C57_add3_multipole_potential.
