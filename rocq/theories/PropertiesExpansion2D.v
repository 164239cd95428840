(** Properties C09-C12, C16-C22: tables and two-dimensional expansions.
    [table_after orders] is the shared binomial table after expansions of these orders have been constructed. *)
From Coq Require Import Reals List Arith Lra Lia.
From Coquelicot Require Import Coquelicot.
From Verif Require Import Num Outcome Vec Tables CAux TableProofs Expansion2D Exp2Proofs Exp2Local Fields FieldSpec FieldProofs Exp2Errors Exp2Forces Exp2Theorems CasesExpansions.
Import ListNotations.
Local Open Scope R_scope.

(** C09 *)
Theorem C09_power_table nmax :
  (forall (x : C) n, (n <= nmax)%nat -> pow_get (pow_table (RtoC 1) Cmult x nmax) n = Ok (Cpow x n)) /\
  (forall (x : R) n, (n <= nmax)%nat -> pow_get (pow_table 1 Rmult x nmax) n = Ok (x ^ n)) /\
  (forall (x : C) n, (nmax < n)%nat -> pow_get (pow_table (RtoC 1) Cmult x nmax) n = UB).
Proof. exact (pow_table_spec nmax). Qed.
Print Assumptions C09_power_table.

(** C10: after any history the table holds Pascal's triangle up to the largest order requested so far, and zeros from
    there to twice that order; different pairs have different slots.  (With only orders 0 the table is empty.) *)
Theorem C10_binomial_table orders n k : (1 <= max_order orders)%nat -> (k <= n)%nat ->
  ((n <= max_order orders)%nat -> bt_get (table_after orders) n k = Ok (Binomial.C n k)) /\
  ((max_order orders < n <= 2 * max_order orders)%nat -> bt_get (table_after orders) n k = Ok 0).
Proof. exact (binomial_table_spec orders n k). Qed.
Print Assumptions C10_binomial_table.
Theorem C10_slots_distinct n k n' k' : (k <= n)%nat -> (k' <= n')%nat -> bt_index n k = bt_index n' k' -> n = n' /\ k = k'.
Proof. exact (binomial_slots n k n' k'). Qed.
Print Assumptions C10_slots_distinct.
Example C10_case : (1 <= max_order [3; 0; 7; 2])%nat /\ max_order [3; 0; 7; 2]%nat = 7%nat.
Proof. split; [cbn; lia|reflexivity]. Qed.

(** C11: the exact coefficients computed; they are the documented ones if the last multipole coefficient vanishes and
    an expansion of order at least [2 p - 2] exists; in general they are not. *)
Theorem C11_m2l_coefficients_partial orders center inc : wf_se inc -> (1 <= se_ord inc)%nat -> se_ctr inc <> cplx center ->
  nth (se_ord inc) (se_co inc) (RtoC 0) = RtoC 0 ->
  (2 * se_ord inc - 2 <= Nat.max (max_order orders) (se_ord inc))%nat ->
  exists tb', le2_m2l (table_after orders) center inc
  = Ok (mkse (se_ord inc) (cplx center)
          (map (documented_b (se_ord inc) (fun k => nth k (se_co inc) (RtoC 0)) (se_ctr inc - cplx center)%C) (seq 0 (S (se_ord inc)))), tb').
Proof. exact (m2l_documented orders center inc). Qed.
Print Assumptions C11_m2l_coefficients_partial.
Theorem C11_m2l_computed orders center inc : wf_se inc -> (1 <= se_ord inc)%nat -> se_ctr inc <> cplx center ->
  le2_m2l (table_after orders) center inc
  = Ok (mkse (se_ord inc) (cplx center)
          (map (computed_b (Nat.max (max_order orders) (se_ord inc)) (se_ord inc) (fun k => nth k (se_co inc) (RtoC 0)) (se_ctr inc - cplx center)%C)
             (seq 0 (S (se_ord inc)))), se_table (table_after orders) (se_ord inc)).
Proof. exact (m2l_computes orders center inc). Qed.
Print Assumptions C11_m2l_computed.
Theorem C11_m2l_coefficients_refuted : exists e tb',
  le2_m2l (table_after []) [0; 0] (me2_sources [2; 0] 1 [PSrc [3; 0] 1]) = Ok (e, tb') /\
  nth 1 (se_co e) (RtoC 0)
  <> documented_b 1 (fun k => nth k (se_co (me2_sources [2; 0] 1 [PSrc [3; 0] 1])) (RtoC 0)) (RtoC 2) 1.
Proof. exact m2l_not_documented. Qed.
Print Assumptions C11_m2l_coefficients_refuted.
Example C11_case : let inc := me2_sources [4; 0] 5 [PSrc [5; 0] 1; PSrc [4; 1] (-2)] in
  wf_se inc /\ (1 <= se_ord inc)%nat /\ se_ctr inc <> cplx [0; 0].
Proof. exact m2l_case. Qed.

(** C12: results of merging and of local shifts do not depend on the history; those of M2L do. *)
Theorem C12_merge_history_independent h1 h2 center es :
  (forall e, In e es -> wf_se e /\ (se_ord e <= max_order h1)%nat /\ (se_ord e <= max_order h2)%nat) ->
  omap fst (me2_merge (table_after h1) center es) = omap fst (me2_merge (table_after h2) center es).
Proof. exact (merge_history_independent h1 h2 center es). Qed.
Print Assumptions C12_merge_history_independent.
Theorem C12_l2l_history_independent h1 h2 center inc :
  omap fst (le2_l2l (table_after h1) center inc) = omap fst (le2_l2l (table_after h2) center inc).
Proof. exact (l2l_history_independent h1 h2 center inc). Qed.
Print Assumptions C12_l2l_history_independent.
Theorem C12_m2l_history_partial h1 h2 center inc : wf_se inc -> (1 <= se_ord inc)%nat -> se_ctr inc <> cplx center ->
  (se_ord inc <= 2)%nat \/ (2 * se_ord inc - 2 <= max_order h1 /\ 2 * se_ord inc - 2 <= max_order h2)%nat ->
  omap fst (le2_m2l (table_after h1) center inc) = omap fst (le2_m2l (table_after h2) center inc).
Proof. exact (m2l_history_independent h1 h2 center inc). Qed.
Print Assumptions C12_m2l_history_partial.
Theorem C12_m2l_history_refuted : exists h1 h2 e1 e2 t1 t2, 
  le2_m2l (table_after h1) [0; 0] (me2_sources [2; 0] 3 [PSrc [3; 0] 1]) = Ok (e1, t1) /\
  le2_m2l (table_after h2) [0; 0] (me2_sources [2; 0] 3 [PSrc [3; 0] 1]) = Ok (e2, t2) /\
  nth 3 (se_co e1) (RtoC 0) <> nth 3 (se_co e2) (RtoC 0).
Proof. exact m2l_history_dependent. Qed.
Print Assumptions C12_m2l_history_refuted.
Example C12_case : let e := me2_sources [1; 1] 3 unit_pair in
  wf_se e /\ (se_ord e <= max_order [3; 1])%nat /\ (se_ord e <= max_order [7])%nat /\ (1 <= se_ord e)%nat /\ se_ctr e <> cplx [0; 0] /\
  (2 * se_ord e - 2 <= max_order [4])%nat /\ (2 * se_ord e - 2 <= max_order [1; 7])%nat.
Proof. exact history_case. Qed.

(** C16, C19, C20: truncation errors, with [trunc_bound c p = c^(p+1) / ((p+1) (1-c))]. *)
Theorem C16_multipole_error center p srcs x rad r : length center = 2%nat -> length x = 2%nat -> same_dim 2 srcs ->
  0 <= rad < r -> (forall s, In s srcs -> dist (ps_pos s) center <= rad) -> r <= dist x center ->
  exists v, me2_pot (me2_sources center p srcs) x = Ok v /\
    Rabs (v - direct_potential 2 true srcs x) <= abs_charge srcs * ((rad / r) ^ (p + 1) / (INR (p + 1) * (1 - rad / r))).
Proof. exact (me2_error' center p srcs x rad r). Qed.
Print Assumptions C16_multipole_error.
Theorem C19_p2l_error center p srcs x rad r : length center = 2%nat -> length x = 2%nat -> same_dim 2 srcs ->
  0 <= rad < r -> (forall s, In s srcs -> r <= dist (ps_pos s) center) -> dist x center <= rad ->
  exists e, le2_sources center p srcs = Ok e /\
    Rabs (le2_pot e x - direct_potential 2 true srcs x) <= abs_charge srcs * ((rad / r) ^ (p + 1) / (INR (p + 1) * (1 - rad / r))).
Proof. exact (le2_error' center p srcs x rad r). Qed.
Print Assumptions C19_p2l_error.
Theorem C20_m2l_error orders center c p srcs x r1 r2 D : (1 <= p)%nat ->
  length center = 2%nat -> length c = 2%nat -> length x = 2%nat -> same_dim 2 srcs ->
  0 <= r1 -> 0 <= r2 -> r1 + r2 < D -> D <= dist c center ->
  (forall s, In s srcs -> dist (ps_pos s) c <= r2) -> dist x center <= r1 ->
  exists e tb', le2_m2l (table_after orders) center (me2_sources c p srcs) = Ok (e, tb') /\
    Rabs (le2_pot e x - direct_potential 2 true srcs x)
    <= abs_charge srcs * (((r1 + r2) / D) ^ (p + 1) / (INR (p + 1) * (1 - (r1 + r2) / D))).
Proof. exact (m2l2_error' orders center c p srcs x r1 r2 D). Qed.
Print Assumptions C20_m2l_error.
Example C16_case : length [0; 0] = 2%nat /\ length [4; 0] = 2%nat /\ same_dim 2 unit_pair /\ 0 <= 1 < 4 /\
  (forall s, In s unit_pair -> dist (ps_pos s) [0; 0] <= 1) /\ 4 <= dist [4; 0] [0; 0].
Proof. exact unit_pair_case. Qed.

Example C19_case : length [0; 0] = 2%nat /\ length [0; 1] = 2%nat /\ same_dim 2 [PSrc [4; 0] 1; PSrc [0; -5] (-2)] /\ 0 <= 1 < 4 /\
  (forall s, In s [PSrc [4; 0] 1; PSrc [0; -5] (-2)] -> 4 <= dist (ps_pos s) [0; 0]) /\ dist [0; 1] [0; 0] <= 1.
Proof. exact p2l2_case. Qed.
Example C20_case : (1 <= 3)%nat /\ same_dim 2 [PSrc [4; 1] 1; PSrc [3; 0] (-2)] /\ 0 <= 1 /\ 1 + 1 < 4 /\ 4 <= dist [4; 0] [0; 0] /\
  (forall s, In s [PSrc [4; 1] 1; PSrc [3; 0] (-2)] -> dist (ps_pos s) [4; 0] <= 1) /\ dist [0; 1] [0; 0] <= 1.
Proof. exact m2l2_case. Qed.

(** C17 *)
Theorem C17_multipole_shift_exact orders center p (parts : list (list R * list (psrc R))) : parts <> [] ->
  omap fst (me2_merge (table_after orders) center (map (fun cs => me2_sources (fst cs) p (snd cs)) parts))
  = Ok (me2_sources center p (flat_map snd parts)).
Proof. exact (merge_exact orders center p parts). Qed.
Print Assumptions C17_multipole_shift_exact.
(** ... where [me2_sources] has the coefficients of the definition: the total charge and [- sum q z^k / k]. *)
Theorem C17_multipole_coefficients center p srcs :
  se_ord (me2_sources center p srcs) = p /\ se_ctr (me2_sources center p srcs) = cplx center /\
  length (se_co (me2_sources center p srcs)) = S p /\
  nth 0 (se_co (me2_sources center p srcs)) (RtoC 0) = RtoC (rsum (fun s => ps_q s) srcs) /\
  forall k, (1 <= k <= p)%nat -> nth k (se_co (me2_sources center p srcs)) (RtoC 0)
    = (- lsum (fun s => RtoC (ps_q s) * Cpow (cplx (ps_pos s) - cplx center) k) srcs / RtoC (INR k))%C.
Proof. exact (me2_sources_definition center p srcs). Qed.
Print Assumptions C17_multipole_coefficients.
Example C17_case : [([0; 0], unit_pair); ([1; 0], [PSrc [2; 1] 5])] <> [].
Proof. discriminate. Qed.

(** C18 *)
Theorem C18_local_shift_exact orders center inc : wf_se inc -> (1 <= se_ord inc)%nat ->
  exists e tb', le2_l2l (table_after orders) center inc = Ok (e, tb') /\ se_ctr e = cplx center /\ se_ord e = se_ord inc /\ wf_se e /\
    forall x, le2_pot e x = le2_pot inc x /\ le2_force e x = le2_force inc x.
Proof. exact (l2l_exact orders center inc). Qed.
Print Assumptions C18_local_shift_exact.
(** ... where the potential is the real part of the polynomial with the stored coefficients. *)
Theorem C18_local_potential_is_polynomial e x :
  le2_pot e x = Re (lsum (fun k => nth k (se_co e) (RtoC 0) * Cpow (cplx x - se_ctr e) k) (seq 0 (length (se_co e))))%C.
Proof. exact (le2_pot_polynomial e x). Qed.
Print Assumptions C18_local_potential_is_polynomial.
Example C18_case : let e := me2_sources [1; 1] 3 unit_pair in wf_se e /\ (1 <= se_ord e)%nat.
Proof. split; apply history_case. Qed.

(** C21 *)
Theorem C21_local_force_is_minus_gradient e (x y : R) : se_co e <> [] ->
  is_derive (fun t : R => le2_pot e [t; y]) x (- nth 0 (le2_force e [x; y]) 0) /\
  is_derive (fun t : R => le2_pot e [x; t]) y (- nth 1 (le2_force e [x; y]) 0).
Proof. exact (le2_force_gradient e x y). Qed.
Print Assumptions C21_local_force_is_minus_gradient.
Theorem C21_multipole_force_is_minus_gradient e (x y : R) : se_co e <> [] -> cplx [x; y] <> se_ctr e ->
  exists (U : R -> R -> R) F, me2_force e [x; y] = Ok F /\ length F = 2%nat /\
    (forall x' y', cplx [x'; y'] <> se_ctr e -> me2_pot e [x'; y'] = Ok (U x' y')) /\
    is_derive (fun t : R => U t y) x (- nth 0 F 0) /\ is_derive (fun t : R => U x t) y (- nth 1 F 0).
Proof. exact (me2_force_gradient e x y). Qed.
Print Assumptions C21_multipole_force_is_minus_gradient.
Example C21_case : let e := me2_sources [4; 0] 5 unit_pair in se_co e <> [] /\ cplx [1; 2] <> se_ctr e.
Proof. exact force2_case. Qed.

(** C22 *)
Theorem C22_add_guarded a b : (length (se_co a) <> length (se_co b) \/ se_ctr a <> se_ctr b) <-> se_add a b = Throw.
Proof. exact (add_guarded a b). Qed.
Print Assumptions C22_add_guarded.
Theorem C22_add_pointwise a b : length (se_co a) = length (se_co b) -> se_ctr a = se_ctr b -> 
  exists e, se_add a b = Ok e /\ se_ctr e = se_ctr a /\ length (se_co e) = length (se_co a) /\
  (forall k, nth k (se_co e) (RtoC 0) = nth k (se_co a) (RtoC 0) + nth k (se_co b) (RtoC 0))%C /\
  (forall x, le2_pot e x = le2_pot a x + le2_pot b x) /\
  (forall x va vb, me2_pot a x = Ok va -> me2_pot b x = Ok vb -> me2_pot e x = Ok (va + vb)).
Proof. exact (add_pointwise a b). Qed.
Print Assumptions C22_add_pointwise.
Example C22_case : let a := me2_sources [4; 0] 5 unit_pair in let b := me2_sources [4; 0] 5 [PSrc [4; 1] 7] in
  length (se_co a) = length (se_co b) /\ se_ctr a = se_ctr b /\ se_ctr a <> se_ctr (me2_sources [4; 1] 5 unit_pair).
Proof. exact add2_case. Qed.
