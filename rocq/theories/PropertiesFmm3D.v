(** Properties C58-C61 (and C50 end to end): the three-dimensional trees.
    [adaptive_fmm3 cap fuel eps srcs tb r]: [r] is a possible result of [AdaptiveFmmTree<3>(srcs, cap, eps)] under some schedule
    of the parallel loops, with the static tables [tb] left behind by earlier expansions ([tables3_after orders = Ok tb]);
    likewise [balanced_fmm3]. *)
From Coq Require Import List Arith Reals ZArith.
From Verif Require Import Num Outcome Vec Orthtree AdaptiveTree GeometrySpec CAux FieldSpec Fields BuildProofs TreeTheorems TreeTheorems3 Tables3D
  FmmPasses FmmApi PassTree FmmApiProofs BalancedTree BalancedSpec BalancedFmm BalancedApiProofs BalancedTheorems FmmTree3D Exp3Theorems Fmm3ApiProofs Fmm3Theorems CasesFmm.
Import ListNotations.
Local Open Scope R_scope.

(** C58: potential of the adaptive tree.  With all sources in the root box and [1 <= p <= 42], one result for all schedules,
    with error at most [A 2 (sqrt 3 / (4 - sqrt 3))^(p+1) / ((2 - sqrt 3) s)], [s] the side of the smallest boxes. *)
Theorem C58_potential3_accuracy orders tb cap fuel eps srcs p t c l : tables3_after orders = Ok tb -> same_dim 3 srcs ->
  order_of eps srcs = Ok p -> (1 <= p <= 42)%nat -> build_adaptive 3 (@ps_pos R) cap fuel srcs = Ok t ->
  root_box 3 (map (@ps_pos R) srcs) = Some (c, l) -> (forall s, In s srcs -> in_box 3 c l (ps_pos s)) ->
  exists o, (forall r, adaptive_fmm3 cap fuel eps srcs tb r <-> r = Ok o) /\ f3_order o = p /\ f_tree (f3_fmm o) = t /\
  forall grav x, length x = 3%nat -> exists v, potential3_at grav srcs o x = Ok v /\
     (in_box 3 c l x -> Rabs (v - direct_potential 3 grav (filter (fun s => negb (is_at x s)) srcs) x) <=
        if (length srcs <=? cap)%nat then 0
        else 2 * (sqrt 3 / (4 - sqrt 3)) ^ S p / ((2 - sqrt 3) * (l / 2 ^ at_height t)) * abs_charge srcs) /\
     (~ in_box 3 c l x -> v = direct_potential 3 grav srcs x).
Proof. exact (fmm3_potential orders tb cap fuel eps srcs p t c l). Qed.
Print Assumptions C58_potential3_accuracy.
Example C58_tree_case : exists fuel t c l o, tables3_after [] = Ok tb3_init /\ same_dim 3 five3_unit /\ order_of 1 five3_unit = Ok 3%nat /\ (1 <= 3 <= 42)%nat /\
  build_adaptive 3 (@ps_pos R) 1 fuel five3_unit = Ok t /\ root_box 3 (map (@ps_pos R) five3_unit) = Some (c, l) /\
  (forall s, In s five3_unit -> in_box 3 c l (ps_pos s)) /\ adaptive_fmm3 1 fuel 1 five3_unit tb3_init (Ok o).
Proof. exact tree3_case. Qed.
(** With hypotheses on the input only: *)
Theorem C58_usable orders tb cap eps srcs p : tables3_after orders = Ok tb -> same_dim 3 srcs ->
  (forall j, (j < 3)%nat -> (exists s, In s srcs /\ nth j (ps_pos s) 0 <= 0) /\ (exists s, In s srcs /\ 0 <= nth j (ps_pos s) 0)) ->
  (forall x, count_occ list_R_eq_dec (map (@ps_pos R) srcs) x <= cap)%nat ->
  order_of eps srcs = Ok p -> eps < abs_charge srcs -> (p <= 42)%nat ->
  exists fuel t o c l, root_box 3 (map (@ps_pos R) srcs) = Some (c, l) /\ (forall s, In s srcs -> in_box 3 c l (ps_pos s)) /\
  build_adaptive 3 (@ps_pos R) cap fuel srcs = Ok t /\
  (forall r, adaptive_fmm3 cap fuel eps srcs tb r <-> r = Ok o) /\
  forall grav x, length x = 3%nat -> exists v, potential3_at grav srcs o x = Ok v /\
     (in_box 3 c l x -> Rabs (v - direct_potential 3 grav (filter (fun s => negb (is_at x s)) srcs) x) <=
        if (length srcs <=? cap)%nat then 0
        else 2 * (sqrt 3 / (4 - sqrt 3)) ^ S p / ((2 - sqrt 3) * (l / 2 ^ at_height t)) * abs_charge srcs) /\
     (~ in_box 3 c l x -> v = direct_potential 3 grav srcs x).
Proof. exact (fmm3_usable orders tb cap eps srcs p). Qed.
Print Assumptions C58_usable.
Example C58_case : same_dim 3 five3_unit /\ straddles 3 five3_unit /\ spread 3 (@ps_pos R) five3_unit /\
  (forall x, count_occ list_R_eq_dec (map (@ps_pos R) five3_unit) x <= 1)%nat /\ order_of 1 five3_unit = Ok 3%nat /\ 1 < abs_charge five3_unit.
Proof. exact five3_case. Qed.
Example C58_tables : tables3_after [] = Ok tb3_init /\ max_order3 [] = 0%nat /\
  exists tb, tables3_after [5; 2; 8]%nat = Ok tb /\ max_order3 [5; 2; 8]%nat = 8%nat.
Proof. exact five3_tables. Qed.

(** C59: potential of the balanced tree. *)
Theorem C59_balanced3_accuracy orders tb cap eps srcs p h c l : tables3_after orders = Ok tb -> same_dim 3 srcs ->
  order_of eps srcs = Ok p -> (1 <= p <= 42)%nat -> bal_height 3 (length srcs) cap = Ok h -> (h <= 10)%nat ->
  root_box 3 (map (@ps_pos R) srcs) = Some (c, l) -> 0 < l -> (forall s, In s srcs -> in_half_open 3 c l (ps_pos s)) ->
  exists o, (forall r, balanced_fmm3 cap eps srcs tb r <-> r = Ok o) /\ b3_order o = p /\ bt_height (b_tree (b3_fmm o)) = h /\
  forall grav x, length x = 3%nat -> in_half_open 3 c l x -> exists v, bal_potential3_at grav o x = Ok v /\
     Rabs (v - direct_potential 3 grav (filter (fun s => negb (is_at x s)) srcs) x) <=
        if (h =? 0)%nat then 0 else 2 * (sqrt 3 / (4 - sqrt 3)) ^ S p / ((2 - sqrt 3) * (l / 2 ^ h)) * abs_charge srcs.
Proof. exact (bal3_potential orders tb cap eps srcs p h c l). Qed.
Print Assumptions C59_balanced3_accuracy.
Theorem C59_usable orders tb cap eps srcs p : tables3_after orders = Ok tb -> same_dim 3 srcs -> spread 3 (@ps_pos R) srcs ->
  (1 <= cap)%nat -> (cap < length srcs * 2 ^ 3)%nat -> (Z.of_nat (length srcs) <= Z.of_nat cap * 2 ^ 30)%Z ->
  order_of eps srcs = Ok p -> eps < abs_charge srcs -> (p <= 42)%nat ->
  exists h o c l, bal_height 3 (length srcs) cap = Ok h /\ root_box 3 (map (@ps_pos R) srcs) = Some (c, l) /\ 0 < l /\
  (forall s, In s srcs -> in_half_open 3 c l (ps_pos s)) /\
  (forall r, balanced_fmm3 cap eps srcs tb r <-> r = Ok o) /\
  forall grav x, length x = 3%nat -> in_half_open 3 c l x -> exists v, bal_potential3_at grav o x = Ok v /\
     Rabs (v - direct_potential 3 grav (filter (fun s => negb (is_at x s)) srcs) x) <=
        if (h =? 0)%nat then 0 else 2 * (sqrt 3 / (4 - sqrt 3)) ^ S p / ((2 - sqrt 3) * (l / 2 ^ h)) * abs_charge srcs.
Proof. exact (bal3_usable orders tb cap eps srcs p). Qed.
Print Assumptions C59_usable.
Example C59_case : exists c l, tables3_after [] = Ok tb3_init /\ same_dim 3 five3_unit /\ spread 3 (@ps_pos R) five3_unit /\
  bal_height 3 (length five3_unit) 1 = Ok 1%nat /\ (1 < length five3_unit * 2 ^ 3)%nat /\ (Z.of_nat (length five3_unit) <= Z.of_nat 1 * 2 ^ 30)%Z /\
  root_box 3 (map (@ps_pos R) five3_unit) = Some (c, l) /\ 0 < l /\ (forall s, In s five3_unit -> in_half_open 3 c l (ps_pos s)).
Proof. exact balanced3_case. Qed.

(** C60: all schedules agree, for every source set whatever, and the parallel loops do not grow the shared tables. *)
Theorem C60_schedules3_agree cap fuel eps srcs tb o : same_dim 3 srcs -> adaptive_fmm3 cap fuel eps srcs tb (Ok o) ->
  (forall r, adaptive_fmm3 cap fuel eps srcs tb r <-> r = Ok o) /\
  tb3_refresh tb (Z.of_nat (f3_order o)) = Ok (m_tb (f_mem (f3_fmm o))).
Proof. exact (fmm3_schedules_agree cap fuel eps srcs tb o). Qed.
Print Assumptions C60_schedules3_agree.
Example C60_case : exists fuel t c l o, tables3_after [] = Ok tb3_init /\ same_dim 3 five3_unit /\ order_of 1 five3_unit = Ok 3%nat /\ (1 <= 3 <= 42)%nat /\
  build_adaptive 3 (@ps_pos R) 1 fuel five3_unit = Ok t /\ root_box 3 (map (@ps_pos R) five3_unit) = Some (c, l) /\
  (forall s, In s five3_unit -> in_box 3 c l (ps_pos s)) /\ adaptive_fmm3 1 fuel 1 five3_unit tb3_init (Ok o).
Proof. exact tree3_case. Qed.

(** C61: order 0 in a program that has made no larger expansion: the constructor never returns an object. *)
Theorem C61_order_zero3_unusable orders tb cap fuel eps srcs : tables3_after orders = Ok tb -> max_order3 orders = 0%nat ->
  same_dim 3 srcs -> order_of eps srcs = Ok 0%nat -> (cap < length srcs)%nat ->
  forall o, ~ adaptive_fmm3 cap fuel eps srcs tb (Ok o).
Proof. exact (fmm3_order_zero orders tb cap fuel eps srcs). Qed.
Print Assumptions C61_order_zero3_unusable.
Example C61_case : same_dim 3 five3_unit /\ order_of 6 five3_unit = Ok 0%nat /\ (1 < length five3_unit)%nat.
Proof. split; [exact five3_dim|]. split; [exact five3_order0|apply le_n_S, le_n_S, le_0_n]. Qed.

(** C50: an accuracy that selects an order above 42 aborts the program, for every source set. *)
Theorem C50_adaptive_order_limit orders tb cap fuel eps srcs p : tables3_after orders = Ok tb -> order_of eps srcs = Ok p -> (42 < p)%nat ->
  forall r, adaptive_fmm3 cap fuel eps srcs tb r <-> r = Abort.
Proof. exact (fmm3_order_limit orders tb cap fuel eps srcs p). Qed.
Print Assumptions C50_adaptive_order_limit.
Theorem C50_balanced_order_limit orders tb cap eps srcs p h : tables3_after orders = Ok tb -> order_of eps srcs = Ok p -> (42 < p)%nat ->
  bal_height 3 (length srcs) cap = Ok h -> forall r, balanced_fmm3 cap eps srcs tb r <-> r = Abort.
Proof. exact (bal3_order_limit orders tb cap eps srcs p h). Qed.
Print Assumptions C50_balanced_order_limit.
Example C50_case_order : exists eps, order_of eps five3_unit = Ok 43%nat.
Proof. exact five3_order43. Qed.
