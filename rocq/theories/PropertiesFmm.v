(** Properties C38-C42, C47, C48: order selection, accuracy and determinism of the two-dimensional adaptive tree, batch evaluation.
    [adaptive_fmm2 cap fuel eps srcs tb r]: [r] is a possible result of [AdaptiveFmmTree<2>(srcs, cap, eps)] under some schedule
    of the parallel loops, with the static table [tb] left behind by earlier expansions ([table_after orders]). [fuel] bounds
    the refinement depth; if [build_adaptive] returns a tree it was large enough. *)
From Coq Require Import List Arith Reals ZArith Permutation.
From Verif Require Import Num Outcome Vec Orthtree AdaptiveTree GeometrySpec CAux FieldSpec Tables TableProofs Expansion2D Exp2Errors Fields
  TreeTheorems BuildProofs FmmPasses FmmTree2D FmmApi PassTree Exp2Theorems FmmApiProofs CasesFmm.
From Verif Require EpsRefuted.
Import ListNotations.
Local Open Scope R_scope.

(** C40: the order is the least [p] with [A / 2^p <= eps] (and is undefined if it does not fit 32 bits or [A <= eps / 2]). *)
Theorem C40_order_selection eps srcs p : order_of eps srcs = Ok p <->
  0 < eps /\ eps / 2 < abs_charge srcs /\ (Z.of_nat p < 2 ^ 32)%Z /\
  abs_charge srcs / 2 ^ p <= eps /\ (forall q, (q < p)%nat -> eps < abs_charge srcs / 2 ^ q).
Proof. exact (order_spec eps srcs p). Qed.
Print Assumptions C40_order_selection.
Theorem C40_order_undefined eps srcs : 0 < eps -> abs_charge srcs <= eps / 2 -> order_of eps srcs = UB.
Proof. exact (order_undefined eps srcs). Qed.
Print Assumptions C40_order_undefined.
Example C40_case : order_of 1 five_unit = Ok 3%nat.
Proof. exact five_unit_order. Qed.
Example C40_case_undefined : 0 < 1 /\ abs_charge [PSrc [0; 0] (1/4); PSrc [1; 0] (-1/4)] <= 1 / 2.
Proof. exact quarter_charges. Qed.

(** C38: potential.  With all sources in the root box, the constructor has exactly one result, and the potential it reports at
    [x] differs from the sum over the sources not at [x] by at most [A c^(p+1) / ((p+1)(1-c))], [c = sqrt 2 / 2]; by nothing if
    there is a single leaf; outside the root box it is the direct sum. *)
Theorem C38_potential_accuracy orders cap fuel eps srcs p t c l : same_dim 2 srcs -> order_of eps srcs = Ok p -> (1 <= p)%nat ->
  build_adaptive 2 (@ps_pos R) cap fuel srcs = Ok t ->
  root_box 2 (map (@ps_pos R) srcs) = Some (c, l) -> (forall s, In s srcs -> in_box 2 c l (ps_pos s)) ->
  exists o, (forall r, adaptive_fmm2 cap fuel eps srcs (table_after orders) r <-> r = Ok o) /\ fo_order o = p /\
  forall grav x, length x = 2%nat -> exists v, potential_at grav srcs o x = Ok v /\
     (in_box 2 c l x -> Rabs (v - direct_potential 2 grav (filter (fun s => negb (is_at x s)) srcs) x) <=
        (if (length srcs <=? cap)%nat then 0 else (sqrt 2 / 2) ^ S p / (INR (S p) * (1 - sqrt 2 / 2)) * abs_charge srcs)) /\
     (~ in_box 2 c l x -> v = direct_potential 2 grav srcs x).
Proof. exact (fmm2_potential orders cap fuel eps srcs p t c l). Qed.
Print Assumptions C38_potential_accuracy.
(** With hypotheses on the input only: *)
Theorem C38_usable orders cap eps srcs p : same_dim 2 srcs ->
  (forall j, (j < 2)%nat -> (exists s, In s srcs /\ nth j (ps_pos s) 0 <= 0) /\ (exists s, In s srcs /\ 0 <= nth j (ps_pos s) 0)) ->
  (forall x, count_occ list_R_eq_dec (map (@ps_pos R) srcs) x <= cap)%nat ->
  order_of eps srcs = Ok p -> eps < abs_charge srcs ->
  exists fuel o c l, root_box 2 (map (@ps_pos R) srcs) = Some (c, l) /\ (forall s, In s srcs -> in_box 2 c l (ps_pos s)) /\
  (forall r, adaptive_fmm2 cap fuel eps srcs (table_after orders) r <-> r = Ok o) /\
  forall grav x, length x = 2%nat -> exists v, potential_at grav srcs o x = Ok v /\
     (in_box 2 c l x -> Rabs (v - direct_potential 2 grav (filter (fun s => negb (is_at x s)) srcs) x) <=
        (sqrt 2 / 2) ^ S p / (INR (S p) * (1 - sqrt 2 / 2)) * abs_charge srcs) /\
     (~ in_box 2 c l x -> v = direct_potential 2 grav srcs x).
Proof. exact (fmm2_usable orders cap eps srcs p). Qed.
Print Assumptions C38_usable.
Example C38_tree_case : exists fuel t c l o, same_dim 2 five_unit /\ order_of 1 five_unit = Ok 3%nat /\ (1 <= 3)%nat /\
  build_adaptive 2 (@ps_pos R) 1 fuel five_unit = Ok t /\ root_box 2 (map (@ps_pos R) five_unit) = Some (c, l) /\
  (forall s, In s five_unit -> in_box 2 c l (ps_pos s)) /\ adaptive_fmm2 1 fuel 1 five_unit (table_after []) (Ok o).
Proof. exact tree2_case. Qed.
Example C38_case : same_dim 2 five_unit /\ straddles 2 five_unit /\
  (forall x, count_occ list_R_eq_dec (map (@ps_pos R) five_unit) x <= 1)%nat /\ order_of 1 five_unit = Ok 3%nat /\ 1 < abs_charge five_unit.
Proof. exact five_unit_case. Qed.

(** C47: force.  The sources not at [x] split into near ones, whose force is smoothed, and far ones, at least the side of a
    smallest leaf away in some coordinate, whose force is not; each component is accurate up to
    [A c^p / ((2 - sqrt 2) side)]. *)
Theorem C47_force_accuracy orders cap fuel eps srcs p t c l : same_dim 2 srcs -> order_of eps srcs = Ok p -> (1 <= p)%nat ->
  build_adaptive 2 (@ps_pos R) cap fuel srcs = Ok t ->
  root_box 2 (map (@ps_pos R) srcs) = Some (c, l) -> (forall s, In s srcs -> in_box 2 c l (ps_pos s)) ->
  exists o, (forall r, adaptive_fmm2 cap fuel eps srcs (table_after orders) r <-> r = Ok o) /\
  forall grav smooth x, length x = 2%nat -> 0 <= smooth -> exists v, force_at grav smooth srcs o x = Ok (map v (seq 0 2)) /\
     (in_box 2 c l x -> exists near far, Permutation (near ++ far) (filter (fun s => negb (is_at x s)) srcs) /\
       (forall s, In s far -> exists j, (j < 2)%nat /\ l / 2 ^ at_height t <= Rabs (nth j (ps_pos s) 0 - nth j x 0)) /\
       forall k, (k < 2)%nat ->
       Rabs (v k - (rsum (fun s => force_on 2 grav smooth s x k) near + rsum (fun s => force_on 2 grav 0 s x k) far)) <=
        (if (length srcs <=? cap)%nat then 0 else (sqrt 2 / 2) ^ p / ((2 - sqrt 2) * (l / 2 ^ at_height t)) * abs_charge srcs)) /\
     (~ in_box 2 c l x -> map v (seq 0 2) = direct_force 2 grav smooth srcs x).
Proof. exact (fmm2_force orders cap fuel eps srcs p t c l). Qed.
Print Assumptions C47_force_accuracy.
Theorem C47_force_accuracy_unsmoothed orders cap fuel eps srcs p t c l : same_dim 2 srcs -> order_of eps srcs = Ok p -> (1 <= p)%nat ->
  build_adaptive 2 (@ps_pos R) cap fuel srcs = Ok t ->
  root_box 2 (map (@ps_pos R) srcs) = Some (c, l) -> (forall s, In s srcs -> in_box 2 c l (ps_pos s)) ->
  forall o, adaptive_fmm2 cap fuel eps srcs (table_after orders) (Ok o) ->
  forall grav x, length x = 2%nat -> exists v, force_at grav 0 srcs o x = Ok v /\ length v = 2%nat /\
     (in_box 2 c l x -> forall k, (k < 2)%nat ->
       Rabs (nth k v 0 - nth k (direct_force 2 grav 0 (filter (fun s => negb (is_at x s)) srcs) x) 0) <=
        (sqrt 2 / 2) ^ p / ((2 - sqrt 2) * (l / 2 ^ at_height t)) * abs_charge srcs).
Proof. exact (fmm2_force_unsmoothed orders cap fuel eps srcs p t c l). Qed.
Print Assumptions C47_force_accuracy_unsmoothed.
Example C47_case : exists fuel t c l o, same_dim 2 five_unit /\ order_of 1 five_unit = Ok 3%nat /\ (1 <= 3)%nat /\
  build_adaptive 2 (@ps_pos R) 1 fuel five_unit = Ok t /\ root_box 2 (map (@ps_pos R) five_unit) = Some (c, l) /\
  (forall s, In s five_unit -> in_box 2 c l (ps_pos s)) /\ adaptive_fmm2 1 fuel 1 five_unit (table_after []) (Ok o).
Proof. exact tree2_case. Qed.

(** C41: all schedules of the parallel loops give the same object, none fails, and the shared table is not grown by them: it is
    the table left by the creation of the nodes, before the first parallel loop. *)
Theorem C41_deterministic orders cap fuel eps srcs p t c l : same_dim 2 srcs -> order_of eps srcs = Ok p -> (1 <= p)%nat ->
  build_adaptive 2 (@ps_pos R) cap fuel srcs = Ok t ->
  root_box 2 (map (@ps_pos R) srcs) = Some (c, l) -> (forall s, In s srcs -> in_box 2 c l (ps_pos s)) ->
  exists o, (forall r, adaptive_fmm2 cap fuel eps srcs (table_after orders) r <-> r = Ok o) /\
    m_tb (f_mem (fo_fmm o)) = m_tb (mem0 (ops2 p) t (table_after orders)).
Proof. exact (fmm2_deterministic orders cap fuel eps srcs p t c l). Qed.
Print Assumptions C41_deterministic.

(** For every source set whatever: if one schedule succeeds, so do all, with the same object and with no growth of the table. *)
Theorem C41_schedules_agree cap fuel eps srcs tb o : same_dim 2 srcs -> adaptive_fmm2 cap fuel eps srcs tb (Ok o) ->
  (forall r, adaptive_fmm2 cap fuel eps srcs tb r <-> r = Ok o) /\ m_tb (f_mem (fo_fmm o)) = m_tb (mem0 (ops2 (fo_order o)) (f_tree (fo_fmm o)) tb).
Proof. exact (fmm2_schedules_agree cap fuel eps srcs tb o). Qed.
Print Assumptions C41_schedules_agree.
Example C41_case : exists fuel t c l o, same_dim 2 five_unit /\ order_of 1 five_unit = Ok 3%nat /\ (1 <= 3)%nat /\
  build_adaptive 2 (@ps_pos R) 1 fuel five_unit = Ok t /\ root_box 2 (map (@ps_pos R) five_unit) = Some (c, l) /\
  (forall s, In s five_unit -> in_box 2 c l (ps_pos s)) /\ adaptive_fmm2 1 fuel 1 five_unit (table_after []) (Ok o).
Proof. exact tree2_case. Qed.

(** C42: batch evaluation, for any tree object ([eval] is its pointwise evaluation). *)
Theorem C42_energies_pointwise eval srcs (val : psrc R -> R) : (forall s, In s srcs -> eval (ps_pos s) = Ok (val s)) ->
  forall r, particle_energies eval srcs r <-> r = Ok (map (fun s => ps_q s * val s) srcs).
Proof. exact (batch_pointwise Rmult eval 0 srcs val). Qed.
Print Assumptions C42_energies_pointwise.
Theorem C42_forces_pointwise d eval srcs (val : psrc R -> list R) : (forall s, In s srcs -> eval (ps_pos s) = Ok (val s)) ->
  forall r, particle_forces d eval srcs r <-> r = Ok (map (fun s => map (fun u => u * ps_q s) (val s)) srcs).
Proof. exact (batch_pointwise (fun q v => vscale v q) eval (vzero d) srcs val). Qed.
Print Assumptions C42_forces_pointwise.
(** The two-dimensional adaptive tree always succeeds, and its energies are as accurate as its potential. *)
Theorem C42_energies_accurate orders cap fuel eps srcs p t c l : same_dim 2 srcs -> order_of eps srcs = Ok p -> (1 <= p)%nat ->
  build_adaptive 2 (@ps_pos R) cap fuel srcs = Ok t ->
  root_box 2 (map (@ps_pos R) srcs) = Some (c, l) -> (forall s, In s srcs -> in_box 2 c l (ps_pos s)) ->
  forall o, adaptive_fmm2 cap fuel eps srcs (table_after orders) (Ok o) ->
  forall grav, exists v, (forall r, particle_energies (potential_at grav srcs o) srcs r <-> r = Ok (map v srcs)) /\
    forall s, In s srcs -> Rabs (v s - ps_q s * direct_potential 2 grav (filter (fun u => negb (is_at (ps_pos s) u)) srcs) (ps_pos s)) <=
       Rabs (ps_q s) * ((sqrt 2 / 2) ^ S p / (INR (S p) * (1 - sqrt 2 / 2)) * abs_charge srcs).
Proof. exact (fmm2_energies orders cap fuel eps srcs p t c l). Qed.
Print Assumptions C42_energies_accurate.
Example C42_case : exists fuel t c l o, same_dim 2 five_unit /\ order_of 1 five_unit = Ok 3%nat /\ (1 <= 3)%nat /\
  build_adaptive 2 (@ps_pos R) 1 fuel five_unit = Ok t /\ root_box 2 (map (@ps_pos R) five_unit) = Some (c, l) /\
  (forall s, In s five_unit -> in_box 2 c l (ps_pos s)) /\ adaptive_fmm2 1 fuel 1 five_unit (table_after []) (Ok o).
Proof. exact tree2_case. Qed.

(** C48: a requested accuracy at least the total charge gives order 0, and then a tree with more than one leaf cannot be built:
    no schedule of the constructor returns an object (the assertions of the expansions fail). *)
Theorem C48_order_zero_unusable cap fuel eps srcs tb : same_dim 2 srcs -> order_of eps srcs = Ok 0%nat -> (cap < length srcs)%nat ->
  forall o, ~ adaptive_fmm2 cap fuel eps srcs tb (Ok o).
Proof. exact (fmm2_order_zero cap fuel eps srcs tb). Qed.
Print Assumptions C48_order_zero_unusable.
Example C48_case : same_dim 2 five_unit /\ order_of 6 five_unit = Ok 0%nat /\ (1 < length five_unit)%nat.
Proof. split; [exact (proj1 five_unit_case)|]. split; [exact five_unit_order0|apply le_n_S, le_n_S, le_0_n]. Qed.

(** C39: the potential is not always within the requested accuracy, even for distinct sources inside the root box, a point inside
    it and a process that builds its first tree: [direct_potential] is the exact sum, [o] the only possible tree. *)
Theorem C39_requested_accuracy_refuted : exists cap fuel eps srcs x c l o v,
  same_dim 2 srcs /\ NoDup (map (@ps_pos R) srcs) /\ 0 < eps < abs_charge srcs /\
  root_box 2 (map (@ps_pos R) srcs) = Some (c, l) /\ (forall s, In s srcs -> in_box 2 c l (ps_pos s)) /\ in_box 2 c l x /\
  (forall s, In s srcs -> ps_pos s <> x) /\
  (forall r, adaptive_fmm2 cap fuel eps srcs (table_after []) r <-> r = Ok o) /\
  potential_at true srcs o x = Ok v /\ eps < Rabs (v - direct_potential 2 true srcs x).
Proof. exact EpsRefuted.requested_accuracy_missed. Qed.
Print Assumptions C39_requested_accuracy_refuted.
(** What the requested accuracy does guarantee: an error of the order of the square root of [eps * abs_charge srcs]. *)
Theorem C39_requested_accuracy_partial orders cap fuel eps srcs p t c l : same_dim 2 srcs -> order_of eps srcs = Ok p -> (1 <= p)%nat ->
  build_adaptive 2 (@ps_pos R) cap fuel srcs = Ok t -> root_box 2 (map (@ps_pos R) srcs) = Some (c, l) ->
  (forall s, In s srcs -> in_box 2 c l (ps_pos s)) ->
  exists o, (forall r, adaptive_fmm2 cap fuel eps srcs (table_after orders) r <-> r = Ok o) /\
  forall grav x, length x = 2%nat -> exists v, potential_at grav srcs o x = Ok v /\
    Rabs (v - direct_potential 2 grav (filter (fun s => negb (is_at x s)) srcs) x) <=
      (1 + sqrt 2) / INR (S p) * sqrt (eps * abs_charge srcs).
Proof. exact (EpsRefuted.eps_guarantee orders cap fuel eps srcs p t c l). Qed.
Print Assumptions C39_requested_accuracy_partial.
