(** Property theorems: rounding errors of the direct sums. *)
From Coq Require Import Reals List Arith Lra.
From Verif Require Import Num Outcome Vec CAux Schedule Fields FieldSpec RoundedFields RoundedSpec RoundedProofs RoundedCases RoundedPairs
  RoundedPairProofs RoundedPairCases.
Import ListNotations.
Local Open Scope R_scope.

(** C79: rounding moves the direct potential by at most a small multiple of the sum of the absolute terms: the plane, … *)
Theorem C79_plane_potential_error rnd hyp lg u e grav safe srcs x : 0 <= u < 1 -> 0 <= e < 1 ->
  accurate_rounding u rnd -> accurate_norm e hyp -> accurate_log e lg ->
  length x = 2%nat -> same_dim 2 srcs -> representable rnd x -> evaluable safe x srcs ->
  exists v, potential_sum_r rnd hyp lg 2 grav safe srcs x = Ok v /\
  Rabs (v - direct_potential 2 grav (others x srcs) x) <=
    ((1 + u) ^ (length srcs + 1) * (1 + e) - 1) * rsum (fun s => Rabs (ps_q s) * Rabs (ln (dist (ps_pos s) x))) (others x srcs)
    + (1 + u) ^ (length srcs + 1) * (1 + e) * - ln ((1 - e) * (1 - u)) * abs_charge (others x srcs).
Proof. exact (plane_potential_error rnd hyp lg u e grav safe srcs x). Qed.
Print Assumptions C79_plane_potential_error.
(** … space, … *)
Theorem C79_space_potential_error rnd hyp lg u e grav safe srcs x : 0 <= u < 1 -> 0 <= e < 1 ->
  accurate_rounding u rnd -> accurate_norm e hyp -> accurate_log e lg ->
  length x = 3%nat -> same_dim 3 srcs -> representable rnd x -> evaluable safe x srcs ->
  exists v, potential_sum_r rnd hyp lg 3 grav safe srcs x = Ok v /\
  Rabs (v - direct_potential 3 grav (others x srcs) x) <=
    ((1 + u) ^ (length srcs + 1) / ((1 - e) * (1 - u)) - 1) * rsum (fun s => Rabs (ps_q s) / dist (ps_pos s) x) (others x srcs).
Proof. exact (space_potential_error rnd hyp lg u e grav safe srcs x). Qed.
Print Assumptions C79_space_potential_error.
(** … and space with 53-bit arithmetic and at most 2^20 sources: below 2^-32. *)
Theorem C79_million_sources hyp lg e grav safe srcs x : 0 <= e <= / 4503599627370496 -> accurate_norm e hyp -> accurate_log e lg ->
  length x = 3%nat -> same_dim 3 srcs -> representable double_round x -> evaluable safe x srcs -> INR (length srcs) <= 1048576 ->
  exists v, potential_sum_r double_round hyp lg 3 grav safe srcs x = Ok v /\
  Rabs (v - direct_potential 3 grav (others x srcs) x) <= / 4294967296 * rsum (fun s => Rabs (ps_q s) / dist (ps_pos s) x) (others x srcs).
Proof. exact (million_sources hyp lg e grav safe srcs x). Qed.
Print Assumptions C79_million_sources.
Example C79_case :
  accurate_rounding (/ 9007199254740992) double_round /\ accurate_norm (/ 4503599627370496) double_norm /\
  accurate_log (/ 4503599627370496) double_log /\
  length grid_point = 3%nat /\ same_dim 3 near_pair /\ representable double_round grid_point /\ evaluable false grid_point near_pair.
Proof.
  exact (conj double_accurate (conj double_norm_accurate (conj double_log_accurate (conj eq_refl (conj near_pair_dim
    (conj grid_representable (or_intror near_pair_away))))))).
Qed.

(** C80: likewise for every component of the direct force. *)
Theorem C80_force_error rnd hyp u e d grav safe eps srcs x : 0 <= u < 1 -> 0 <= e < 1 ->
  accurate_rounding u rnd -> accurate_norm e hyp ->
  length x = d -> same_dim d srcs -> representable rnd x -> evaluable safe x srcs -> 0 <= eps ->
  exists f, forcefield_sum_r rnd hyp d grav safe eps srcs x = Ok f /\ length f = d /\
  forall k, (k < d)%nat ->
    Rabs (nth k f 0 - nth k (direct_force d grav eps (others x srcs) x) 0) <=
    ((1 + u) ^ (length srcs + 4) / (if (d =? 2)%nat then (1 - u) ^ 5 else (1 - e) ^ 3 * (1 - u) ^ 6) - 1)
    * rsum (fun s => Rabs (force_on d grav eps s x k)) (others x srcs).
Proof. exact (force_error rnd hyp u e d grav safe eps srcs x). Qed.
Print Assumptions C80_force_error.
Example C80_case :
  accurate_rounding (/ 9007199254740992) double_round /\ accurate_norm (/ 4503599627370496) double_norm /\
  length grid_point = 3%nat /\ same_dim 3 near_pair /\ representable double_round grid_point /\ evaluable false grid_point near_pair /\ 0 <= 0.
Proof.
  exact (conj double_accurate (conj double_norm_accurate (conj eq_refl (conj near_pair_dim
    (conj grid_representable (conj (or_intror near_pair_away) (Rle_refl 0))))))).
Qed.

(** C83: the parallel all-pairs functions, with every rounding and every schedule: energies in space, … *)
Theorem C83_space_energies_error rnd hyp lg u e grav (srcs : list (psrc R)) : 0 <= u < 1 -> 0 <= e < 1 ->
  accurate_rounding u rnd -> accurate_norm e hyp -> accurate_log e lg ->
  same_dim 3 srcs -> NoDup (map ps_pos srcs) -> (forall s, In s srcs -> representable rnd (ps_pos s)) ->
  exists its, ppe_iterations_r rnd hyp lg 3 grav srcs = Ok its /\
  (exists run, interleaving its run) /\
  forall run, interleaving its run ->
    length (ppe_result_r rnd (length srcs) run) = length srcs /\
    forall k sk, nth_error srcs k = Some sk ->
      Rabs (nth k (ppe_result_r rnd (length srcs) run) 0 - ps_q sk * direct_potential 3 grav (others (ps_pos sk) srcs) (ps_pos sk))
      <= ((1 + u) ^ (length srcs + 2) / ((1 - e) * (1 - u)) - 1)
         * (Rabs (ps_q sk) * rsum (fun s => Rabs (ps_q s) / dist (ps_pos s) (ps_pos sk)) (others (ps_pos sk) srcs)).
Proof. exact (space_energies_error rnd hyp lg u e grav srcs). Qed.
Print Assumptions C83_space_energies_error.
(** … the plane, … *)
Theorem C83_plane_energies_error rnd hyp lg u e grav (srcs : list (psrc R)) : 0 <= u < 1 -> 0 <= e < 1 ->
  accurate_rounding u rnd -> accurate_norm e hyp -> accurate_log e lg ->
  same_dim 2 srcs -> NoDup (map ps_pos srcs) -> (forall s, In s srcs -> representable rnd (ps_pos s)) ->
  exists its, ppe_iterations_r rnd hyp lg 2 grav srcs = Ok its /\
  (exists run, interleaving its run) /\
  forall run, interleaving its run ->
    length (ppe_result_r rnd (length srcs) run) = length srcs /\
    forall k sk, nth_error srcs k = Some sk ->
      Rabs (nth k (ppe_result_r rnd (length srcs) run) 0 - ps_q sk * direct_potential 2 grav (others (ps_pos sk) srcs) (ps_pos sk))
      <= ((1 + u) ^ (length srcs + 2) * (1 + e) - 1)
         * (Rabs (ps_q sk) * rsum (fun s => Rabs (ps_q s) * Rabs (ln (dist (ps_pos s) (ps_pos sk)))) (others (ps_pos sk) srcs))
         + (1 + u) ^ (length srcs + 2) * (1 + e) * - ln ((1 - e) * (1 - u)) * (Rabs (ps_q sk) * abs_charge (others (ps_pos sk) srcs)).
Proof. exact (plane_energies_error rnd hyp lg u e grav srcs). Qed.
Print Assumptions C83_plane_energies_error.
(** … and the forces. *)
Theorem C83_forces_error rnd hyp u e d grav (srcs : list (psrc R)) eps : 0 <= u < 1 -> 0 <= e < 1 ->
  accurate_rounding u rnd -> accurate_norm e hyp ->
  same_dim d srcs -> NoDup (map ps_pos srcs) -> (forall s, In s srcs -> representable rnd (ps_pos s)) -> 0 <= eps ->
  exists its, pf_iterations_r rnd hyp d grav eps srcs = Ok its /\
  (exists run, interleaving its run) /\
  forall run, interleaving its run ->
    forall k sk c, nth_error srcs k = Some sk -> (c < d)%nat ->
      length (pf_result_r rnd d (length srcs) run) = length srcs /\
      length (nth k (pf_result_r rnd d (length srcs) run) []) = d /\
      Rabs (nth c (nth k (pf_result_r rnd d (length srcs) run) []) 0 - ps_q sk * nth c (direct_force d grav eps (others (ps_pos sk) srcs) (ps_pos sk)) 0)
      <= ((1 + u) ^ (length srcs + 5) / (if (d =? 2)%nat then (1 - u) ^ 5 else (1 - e) ^ 3 * (1 - u) ^ 6) - 1)
         * (Rabs (ps_q sk) * rsum (fun s => Rabs (force_on d grav eps s (ps_pos sk) c)) (others (ps_pos sk) srcs)).
Proof. exact (fun U E A N S D P => forces_error rnd hyp u e U E A N d grav srcs S D P eps). Qed.
Print Assumptions C83_forces_error.
Example C83_case :
  accurate_rounding (/ 9007199254740992) double_round /\ accurate_norm (/ 4503599627370496) double_norm /\
  accurate_log (/ 4503599627370496) double_log /\ same_dim 3 corner /\ NoDup (map ps_pos corner) /\
  (forall s, In s corner -> representable double_round (ps_pos s)).
Proof.
  exact (conj double_accurate (conj double_norm_accurate (conj double_log_accurate (conj corner_dim (conj corner_distinct corner_representable))))).
Qed.

(** C84: the energies are not bitwise reproducible; … *)
Theorem C84_schedule_dependent_refuted :
  exists srcs, same_dim 3 srcs /\ NoDup (map ps_pos srcs) /\
  (forall s, In s srcs -> representable double_round (ps_pos s) /\ double_round (ps_q s) = ps_q s) /\
  exists its run1 run2, ppe_iterations_r double_round double_norm double_log 3 false srcs = Ok its /\
    interleaving its run1 /\ interleaving its run2 /\
    nth 0 (ppe_result_r double_round (length srcs) run1) 0 = 1 /\
    nth 0 (ppe_result_r double_round (length srcs) run2) 0 = 1 + / 4503599627370496.
Proof. exact (ex_intro _ corner energies_depend_on_schedule). Qed.
Print Assumptions C84_schedule_dependent_refuted.
(** … two runs differ by at most twice the error bound. *)
Theorem C84_runs_close_partial rnd hyp lg u e grav (srcs : list (psrc R)) : 0 <= u < 1 -> 0 <= e < 1 ->
  accurate_rounding u rnd -> accurate_norm e hyp -> accurate_log e lg ->
  same_dim 3 srcs -> NoDup (map ps_pos srcs) -> (forall s, In s srcs -> representable rnd (ps_pos s)) ->
  exists its, ppe_iterations_r rnd hyp lg 3 grav srcs = Ok its /\
  forall run1 run2, interleaving its run1 -> interleaving its run2 ->
    forall k sk, nth_error srcs k = Some sk ->
      Rabs (nth k (ppe_result_r rnd (length srcs) run1) 0 - nth k (ppe_result_r rnd (length srcs) run2) 0)
      <= 2 * ((1 + u) ^ (length srcs + 2) / ((1 - e) * (1 - u)) - 1)
         * (Rabs (ps_q sk) * rsum (fun s => Rabs (ps_q s) / dist (ps_pos s) (ps_pos sk)) (others (ps_pos sk) srcs)).
Proof. exact (space_energies_agree rnd hyp lg u e grav srcs). Qed.
Print Assumptions C84_runs_close_partial.

(** C85: the direct potential need not be accurate relative to its own value; … *)
Theorem C85_cancellation_refuted :
  exists srcs x, length x = 3%nat /\ same_dim 3 srcs /\ representable double_round x /\ evaluable false x srcs /\
  (forall s, In s srcs -> double_round (ps_q s) = ps_q s /\ forall y, In y (ps_pos s) -> double_round y = y) /\
  potential_sum_r double_round double_norm double_log 3 false false srcs x = Ok 0 /\ direct_potential 3 false srcs x > 0.
Proof. exact cancellation_refuted. Qed.
Print Assumptions C85_cancellation_refuted.
(** … it is when all charges have the same sign (space). *)
Theorem C85_one_sign_partial rnd hyp lg u e grav safe srcs x : 0 <= u < 1 -> 0 <= e < 1 ->
  accurate_rounding u rnd -> accurate_norm e hyp -> accurate_log e lg ->
  length x = 3%nat -> same_dim 3 srcs -> representable rnd x -> evaluable safe x srcs ->
  (forall s, In s srcs -> 0 <= ps_q s) \/ (forall s, In s srcs -> ps_q s <= 0) ->
  exists v, potential_sum_r rnd hyp lg 3 grav safe srcs x = Ok v /\
  Rabs (v - direct_potential 3 grav (others x srcs) x) <=
    ((1 + u) ^ (length srcs + 1) / ((1 - e) * (1 - u)) - 1) * Rabs (direct_potential 3 grav (others x srcs) x).
Proof. exact (one_sign_error rnd hyp lg u e grav safe srcs x). Qed.
Print Assumptions C85_one_sign_partial.
Example C85_case : length [0; 0; 0] = 3%nat /\ same_dim 3 (tl corner) /\ representable double_round [0; 0; 0] /\ evaluable true [0; 0; 0] (tl corner) /\
  (forall s, In s (tl corner) -> 0 <= ps_q s).
Proof. exact one_sign_case. Qed.
