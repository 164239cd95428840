(** Properties C01-C08: coordinate changes and direct evaluation of potentials and forces. *)
From Coq Require Import Reals List Arith Bool Permutation.
From Coquelicot Require Import Coquelicot.
From Verif Require Import Num Outcome Vec Tables CAux Schedule Fields FieldSpec FieldTheorems Spherical SphericalProofs FieldProofs FieldMore.
Import ListNotations.
Local Open Scope R_scope.

(** C01: polar and spherical coordinates round-trip. *)
Theorem C01_polar_round_trip (v : list R) : length v = 2%nat ->
  exists r phi, to_spherical 2 v = Ok [r; phi] /\ to_cartesian 2 [r; phi] = Ok v /\
    r = sqrt (nth 0 v 0 ^ 2 + nth 1 v 0 ^ 2) /\ 0 <= r /\ - PI < phi <= PI.
Proof. exact (polar_round_trip v). Qed.
Print Assumptions C01_polar_round_trip.
Theorem C01_spherical_round_trip (v : list R) : length v = 3%nat ->
  exists r theta phi, to_spherical 3 v = Ok [r; theta; phi] /\ to_cartesian 3 [r; theta; phi] = Ok v /\
    r = sqrt (nth 0 v 0 ^ 2 + nth 1 v 0 ^ 2 + nth 2 v 0 ^ 2) /\ 0 <= r /\ 0 <= theta <= PI /\ - PI < phi <= PI.
Proof. exact (spherical_round_trip v). Qed.
Print Assumptions C01_spherical_round_trip.
Theorem C01_other_dimensions_throw d v theta phi : d <> 2%nat -> d <> 3%nat ->
  to_spherical d v = Throw /\ to_cartesian d v = Throw /\ to_cartesian_basis d v theta phi = Throw.
Proof. exact (spherical_dims d v theta phi). Qed.
Print Assumptions C01_other_dimensions_throw.
Example C01_case : length [0; -2] = 2%nat /\ length [1; -2; 3] = 3%nat /\ 4%nat <> 2%nat /\ 4%nat <> 3%nat.
Proof. repeat split; discriminate. Qed.

(** C02: the spherical basis. *)
Theorem C02_basis_combination v theta phi : length v = 3%nat ->
  exists w, to_cartesian_basis 3 v theta phi = Ok w /\ length w = 3%nat /\ forall k, (k < 3)%nat ->
    nth k w 0 = nth 0 v 0 * nth k (r_hat theta phi) 0 + nth 1 v 0 * nth k (theta_hat theta phi) 0 + nth 2 v 0 * nth k (phi_hat theta phi) 0.
Proof. exact (cartesian_basis_combination v theta phi). Qed.
Print Assumptions C02_basis_combination.
Theorem C02_basis_orthonormal theta phi :
  dot3 (r_hat theta phi) (r_hat theta phi) = 1 /\ dot3 (theta_hat theta phi) (theta_hat theta phi) = 1 /\
  dot3 (phi_hat theta phi) (phi_hat theta phi) = 1 /\ dot3 (r_hat theta phi) (theta_hat theta phi) = 0 /\
  dot3 (r_hat theta phi) (phi_hat theta phi) = 0 /\ dot3 (theta_hat theta phi) (phi_hat theta phi) = 0.
Proof. exact (cartesian_basis_orthonormal theta phi). Qed.
Print Assumptions C02_basis_orthonormal.
Theorem C02_basis_isometry v w theta phi v' w' : length v = 3%nat -> length w = 3%nat ->
  to_cartesian_basis 3 v theta phi = Ok v' -> to_cartesian_basis 3 w theta phi = Ok w' -> dot3 v' w' = dot3 v w.
Proof. exact (cartesian_basis_isometry v w theta phi v' w'). Qed.
Print Assumptions C02_basis_isometry.
Theorem C02_radial v r theta phi : length v = 3%nat -> to_spherical 3 v = Ok [r; theta; phi] ->
  to_cartesian_basis 3 [r; 0; 0] theta phi = Ok v.
Proof. exact (cartesian_basis_radial v r theta phi). Qed.
Print Assumptions C02_radial.
Example C02_case : exists r theta phi, to_spherical 3 [1; -2; 3] = Ok [r; theta; phi].
Proof. repeat eexists. Qed.

(** C03: the direct potential is the signed sum of the kernels; additive, order independent, linear in the charges. *)
Theorem C03_direct_potential d grav safe srcs x : same_dim (length x) srcs -> (forall s, In s srcs -> ps_pos s <> x) ->
  potential_sum d grav safe srcs x = Ok (direct_potential d grav srcs x).
Proof. exact (potential_sum_away d grav safe srcs x). Qed.
Print Assumptions C03_direct_potential.
Theorem C03_additive d grav safe s1 s2 x v1 v2 : potential_sum d grav safe s1 x = Ok v1 -> potential_sum d grav safe s2 x = Ok v2 ->
  potential_sum d grav safe (s1 ++ s2) x = Ok (v1 + v2).
Proof. exact (potential_sum_app d grav safe s1 s2 x v1 v2). Qed.
Print Assumptions C03_additive.
Theorem C03_order_independent d grav safe s1 s2 x : Permutation s1 s2 -> potential_sum d grav safe s1 x = potential_sum d grav safe s2 x.
Proof. exact (potential_sum_perm d grav safe s1 s2 x). Qed.
Print Assumptions C03_order_independent.
Theorem C03_homogeneous_in_charges d grav safe k srcs x v : potential_sum d grav safe srcs x = Ok v ->
  potential_sum d grav safe (map (fun s => PSrc (ps_pos s) (k * ps_q s)) srcs) x = Ok (k * v).
Proof. exact (potential_sum_scale d grav safe k srcs x v). Qed.
Print Assumptions C03_homogeneous_in_charges.
(** [data] holds positions with two charges each. *)
Theorem C03_linear_in_charges d grav safe (data : list (list R * R * R)) a b x v1 v2 :
  potential_sum d grav safe (map (fun w => PSrc (fst (fst w)) (snd (fst w))) data) x = Ok v1 ->
  potential_sum d grav safe (map (fun w => PSrc (fst (fst w)) (snd w)) data) x = Ok v2 ->
  potential_sum d grav safe (map (fun w => PSrc (fst (fst w)) (a * snd (fst w) + b * snd w)) data) x = Ok (a * v1 + b * v2).
Proof. exact (potential_sum_linear d grav safe data a b x v1 v2). Qed.
Print Assumptions C03_linear_in_charges.
Example C03_linear_case : exists v1 v2,
  potential_sum 2 true false (map (fun w => PSrc (fst (fst w)) (snd (fst w))) two_charges) [2; 2] = Ok v1 /\
  potential_sum 2 true false (map (fun w => PSrc (fst (fst w)) (snd w)) two_charges) [2; 2] = Ok v2.
Proof. exact two_charges_case. Qed.
Example C03_case : same_dim (length [2; 2]) three /\ forall s, In s three -> ps_pos s <> [2; 2].
Proof. split; [exact three_dim|exact three_away]. Qed.

(** C04: away from the sources, the direct force field is minus the gradient of the direct potential. *)
Theorem C04_force_is_minus_gradient d grav safe srcs x : (d = 2 \/ d = 3)%nat -> length x = d -> same_dim d srcs ->
  (forall s, In s srcs -> ps_pos s <> x) ->
  exists (U : list R -> R) F,
    (forall y, length y = d -> (forall s, In s srcs -> ps_pos s <> y) -> potential_sum d grav safe srcs y = Ok (U y)) /\
    forcefield_sum d grav safe 0 srcs x = Ok F /\ length F = d /\
    forall k, (k < d)%nat -> is_derive (fun t : R => U (lset x k t)) (nth k x 0) (- nth k F 0).
Proof. exact (direct_force_is_gradient d grav safe srcs x). Qed.
Print Assumptions C04_force_is_minus_gradient.
Example C04_case : length [2; 2] = 2%nat /\ same_dim 2 three /\ forall s, In s three -> ps_pos s <> [2; 2].
Proof. split; [reflexivity|]. split; [exact three_dim|exact three_away]. Qed.

(** C05: with the safe flag the sources at the evaluation point are skipped; without it, exactly they break the result. *)
Theorem C05_safe_potential d grav srcs x : same_dim (length x) srcs ->
  potential_sum d grav true srcs x = Ok (direct_potential d grav (filter (fun s => negb (is_at x s)) srcs) x) /\
  (potential_sum d grav false srcs x = NonFinite <-> exists s, In s srcs /\ ps_pos s = x) /\
  ((forall s, In s srcs -> ps_pos s <> x) -> potential_sum d grav false srcs x = potential_sum d grav true srcs x).
Proof. exact (potential_safe_flag d grav srcs x). Qed.
Print Assumptions C05_safe_potential.
Theorem C05_safe_force d grav srcs x : length x = d -> same_dim d srcs ->
  (forall eps, 0 <= eps -> forcefield_sum d grav true eps srcs x = Ok (direct_force d grav eps (filter (fun s => negb (is_at x s)) srcs) x)) /\
  (forcefield_sum d grav false 0 srcs x = NonFinite <-> exists s, In s srcs /\ ps_pos s = x) /\
  (forall eps, 0 <= eps -> (forall s, In s srcs -> ps_pos s <> x) -> forcefield_sum d grav false eps srcs x = forcefield_sum d grav true eps srcs x).
Proof. exact (force_safe_flag d grav srcs x). Qed.
Print Assumptions C05_safe_force.
Example C05_case : same_dim (length [1; 0]) three /\ exists s, In s three /\ ps_pos s = [1; 0].
Proof. split; [exact three_dim|]. exists (PSrc [1; 0] (-2)). split; [right; left; reflexivity|reflexivity]. Qed.

(** C06: Newton's third law. *)
Theorem C06_pair d grav eps s t : length (ps_pos s) = d -> length (ps_pos t) = d ->
  forall f g, forcefield d grav false eps s (ps_pos t) = Ok f -> forcefield d grav false eps t (ps_pos s) = Ok g ->
  forall k, (k < d)%nat -> ps_q t * nth k f 0 = - (ps_q s * nth k g 0).
Proof. exact (newton_pair d grav eps s t). Qed.
Print Assumptions C06_pair.
Theorem C06_total_force_vanishes d grav eps (srcs : list (psrc R)) : same_dim d srcs -> NoDup (map ps_pos srcs) -> 0 <= eps ->
  exists its, pf_iterations d grav eps srcs = Ok its /\ forall run, interleaving its run ->
    forall c, (c < d)%nat -> rsum (fun f => nth c f 0) (pf_result d (length srcs) run) = 0.
Proof. exact (total_force_vanishes d grav eps srcs). Qed.
Print Assumptions C06_total_force_vanishes.
(** ... and more generally whenever the loop is defined, which is exactly when no pair has a vanishing denominator. *)
Theorem C06_total_force_vanishes_whenever_defined d grav eps (srcs : list (psrc R)) its : same_dim d srcs -> pf_iterations d grav eps srcs = Ok its ->
  forall run, interleaving its run -> forall c, (c < d)%nat -> rsum (fun f => nth c f 0) (pf_result d (length srcs) run) = 0.
Proof. exact (total_force_whenever_defined d grav eps srcs its). Qed.
Print Assumptions C06_total_force_vanishes_whenever_defined.
Theorem C06_defined_iff d grav eps (srcs : list (psrc R)) : same_dim d srcs ->
  (exists its, pf_iterations d grav eps srcs = Ok its) <->
  (forall i j si sj, nth_error srcs i = Some si -> nth_error srcs j = Some sj -> i <> j -> force_den d eps (dist (ps_pos si) (ps_pos sj)) <> 0).
Proof. exact (pf_defined_iff d grav eps srcs). Qed.
Print Assumptions C06_defined_iff.
Example C06_case : same_dim 2 three /\ NoDup (map ps_pos three) /\ 0 <= 1.
Proof. split; [exact three_dim|]. split; [exact three_distinct|exact Rle_0_1]. Qed.
Example C06_coincident_case : same_dim 2 twins /\ ~ NoDup (map ps_pos twins) /\ exists its, pf_iterations 2 true (/ 10) twins = Ok its.
Proof. exact twins_defined. Qed.

(** C07, C08: every schedule of the parallel loops gives, for every particle, the sum over all other particles. *)
Theorem C07_energies_schedule_independent d grav (srcs : list (psrc R)) : same_dim d srcs -> NoDup (map ps_pos srcs) ->
  exists its, ppe_iterations d grav srcs = Ok its /\
  (exists run, interleaving its run) /\
  forall run, interleaving its run ->
    length (ppe_result (length srcs) run) = length srcs /\
    forall k sk, nth_error srcs k = Some sk ->
      nth k (ppe_result (length srcs) run) 0
      = rsum (fun j => match nth_error srcs j with
                       | Some sj => if (j =? k)%nat then 0 else ps_q sk * (field_sign grav * kernel d (ps_q sj) (dist (ps_pos sj) (ps_pos sk)))
                       | None => 0 end) (seq 0 (length srcs)).
Proof. exact (ppe_schedule_independent d grav srcs). Qed.
Print Assumptions C07_energies_schedule_independent.
Theorem C08_forces_schedule_independent d grav eps (srcs : list (psrc R)) : same_dim d srcs -> NoDup (map ps_pos srcs) -> 0 <= eps ->
  exists its, pf_iterations d grav eps srcs = Ok its /\
  (exists run, interleaving its run) /\
  forall run, interleaving its run ->
    length (pf_result d (length srcs) run) = length srcs /\
    (forall f, In f (pf_result d (length srcs) run) -> length f = d) /\
    (forall k sk c, nth_error srcs k = Some sk -> (c < d)%nat ->
      nth c (nth k (pf_result d (length srcs) run) []) 0
      = rsum (fun j => match nth_error srcs j with
                       | Some sj => if (j =? k)%nat then 0 else force_on d grav eps sj (ps_pos sk) c * ps_q sk
                       | None => 0 end) (seq 0 (length srcs))).
Proof. exact (pf_schedule_independent' d grav eps srcs). Qed.
Print Assumptions C08_forces_schedule_independent.
Theorem C08_forces_whenever_defined d grav eps (srcs : list (psrc R)) its : same_dim d srcs -> pf_iterations d grav eps srcs = Ok its ->
  (exists run, interleaving its run) /\
  forall run, interleaving its run ->
    length (pf_result d (length srcs) run) = length srcs /\
    (forall f, In f (pf_result d (length srcs) run) -> length f = d) /\
    (forall k sk c, nth_error srcs k = Some sk -> (c < d)%nat ->
      nth c (nth k (pf_result d (length srcs) run) []) 0
      = rsum (fun j => match nth_error srcs j with
                       | Some sj => if (j =? k)%nat then 0 else force_on d grav eps sj (ps_pos sk) c * ps_q sk
                       | None => 0 end) (seq 0 (length srcs))).
Proof. exact (forces_whenever_defined d grav eps srcs its). Qed.
Print Assumptions C08_forces_whenever_defined.
Example C08_case : same_dim 2 twins /\ ~ NoDup (map ps_pos twins) /\ exists its, pf_iterations 2 true (/ 10) twins = Ok its.
Proof. exact twins_defined. Qed.
Example C07_case : same_dim 2 three /\ NoDup (map ps_pos three).
Proof. split; [exact three_dim|exact three_distinct]. Qed.
