(** Properties C81, C82: choosing the requested accuracy; the trajectory file of the integrator.
    [history apply start ts states]: calls of the solver with the targets [ts], the first one from [start], all succeed and lead
    through [states]; a state is a driver object, a time and the array of positions and velocities.  [saves]: 0.1, 0.2, ..., 10. *)
From Coq Require Import List Arith Reals ZArith.
From Verif Require Import Num Outcome Vec Orthtree AdaptiveTree GeometrySpec BalancedSpec BuildProofs CAux FieldSpec TableProofs Exp2Theorems FmmPasses FmmTree2D FmmApi FmmApiProofs
  PassTree BalancedTree BalancedFmm Tables3D Exp3Theorems FmmTree3D Fmm3Theorems Interfaces Integrator AccuracyRule TrajectoryProofs.
Import ListNotations.
Local Open Scope R_scope.

(** C81: to reach the absolute error [delta] in the plane it suffices to request [2 delta^2 / (3 A)], [A] the total absolute charge. *)
Theorem C81_plane_rule orders cap eps srcs delta : same_dim 2 srcs ->
  (forall j, (j < 2)%nat -> (exists s, In s srcs /\ nth j (ps_pos s) 0 <= 0) /\ (exists s, In s srcs /\ 0 <= nth j (ps_pos s) 0)) ->
  (forall x, count_occ list_R_eq_dec (map (@ps_pos R) srcs) x <= cap)%nat ->
  0 < delta -> 0 < eps < abs_charge srcs -> abs_charge srcs <= eps * 2 ^ 1000 -> 3 * abs_charge srcs * eps <= 2 * delta ^ 2 ->
  exists fuel o, (forall r, adaptive_fmm2 cap fuel eps srcs (table_after orders) r <-> r = Ok o) /\
  forall grav x, length x = 2%nat -> exists v, potential_at grav srcs o x = Ok v /\
    Rabs (v - direct_potential 2 grav (filter (fun s => negb (is_at x s)) srcs) x) <= delta.
Proof. exact (plane_rule orders cap eps srcs delta). Qed.
Print Assumptions C81_plane_rule.
Theorem C81_plane_rule_balanced orders cap eps srcs delta : same_dim 2 srcs -> spread 2 (@ps_pos R) srcs ->
  (1 <= cap)%nat -> (cap < length srcs * 2 ^ 2)%nat -> (Z.of_nat (length srcs) <= Z.of_nat cap * 2 ^ 32)%Z ->
  0 < delta -> 0 < eps < abs_charge srcs -> abs_charge srcs <= eps * 2 ^ 1000 -> 3 * abs_charge srcs * eps <= 2 * delta ^ 2 ->
  exists o c l, root_box 2 (map (@ps_pos R) srcs) = Some (c, l) /\ (forall r, balanced_fmm2 cap eps srcs (table_after orders) r <-> r = Ok o) /\
  forall grav x, length x = 2%nat -> in_half_open 2 c l x -> exists v, bal_potential_at grav o x = Ok v /\
    Rabs (v - direct_potential 2 grav (filter (fun s => negb (is_at x s)) srcs) x) <= delta.
Proof. exact (plane_rule_balanced orders cap eps srcs delta). Qed.
Print Assumptions C81_plane_rule_balanced.
Example C81_case : same_dim 2 five_unit /\ straddles 2 five_unit /\ spread 2 (@ps_pos R) five_unit /\
  (forall x, count_occ list_R_eq_dec (map (@ps_pos R) five_unit) x <= 1)%nat /\
  0 < / 100 /\ 0 < / 100000 < abs_charge five_unit /\ abs_charge five_unit <= / 100000 * 2 ^ 1000 /\ 3 * abs_charge five_unit * / 100000 <= 2 * (/ 100) ^ 2.
Proof. exact plane_rule_case. Qed.
(** In space [(delta side)^3 / (216 A^2)], [side] the side of a smallest leaf, as long as that is at least [A / 2^42]. *)
Theorem C81_space_rule orders tb cap fuel t c l eps srcs delta : tables3_after orders = Ok tb -> same_dim 3 srcs ->
  build_adaptive 3 (@ps_pos R) cap fuel srcs = Ok t -> root_box 3 (map (@ps_pos R) srcs) = Some (c, l) ->
  (forall s, In s srcs -> in_box 3 c l (ps_pos s)) -> 0 < l ->
  0 < delta -> 0 < eps < abs_charge srcs -> abs_charge srcs <= eps * 2 ^ 42 ->
  216 * abs_charge srcs ^ 2 * eps <= (delta * (l / 2 ^ at_height t)) ^ 3 ->
  exists o, (forall r, adaptive_fmm3 cap fuel eps srcs tb r <-> r = Ok o) /\
  forall grav x, length x = 3%nat -> exists v, potential3_at grav srcs o x = Ok v /\
    Rabs (v - direct_potential 3 grav (filter (fun s => negb (is_at x s)) srcs) x) <= delta.
Proof. exact (space_rule orders tb cap fuel t c l eps srcs delta). Qed.
Print Assumptions C81_space_rule.
Example C81_space_case : exists fuel t c l delta, tables3_after [] = Ok tb3_init /\ same_dim 3 five3_unit /\
  build_adaptive 3 (@ps_pos R) 1 fuel five3_unit = Ok t /\ root_box 3 (map (@ps_pos R) five3_unit) = Some (c, l) /\
  (forall s, In s five3_unit -> in_box 3 c l (ps_pos s)) /\ 0 < l /\
  0 < delta /\ 0 < / 1000000 < abs_charge five3_unit /\ abs_charge five3_unit <= / 1000000 * 2 ^ 42 /\
  216 * abs_charge five3_unit ^ 2 * / 1000000 <= (delta * (l / 2 ^ at_height t)) ^ 3.
Proof. exact space_rule_case. Qed.

(** C82: the trajectory file holds, in order, one record (time, then all positions and velocities) for each save time up to the
    first at which the solver fails; after a failure nothing more is written. *)
Theorem C82_trajectory_written D alloc apply fs fv fm srcs file :
  readSourcesFromFile 2 fs = Ok srcs -> length (vectorFromFile fv) = (2 * length srcs)%nat -> length (vectorFromFile fm) = length srcs ->
  (forall driver t ti y driver' t' y' b, length y = (4 * length srcs)%nat -> apply driver t ti y = Ok (driver', t', y', b) -> length y' = length y) ->
  integrator_main D alloc apply (Some fs) (Some fv) (Some fm) true = Ok file ->
  let start := (alloc (map (@ps_q R) srcs) (vectorFromFile fm), 0, concat (map (@ps_pos R) srcs) ++ vectorFromFile fv) in
  exists k states, (k <= 100)%nat /\ history apply start (firstn k saves) states /\
    file = concat (map (fun r => [[TNum (fst r)]; map TNum (snd (snd r))]) (combine (firstn k saves) states)) /\
    ((k < 100)%nat -> let '(driver, t, y) := last states start in exists st, apply driver t (nth k saves 0) y = Ok (st, false)).
Proof. exact (trajectory_written D alloc apply fs fv fm srcs file). Qed.
Print Assumptions C82_trajectory_written.
(** If the solver succeeds at all times, the file is complete. *)
Theorem C82_trajectory_complete D alloc apply fs fv fm srcs states :
  readSourcesFromFile 2 fs = Ok srcs -> length (vectorFromFile fv) = (2 * length srcs)%nat -> length (vectorFromFile fm) = length srcs ->
  (forall driver t ti y driver' t' y' b, length y = (4 * length srcs)%nat -> apply driver t ti y = Ok (driver', t', y', b) -> length y' = length y) ->
  history apply (alloc (map (@ps_q R) srcs) (vectorFromFile fm), 0, concat (map (@ps_pos R) srcs) ++ vectorFromFile fv) saves states ->
  integrator_main D alloc apply (Some fs) (Some fv) (Some fm) true =
    Ok (concat (map (fun r => [[TNum (fst r)]; map TNum (snd (snd r))]) (combine saves states))).
Proof. exact (trajectory_complete D alloc apply fs fv fm srcs states). Qed.
Print Assumptions C82_trajectory_complete.
Example C82_case : readSourcesFromFile 2 [[TNum 1; TNum 2; TNum 3]] = Ok [PSrc [1; 2] 3] /\
  length (vectorFromFile [[TNum 4; TNum 5]]) = 2%nat /\ length (vectorFromFile [[TNum 6]]) = 1%nat /\
  (forall driver t ti y driver' t' y' b, free driver t ti y = Ok (driver', t', y', b) -> length y' = length y) /\
  integrator_main unit (fun _ _ => tt) free (Some [[TNum 1; TNum 2; TNum 3]]) (Some [[TNum 4; TNum 5]]) (Some [[TNum 6]]) true =
    Ok (concat (map (fun ti => [[TNum ti]; map TNum [1 + ti * 4; 2 + ti * 5; 4; 5]]) saves)).
Proof. exact trajectory_case. Qed.
Example C82_case_stops : (forall driver t ti y driver' t' y' b, free5 driver t ti y = Ok (driver', t', y', b) -> length y' = length y) /\
  exists file, integrator_main unit (fun _ _ => tt) free5 (Some [[TNum 1; TNum 2; TNum 3]]) (Some [[TNum 4; TNum 5]]) (Some [[TNum 6]]) true = Ok file /\
  length file = 100%nat.
Proof. exact trajectory_stops_case. Qed.
(** A missing input file is reported by an exception; a trajectory file that cannot be opened is not reported at all. *)
Theorem C82_missing_input D alloc apply fs fv fm opened : fs = None \/ fv = None \/ fm = None -> integrator_main D alloc apply fs fv fm opened = Throw.
Proof. exact (trajectory_missing D alloc apply fs fv fm opened). Qed.
Print Assumptions C82_missing_input.
Theorem C82_lost_output D alloc apply fs fv fm file : integrator_main D alloc apply fs fv fm true = Ok file -> integrator_main D alloc apply fs fv fm false = Ok [].
Proof. exact (trajectory_lost D alloc apply fs fv fm file). Qed.
Print Assumptions C82_lost_output.
