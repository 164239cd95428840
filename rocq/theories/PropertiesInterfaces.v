(** Properties C44, C46, C66, C67: the programs around the library: files, flat arrays, the Mathematica library, the integrator.
    [exactly P x]: [x] is the one possible outcome under all schedules of the parallel loops ([forall r, P r <-> r = x]).
    [sources_in d pos chg]: source [i] has the coordinates [d i .. d i + d - 1] of [pos] and charge number [i]. *)
From Coq Require Import List Arith Reals ZArith.
From Verif Require Import Num Outcome Vec Orthtree AdaptiveTree GeometrySpec CAux FieldSpec Fields BuildProofs TreeTheorems TableProofs Exp2Theorems Tables3D Exp3Theorems
  FmmPasses FmmTree2D FmmApi FmmTree3D FmmApiProofs PassTree Fmm3Theorems Interfaces InterfaceProofs InterfaceTheorems IntegratorProofs FileProofs LibraryTheorems CasesFmm.
Import ListNotations.
Local Open Scope R_scope.

(** C44: lines that begin with [d + 1] numbers (anything may follow) give one source each. *)
Theorem C44_one_source_per_line_partial d (rows : list (list R * R * list tok)) : (forall x q r, In (x, q, r) rows -> length x = d) ->
  readSourcesFromFile d (map (fun w => map TNum (fst (fst w)) ++ TNum (snd (fst w)) :: snd w) rows) = Ok (map (fun w => PSrc (fst (fst w)) (snd (fst w))) rows).
Proof. exact (read_complete_lines d rows). Qed.
Print Assumptions C44_one_source_per_line_partial.
(** In general: a source for every line; each of its fields is the value in the last line so far that reaches it ([latest]). *)
Theorem C44_latest_values d line0 lines : (forall k, (k <= d)%nat -> field line0 k <> None) ->
  exists srcs, readSourcesFromFile d (line0 :: lines) = Ok srcs /\ length srcs = length (line0 :: lines) /\
  forall i s, nth_error srcs i = Some s -> length (ps_pos s) = d /\
    (forall k, (k < d)%nat -> latest (line0 :: lines) i k (nth k (ps_pos s) 0)) /\ latest (line0 :: lines) i d (ps_q s).
Proof. exact (read_sources_ok d line0 lines). Qed.
Print Assumptions C44_latest_values.
(** An incomplete first line: uninitialised variables are copied. *)
Theorem C44_incomplete_first_line d line0 lines k : (k <= d)%nat -> field line0 k = None -> readSourcesFromFile d (line0 :: lines) = UB.
Proof. exact (read_sources_ub d line0 lines k). Qed.
Print Assumptions C44_incomplete_first_line.
(** A line without any number gives a source, equal to the previous one. *)
Theorem C44_blank_line_repeats d lines srcs s : readSourcesFromFile d lines = Ok (srcs ++ [s]) -> readSourcesFromFile d (lines ++ [[]]) = Ok (srcs ++ [s; s]).
Proof. exact (blank_line_repeats d lines srcs s). Qed.
Print Assumptions C44_blank_line_repeats.
Theorem C44_one_source_per_line_refuted : exists lines srcs i, readSourcesFromFile 2 lines = Ok srcs /\
  nth_error lines i = Some [] /\ nth_error srcs i = Some (PSrc [1; 2] 3).
Proof. exists [[TNum 1; TNum 2; TNum 3]; []], [PSrc [1; 2] 3; PSrc [1; 2] 3], 1%nat. split; [reflexivity|split; reflexivity]. Qed.
Print Assumptions C44_one_source_per_line_refuted.
(** The file written by [sourceLocationsToFile] cannot be read by [readSourcesFromFile]. *)
Theorem C44_written_file_unreadable d srcs : srcs <> [] -> same_dim d srcs -> readSourcesFromFile d (sourceLocationsToFile srcs) = UB.
Proof. exact (write_read_fails d srcs). Qed.
Print Assumptions C44_written_file_unreadable.
Example C44_case : (forall k, (k <= 2)%nat -> field [TNum 1; TNum 2; TNum 3; TJunk] k <> None) /\ field [TNum 1; TNum 2; TNum 3; TJunk] 4 = None.
Proof. split; [|reflexivity]. intros k Hk. destruct k as [|[|[|k]]]; [discriminate|discriminate|discriminate|inversion Hk as [|? H]; inversion H as [|? H']; inversion H']. Qed.
Example C44_case_junk : readSourcesFromFile 2 [[TNum 1; TNum 2; TNum 3]; [TNum 4; TJunk; TNum 5]] = Ok [PSrc [1; 2] 3; PSrc [4; 0] 3].
Proof. reflexivity. Qed.

(** C46: reading the argument arrays. *)
Theorem C46_unpack_sources d pos chg : (0 < d)%nat -> (length pos / d <= length chg)%nat ->
  exactly (unpack_sources d pos chg) (Ok (map (fun i => PSrc (firstn d (skipn (d * i) pos)) (nth i chg 0)) (seq 0 (length pos / d)))).
Proof. exact (unpack_sources_ok d pos chg). Qed.
Print Assumptions C46_unpack_sources.
Theorem C46_unpack_points d pts : (0 < d)%nat ->
  exactly (unpack_points d pts) (Ok (map (fun i => firstn d (skipn (d * i) pts)) (seq 0 (length pts / d)))).
Proof. exact (unpack_points_ok d pts). Qed.
Print Assumptions C46_unpack_points.
(** Too few charges: undefined behaviour under every schedule, for all six functions. *)
Theorem C46_short_charges d O ctor pot frc pos chg pts out : (0 < d)%nat -> (length chg < length pos / d)%nat ->
  exactly (FMMEvaluatePotentials d O ctor pot pos chg pts out) UB /\ exactly (FMMParticlePotentialEnergies d O ctor pot pos chg out) UB /\
  exactly (FMMParticleForces d O ctor frc pos chg out) UB /\
  (forall grav, exactly (DirectEvaluatePotentials d grav pos chg pts out) UB /\ exactly (DirectParticlePotentialEnergies d grav pos chg out) UB) /\
  (forall grav smooth, exactly (DirectParticleForces d grav smooth pos chg out) UB).
Proof. exact (library_short_charges d O ctor pot frc pos chg pts out). Qed.
Print Assumptions C46_short_charges.
(** Writing the results: vector after vector, value after value. *)
Theorem C46_flatten d n F out : (0 < d)%nat -> length F = n -> (forall f, In f F -> length f = d) -> length out = (n * d)%nat ->
  exactly (flatten d n F out) (Ok (concat F)).
Proof. exact (flatten_ok d n F out). Qed.
Print Assumptions C46_flatten.
Theorem C46_copy n E out : length E = n -> length out = n -> exactly (copy_out n E out) (Ok E).
Proof. exact (copy_out_ok n E out). Qed.
Print Assumptions C46_copy.
(** For any tree: the results are those of the tree's evaluation functions. *)
Theorem C46_potentials d O ctor pot pos chg pts out o g : (0 < d)%nat -> (length pos / d <= length chg)%nat ->
  exactly (ctor (sources_in d pos chg)) (Ok o) ->
  (forall x, In x (points_in d pts) -> pot (sources_in d pos chg) o x = Ok (g x)) -> length out = (length pts / d)%nat ->
  exactly (FMMEvaluatePotentials d O ctor pot pos chg pts out) (Ok (map g (points_in d pts))).
Proof. exact (fun Hd Hc Ho Hg Hl => potentials_exact d O ctor pot Hd pos chg o Hc Ho g pts out Hg Hl). Qed.
Print Assumptions C46_potentials.
Theorem C46_forces d O ctor frc pos chg out o g : (0 < d)%nat -> (length pos / d <= length chg)%nat ->
  exactly (ctor (sources_in d pos chg)) (Ok o) ->
  (forall s, In s (sources_in d pos chg) -> frc (sources_in d pos chg) o (ps_pos s) = Ok (g (ps_pos s)) /\ length (g (ps_pos s)) = d) ->
  length out = (length pos / d * d)%nat ->
  exactly (FMMParticleForces d O ctor frc pos chg out) (Ok (concat (map (fun s => map (fun u => u * ps_q s) (g (ps_pos s))) (sources_in d pos chg)))).
Proof. exact (fun Hd Hc Ho Hg Hl => forces_exact d O ctor frc Hd pos chg o Hc Ho g out Hg Hl). Qed.
Print Assumptions C46_forces.
Example C46_case_tree : exists fuel o g h,
  exactly (adaptive_fmm2 1 fuel 1 (sources_in 2 five_pos five_chg) (table_after [])) (Ok o) /\
  (forall x, In x (points_in 2 [0; 0; 5; 5]) -> potential_at true (sources_in 2 five_pos five_chg) o x = Ok (g x)) /\
  (forall s, In s (sources_in 2 five_pos five_chg) -> force_at true 0 (sources_in 2 five_pos five_chg) o (ps_pos s) = Ok (h (ps_pos s)) /\ length (h (ps_pos s)) = 2%nat).
Proof. exact library_case. Qed.
(** The integrator: sources to arrays and back; the velocities behind the positions are untouched. *)
Theorem C46_round_trip d srcs positions charges : (0 < d)%nat -> same_dim d srcs -> (length srcs * d <= length positions)%nat -> (length srcs <= length charges)%nat ->
  exists ps cs, sources_to_array (fun x => x) d srcs positions charges = Ok (ps, cs) /\ array_to_sources d (length srcs) ps cs = Ok srcs /\
    length ps = length positions /\ skipn (length srcs * d) ps = skipn (length srcs * d) positions.
Proof. exact (arrays_round_trip d srcs positions charges). Qed.
Print Assumptions C46_round_trip.
(** The derivative is (velocity, charge * field / mass), for any tree whose force at the sources is [g]. *)
Theorem C46_derivative d O ctor frc n charges masses y f o g : (0 < d)%nat ->
  length y = (2 * n * d)%nat -> length f = (2 * n * d)%nat -> (n <= length masses)%nat -> (n <= length charges)%nat ->
  let srcs := map (fun i => PSrc (point_at d y i) (nth i charges 0)) (seq 0 n) in
  exactly (ctor srcs) (Ok o) ->
  (forall s, In s srcs -> frc srcs o (ps_pos s) = Ok (g (ps_pos s)) /\ length (g (ps_pos s)) = d) ->
  (forall i, (i < n)%nat -> nth i masses 0 <> 0) ->
  exists r, exactly (derivative_func d O ctor frc n charges masses y f) (Ok r) /\ length r = (2 * n * d)%nat /\
  (forall k, (k < n * d)%nat -> nth k r 0 = nth (n * d + k) y 0) /\
  (forall i j, (i < n)%nat -> (j < d)%nat ->
    nth (n * d + i * d + j) r 0 = nth i charges 0 * nth j (g (point_at d y i)) 0 / nth i masses 0).
Proof. exact (derivative_ok d O ctor frc n charges masses y f o g). Qed.
Print Assumptions C46_derivative.
Theorem C46_massless d O ctor frc n charges masses y f o g : (0 < d)%nat ->
  length y = (2 * n * d)%nat -> length f = (2 * n * d)%nat -> (n <= length masses)%nat -> (n <= length charges)%nat ->
  let srcs := map (fun i => PSrc (point_at d y i) (nth i charges 0)) (seq 0 n) in
  exactly (ctor srcs) (Ok o) ->
  (forall s, In s srcs -> frc srcs o (ps_pos s) = Ok (g (ps_pos s)) /\ length (g (ps_pos s)) = d) ->
  forall i, (i < n)%nat -> nth i masses 0 = 0 -> exactly (derivative_func d O ctor frc n charges masses y f) NonFinite.
Proof. exact (derivative_massless d O ctor frc n charges masses y f o g). Qed.
Print Assumptions C46_massless.
(** The initial state: defined exactly if the files of velocities and masses have the right lengths. *)
Theorem C46_initial_state d sources velocities mass srcs : readSourcesFromFile d sources = Ok srcs ->
  length (vectorFromFile velocities) = (d * length srcs)%nat -> length (vectorFromFile mass) = length srcs ->
  initial_state d sources velocities mass = Ok (concat (map (@ps_pos R) srcs) ++ vectorFromFile velocities, map (@ps_q R) srcs, vectorFromFile mass).
Proof. exact (initial_state_ok d sources velocities mass srcs). Qed.
Print Assumptions C46_initial_state.
Theorem C46_initial_state_mismatch d sources velocities mass srcs : readSourcesFromFile d sources = Ok srcs ->
  length (vectorFromFile velocities) <> (d * length srcs)%nat \/ length (vectorFromFile mass) <> length srcs ->
  initial_state d sources velocities mass = UB.
Proof. exact (initial_state_ub d sources velocities mass srcs). Qed.
Print Assumptions C46_initial_state_mismatch.
(** The numbers read from such a file are those before the first text that is not a number, across lines. *)
Theorem C46_vector_file lines : exists rest, concat lines = map TNum (vectorFromFile lines) ++ rest /\ (rest = [] \/ exists r, rest = TJunk :: r).
Proof. exact (vector_file lines). Qed.
Print Assumptions C46_vector_file.
Example C46_case_text : vectorFromFile [[TNum 1]; [TNum 2; TJunk; TNum 3]; [TNum 4]] = [1; 2].
Proof. reflexivity. Qed.
Example C46_case : initial_state 2 [[TNum 1; TNum 2; TNum 3]] [[TNum 5]; [TNum 6]] [[TNum 7]] = Ok ([1; 2; 5; 6], [3], [7]).
Proof. reflexivity. Qed.
Example C46_case_long : initial_state 2 [[TNum 1; TNum 2; TNum 3]] [[TNum 5]; [TNum 6; TNum 6]] [[TNum 7]] = UB.
Proof. reflexivity. Qed.
Example C46_case_sources : sources_in 2 five_pos five_chg = five_unit /\ sources_in 3 five3_pos five_chg = five3_unit.
Proof. split; [exact five_sources|exact five3_sources]. Qed.

(** C66: the fast and the direct functions of the library agree up to the error bounds. *)
Theorem C66_potentials2 orders cap eps pos chg p : (length pos / 2 <= length chg)%nat -> straddles 2 (sources_in 2 pos chg) ->
  order_of eps (sources_in 2 pos chg) = Ok p -> eps < abs_charge (sources_in 2 pos chg) ->
  forall grav pts out out', (forall x, count_occ list_R_eq_dec (map (@ps_pos R) (sources_in 2 pos chg)) x <= cap)%nat ->
  length out = (length pts / 2)%nat -> length out' = (length pts / 2)%nat -> exists fuel r r',
  exactly (FMMEvaluatePotentials 2 fmm_obj (fun s => adaptive_fmm2 cap fuel eps s (table_after orders)) (potential_at grav) pos chg pts out) (Ok r) /\
  exactly (DirectEvaluatePotentials 2 grav pos chg pts out') (Ok r') /\ length r = (length pts / 2)%nat /\ length r' = (length pts / 2)%nat /\
  forall i, (i < length pts / 2)%nat -> Rabs (nth i r 0 - nth i r' 0) <=
    (sqrt 2 / 2) ^ S p / (INR (S p) * (1 - sqrt 2 / 2)) * abs_charge (sources_in 2 pos chg).
Proof. exact (library2_potentials orders cap eps pos chg p). Qed.
Print Assumptions C66_potentials2.
Theorem C66_energies2 orders cap eps pos chg p : (length pos / 2 <= length chg)%nat -> straddles 2 (sources_in 2 pos chg) ->
  order_of eps (sources_in 2 pos chg) = Ok p -> eps < abs_charge (sources_in 2 pos chg) ->
  forall grav out out', NoDup (map (@ps_pos R) (sources_in 2 pos chg)) -> (1 <= cap)%nat ->
  length out = (length pos / 2)%nat -> length out' = (length pos / 2)%nat -> exists fuel r r',
  exactly (FMMParticlePotentialEnergies 2 fmm_obj (fun s => adaptive_fmm2 cap fuel eps s (table_after orders)) (potential_at grav) pos chg out) (Ok r) /\
  exactly (DirectParticlePotentialEnergies 2 grav pos chg out') (Ok r') /\ length r = (length pos / 2)%nat /\ length r' = (length pos / 2)%nat /\
  forall i, (i < length pos / 2)%nat -> Rabs (nth i r 0 - nth i r' 0) <=
    Rabs (nth i chg 0) * ((sqrt 2 / 2) ^ S p / (INR (S p) * (1 - sqrt 2 / 2)) * abs_charge (sources_in 2 pos chg)).
Proof. exact (library2_energies orders cap eps pos chg p). Qed.
Print Assumptions C66_energies2.
Theorem C66_forces2 orders cap eps pos chg p grav out out' : let srcs := sources_in 2 pos chg in
  (length pos / 2 <= length chg)%nat -> straddles 2 srcs -> order_of eps srcs = Ok p -> eps < abs_charge srcs ->
  NoDup (map (@ps_pos R) srcs) -> (1 <= cap)%nat ->
  length out = (length pos / 2 * 2)%nat -> length out' = (length pos / 2 * 2)%nat -> exists fuel t c l r r',
  root_box 2 (map (@ps_pos R) srcs) = Some (c, l) /\ build_adaptive 2 (@ps_pos R) cap fuel srcs = Ok t /\
  exactly (FMMParticleForces 2 fmm_obj (fun s => adaptive_fmm2 cap fuel eps s (table_after orders)) (force_at grav 0) pos chg out) (Ok r) /\
  exactly (DirectParticleForces 2 grav 0 pos chg out') (Ok r') /\
  forall i k, (i < length pos / 2)%nat -> (k < 2)%nat -> Rabs (nth (2 * i + k) r 0 - nth (2 * i + k) r' 0) <=
    Rabs (nth i chg 0) * ((sqrt 2 / 2) ^ p / ((2 - sqrt 2) * (l / 2 ^ at_height t)) * abs_charge srcs).
Proof. exact (library2_forces orders cap eps pos chg p grav out out'). Qed.
Print Assumptions C66_forces2.
Theorem C66_potentials3 orders tb cap eps pos chg p : tables3_after orders = Ok tb -> (length pos / 3 <= length chg)%nat ->
  straddles 3 (sources_in 3 pos chg) -> order_of eps (sources_in 3 pos chg) = Ok p -> eps < abs_charge (sources_in 3 pos chg) -> (p <= 42)%nat ->
  forall grav pts out out', (forall x, count_occ list_R_eq_dec (map (@ps_pos R) (sources_in 3 pos chg)) x <= cap)%nat ->
  length out = (length pts / 3)%nat -> length out' = (length pts / 3)%nat -> exists fuel t c l r r',
  root_box 3 (map (@ps_pos R) (sources_in 3 pos chg)) = Some (c, l) /\ build_adaptive 3 (@ps_pos R) cap fuel (sources_in 3 pos chg) = Ok t /\
  exactly (FMMEvaluatePotentials 3 fmm3_obj (fun s => adaptive_fmm3 cap fuel eps s tb) (potential3_at grav) pos chg pts out) (Ok r) /\
  exactly (DirectEvaluatePotentials 3 grav pos chg pts out') (Ok r') /\ length r = (length pts / 3)%nat /\ length r' = (length pts / 3)%nat /\
  forall i, (i < length pts / 3)%nat -> Rabs (nth i r 0 - nth i r' 0) <=
    if (length (sources_in 3 pos chg) <=? cap)%nat then 0
    else 2 * (sqrt 3 / (4 - sqrt 3)) ^ S p / ((2 - sqrt 3) * (l / 2 ^ at_height t)) * abs_charge (sources_in 3 pos chg).
Proof. exact (library3_potentials orders tb cap eps pos chg p). Qed.
Print Assumptions C66_potentials3.
Theorem C66_energies3 orders tb cap eps pos chg p : tables3_after orders = Ok tb -> (length pos / 3 <= length chg)%nat ->
  straddles 3 (sources_in 3 pos chg) -> order_of eps (sources_in 3 pos chg) = Ok p -> eps < abs_charge (sources_in 3 pos chg) -> (p <= 42)%nat ->
  forall grav out out', NoDup (map (@ps_pos R) (sources_in 3 pos chg)) -> (1 <= cap)%nat ->
  length out = (length pos / 3)%nat -> length out' = (length pos / 3)%nat -> exists fuel t c l r r',
  root_box 3 (map (@ps_pos R) (sources_in 3 pos chg)) = Some (c, l) /\ build_adaptive 3 (@ps_pos R) cap fuel (sources_in 3 pos chg) = Ok t /\
  exactly (FMMParticlePotentialEnergies 3 fmm3_obj (fun s => adaptive_fmm3 cap fuel eps s tb) (potential3_at grav) pos chg out) (Ok r) /\
  exactly (DirectParticlePotentialEnergies 3 grav pos chg out') (Ok r') /\ length r = (length pos / 3)%nat /\ length r' = (length pos / 3)%nat /\
  forall i, (i < length pos / 3)%nat -> Rabs (nth i r 0 - nth i r' 0) <=
    Rabs (nth i chg 0) * if (length (sources_in 3 pos chg) <=? cap)%nat then 0
    else 2 * (sqrt 3 / (4 - sqrt 3)) ^ S p / ((2 - sqrt 3) * (l / 2 ^ at_height t)) * abs_charge (sources_in 3 pos chg).
Proof. exact (library3_energies orders tb cap eps pos chg p). Qed.
Print Assumptions C66_energies3.
(** Forces in space: if no source lies on the vertical axis of a box (see C45, C64). *)
Theorem C66_forces3 orders tb cap eps pos chg p : tables3_after orders = Ok tb -> (length pos / 3 <= length chg)%nat ->
  straddles 3 (sources_in 3 pos chg) -> order_of eps (sources_in 3 pos chg) = Ok p -> eps < abs_charge (sources_in 3 pos chg) -> (p <= 42)%nat ->
  forall grav out out', NoDup (map (@ps_pos R) (sources_in 3 pos chg)) -> (1 <= cap)%nat ->
  length out = (length pos / 3 * 3)%nat -> length out' = (length pos / 3 * 3)%nat -> exists fuel t c l,
  root_box 3 (map (@ps_pos R) (sources_in 3 pos chg)) = Some (c, l) /\ build_adaptive 3 (@ps_pos R) cap fuel (sources_in 3 pos chg) = Ok t /\
  ((forall s n, In s (sources_in 3 pos chg) -> In n (heap t) -> ~ on_axis (an_center n) (ps_pos s)) -> exists r r',
   exactly (FMMParticleForces 3 fmm3_obj (fun s => adaptive_fmm3 cap fuel eps s tb) (force3_at grav 0) pos chg out) (Ok r) /\
   exactly (DirectParticleForces 3 grav 0 pos chg out') (Ok r') /\
   forall i k, (i < length pos / 3)%nat -> (k < 3)%nat -> Rabs (nth (3 * i + k) r 0 - nth (3 * i + k) r' 0) <=
     Rabs (nth i chg 0) * if (length (sources_in 3 pos chg) <=? cap)%nat then 0
     else (INR (p + 2) * (sqrt 3 / (4 - sqrt 3)) ^ S p + INR (p + 1) * (sqrt 3 / (4 - sqrt 3)) ^ p) / ((2 - sqrt 3) * (l / 2 ^ at_height t)) ^ 2 *
          abs_charge (sources_in 3 pos chg)).
Proof. exact (library3_forces orders tb cap eps pos chg p). Qed.
Print Assumptions C66_forces3.
Example C66_case_space : (length five3_pos / 3 <= length five_chg)%nat /\ straddles 3 (sources_in 3 five3_pos five_chg) /\
  order_of 1 (sources_in 3 five3_pos five_chg) = Ok 3%nat /\ 1 < abs_charge (sources_in 3 five3_pos five_chg) /\
  (forall x, count_occ list_R_eq_dec (map (@ps_pos R) (sources_in 3 five3_pos five_chg)) x <= 1)%nat /\
  NoDup (map (@ps_pos R) (sources_in 3 five3_pos five_chg)).
Proof. exact forces3_outputs. Qed.
Example C66_case : (length five_pos / 2 <= length five_chg)%nat /\ straddles 2 (sources_in 2 five_pos five_chg) /\
  order_of 1 (sources_in 2 five_pos five_chg) = Ok 3%nat /\ 1 < abs_charge (sources_in 2 five_pos five_chg).
Proof. rewrite five_sources. destruct five_unit_case as (_ & A & _ & B & C). split; [apply le_n|]. split; [exact A|]. split; [exact B|exact C]. Qed.

(** C67: the accelerations used by the integrator are accurate. *)
Theorem C67_integrator_derivative orders cap eps n charges masses y f p grav : 
  let srcs := map (fun i => PSrc (point_at 2 y i) (nth i charges 0)) (seq 0 n) in
  length y = (2 * n * 2)%nat -> length f = (2 * n * 2)%nat -> (n <= length masses)%nat -> (n <= length charges)%nat ->
  (forall i, (i < n)%nat -> nth i masses 0 <> 0) ->
  straddles 2 srcs -> order_of eps srcs = Ok p -> eps < abs_charge srcs -> (forall x, count_occ list_R_eq_dec (map (@ps_pos R) srcs) x <= cap)%nat ->
  exists fuel t c l r, root_box 2 (map (@ps_pos R) srcs) = Some (c, l) /\ build_adaptive 2 (@ps_pos R) cap fuel srcs = Ok t /\
  exactly (derivative_func 2 fmm_obj (fun s => adaptive_fmm2 cap fuel eps s (table_after orders)) (force_at grav 0) n charges masses y f) (Ok r) /\
  length r = (2 * n * 2)%nat /\ (forall k, (k < n * 2)%nat -> nth k r 0 = nth (n * 2 + k) y 0) /\
  forall i k, (i < n)%nat -> (k < 2)%nat ->
    Rabs (nth (n * 2 + i * 2 + k) r 0 -
      nth i charges 0 / nth i masses 0 * nth k (direct_force 2 grav 0 (filter (fun u => negb (is_at (point_at 2 y i) u)) srcs) (point_at 2 y i)) 0) <=
    Rabs (nth i charges 0 / nth i masses 0) * ((sqrt 2 / 2) ^ p / ((2 - sqrt 2) * (l / 2 ^ at_height t)) * abs_charge srcs).
Proof. exact (integrator2_derivative orders cap eps n charges masses y f p grav). Qed.
Print Assumptions C67_integrator_derivative.
Example C67_case_masses : (5 <= length [1; 2; 1; 1; 3])%nat /\ (forall i, (i < 5)%nat -> nth i [1; 2; 1; 1; 3] 0 <> 0) /\
  NoDup (map (@ps_pos R) five_unit).
Proof. exact integrator_case. Qed.
Example C67_case : length (five_pos ++ repeat 0 10) = (2 * 5 * 2)%nat /\
  map (fun i => PSrc (point_at 2 (five_pos ++ repeat 0 10) i) (nth i five_chg 0)) (seq 0 5) = five_unit.
Proof. split; reflexivity. Qed.
