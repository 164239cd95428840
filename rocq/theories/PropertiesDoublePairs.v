(** All-pairs energies and forces in IEEE doubles. *)
From Coq Require Import Reals List Bool ZArith Arith.
From Verif Require Import Num Outcome Vec CAux Schedule Fields FieldSpec RoundedFields RoundedSpec RoundedCases FloatCases FloatFit FloatSpec FloatFields FloatFieldsSpec FloatFieldsTheorems FloatPairs FloatPairsProofs.
From Coq Require Import Floats.
Import ListNotations.
Local Open Scope R_scope.

(** C112: in IEEE doubles, for coordinates and charges that are zero or between [2^-150] and [2^150] in absolute value, at most [2^25] sources at
    different positions and every interleaving of the threads, the potential energies are finite numbers whose errors are at most those of C83: in
    space, … *)
Theorem C112_space_energies hypF hyp lgF e grav srcs : 0 <= e <= / 1000 -> norm_of 3 hypF hyp -> accurate_norm e hyp ->
  moderate_sources 3 srcs -> NoDup (map (fun s => map real_of (ps_pos s)) srcs) -> (Z.of_nat (length srcs) <= 33554432)%Z ->
  exists its, ppe_iterationsF hypF lgF 3 grav srcs = Ok its /\ (exists run, interleaving its run) /\
  forall run, interleaving its run -> let v := ppe_resultF (length srcs) run in
    length v = length srcs /\ (forall y, In y v -> PrimFloat.is_finite y = true) /\
    forall k sk, nth_error srcs k = Some sk ->
      let x := map real_of (ps_pos sk) in let q := real_of (ps_q sk) in let away := others x (map real_src srcs) in
      Rabs (real_of (nth k v 0%float) - q * direct_potential 3 grav away x)
      <= ((1 + / 9007199254740992) ^ (length srcs + 2) / ((1 - e) * (1 - / 9007199254740992)) - 1) * (Rabs q * rsum (fun s => Rabs (ps_q s) / dist (ps_pos s) x) away).
Proof. exact (space_energies_doubles hypF hyp lgF e grav srcs). Qed.
Print Assumptions C112_space_energies.
(** … in the plane, … *)
Theorem C112_plane_energies hypF hyp lgF lg e grav srcs : 0 <= e <= / 1000 -> norm_of 2 hypF hyp -> accurate_norm e hyp -> log_of lgF lg -> accurate_log e lg ->
  moderate_sources 2 srcs -> NoDup (map (fun s => map real_of (ps_pos s)) srcs) -> (Z.of_nat (length srcs) <= 33554432)%Z ->
  exists its, ppe_iterationsF hypF lgF 2 grav srcs = Ok its /\ (exists run, interleaving its run) /\
  forall run, interleaving its run -> let v := ppe_resultF (length srcs) run in
    length v = length srcs /\ (forall y, In y v -> PrimFloat.is_finite y = true) /\
    forall k sk, nth_error srcs k = Some sk ->
      let x := map real_of (ps_pos sk) in let q := real_of (ps_q sk) in let away := others x (map real_src srcs) in
      Rabs (real_of (nth k v 0%float) - q * direct_potential 2 grav away x)
      <= ((1 + / 9007199254740992) ^ (length srcs + 2) * (1 + e) - 1) * (Rabs q * rsum (fun s => Rabs (ps_q s) * Rabs (ln (dist (ps_pos s) x))) away)
         + (1 + / 9007199254740992) ^ (length srcs + 2) * (1 + e) * - ln ((1 - e) * (1 - / 9007199254740992)) * (Rabs q * abs_charge away).
Proof. exact (plane_energies_doubles hypF hyp lgF lg e grav srcs). Qed.
Print Assumptions C112_plane_energies.
(** … and, for charges that are zero or between [2^-75] and [2^75] in absolute value, so are all components of the forces. *)
Theorem C112_forces d hypF hyp e grav eps srcs : (d <= 3)%nat -> 0 <= e <= / 1000 -> norm_of d hypF hyp -> accurate_norm e hyp -> magnitude 150 eps -> 0 <= real_of eps ->
  moderate_sources d srcs -> (forall s, In s srcs -> magnitude 75 (ps_q s)) -> NoDup (map (fun s => map real_of (ps_pos s)) srcs) -> (Z.of_nat (length srcs) <= 33554432)%Z ->
  exists its, pf_iterationsF hypF d grav eps srcs = Ok its /\ (exists run, interleaving its run) /\
  forall run, interleaving its run -> let v := pf_resultF d (length srcs) run in
    (forall f y, In f v -> In y f -> PrimFloat.is_finite y = true) /\
    forall k sk c, nth_error srcs k = Some sk -> (c < d)%nat ->
      let x := map real_of (ps_pos sk) in let q := real_of (ps_q sk) in let away := others x (map real_src srcs) in
      length v = length srcs /\ length (nth k v []) = d /\
      Rabs (real_of (nth c (nth k v []) 0%float) - q * nth c (direct_force d grav (real_of eps) away x) 0)
      <= ((1 + / 9007199254740992) ^ (length srcs + 5) / (if (d =? 2)%nat then (1 - / 9007199254740992) ^ 5 else (1 - e) ^ 3 * (1 - / 9007199254740992) ^ 6) - 1)
         * (Rabs q * rsum (fun s => Rabs (force_on d grav (real_of eps) s x c)) away).
Proof. exact (forces_doubles d hypF hyp e grav eps srcs). Qed.
Print Assumptions C112_forces.
Example C112_space_case : norm_of 3 float_hypot double_norm /\ accurate_norm (/ 4503599627370496) double_norm /\ moderate_sources 3 pairF /\
  NoDup (map (fun s => map real_of (ps_pos s)) pairF) /\ (forall s, In s pairF -> magnitude 75 (ps_q s)) /\ (Z.of_nat (length pairF) <= 33554432)%Z.
Proof. exact (conj (float_hypot_of 3 (le_n 3)) (conj double_norm_accurate (conj pairF_moderate pairF_case))). Qed.
Example C112_plane_case : norm_of 2 float_hypot double_norm /\ accurate_norm (/ 4503599627370496) double_norm /\ log_of float_log double_log /\
  accurate_log (/ 4503599627370496) double_log /\ moderate_sources 2 pair2F /\
  NoDup (map (fun s => map real_of (ps_pos s)) pair2F) /\ (forall s, In s pair2F -> magnitude 75 (ps_q s)) /\ (Z.of_nat (length pair2F) <= 33554432)%Z.
Proof.
  exact (conj (float_hypot_of 2 (le_S 2 2 (le_n 2))) (conj double_norm_accurate (conj float_log_of (conj double_log_accurate (conj pair2F_moderate pair2F_case))))).
Qed.
