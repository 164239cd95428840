(** Direct sums in IEEE doubles. *)
From Coq Require Import Reals List Bool ZArith Arith.
From Verif Require Import Num Outcome Vec CAux Fields FieldSpec RoundedFields RoundedSpec RoundedCases FloatCases FloatFit FloatSpec FloatFields FloatFieldsSpec FloatFieldsTheorems FloatFieldsExtremes.
From Coq Require Import Floats.
Import ListNotations.
Local Open Scope R_scope.

(** C104: in IEEE doubles, for coordinates and charges that are zero or between [2^-150] and [2^150] in absolute value and at most [2^53] sources,
    the direct potential is a finite number and its error is at most that of C79: in space, … *)
Theorem C104_space_potential hypF hyp lgF e grav safe srcs x : 0 <= e <= / 1000 -> norm_of 3 hypF hyp -> accurate_norm e hyp ->
  moderate 3 x -> moderate_sources 3 srcs -> evaluable safe (map real_of x) (map real_src srcs) -> (Z.of_nat (length srcs) <= 9007199254740992)%Z ->
  let v := potential_sumF hypF lgF 3 grav safe srcs x in let away := others (map real_of x) (map real_src srcs) in
  PrimFloat.is_finite v = true /\
  Rabs (real_of v - direct_potential 3 grav away (map real_of x)) <=
    ((1 + / 9007199254740992) ^ (length srcs + 1) / ((1 - e) * (1 - / 9007199254740992)) - 1) * rsum (fun s => Rabs (ps_q s) / dist (ps_pos s) (map real_of x)) away.
Proof. exact (space_potential_doubles hypF hyp lgF e grav safe srcs x). Qed.
Print Assumptions C104_space_potential.
(** … with at most [2^20] sources, below [2^-32] of the sum of the absolute terms, … *)
Theorem C104_million_sources hypF hyp lgF e grav safe srcs x : 0 <= e <= / 4503599627370496 -> norm_of 3 hypF hyp -> accurate_norm e hyp ->
  moderate 3 x -> moderate_sources 3 srcs -> evaluable safe (map real_of x) (map real_src srcs) -> (Z.of_nat (length srcs) <= 1048576)%Z ->
  let v := potential_sumF hypF lgF 3 grav safe srcs x in let away := others (map real_of x) (map real_src srcs) in
  PrimFloat.is_finite v = true /\
  Rabs (real_of v - direct_potential 3 grav away (map real_of x)) <= / 4294967296 * rsum (fun s => Rabs (ps_q s) / dist (ps_pos s) (map real_of x)) away.
Proof. exact (million_doubles hypF hyp lgF e grav safe srcs x). Qed.
Print Assumptions C104_million_sources.
(** … and in the plane; … *)
Theorem C104_plane_potential hypF hyp lgF lg e grav safe srcs x : 0 <= e <= / 1000 -> norm_of 2 hypF hyp -> accurate_norm e hyp -> log_of lgF lg -> accurate_log e lg ->
  moderate 2 x -> moderate_sources 2 srcs -> evaluable safe (map real_of x) (map real_src srcs) -> (Z.of_nat (length srcs) <= 9007199254740992)%Z ->
  let v := potential_sumF hypF lgF 2 grav safe srcs x in let away := others (map real_of x) (map real_src srcs) in
  PrimFloat.is_finite v = true /\
  Rabs (real_of v - direct_potential 2 grav away (map real_of x)) <=
    ((1 + / 9007199254740992) ^ (length srcs + 1) * (1 + e) - 1) * rsum (fun s => Rabs (ps_q s) * Rabs (ln (dist (ps_pos s) (map real_of x)))) away
    + (1 + / 9007199254740992) ^ (length srcs + 1) * (1 + e) * - ln ((1 - e) * (1 - / 9007199254740992)) * abs_charge away.
Proof. exact (plane_potential_doubles hypF hyp lgF lg e grav safe srcs x). Qed.
Print Assumptions C104_plane_potential.
(** … and every component of the direct force is finite, with at most the error of C80. *)
Theorem C104_force d hypF hyp e grav safe eps srcs x : (d <= 3)%nat -> 0 <= e <= / 1000 -> norm_of d hypF hyp -> accurate_norm e hyp ->
  moderate d x -> moderate_sources d srcs -> magnitude 150 eps -> 0 <= real_of eps ->
  evaluable safe (map real_of x) (map real_src srcs) -> (Z.of_nat (length srcs) <= 9007199254740992)%Z ->
  let f := forcefield_sumF hypF d grav safe eps srcs x in let away := others (map real_of x) (map real_src srcs) in
  length f = d /\ (forall y, In y f -> PrimFloat.is_finite y = true) /\
  forall k, (k < d)%nat ->
    Rabs (nth k (map real_of f) 0 - nth k (direct_force d grav (real_of eps) away (map real_of x)) 0) <=
    ((1 + / 9007199254740992) ^ (length srcs + 4) / (if (d =? 2)%nat then (1 - / 9007199254740992) ^ 5 else (1 - e) ^ 3 * (1 - / 9007199254740992) ^ 6) - 1)
    * rsum (fun s => Rabs (force_on d grav (real_of eps) s (map real_of x) k)) away.
Proof. exact (force_doubles d hypF hyp e grav safe eps srcs x). Qed.
Print Assumptions C104_force.
Example C104_space_case : norm_of 3 float_hypot double_norm /\ accurate_norm (/ 4503599627370496) double_norm /\ moderate 3 pointF /\ moderate_sources 3 pairF /\
  evaluable false (map real_of pointF) (map real_src pairF) /\ magnitude 150 0%float /\ 0 <= real_of 0%float.
Proof.
  exact (conj (float_hypot_of 3 (le_n 3)) (conj double_norm_accurate (conj pointF_moderate (conj pairF_moderate (conj (or_intror pairF_away) zero_magnitude))))).
Qed.
Example C104_plane_case : norm_of 2 float_hypot double_norm /\ accurate_norm (/ 4503599627370496) double_norm /\ log_of float_log double_log /\
  accurate_log (/ 4503599627370496) double_log /\ moderate 2 point2F /\ moderate_sources 2 pair2F /\ evaluable true (map real_of point2F) (map real_src pair2F).
Proof.
  exact (conj (float_hypot_of 2 (le_S 2 2 (le_n 2))) (conj double_norm_accurate (conj float_log_of (conj double_log_accurate
    (conj point2F_moderate (conj pair2F_moderate (or_introl eq_refl))))))).
Qed.

(** C105: the safe direct force of a nonzero charge at a point that differs in coordinate [k] is finite and not zero in component [k]; proved for moderate data, … *)
Theorem C105_single_force_partial d hypF hyp grav safe s x k : (d = 2 \/ d = 3)%nat -> norm_of d hypF hyp -> accurate_norm (/ 1000) hyp ->
  moderate d x -> moderate d (ps_pos s) -> magnitude 150 (ps_q s) -> real_of (ps_q s) <> 0 ->
  (k < d)%nat -> nth k (map real_of (ps_pos s)) 0 <> nth k (map real_of x) 0 ->
  let f := nth k (forcefield_sumF hypF d grav safe 0%float [s] x) 0%float in PrimFloat.is_finite f = true /\ real_of f <> 0.
Proof. exact (single_force d hypF hyp grav safe s x k). Qed.
Print Assumptions C105_single_force_partial.
Example C105_case : moderate 3 pointF /\ moderate_sources 3 [sourceZ [3; 1; 2]%Z 1] /\
  nth 0 (map real_of (ps_pos (sourceZ [3; 1; 2]%Z 1))) 0 <> nth 0 (map real_of pointF) 0 /\ real_of (ps_q (sourceZ [3; 1; 2]%Z 1)) <> 0.
Proof. exact (conj pointF_moderate (conj (fun s H => pairF_moderate s (match H with or_introl e => or_introl e | or_intror f => False_ind _ f end)) two_charges_differ)). Qed.
(** … and false in general: in the plane the square of the distance can underflow, and the force, which is large, is reported as 0; … *)
Theorem C105_plane_refuted : exists s x, Forall (fun y => PrimFloat.is_finite y = true) (ps_pos s ++ x) /\ ps_q s = 1%float /\
  nth 0 (map real_of (ps_pos s)) 0 <> nth 0 (map real_of x) 0 /\
  (forall hypF grav, forcefield_sumF hypF 2 grav true 0%float [s] x = [0; 0]%float) /\ 1 <= nth 0 (direct_force 2 true 0 [real_src s] (map real_of x)) 0.
Proof. exact plane_force_lost. Qed.
Print Assumptions C105_plane_refuted.
(** … in space the cube of the distance can underflow, and no component of the force is finite. *)
Theorem C105_space_refuted : exists s x, Forall (fun y => PrimFloat.is_finite y = true) (ps_pos s ++ x) /\ ps_q s = 1%float /\
  nth 0 (map real_of (ps_pos s)) 0 <> nth 0 (map real_of x) 0 /\
  (forall hypF, hypF (vsub (N := NumF) (ps_pos s) x) = nth 0 (ps_pos s) 0%float ->
    map PrimFloat.is_finite (forcefield_sumF hypF 3 true true 0%float [s] x) = [false; false; false]).
Proof. exact space_force_infinite. Qed.
Print Assumptions C105_space_refuted.
