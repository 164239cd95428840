(** Property theorems: the force fields of the three-dimensional expansions in rounded arithmetic. *)
From Coq Require Import Reals List ZArith.
From Coquelicot Require Import Complex.
From Verif Require Import Num Outcome Vec FieldSpec Orthtree AdaptiveTree Tables3D FmmPasses FmmTree3D Expansion2D Expansion3D Exp3Loops Exp3Theorems RoundedFields RoundedSpec RoundedCases RoundedTree RoundedTreeSpec RoundedFmmSpec RoundedFmmSpec3 RoundedApi RoundedApi3 RoundedHarmonicSpec RoundedExpansion2D RoundedExpansion3D RoundedHarmonicTable RoundedTableCases
  RoundedForce3D RoundedForceSpec3 RoundedForceCases3 RoundedForceFinal3 RoundedForceApi3 RoundedForceTree3.
Import ListNotations.
Local Open Scope R_scope.

(** C111: the force of a three-dimensional expansion at a point where it has one is right up to rounding errors.  This fails: whatever the
    library's Legendre functions, their derivatives and the complex operations deliver, at every point within an angle of about 2^-28 of the
    vertical line through the centre the rounded cosine is one and no force is computed; off the line the exact forces exist. *)
Theorem C111_near_axis_refuted G p e x1 x2 x3 a b c : (forall x y, h_dif (g_h G) x y = double_round (x - y)) ->
  (forall x y, y_hyp (g_y G) x y = double_round (sqrt (x * x + y * y))) -> (forall y x, y_atan2 (g_y G) y x = double_round (atan2 y x)) ->
  (forall t, y_cos (g_y G) t = double_round (cos t)) -> wf3 p e -> s3_ctr e = [a; b; c] -> x1 <> a \/ x2 <> b ->
  x3 <> c -> sqrt ((x1 - a) * (x1 - a) + (x2 - b) * (x2 - b)) <= / 268435456 * Rabs (x3 - c) ->
  me3_force_r G e [x1; x2; x3] = NonFinite /\ le3_force_r G e [x1; x2; x3] = NonFinite /\
  exists F L, me3_force e [x1; x2; x3] = Ok F /\ le3_force e [x1; x2; x3] = Ok L.
Proof. exact (fun HD HH HT HC W Ec N Hz Hs => let P := cone_forces G e x1 x2 x3 a b c HD HH HT HC Ec Hz Hs in conj (proj1 P) (conj (proj2 P) (cone_exact p e x1 x2 x3 a b c W Ec N))). Qed.
Print Assumptions C111_near_axis_refuted.
(** The same for the tree: the constructor delivers an object, and at every point of the box of a leaf within that angle of the vertical line through
    the centre of the leaf no force is computed, whatever the sources. *)
Theorem C111_tree_near_axis_refuted rnd hyp lg w u e ky G eps srcs cap fuel h orders tb : double_like rnd hyp -> accurate_space w u e rnd hyp -> accurate_log e lg -> w <= / 10000000 -> accurate_harmonics w ky (g_h G) ->
  0 < eps -> INR (length srcs) * u <= / 10000 -> 1001 / 1000 * eps < abs_charge srcs <= 2 ^ 41 * eps ->
  (1 <= cap)%nat -> (h <= fuel)%nat -> in_refinable_range 3 h (@ps_pos R) srcs -> tables3_after orders = Ok tb ->
  (forall x y, h_dif (g_h G) x y = double_round (x - y)) -> (forall x y, y_hyp (g_y G) x y = double_round (sqrt (x * x + y * y))) ->
  (forall y x, y_atan2 (g_y G) y x = double_round (atan2 y x)) -> (forall t, y_cos (g_y G) t = double_round (cos t)) ->
  exists o, (forall r, adaptive_fmm3_r rnd hyp lg (g_h G) (me3_force_r G) (le3_force_r G) cap fuel eps srcs tb r <-> r = Ok o) /\
  forall x1 x2 x3 n field del, containing_leaf (N := NumRnd rnd) 3 (f_tree (f3_fmm o)) [x1; x2; x3] = Ok (Some n) ->
    let c j := nth j (an_center n) 0 in x3 <> c 2%nat -> sqrt ((x1 - c 0%nat) * (x1 - c 0%nat) + (x2 - c 1%nat) * (x2 - c 1%nat)) <= / 268435456 * Rabs (x3 - c 2%nat) ->
    force3_at_r rnd hyp G field del srcs o [x1; x2; x3] = NonFinite.
Proof. exact (cone_tree rnd hyp lg w u e ky G eps srcs cap fuel h orders tb). Qed.
Print Assumptions C111_tree_near_axis_refuted.
(** What remains true: with operations accurate to [w], at a point whose direction from the centre makes an angle with the vertical line of sine at
    least [s], where [w] is at most s^2 / 100, the computed force of a local expansion is the exact force at a point as far from the centre and
    within 28 w / s of the given one in relative terms, up to the error of [force_roundings] roundings of the sum of the moduli of the terms. *)
Theorem C111_local_force_partial w ky kl G s K p e x : accurate_gradient w ky kl G -> 0 <= w -> 0 < s -> 100 * w <= s * s -> 10 <= INR K * (s * s) -> wf3 p e -> length x = 3%nat ->
  0 < apart x (s3_ctr e) -> s * apart x (s3_ctr e) <= across x (s3_ctr e) ->
  exists F' x' F, le3_force_r G e x = Ok F' /\ length x' = 3%nat /\ apart x' (s3_ctr e) = apart x (s3_ctr e) /\ apart x' x <= 28 * w / s * apart x (s3_ctr e) /\ le3_force e x' = Ok F /\
  forall k, (k < 3)%nat -> Rabs (nth k F' 0 - nth k F 0) <= ((1 + w) ^ force_roundings kl K p - 1) * (5 / s * weighted e (local_weight (apart x (s3_ctr e)))).
Proof. exact (fun HG Hw Hs Hws HK We Hx Hr Hc => local_force w ky kl G s K HG Hw Hs Hws HK p e x We Hx Hr Hc). Qed.
Print Assumptions C111_local_force_partial.
(** The same for multipole expansions. *)
Theorem C111_multipole_force_partial w ky kl G s K p e x : accurate_gradient w ky kl G -> 0 <= w -> 0 < s -> 100 * w <= s * s -> 10 <= INR K * (s * s) -> wf3 p e -> length x = 3%nat ->
  0 < apart x (s3_ctr e) -> s * apart x (s3_ctr e) <= across x (s3_ctr e) ->
  exists F' x' F, me3_force_r G e x = Ok F' /\ length x' = 3%nat /\ apart x' (s3_ctr e) = apart x (s3_ctr e) /\ apart x' x <= 28 * w / s * apart x (s3_ctr e) /\ me3_force e x' = Ok F /\
  forall k, (k < 3)%nat -> Rabs (nth k F' 0 - nth k F 0) <= ((1 + w) ^ force_roundings kl K p - 1) * (5 / s * weighted e (multipole_weight (apart x (s3_ctr e)))).
Proof. exact (fun HG Hw Hs Hws HK We Hx Hr Hc => multipole_force w ky kl G s K HG Hw Hs Hws HK p e x We Hx Hr Hc). Qed.
Print Assumptions C111_multipole_force_partial.
Example C111_double : accurate_gradient (/ 562949953421312) (1 + 4 + 2 * many) 1 double_gradient.
Proof. exact double_gradient_accurate. Qed.
(** Forty-five degrees, order ten. *)
Example C111_slanted : 100 * / 562949953421312 <= 1 / 2 * (1 / 2) /\ 10 <= INR 40 * (1 / 2 * (1 / 2)) /\
  0 < apart [3; 4; 5] [0; 0; 0] /\ 1 / 2 * apart [3; 4; 5] [0; 0; 0] <= across [3; 4; 5] [0; 0; 0].
Proof. exact slanted. Qed.
Example C111_slanted_bound : (1 + / 562949953421312) ^ force_roundings 1 40 10 - 1 <= / 1000000000000.
Proof. exact slanted_bound. Qed.
(** A point a billionth beside the axis at the height one above the centre. *)
Example C111_cone : let e := s3_of 1 [0; 0; 0] (fun _ _ => RtoC 1) in wf3 1 e /\
  me3_force_r double_gradient e [/ 1000000000; 0; 1] = NonFinite /\ le3_force_r double_gradient e [/ 1000000000; 0; 1] = NonFinite /\
  exists F L, me3_force e [/ 1000000000; 0; 1] = Ok F /\ le3_force e [/ 1000000000; 0; 1] = Ok L.
Proof. exact cone_case. Qed.
(** Such a tree and such a point, off the line, in double precision. *)
Example C111_corners : exists tb o n x1 x2 x3, tables3_after [] = Ok tb /\
  adaptive_fmm3_r double_round double_norm double_log (g_h double_gradient) (me3_force_r double_gradient) (le3_force_r double_gradient) 1 12 (1 / 100) corners tb (Ok o) /\
  containing_leaf (N := NumRnd double_round) 3 (f_tree (f3_fmm o)) [x1; x2; x3] = Ok (Some n) /\ 0 < across [x1; x2; x3] (an_center n) /\
  force3_at_r double_round double_norm double_gradient true 0 corners o [x1; x2; x3] = NonFinite.
Proof. exact corners_case. Qed.
