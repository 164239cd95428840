(** Properties C45, C62-C65: forces in three dimensions.
    [on_axis c x]: [x] lies on the vertical line through [c].  [force3_at grav smooth srcs o x] is the outcome of
    [evaluateForcefield(x)] on the object [o], [NonFinite] the outcome of an evaluation that divides by [sin theta = 0].
    [near]/[far]: only near sources are smoothed by the code (the expansions ignore the smoothing parameter). *)
From Coq Require Import List Arith Reals ZArith Permutation.
From Coquelicot Require Import Coquelicot.
From Verif Require Import Num Outcome Vec Orthtree AdaptiveTree TreeSpec GeometrySpec CAux FieldSpec Fields BuildProofs TreeTheorems TreeTheorems3 Tables3D Expansion3D
  FmmPasses FmmApi PassTree FmmApiProofs BalancedTree BalancedSpec BalancedFmm BalancedApiProofs BalancedTheorems FmmTree3D Exp3Theorems Exp3Cases Fmm3ApiProofs Fmm3Theorems
  Fmm3ForceProofs Force3Theorems CasesFmm.
Import ListNotations.
Local Open Scope R_scope.

(** C62: off the vertical axis the force of an expansion is minus the gradient of its potential [U]. *)
Theorem C62_local3_force_is_minus_gradient p e (x y z : R) : wf3 p e -> ~ on_axis (s3_ctr e) [x; y; z] ->
  exists (U : R -> R -> R -> R) F, le3_force e [x; y; z] = Ok F /\ length F = 3%nat /\
    (forall x' y' z', le3_pot e [x'; y'; z'] = Ok (U x' y' z')) /\
    is_derive (fun t : R => U t y z) x (- nth 0 F 0) /\ is_derive (fun t : R => U x t z) y (- nth 1 F 0) /\
    is_derive (fun t : R => U x y t) z (- nth 2 F 0).
Proof. exact (le3_force_gradient p e x y z). Qed.
Print Assumptions C62_local3_force_is_minus_gradient.
Theorem C62_multipole3_force_is_minus_gradient p e (x y z : R) : wf3 p e -> ~ on_axis (s3_ctr e) [x; y; z] ->
  exists (U : R -> R -> R -> R) F, me3_force e [x; y; z] = Ok F /\ length F = 3%nat /\
    (forall x' y' z', [x'; y'; z'] <> s3_ctr e -> me3_pot e [x'; y'; z'] = Ok (U x' y' z')) /\
    is_derive (fun t : R => U t y z) x (- nth 0 F 0) /\ is_derive (fun t : R => U x t z) y (- nth 1 F 0) /\
    is_derive (fun t : R => U x y t) z (- nth 2 F 0).
Proof. exact (me3_force_gradient p e x y z). Qed.
Print Assumptions C62_multipole3_force_is_minus_gradient.
Example C62_case : exists e, me3_sources [0; 0; 0] 8 [PSrc [1; 0; 0] 1; PSrc [0; 1; 1] (-2)] = Ok e /\ wf3 8 e /\ ~ on_axis (s3_ctr e) [1; 2; 3].
Proof. exact gradient_case. Qed.

(** C63: truncation errors of the force, for each component. *)
Theorem C63_multipole3_force_error center p srcs x rad r : length center = 3%nat -> length x = 3%nat -> same_dim 3 srcs ->
  0 <= rad < r -> (forall s, In s srcs -> dist (ps_pos s) center <= rad) -> r <= dist x center -> ~ on_axis center x ->
  exists e F, me3_sources center (Z.of_nat p) srcs = Ok e /\ me3_force e x = Ok F /\ length F = 3%nat /\
    forall k, (k < 3)%nat -> Rabs (nth k F 0 - rsum (fun s => force_on 3 true 0 s x k) srcs) <=
      abs_charge srcs * (INR (p + 2) * (rad / r) ^ (p + 1) / (r - rad) ^ 2).
Proof. exact (me3_force_error' center p srcs x rad r). Qed.
Print Assumptions C63_multipole3_force_error.
Theorem C63_p2l3_force_error center p srcs x rad r : length center = 3%nat -> length x = 3%nat -> same_dim 3 srcs ->
  0 <= rad < r -> (forall s, In s srcs -> r <= dist (ps_pos s) center) -> dist x center <= rad -> ~ on_axis center x ->
  exists e F, le3_sources center (Z.of_nat p) srcs = Ok e /\ le3_force e x = Ok F /\ length F = 3%nat /\
    forall k, (k < 3)%nat -> Rabs (nth k F 0 - rsum (fun s => force_on 3 true 0 s x k) srcs) <=
      abs_charge srcs * (INR (p + 1) * (rad / r) ^ p / (r - rad) ^ 2).
Proof. exact (le3_force_error' center p srcs x rad r). Qed.
Print Assumptions C63_p2l3_force_error.
Theorem C63_m2l3_force_error orders tb center c p srcs x r1 r2 D : tables3_after orders = Ok tb -> (1 <= p <= max_order3 orders)%nat ->
  length center = 3%nat -> length c = 3%nat -> length x = 3%nat -> same_dim 3 srcs ->
  0 <= r1 -> 0 <= r2 -> r1 + r2 < D -> D <= dist c center ->
  (forall s, In s srcs -> dist (ps_pos s) c <= r2) -> dist x center <= r1 -> ~ on_axis center x ->
  exists me e F, me3_sources c (Z.of_nat p) srcs = Ok me /\ le3_convert tb center me = Ok e /\ le3_force e x = Ok F /\ length F = 3%nat /\
    forall k, (k < 3)%nat -> Rabs (nth k F 0 - rsum (fun s => force_on 3 true 0 s x k) srcs) <=
    abs_charge srcs * ((INR (p + 2) * (r2 / (D - r1)) ^ (p + 1) + INR (p + 1) * (r1 / (D - r2)) ^ p) / (D - r1 - r2) ^ 2).
Proof. exact (m2l3_force_error' orders tb center c p srcs x r1 r2 D). Qed.
Print Assumptions C63_m2l3_force_error.
(** The cases of C51, C52 and C53 are off the axis: *)
Example C63_cases : ~ on_axis [0; 0; 0] [4; 0; 0] /\ ~ on_axis [0; 0; 0] [0; 1; 0].
Proof. exact off_axis_cases. Qed.

(** C64: force of the adaptive tree.  With all sources in the root box and [1 <= p <= 42] there is one object for all schedules.
    Off the axes of the boxes whose expansions are evaluated at [x] the force has the stated error in each component; outside the
    root box it is the direct sum; on such an axis the evaluation fails. *)
Theorem C64_force3_accuracy orders tb cap fuel eps srcs p t c l : tables3_after orders = Ok tb -> same_dim 3 srcs ->
  order_of eps srcs = Ok p -> (1 <= p <= 42)%nat -> build_adaptive 3 (@ps_pos R) cap fuel srcs = Ok t ->
  root_box 3 (map (@ps_pos R) srcs) = Some (c, l) -> (forall s, In s srcs -> in_box 3 c l (ps_pos s)) ->
  exists o, (forall r, adaptive_fmm3 cap fuel eps srcs tb r <-> r = Ok o) /\ f3_order o = p /\ f_tree (f3_fmm o) = t /\
  forall grav smooth x, length x = 3%nat -> 0 <= smooth ->
  ((forall L n, containing_leaf 3 t x = Ok (Some L) -> expanded_for t (f_lists (f3_fmm o)) L n -> ~ on_axis (an_center n) x) ->
   exists v, force3_at grav smooth srcs o x = Ok (map v (seq 0 3)) /\
     (in_box 3 c l x -> exists near far, Permutation (near ++ far) (filter (fun s => negb (is_at x s)) srcs) /\
       (forall s, In s far -> apart 3 (ps_pos s) x (l / 2 ^ at_height t)) /\
       forall k, (k < 3)%nat ->
       Rabs (v k - (rsum (fun s => force_on 3 grav smooth s x k) near + rsum (fun s => force_on 3 grav 0 s x k) far)) <=
         if (length srcs <=? cap)%nat then 0
         else (INR (p + 2) * (sqrt 3 / (4 - sqrt 3)) ^ S p + INR (p + 1) * (sqrt 3 / (4 - sqrt 3)) ^ p) /
              ((2 - sqrt 3) * (l / 2 ^ at_height t)) ^ 2 * abs_charge srcs) /\
     (~ in_box 3 c l x -> map v (seq 0 3) = direct_force 3 grav smooth srcs x)) /\
  (forall L n, containing_leaf 3 t x = Ok (Some L) -> expanded_for t (f_lists (f3_fmm o)) L n -> on_axis (an_center n) x ->
   force3_at grav smooth srcs o x = NonFinite).
Proof. exact (fmm3_force orders tb cap fuel eps srcs p t c l). Qed.
Print Assumptions C64_force3_accuracy.
Example C64_case : exists fuel t c l o, tables3_after [] = Ok tb3_init /\ same_dim 3 five3_unit /\ order_of 1 five3_unit = Ok 3%nat /\ (1 <= 3 <= 42)%nat /\
  build_adaptive 3 (@ps_pos R) 1 fuel five3_unit = Ok t /\ root_box 3 (map (@ps_pos R) five3_unit) = Some (c, l) /\
  (forall s, In s five3_unit -> in_box 3 c l (ps_pos s)) /\ adaptive_fmm3 1 fuel 1 five3_unit tb3_init (Ok o).
Proof. exact tree3_case. Qed.
(** With hypotheses on the input only, at all points on no axis of a box of the tree: *)
Theorem C64_usable orders tb cap eps srcs p : tables3_after orders = Ok tb -> same_dim 3 srcs ->
  (forall j, (j < 3)%nat -> (exists s, In s srcs /\ nth j (ps_pos s) 0 <= 0) /\ (exists s, In s srcs /\ 0 <= nth j (ps_pos s) 0)) ->
  (forall x, count_occ list_R_eq_dec (map (@ps_pos R) srcs) x <= cap)%nat ->
  order_of eps srcs = Ok p -> eps < abs_charge srcs -> (p <= 42)%nat ->
  exists fuel t o c l, root_box 3 (map (@ps_pos R) srcs) = Some (c, l) /\ (forall s, In s srcs -> in_box 3 c l (ps_pos s)) /\
  build_adaptive 3 (@ps_pos R) cap fuel srcs = Ok t /\
  (forall r, adaptive_fmm3 cap fuel eps srcs tb r <-> r = Ok o) /\
  forall grav smooth x, length x = 3%nat -> 0 <= smooth -> (forall n, In n (heap t) -> ~ on_axis (an_center n) x) ->
   exists v, force3_at grav smooth srcs o x = Ok (map v (seq 0 3)) /\
     (in_box 3 c l x -> exists near far, Permutation (near ++ far) (filter (fun s => negb (is_at x s)) srcs) /\
       (forall s, In s far -> apart 3 (ps_pos s) x (l / 2 ^ at_height t)) /\
       forall k, (k < 3)%nat ->
       Rabs (v k - (rsum (fun s => force_on 3 grav smooth s x k) near + rsum (fun s => force_on 3 grav 0 s x k) far)) <=
         if (length srcs <=? cap)%nat then 0
         else (INR (p + 2) * (sqrt 3 / (4 - sqrt 3)) ^ S p + INR (p + 1) * (sqrt 3 / (4 - sqrt 3)) ^ p) /
              ((2 - sqrt 3) * (l / 2 ^ at_height t)) ^ 2 * abs_charge srcs) /\
     (~ in_box 3 c l x -> map v (seq 0 3) = direct_force 3 grav smooth srcs x).
Proof. exact (fmm3_force_usable orders tb cap eps srcs p). Qed.
Print Assumptions C64_usable.
Theorem C64_points_exist cap fuel srcs t c l : same_dim 3 srcs -> build_adaptive 3 (@ps_pos R) cap fuel srcs = Ok t ->
  root_box 3 (map (@ps_pos R) srcs) = Some (c, l) -> 0 < l ->
  exists x, length x = 3%nat /\ in_box 3 c l x /\ forall n, In n (heap t) -> ~ on_axis (an_center n) x.
Proof. exact (off_axes_point' cap fuel srcs t c l). Qed.
Print Assumptions C64_points_exist.

(** C65: force of the balanced tree. *)
Theorem C65_balanced3_force orders tb cap eps srcs p h c l : tables3_after orders = Ok tb -> same_dim 3 srcs ->
  order_of eps srcs = Ok p -> (1 <= p <= 42)%nat -> bal_height 3 (length srcs) cap = Ok h -> (h <= 10)%nat ->
  root_box 3 (map (@ps_pos R) srcs) = Some (c, l) -> 0 < l -> (forall s, In s srcs -> in_half_open 3 c l (ps_pos s)) ->
  exists o, (forall r, balanced_fmm3 cap eps srcs tb r <-> r = Ok o) /\ b3_order o = p /\ bt_height (b_tree (b3_fmm o)) = h /\
  forall grav smooth x, length x = 3%nat -> in_half_open 3 c l x -> 0 <= smooth ->
  exists L, bal_containing_leaf 3 (b_tree (b3_fmm o)) x = Ok L /\ in_half_open 3 (an_center L) (an_len L) x /\
  (~ on_axis (an_center L) x -> exists v, bal_force3_at grav smooth o x = Ok (map v (seq 0 3)) /\
     exists near far, Permutation (near ++ far) (filter (fun s => negb (is_at x s)) srcs) /\
       (forall s, In s far -> apart 3 (ps_pos s) x (l / 2 ^ h)) /\
       forall k, (k < 3)%nat ->
       Rabs (v k - (rsum (fun s => force_on 3 grav smooth s x k) near + rsum (fun s => force_on 3 grav 0 s x k) far)) <=
         if (h =? 0)%nat then 0
         else (INR (p + 2) * (sqrt 3 / (4 - sqrt 3)) ^ S p + INR (p + 1) * (sqrt 3 / (4 - sqrt 3)) ^ p) /
              ((2 - sqrt 3) * (l / 2 ^ h)) ^ 2 * abs_charge srcs) /\
  (on_axis (an_center L) x -> bal_force3_at grav smooth o x = NonFinite).
Proof. exact (bal3_force orders tb cap eps srcs p h c l). Qed.
Print Assumptions C65_balanced3_force.
Theorem C65_usable orders tb cap eps srcs p : tables3_after orders = Ok tb -> same_dim 3 srcs -> spread 3 (@ps_pos R) srcs ->
  (1 <= cap)%nat -> (cap < length srcs * 2 ^ 3)%nat -> (Z.of_nat (length srcs) <= Z.of_nat cap * 2 ^ 30)%Z ->
  order_of eps srcs = Ok p -> eps < abs_charge srcs -> (p <= 42)%nat ->
  exists h o c l, bal_height 3 (length srcs) cap = Ok h /\ root_box 3 (map (@ps_pos R) srcs) = Some (c, l) /\ 0 < l /\
  (forall s, In s srcs -> in_half_open 3 c l (ps_pos s)) /\
  (forall r, balanced_fmm3 cap eps srcs tb r <-> r = Ok o) /\
  forall grav smooth x, length x = 3%nat -> in_half_open 3 c l x -> 0 <= smooth ->
  exists L, bal_containing_leaf 3 (b_tree (b3_fmm o)) x = Ok L /\ in_half_open 3 (an_center L) (an_len L) x /\
  (~ on_axis (an_center L) x -> exists v, bal_force3_at grav smooth o x = Ok (map v (seq 0 3)) /\
     exists near far, Permutation (near ++ far) (filter (fun s => negb (is_at x s)) srcs) /\
       (forall s, In s far -> apart 3 (ps_pos s) x (l / 2 ^ h)) /\
       forall k, (k < 3)%nat ->
       Rabs (v k - (rsum (fun s => force_on 3 grav smooth s x k) near + rsum (fun s => force_on 3 grav 0 s x k) far)) <=
         if (h =? 0)%nat then 0
         else (INR (p + 2) * (sqrt 3 / (4 - sqrt 3)) ^ S p + INR (p + 1) * (sqrt 3 / (4 - sqrt 3)) ^ p) /
              ((2 - sqrt 3) * (l / 2 ^ h)) ^ 2 * abs_charge srcs) /\
  (on_axis (an_center L) x -> bal_force3_at grav smooth o x = NonFinite).
Proof. exact (bal3_force_usable orders tb cap eps srcs p). Qed.
Print Assumptions C65_usable.
Example C65_case : exists c l, tables3_after [] = Ok tb3_init /\ same_dim 3 five3_unit /\ spread 3 (@ps_pos R) five3_unit /\
  bal_height 3 (length five3_unit) 1 = Ok 1%nat /\ (1 < length five3_unit * 2 ^ 3)%nat /\ (Z.of_nat (length five3_unit) <= Z.of_nat 1 * 2 ^ 30)%Z /\
  root_box 3 (map (@ps_pos R) five3_unit) = Some (c, l) /\ 0 < l /\ (forall s, In s five3_unit -> in_half_open 3 c l (ps_pos s)).
Proof. exact balanced3_case. Qed.

(** C45: false.  Every leaf of every adaptive tree contains points, not at any source, where the force is undefined; and so does
    every expansion, on the vertical line through its centre. *)
Theorem C45_force_defined_everywhere_refuted : exists fuel t o c l x, root_box 3 (map (@ps_pos R) five3_unit) = Some (c, l) /\
  build_adaptive 3 (@ps_pos R) 1 fuel five3_unit = Ok t /\ (forall r, adaptive_fmm3 1 fuel 1 five3_unit tb3_init r <-> r = Ok o) /\
  length x = 3%nat /\ in_box 3 c l x /\ ~ In x (map (@ps_pos R) five3_unit) /\ force3_at true 0 five3_unit o x = NonFinite.
Proof. exact five3_force_undefined. Qed.
Print Assumptions C45_force_defined_everywhere_refuted.
Theorem C45_every_leaf_refuted orders tb cap fuel eps srcs p t c l : tables3_after orders = Ok tb -> same_dim 3 srcs ->
  order_of eps srcs = Ok p -> (1 <= p <= 42)%nat -> build_adaptive 3 (@ps_pos R) cap fuel srcs = Ok t ->
  root_box 3 (map (@ps_pos R) srcs) = Some (c, l) -> (forall s, In s srcs -> in_box 3 c l (ps_pos s)) -> 0 < l ->
  exists o, (forall r, adaptive_fmm3 cap fuel eps srcs tb r <-> r = Ok o) /\
  forall n, In n (leaf_nodes t) -> exists x, length x = 3%nat /\ in_box 3 c l x /\ ~ In x (map (@ps_pos R) srcs) /\ on_axis (an_center n) x /\
  containing_leaf 3 t x = Ok (Some n) /\ forall grav smooth, 0 <= smooth -> force3_at grav smooth srcs o x = NonFinite.
Proof. exact (fmm3_force_undefined orders tb cap fuel eps srcs p t c l). Qed.
Print Assumptions C45_every_leaf_refuted.
Theorem C45_expansions_refuted p e x : wf3 p e -> length x = 3%nat -> on_axis (s3_ctr e) x -> le3_force e x = NonFinite /\ me3_force e x = NonFinite.
Proof. exact (force3_on_axis p e x). Qed.
Print Assumptions C45_expansions_refuted.
