(** Properties of the coordinate changes. *)
From Coq Require Import Reals List Arith Lra Lia.
From Verif Require Import Num Outcome Vec CAux Fields Expansion2D FieldProofs Spherical.
Import ListNotations.
Local Open Scope R_scope.

Lemma sqrt_ratio x y : x <> 0 -> sqrt (1 + (y / x) * (y / x)) = sqrt (x * x + y * y) / Rabs x.
Proof.
  intros Hx. assert (0 < x * x) by nra. replace (1 + y / x * (y / x)) with ((x * x + y * y) / (x * x)) by (field; exact Hx).
  rewrite sqrt_div_alt by assumption. f_equal. fold (Rsqr x). apply sqrt_Rsqr_abs.
Qed.
Lemma cos_atan' t : cos (atan t) = 1 / sqrt (1 + t * t).
Proof. rewrite cos_atan. unfold Rsqr. reflexivity. Qed.
Lemma sin_atan' t : sin (atan t) = t / sqrt (1 + t * t).
Proof. rewrite sin_atan. unfold Rsqr. reflexivity. Qed.

(** [atan2] is the argument: it inverts polar coordinates, with [atan2 0 0 = 0] harmless since the radius vanishes. *)
Lemma atan2_polar y x : sqrt (x * x + y * y) * cos (atan2 y x) = x /\ sqrt (x * x + y * y) * sin (atan2 y x) = y.
Proof.
  unfold atan2. destruct (Rlt_dec 0 x) as [Px|Px]; [|destruct (Rlt_dec x 0) as [Nx|Nx]].
  - assert (0 < sqrt (x * x + y * y)) by (apply sqrt_lt_R0; nra).
    rewrite cos_atan', sin_atan', sqrt_ratio, Rabs_pos_eq by lra. split; field; lra.
  - assert (0 < sqrt (x * x + y * y)) by (apply sqrt_lt_R0; nra).
    assert (E : cos (atan (y / x)) = - x / sqrt (x * x + y * y) /\ sin (atan (y / x)) = - y / sqrt (x * x + y * y)).
    { rewrite cos_atan', sin_atan', sqrt_ratio, Rabs_left by lra. split; field; lra. }
    destruct E as [Ec Es]. destruct (Rle_dec 0 y).
    + rewrite neg_cos, neg_sin, Ec, Es. split; field; lra.
    + unfold Rminus. rewrite cos_plus, sin_plus, cos_neg, sin_neg, cos_PI, sin_PI, Ec, Es. split; field; lra.
  - assert (x = 0) by lra. subst x. destruct (Rlt_dec 0 y) as [Py|Py]; [|destruct (Rlt_dec y 0) as [Ny|Ny]].
    + rewrite cos_PI2, sin_PI2. replace (0 * 0 + y * y) with (y * y) by ring. rewrite sqrt_square by lra. split; ring.
    + rewrite cos_neg, sin_neg, cos_PI2, sin_PI2. replace (0 * 0 + y * y) with (- y * - y) by ring. rewrite sqrt_square by lra. split; ring.
    + assert (y = 0) by lra. subst y. replace (0 * 0 + 0 * 0) with 0 by ring. rewrite sqrt_0. split; ring.
Qed.
Lemma atan2_range y x : - PI < atan2 y x <= PI.
Proof.
  pose proof PI_RGT_0. unfold atan2. destruct (Rlt_dec 0 x) as [Px|Px]; [|destruct (Rlt_dec x 0) as [Nx|Nx]].
  - pose proof (atan_bound (y / x)). lra.
  - destruct (Rle_dec 0 y) as [Py|Py].
    + pose proof (atan_bound (y / x)). assert (atan (y / x) <= 0); [|lra].
      rewrite <- atan_0. assert (y / x <= 0). { replace (y / x) with (- (y * / - x)) by (field; lra).
        assert (0 < / - x) by (apply Rinv_0_lt_compat; lra). nra. }
      destruct H1 as [L|E]; [left; apply atan_increasing; exact L|right; rewrite E; reflexivity].
    + pose proof (atan_bound (y / x)). assert (0 < atan (y / x)); [|lra].
      rewrite <- atan_0. apply atan_increasing. replace (y / x) with (- y * / - x) by (field; lra).
      apply Rmult_lt_0_compat; [lra|apply Rinv_0_lt_compat; lra].
  - destruct (Rlt_dec 0 y); [|destruct (Rlt_dec y 0)]; lra.
Qed.
Lemma atan2_nonneg y x : 0 <= y -> 0 <= atan2 y x.
Proof.
  intros Hy. pose proof PI_RGT_0. unfold atan2. destruct (Rlt_dec 0 x) as [Px|Px]; [|destruct (Rlt_dec x 0) as [Nx|Nx]].
  - rewrite <- atan_0. assert (0 <= y / x) as [L|E].
    { apply Rmult_le_pos; [exact Hy|left; apply Rinv_0_lt_compat; exact Px]. }
    + left; apply atan_increasing; exact L. + right; rewrite <- E; reflexivity.
  - destruct (Rle_dec 0 y); [|lra]. pose proof (atan_bound (y / x)). lra.
  - destruct (Rlt_dec 0 y); [|destruct (Rlt_dec y 0)]; lra.
Qed.

Lemma vnorm2 x y : vnorm [x; y] = sqrt (x * x + y * y).
Proof. unfold vnorm, vnorm_sq, vdot. cbn. f_equal. ring. Qed.
Lemma vnorm3 x y z : vnorm [x; y; z] = sqrt (x * x + y * y + z * z).
Proof. unfold vnorm, vnorm_sq, vdot. cbn. f_equal. ring. Qed.

Lemma list2 {A} (v : list A) : length v = 2%nat -> exists x y, v = [x; y].
Proof. destruct v as [|x [|y [|]]]; try discriminate. intros _; exists x, y; reflexivity. Qed.
Lemma list3 {A} (v : list A) : length v = 3%nat -> exists x y z, v = [x; y; z].
Proof. destruct v as [|x [|y [|z [|]]]]; try discriminate. intros _; exists x, y, z; reflexivity. Qed.

Lemma rho_theta x y z : let s := sqrt (x * x + y * y) in
  sqrt (x * x + y * y + z * z) * sin (atan2 s z) = s /\ sqrt (x * x + y * y + z * z) * cos (atan2 s z) = z.
Proof.
  intros s. destruct (atan2_polar s z) as [A B]. assert (E : x * x + y * y + z * z = z * z + s * s).
  { unfold s. rewrite sqrt_sqrt by nra. ring. } rewrite E. split; assumption.
Qed.

Theorem polar_round_trip (v : list R) : length v = 2%nat ->
  exists r phi, to_spherical 2 v = Ok [r; phi] /\ to_cartesian 2 [r; phi] = Ok v /\
    r = sqrt (nth 0 v 0 ^ 2 + nth 1 v 0 ^ 2) /\ 0 <= r /\ - PI < phi <= PI.
Proof.
  intros Hv. destruct (list2 v Hv) as [x [y ->]]. exists (vnorm [x; y]), (atan2 y x). split; [reflexivity|].
  rewrite vnorm2. destruct (atan2_polar y x) as [A B]. repeat split.
  - unfold to_cartesian. cbn [vget nth]. rewrite A, B. reflexivity.
  - cbn [nth]. f_equal. ring.
  - apply sqrt_pos.
  - apply atan2_range.
  - apply atan2_range.
Qed.
Theorem spherical_round_trip (v : list R) : length v = 3%nat ->
  exists r theta phi, to_spherical 3 v = Ok [r; theta; phi] /\ to_cartesian 3 [r; theta; phi] = Ok v /\
    r = sqrt (nth 0 v 0 ^ 2 + nth 1 v 0 ^ 2 + nth 2 v 0 ^ 2) /\ 0 <= r /\ 0 <= theta <= PI /\ - PI < phi <= PI.
Proof.
  intros Hv. destruct (list3 v Hv) as [x [y [z ->]]].
  exists (vnorm [x; y; z]), (atan2 (sqrt (x * x + y * y)) z), (atan2 y x). split; [reflexivity|].
  rewrite vnorm3. destruct (rho_theta x y z) as [S T]. destruct (atan2_polar y x) as [A B]. repeat split.
  - unfold to_cartesian. cbn [vget nth]. rewrite S, T, A, B. reflexivity.
  - cbn [nth]. f_equal. ring.
  - apply sqrt_pos.
  - apply atan2_nonneg. apply sqrt_pos.
  - apply atan2_range.
  - apply atan2_range.
  - apply atan2_range.
Qed.

(** ** The spherical basis, as documented in vector.hpp 153-156 *)
Definition r_hat (theta phi : R) : list R := [cos phi * sin theta; sin theta * sin phi; cos theta].
Definition theta_hat (theta phi : R) : list R := [cos theta * cos phi; cos theta * sin phi; - sin theta].
Definition phi_hat (theta phi : R) : list R := [- sin phi; cos phi; 0].
Definition dot3 (a b : list R) : R := nth 0 a 0 * nth 0 b 0 + nth 1 a 0 * nth 1 b 0 + nth 2 a 0 * nth 2 b 0.

Theorem cartesian_basis_combination v theta phi : length v = 3%nat ->
  exists w, to_cartesian_basis 3 v theta phi = Ok w /\ length w = 3%nat /\ forall k, (k < 3)%nat ->
    nth k w 0 = nth 0 v 0 * nth k (r_hat theta phi) 0 + nth 1 v 0 * nth k (theta_hat theta phi) 0 + nth 2 v 0 * nth k (phi_hat theta phi) 0.
Proof.
  intros Hv. destruct (list3 v Hv) as [x [y [z ->]]]. eexists. split; [reflexivity|]. split; [reflexivity|].
  intros [|[|[|k]]] Hk; try lia; cbn [nth vget r_hat theta_hat phi_hat]; ring.
Qed.
Theorem cartesian_basis_orthonormal theta phi :
  dot3 (r_hat theta phi) (r_hat theta phi) = 1 /\ dot3 (theta_hat theta phi) (theta_hat theta phi) = 1 /\
  dot3 (phi_hat theta phi) (phi_hat theta phi) = 1 /\ dot3 (r_hat theta phi) (theta_hat theta phi) = 0 /\
  dot3 (r_hat theta phi) (phi_hat theta phi) = 0 /\ dot3 (theta_hat theta phi) (phi_hat theta phi) = 0.
Proof.
  pose proof (sin2_cos2 theta) as A. pose proof (sin2_cos2 phi) as B. unfold Rsqr in A, B.
  unfold dot3, r_hat, theta_hat, phi_hat. cbn [nth].
  set (s := sin theta) in *. set (c := cos theta) in *. set (u := sin phi) in *. set (w := cos phi) in *. clearbody s c u w.
  assert (Es : s * s = 1 - c * c) by lra. assert (Eu : u * u = 1 - w * w) by lra.
  repeat split.
  - replace (w * s * (w * s) + s * u * (s * u) + c * c) with (s * s * (w * w + u * u) + c * c) by ring. rewrite Eu, Es. ring.
  - replace (c * w * (c * w) + c * u * (c * u) + - s * - s) with (c * c * (w * w + u * u) + s * s) by ring. rewrite Eu, Es. ring.
  - replace (- u * - u + w * w + 0 * 0) with (u * u + w * w) by ring. rewrite Eu. ring.
  - replace (w * s * (c * w) + s * u * (c * u) + c * - s) with (s * c * (w * w + u * u) - c * s) by ring. rewrite Eu. ring.
  - ring.
  - ring.
Qed.
Theorem cartesian_basis_isometry v w theta phi v' w' : length v = 3%nat -> length w = 3%nat ->
  to_cartesian_basis 3 v theta phi = Ok v' -> to_cartesian_basis 3 w theta phi = Ok w' -> dot3 v' w' = dot3 v w.
Proof.
  intros Hv Hw. destruct (list3 v Hv) as [x [y [z ->]]], (list3 w Hw) as [x' [y' [z' ->]]]. unfold to_cartesian_basis. cbn [vget nth].
  intros Ev Ew. assert (E1 := f_equal (fun o => match o with Ok l => l | _ => [] end) Ev).
  assert (E2 := f_equal (fun o => match o with Ok l => l | _ => [] end) Ew). cbn in E1, E2. subst v' w'. clear Ev Ew Hv Hw.
  pose proof (sin2_cos2 theta) as A. pose proof (sin2_cos2 phi) as B. unfold Rsqr in A, B. unfold dot3. cbn [nth].
  set (s := sin theta) in *. set (c := cos theta) in *. set (u := sin phi) in *. set (k := cos phi) in *. clearbody s c u k.
  transitivity ((k * k + u * u) * ((s * x + c * y) * (s * x' + c * y') + z * z') + (c * x - s * y) * (c * x' - s * y')); [ring|].
  replace (k * k + u * u) with 1 by lra.
  transitivity ((s * s + c * c) * (x * x' + y * y') + z * z'); [ring|]. rewrite A. ring.
Qed.
(** The radial unit vector at the angles of a point points to the point. *)
Theorem cartesian_basis_radial v r theta phi : length v = 3%nat -> to_spherical 3 v = Ok [r; theta; phi] ->
  to_cartesian_basis 3 [r; 0; 0] theta phi = Ok v.
Proof.
  intros Hv E. destruct (spherical_round_trip v Hv) as [r' [t' [p' [E' [C _]]]]]. rewrite E in E'. injection E' as <- <- <-.
  rewrite <- C. unfold to_cartesian, to_cartesian_basis. cbn [vget nth]. f_equal. f_equal; [ring|]. f_equal; [ring|]. f_equal. ring.
Qed.
(** Other dimensions are refused. *)
Theorem spherical_dims d v theta phi : d <> 2%nat -> d <> 3%nat ->
  to_spherical d v = Throw /\ to_cartesian d v = Throw /\ to_cartesian_basis d v theta phi = Throw.
Proof. intros H2 H3. destruct d as [|[|[|[|d]]]]; try congruence; repeat split. Qed.
