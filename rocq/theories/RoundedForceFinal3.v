(** The force fields of the three-dimensional expansions in rounded arithmetic: the statements for expansions of the API, and double precision. *)
From Coq Require Import Reals List Arith ZArith Lia Lra Psatz.
From Coquelicot Require Import Rcomplements Complex.
From Verif Require Import Num Outcome Vec VecProofs Tables3D CAux SolidHarmonics Zonal HarmonicBounds Kernel3 Expansion2D Spherical SphericalProofs Harmonics3D Expansion3D Exp3Loops Exp3Theorems Exp3Forces Gradient3
  Exp3Proofs GradientBounds3 RoundedFields RoundedSpec RoundedCases RoundedPairCases RoundedExpansion2D RoundedExpansion3D RoundedComplexSpec RoundedHarmonicSpec RoundedHarmonicTable RoundedTableSpec RoundedTable RoundedTableCases
  RoundedForce3D RoundedForceSpec3 RoundedForceTable3 RoundedForceProofs3 RoundedForceTheorems3 RoundedForceCases3.
Import ListNotations.
Local Open Scope R_scope.
Arguments Cmod x%C.

Lemma apart_pn x y : length x = 3%nat -> length y = 3%nat -> apart x y = pn (p3 (vsub x y)).
Proof. intros Hx Hy. rewrite p3_sub by assumption. unfold apart, pn, nrm, psub, p3, c1, c2, c3. cbn [fst snd]. f_equal; ring. Qed.
Lemma across_hor x y : length x = 3%nat -> length y = 3%nat -> across x y = hor (p3 (vsub x y)).
Proof. intros Hx Hy. rewrite p3_sub by assumption. unfold across, hor, psub, p3, c1, c2. cbn [fst snd]. f_equal; ring. Qed.

Section Final.
Variables (w : R) (ky kl : nat) (G : garith) (s : R) (K : nat).
Hypothesis HG : accurate_gradient w ky kl G.
Hypothesis Hw : 0 <= w.
Hypothesis Hs : 0 < s.
Hypothesis Hws : 100 * w <= s * s.
Hypothesis HK : 10 <= INR K * (s * s).
Variables (p : nat) (e : se3) (x : list R).
Hypothesis We : wf3 p e.
Hypothesis Hx : length x = 3%nat.
Hypothesis Hr : 0 < apart x (s3_ctr e).
Hypothesis Hc : s * apart x (s3_ctr e) <= across x (s3_ctr e).
Let CL : length (s3_ctr e) = 3%nat := proj1 (proj2 We).
Let mv := moved G x (s3_ctr e).
Lemma moved_facts : length mv = 3%nat /\ apart mv (s3_ctr e) = apart x (s3_ctr e) /\ apart mv x <= 28 * w / s * apart x (s3_ctr e).
Proof.
  assert (R0 := Hr). assert (C0 := Hc). rewrite apart_pn in R0, C0 by assumption. rewrite across_hor in C0 by assumption.
  assert (LM : length mv = 3%nat) by reflexivity.
  assert (PF := point_facts w ky kl G HG s Hw Hs Hws x (s3_ctr e) Hx CL R0 C0). destruct PF as (_ & _ & PF).
  split; [exact LM|]. split.
  - rewrite !apart_pn by assumption. unfold mv. rewrite (moved_p3 G x (s3_ctr e) CL). apply polar_pn. lra.
  - rewrite !apart_pn by assumption. eapply Rle_trans; [|exact PF]. apply Req_le. f_equal. rewrite <- (moved_p3 G x (s3_ctr e) CL). fold mv.
    rewrite !p3_sub by assumption. unfold psub, c1, c2, c3. cbn [fst snd]. apply f_equal2; [apply f_equal2; ring|ring].
Qed.
Theorem local_force : exists F' x' F, le3_force_r G e x = Ok F' /\ length x' = 3%nat /\ apart x' (s3_ctr e) = apart x (s3_ctr e) /\
  apart x' x <= 28 * w / s * apart x (s3_ctr e) /\ le3_force e x' = Ok F /\
  forall k, (k < 3)%nat -> Rabs (nth k F' 0 - nth k F 0) <= ((1 + w) ^ force_roundings kl K p - 1) * (5 / s * weighted e (local_weight (apart x (s3_ctr e)))).
Proof.
  destruct moved_facts as (M1 & M2 & M3). assert (R0 := Hr). assert (C0 := Hc). rewrite apart_pn in R0, C0 by assumption. rewrite across_hor in C0 by assumption.
  destruct (wf3_form p e We) as [f Ef].
  destruct (le3_force_r_ok w ky kl G HG s K Hw Hs Hws HK x (s3_ctr e) Hx CL R0 C0 (Z.of_nat p) f ltac:(lia)) as (F' & F & E1 & E2 & B). rewrite <- Ef in E1, E2, B.
  exists F', mv, F. split; [exact E1|]. split; [exact M1|]. split; [exact M2|]. split; [exact M3|]. split; [exact E2|]. intros k Hk. rewrite apart_pn by assumption. rewrite Nat2Z.id in B. apply B. exact Hk.
Qed.
Theorem multipole_force : exists F' x' F, me3_force_r G e x = Ok F' /\ length x' = 3%nat /\ apart x' (s3_ctr e) = apart x (s3_ctr e) /\
  apart x' x <= 28 * w / s * apart x (s3_ctr e) /\ me3_force e x' = Ok F /\
  forall k, (k < 3)%nat -> Rabs (nth k F' 0 - nth k F 0) <= ((1 + w) ^ force_roundings kl K p - 1) * (5 / s * weighted e (multipole_weight (apart x (s3_ctr e)))).
Proof.
  destruct moved_facts as (M1 & M2 & M3). assert (R0 := Hr). assert (C0 := Hc). rewrite apart_pn in R0, C0 by assumption. rewrite across_hor in C0 by assumption.
  destruct (wf3_form p e We) as [f Ef].
  destruct (me3_force_r_ok w ky kl G HG s K Hw Hs Hws HK x (s3_ctr e) Hx CL R0 C0 (Z.of_nat p) f ltac:(lia)) as (F' & F & E1 & E2 & B). rewrite <- Ef in E1, E2, B.
  exists F', mv, F. split; [exact E1|]. split; [exact M1|]. split; [exact M2|]. split; [exact M3|]. split; [exact E2|]. intros k Hk. rewrite apart_pn by assumption. rewrite Nat2Z.id in B. apply B. exact Hk.
Qed.
End Final.

(** Operations correctly rounded to 53 bits. *)
Definition double_gradient : garith := mkga double_table_harith double_table (fun t => double_round (sin t)) (fun l m x => double_round (schmidt_dtheta l m (acos x))).
Lemma dtheta_bound l m th : (m <= l)%nat -> 0 < sin th -> Rabs (schmidt_dtheta l m th) <= 4 * INR l.
Proof.
  intros Hm Hs. assert (V := ylm_dvalue l m th 0 Hs Hm). assert (U : Cmod (dYr (e_th th 0) (polar 1 th 0) (Z.of_nat l) (Z.of_nat m)) <= 2 * INR l).
  { rewrite INR_IZR_INZ. apply dYr_bound; [lia|apply e_th_unit|apply polar_pn; lra]. }
  rewrite <- V in U. assert (PL := pos_INR l). destruct m as [|m].
  - rewrite Cmod_R in U. lra.
  - assert (S22 : sqrt 2 * sqrt 2 = 2) by (apply sqrt_sqrt; lra). assert (S2 : 0 < sqrt 2) by (apply sqrt_lt_R0; lra).
    rewrite Cmod_div, Cmod_mult, Cmod_R, Cmod_pow, Cmod_expi, pow1, Cmod_R, (Rabs_pos_eq (sqrt 2)), Rmult_1_r in U; [|lra|intros Z; apply RtoC_inj in Z; lra].
    assert (Q : Rabs (schmidt_dtheta l (S m) th) <= 2 * INR l * sqrt 2).
    { apply (Rmult_le_reg_r (/ sqrt 2)); [apply Rinv_0_lt_compat; exact S2|]. rewrite (Rmult_assoc (2 * INR l)), Rinv_r, Rmult_1_r by lra. exact U. }
    assert (S3 : sqrt 2 <= 2) by nra. nra.
Qed.
Theorem double_gradient_accurate : accurate_gradient (/ 562949953421312) (1 + 4 + 2 * many) 1 double_gradient.
Proof.
  constructor; cbn [double_gradient g_h g_y g_sin g_dleg].
  - exact double_table_harmonics.
  - exact double_table_accurate.
  - intros t. unfold close. eapply Rle_trans; [apply double_accurate|]. apply Rmult_le_compat_r; [apply Rabs_pos|lra].
  - intros l m x Hm Hx. assert (A := acos_bound x). assert (Sp : 0 < sin (acos x)).
    { assert (Q := sin2_cos2 (acos x)). rewrite cos_acos in Q by lra. unfold Rsqr in Q. assert (0 <= sin (acos x)) by (apply sin_ge_0; lra). nra. }
    eapply Rle_trans; [apply double_accurate|]. assert (B := dtheta_bound l m _ Hm Sp). assert (PL := pos_INR l).
    rewrite Nat.mul_1_l, pow_add, pow_1. assert (P := pow_R1_Rle (1 + / 562949953421312) l ltac:(lra)). set (q := (1 + / 562949953421312) ^ l) in *.
    apply Rle_trans with (INR l * / 562949953421312); [lra|]. apply Rmult_le_compat_l; [exact PL|]. nra.
Qed.
(** A point at forty-five degrees from the axis. *)
Theorem slanted : 100 * / 562949953421312 <= 1 / 2 * (1 / 2) /\ 10 <= INR 40 * (1 / 2 * (1 / 2)) /\
  0 < apart [3; 4; 5] [0; 0; 0] /\ 1 / 2 * apart [3; 4; 5] [0; 0; 0] <= across [3; 4; 5] [0; 0; 0].
Proof.
  unfold apart, across. cbn [vget nth]. split; [lra|]. split; [cbn [INR]; lra|].
  replace ((3 - 0) * (3 - 0) + (4 - 0) * (4 - 0)) with (5 * 5) by ring. replace (5 * 5 + (5 - 0) * (5 - 0)) with 50 by ring. rewrite sqrt_square by lra.
  split; [apply sqrt_lt_R0; lra|]. assert (Q : sqrt 50 <= 10) by (rewrite <- (sqrt_square 10) by lra; apply sqrt_le_1_alt; lra). lra.
Qed.
Lemma exp_power n u : 0 < u -> (1 + u) ^ n <= exp (INR n * u).
Proof.
  intros Hu. induction n as [|n IH]; [cbn [pow INR]; rewrite Rmult_0_l, exp_0; lra|]. rewrite S_INR. replace ((INR n + 1) * u) with (u + INR n * u) by ring. rewrite exp_plus. cbn [pow].
  assert (Q := exp_ineq1 u ltac:(lra)). apply Rmult_le_compat; [lra|apply pow_le; lra|lra|exact IH].
Qed.
Theorem slanted_bound : (1 + / 562949953421312) ^ force_roundings 1 40 10 - 1 <= / 1000000000000.
Proof.
  unfold force_roundings. change ((1 + 11) * (10 + 1) + 2 * 40 + (10 + 1) * (10 + 1) + 20)%nat with 353%nat.
  assert (E : (1 + / 562949953421312) ^ 353 <= exp (353 * / 562949953421312)).
  { replace 353 with (INR 353) by (cbn [INR]; lra). apply exp_power. lra. }
  assert (X : exp (353 * / 562949953421312) <= / (1 - 353 * / 562949953421312)).
  { rewrite <- (Rinv_inv (exp _)). apply Rinv_le_contravar; [lra|]. rewrite <- exp_Ropp. assert (Q := exp_ineq1 (- (353 * / 562949953421312)) ltac:(lra)). lra. }
  assert (Y : / (1 - 353 * / 562949953421312) <= 1 + / 1000000000000). { apply (Rmult_le_reg_r (1 - 353 * / 562949953421312)); [lra|]. rewrite Rinv_l by lra. lra. }
  lra.
Qed.
(** A point in the cone that is not on the axis. *)
Theorem cone_case : let e := s3_of 1 [0; 0; 0] (fun _ _ => RtoC 1) in wf3 1 e /\
  me3_force_r double_gradient e [/ 1000000000; 0; 1] = NonFinite /\ le3_force_r double_gradient e [/ 1000000000; 0; 1] = NonFinite /\
  exists F L, me3_force e [/ 1000000000; 0; 1] = Ok F /\ le3_force e [/ 1000000000; 0; 1] = Ok L.
Proof.
  cbv zeta. assert (W : wf3 1 (s3_of 1 [0; 0; 0] (fun _ _ => RtoC 1))) by (apply (s3_of_wf 1); reflexivity). split; [exact W|].
  assert (C := cone_forces double_gradient (s3_of 1 [0; 0; 0] (fun _ _ => RtoC 1)) (/ 1000000000) 0 1 0 0 0 (fun _ _ => eq_refl) (fun _ _ => eq_refl) (fun _ _ => eq_refl) (fun _ => eq_refl) eq_refl ltac:(lra)).
  destruct C as [C1 C2].
  - replace ((/ 1000000000 - 0) * (/ 1000000000 - 0) + (0 - 0) * (0 - 0)) with (/ 1000000000 * / 1000000000) by ring. rewrite sqrt_square by lra. rewrite Rabs_pos_eq by lra. lra.
  - split; [exact C1|]. split; [exact C2|]. apply (cone_exact 1 _ (/ 1000000000) 0 1 0 0 0 W eq_refl). left. lra.
Qed.
