(** The table of spherical harmonics in double precision: its accuracy, and the loss of half of the digits near the polar axis. *)
From Coq Require Import Reals List Arith ZArith Lia Lra.
From Coquelicot Require Import Rcomplements Complex.
From Flocq Require Import Core.
From Verif Require Import Num Outcome Vec Orthtree AdaptiveTree TreeSpec CAux FieldSpec FmmPasses Tables3D Expansion2D Spherical SphericalProofs Kernel3 Harmonics3D Exp3Loops Exp3Theorems CoefNorms FmmTree3D Expansion3D
  RoundedFields RoundedSpec RoundedProofs RoundedCases RoundedPairCases RoundedTree RoundedTreeSpec RoundedTreeCases RoundedExpansion2D RoundedExpansion3D RoundedComplexSpec
  RoundedHarmonicSpec TextbookComplex TextbookProofs RoundedFmmSpec RoundedFmmSpec3 RoundedFmmTheorems RoundedApi RoundedApi3 RoundedFmmTheorems3 RoundedFmmCases RoundedFmmCases3
  RoundedHarmonicTable RoundedTableSpec RoundedTable.
Import ListNotations.
Local Open Scope R_scope.

(** Operations correctly rounded to 53 bits. *)
Definition double_table : yarith :=
  mkya (textbook double_round double_norm double_log) (fun x y => double_round (sqrt (x * x + y * y))) (fun y x => double_round (atan2 y x))
    (fun t => double_round (cos t)) (fun l m x => double_round (schmidt l m x)) (fun t => (double_round (cos t), double_round (sin t))) (double_round (sqrt 2)).

Lemma schmidt_bound l m x : (m <= l)%nat -> -1 <= x <= 1 -> Rabs (schmidt l m x) <= 2.
Proof.
  intros Hm Hx. assert (C := cos_acos x Hx). assert (A := acos_bound x). assert (Sn : 0 <= sin (acos x)) by (apply sin_ge_0; lra).
  assert (V := ylm_value l m (acos x) 0 Sn Hm). rewrite C in V.
  assert (U : Cmod (Yr (polar 1 (acos x) 0) (Z.of_nat l) (Z.of_nat m)) <= 1).
  { eapply Rle_trans; [apply Yr_pt; lia|]. rewrite polar_pn by lra. rewrite pow1. lra. }
  rewrite <- V in U. destruct m as [|m].
  - rewrite Cmod_R in U. lra.
  - assert (S22 : sqrt 2 * sqrt 2 = 2) by (apply sqrt_sqrt; lra). assert (S2 : 0 < sqrt 2) by (apply sqrt_lt_R0; lra).
    rewrite Cmod_div, Cmod_mult, Cmod_R, Cmod_pow, Cmod_expi, pow1, Cmod_R, (Rabs_pos_eq (sqrt 2)), Rmult_1_r in U; [|lra|intros Z; apply RtoC_inj in Z; lra].
    assert (Q : Rabs (schmidt l (S m) x) <= sqrt 2).
    { apply (Rmult_le_reg_r (/ sqrt 2)); [apply Rinv_0_lt_compat; exact S2|]. unfold Rdiv in U. rewrite Rinv_r by lra. exact U. }
    nra.
Qed.
Lemma format_1 : generic_format radix2 (FLX_exp 53) 1.
Proof. replace 1 with (bpow radix2 0) by reflexivity. apply generic_format_bpow. cbn. lia. Qed.
Lemma round_le_1 x : x <= 1 -> double_round x <= 1.
Proof. intros H. apply round_le_generic; [apply FLX_exp_valid; reflexivity|apply valid_rnd_N|exact format_1|exact H]. Qed.
Lemma round_ge_m1 x : -1 <= x -> -1 <= double_round x.
Proof.
  intros H. apply round_ge_generic; [apply FLX_exp_valid; reflexivity|apply valid_rnd_N| |exact H]. replace (-1) with (- (1)) by ring. apply generic_format_opp, format_1.
Qed.
Theorem double_table_accurate : accurate_table (/ 562949953421312) 1 double_table.
Proof.
  assert (DR : forall x, close (/ 562949953421312) (double_round x) x).
  { intros x. unfold close. eapply Rle_trans; [apply double_accurate|]. apply Rmult_le_compat_r; [apply Rabs_pos|lra]. }
  constructor; cbn [double_table y_c y_hyp y_atan2 y_cos y_leg y_exp y_sqrt2].
  - exact double_complex.
  - intros x y. apply DR.
  - intros y x. apply DR.
  - intros t. split; [apply DR|]. assert (B := COS_bound t). split; [apply round_ge_m1|apply round_le_1]; lra.
  - intros l m x Hm Hx. eapply Rle_trans; [apply double_accurate|]. assert (B := schmidt_bound l m x Hm Hx).
    rewrite Nat.mul_1_l, pow_add, pow_1. assert (G := pow_R1_Rle (1 + / 562949953421312) l ltac:(lra)). nra.
  - intros t. replace ((double_round (cos t), double_round (sin t)) - expi t)%C with (double_round (cos t) - cos t, double_round (sin t) - sin t) by reflexivity.
    eapply Rle_trans; [apply Cmod_2Rmax|]. cbn [fst snd]. assert (B1 := COS_bound t). assert (B2 := SIN_bound t).
    assert (P1 : Rabs (cos t) <= 1) by (apply Rabs_le; lra). assert (P2 : Rabs (sin t) <= 1) by (apply Rabs_le; lra).
    assert (Q1 := double_accurate (cos t)). assert (Q2 := double_accurate (sin t)).
    assert (S2 : sqrt 2 <= 2). { rewrite <- (sqrt_square 2) at 2 by lra. apply sqrt_le_1_alt. lra. }
    assert (X : Rmax (Rabs (double_round (cos t) - cos t)) (Rabs (double_round (sin t) - sin t)) <= / 9007199254740992).
    { apply Rmax_lub; [eapply Rle_trans; [exact Q1|]|eapply Rle_trans; [exact Q2|]]; rewrite <- (Rmult_1_r (/ 9007199254740992)) at 2; apply Rmult_le_compat_l; lra. }
    assert (Y0 : 0 <= Rmax (Rabs (double_round (cos t) - cos t)) (Rabs (double_round (sin t) - sin t))) by (eapply Rle_trans; [apply Rabs_pos|apply Rmax_l]).
    assert (Z0 := sqrt_pos 2). nra.
  - apply DR.
Qed.
(** The operations of the expansions with this table. *)
Definition double_table_harith : harith := table_harith double_table double_round (fun a b => double_round (a - b)) double_norm (fun _ _ a => double_round a).
Definition many : nat := Z.to_nat 134217728.
Lemma many_is : INR many = 134217728.
Proof. unfold many. rewrite INR_IZR_INZ, Z2Nat.id by lia. reflexivity. Qed.
Theorem double_table_harmonics : accurate_harmonics (/ 562949953421312) (1 + 4 + 2 * many) double_table_harith.
Proof.
  assert (DR : forall x, close (/ 562949953421312) (double_round x) x).
  { intros x. unfold close. eapply Rle_trans; [apply double_accurate|]. apply Rmult_le_compat_r; [apply Rabs_pos|lra]. }
  apply table_accurate; [lra|exact double_table_accurate|lra| | | | |].
  - rewrite many_is. assert (P := sqrt_pos (/ 562949953421312)). assert (S := sqrt_sqrt (/ 562949953421312) ltac:(lra)).
    apply Rsqr_incr_0; unfold Rsqr; [|lra|lra]. replace (5 * sqrt (/ 562949953421312) * (5 * sqrt (/ 562949953421312))) with (25 * (sqrt (/ 562949953421312) * sqrt (/ 562949953421312))) by ring.
    rewrite S. lra.
  - exact DR.
  - intros a b. apply DR.
  - intros x y z. unfold close. rewrite (Rabs_right (sqrt _)) by (apply Rle_ge, sqrt_pos).
    replace (sqrt (x * x + y * y + z * z)) with (sqrt (rsum (fun c => c ^ 2) [x; y; z])) by (f_equal; unfold rsum; cbn; ring).
    eapply Rle_trans; [apply double_norm_accurate|]. apply Rmult_le_compat_r; [apply sqrt_pos|lra].
  - intros n m a. apply DR.
Qed.

(** ** Near the polar axis *)
Lemma round_cos_1 t : Rabs t <= / 134217728 -> double_round (cos t) = 1.
Proof.
  intros H. apply Rle_antisym; [apply round_le_1; apply COS_bound|]. apply round_N_ge_midp; [apply FLX_exp_valid; reflexivity|exact format_1|].
  replace 1 with (bpow radix2 0) at 2 by reflexivity. rewrite pred_bpow. replace (bpow radix2 0) with 1 by reflexivity.
  replace (bpow radix2 (FLX_exp 53 0)) with (/ 9007199254740992) by (cbn; lra).
  assert (E := cos_2a_sin (t / 2)). replace (2 * (t / 2)) with t in E by field. rewrite E. assert (Q := Rsqr_le_abs_1 _ _ (sin_abs (t / 2))). unfold Rsqr in Q.
  assert (T : t * t <= / 134217728 * / 134217728).
  { rewrite <- (Rabs_pos_eq (t * t)) by apply Rle_0_sqr. rewrite Rabs_mult. apply Rmult_le_compat; try apply Rabs_pos; exact H. }
  lra.
Qed.
(** Two vectors with nearly the same direction. *)
Definition on_axis : list R := [0; 0; 1].
Definition off_axis : list R := [/ 134217728; 0; 1].
Lemma round_tiny : double_round (/ 134217728) = / 134217728.
Proof. apply round_exact. replace (/ 134217728) with (bpow radix2 (-27)) by (cbn; lra). apply generic_format_bpow. cbn. lia. Qed.
Lemma atan2_0 x : 0 <= x -> atan2 0 x = 0.
Proof.
  intros H. unfold atan2. destruct (Rlt_dec 0 x); [unfold Rdiv; rewrite Rmult_0_l; apply atan_0|]. destruct (Rlt_dec x 0); [lra|].
  destruct (Rlt_dec 0 0); [lra|]. destruct (Rlt_dec 0 0); [lra|]. reflexivity.
Qed.
Lemma atan_le x : 0 < x -> 0 <= atan x <= x.
Proof.
  intros H. destruct (MVT_cor2 atan (fun c => / (1 + c ^ 2)) 0 x H) as (c & E & Hc).
  { intros c _. apply derivable_pt_lim_atan. }
  rewrite atan_0 in E. assert (P : 0 < 1 + c ^ 2) by (assert (Q := pow2_ge_0 c); lra). assert (I0 := Rinv_0_lt_compat _ P).
  assert (I1 : / (1 + c ^ 2) <= 1). { rewrite <- Rinv_1. apply Rinv_le_contravar; [lra|]. assert (Q := pow2_ge_0 c). lra. }
  nra.
Qed.
Lemma y11 th : 0 <= sin th -> Yr (polar 1 th 0) 1 1 = RtoC (- (sin th / sqrt 2)).
Proof.
  intros Hs. assert (V := ylm_value 1 1 th 0 Hs (le_n 1)). change (Z.of_nat 1) with 1%Z in V. cbv beta iota in V. rewrite <- V.
  replace (schmidt 1 1 (cos th)) with (- sin th).
  2:{ unfold schmidt, legP. cbn [Nat.sub Nat.add legP2 fst legPmm pow fact]. cbn [INR Nat.mul Nat.add].
      replace (sqrt (1 - cos th * cos th)) with (sin th).
      2:{ rewrite <- (sqrt_square (sin th)) by exact Hs. f_equal. assert (Q := sin2_cos2 th). unfold Rsqr in Q. lra. }
      replace (2 * 1 / (1 + 1)) with 1 by field. rewrite sqrt_1. ring. }
  rewrite Cpow_1. unfold expi. rewrite cos_0, sin_0. replace ((1, 0) : C) with (RtoC 1) by reflexivity.
  rewrite Cmult_1_r. assert (S2 : 0 < sqrt 2) by (apply sqrt_lt_R0; lra). rewrite <- RtoC_div by lra. f_equal. field. lra.
Qed.
Theorem polar_loss Y : (forall x y, y_hyp Y x y = double_round (sqrt (x * x + y * y))) -> (forall y x, y_atan2 Y y x = double_round (atan2 y x)) ->
  (forall t, y_cos Y t = double_round (cos t)) ->
  exists v, (v = on_axis \/ v = off_axis) /\ forall r th ph tab V, to_spherical 3 v = Ok [r; th; ph] -> ylm_table 1 th ph = Ok tab -> ylm_get tab 1 1 = Ok V ->
    / 536870912 <= Cmod (harmonic_r Y v 1 1 - V)%C.
Proof.
  intros HH HT HC.
  assert (EV : forall v, length v = 3%nat -> forall r th ph tab V, to_spherical 3 v = Ok [r; th; ph] -> ylm_table 1 th ph = Ok tab -> ylm_get tab 1 1 = Ok V ->
    V = Yr (polar 1 th ph) 1 1 /\ 0 <= sin th).
  { intros v Hv r th ph tab V E1 E2 E3. destruct (spherical_ok v Hv) as (r' & th' & ph' & T' & _ & _ & _ & Sn). rewrite E1 in T'. injection T' as <- <- <-.
    destruct (ylm_table_ok 1 th ph Sn ltac:(lia)) as (tab' & HT' & HV'). rewrite E2 in HT'. injection HT' as <-. rewrite HV' in E3 by lia. injection E3 as <-. split; [reflexivity|exact Sn]. }
  set (x := / 134217728). assert (Px : 0 < x) by (unfold x; lra).
  assert (RT : double_round x = x) by exact round_tiny.
  assert (SQ : sqrt (x * x + 0 * 0) = x). { rewrite Rmult_0_l, Rplus_0_r. apply sqrt_square. lra. }
  assert (A1 : snd (angles_r Y on_axis) = 0 /\ y_cos Y (fst (angles_r Y on_axis)) = 1).
  { unfold angles_r, on_axis. cbn [vget nth fst snd]. rewrite HH, !HT, HC, Rmult_0_l, Rplus_0_l, sqrt_0, round_0, !atan2_0, round_0 by lra. split; [reflexivity|].
    apply round_cos_1. rewrite Rabs_R0. lra. }
  assert (A2 : snd (angles_r Y off_axis) = 0 /\ y_cos Y (fst (angles_r Y off_axis)) = 1).
  { unfold angles_r, off_axis. cbn [vget nth fst snd]. fold x. rewrite HH, !HT, HC, SQ, RT, (atan2_0 x), round_0 by lra. split; [reflexivity|].
    apply round_cos_1. fold x. assert (AT : 0 <= atan2 x 1 <= x). { unfold atan2. destruct (Rlt_dec 0 1); [|lra]. unfold Rdiv. rewrite Rinv_1, Rmult_1_r. apply atan_le. exact Px. }
    rewrite Rabs_pos_eq.
    - apply Rle_trans with (double_round x); [|rewrite RT; lra]. apply round_le; [apply FLX_exp_valid; reflexivity|apply valid_rnd_N|lra].
    - apply Rle_trans with (double_round 0); [rewrite round_0; lra|]. apply round_le; [apply FLX_exp_valid; reflexivity|apply valid_rnd_N|lra]. }
  assert (SAME : harmonic_r Y on_axis 1 1 = harmonic_r Y off_axis 1 1).
  { rewrite !harmonic_entry by lia. unfold entry. destruct A1 as [-> ->]. destruct A2 as [-> ->]. reflexivity. }
  set (Z := harmonic_r Y on_axis 1 1) in *.
  destruct (Rle_lt_dec (/ 536870912) (Cmod Z)) as [L|L].
  - exists on_axis. split; [left; reflexivity|]. intros r th ph tab V E1 E2 E3. destruct (EV on_axis eq_refl r th ph tab V E1 E2 E3) as [-> Sn].
    unfold to_spherical, on_axis in E1. cbn [vget nth] in E1. injection E1 as _ Eth Eph. rewrite Rmult_0_l, Rplus_0_l, sqrt_0, atan2_0 in Eth by lra. rewrite atan2_0 in Eph by lra. subst th ph.
    fold Z. rewrite y11 by exact Sn. rewrite sin_0. unfold Rdiv. rewrite Rmult_0_l, Ropp_0. replace (Z - RtoC 0)%C with Z by ring. exact L.
  - exists off_axis. split; [right; reflexivity|]. intros r th ph tab V E1 E2 E3. destruct (EV off_axis eq_refl r th ph tab V E1 E2 E3) as [-> Sn].
    unfold to_spherical, off_axis in E1. cbn [vget nth] in E1. fold x in E1. injection E1 as _ Eth Eph. rewrite SQ in Eth. rewrite atan2_0 in Eph by lra. subst th ph.
    rewrite <- SAME. rewrite y11 by exact Sn. assert (P := proj2 (atan2_polar x 1)). set (s := sin (atan2 x 1)) in *.
    assert (N : sqrt (1 * 1 + x * x) <= 101 / 100). { rewrite <- (sqrt_square (101 / 100)) by lra. apply sqrt_le_1_alt. unfold x. lra. }
    assert (Ss : x <= 101 / 100 * s) by nra. assert (S2 : 0 < sqrt 2) by (apply sqrt_lt_R0; lra). assert (S22 : sqrt 2 * sqrt 2 = 2) by (apply sqrt_sqrt; lra).
    assert (S3 : sqrt 2 <= 3 / 2) by nra. assert (Q : / 268435456 <= s / sqrt 2).
    { apply (Rmult_le_reg_r (sqrt 2)); [exact S2|]. unfold Rdiv. rewrite Rmult_assoc, Rinv_l, Rmult_1_r by lra. unfold x in Ss. lra. }
    assert (T := Cmod_triangle (Z - RtoC (- (s / sqrt 2)))%C (- Z)%C). replace (Z - RtoC (- (s / sqrt 2)) + - Z)%C with (RtoC (s / sqrt 2)) in T by (rewrite RtoC_opp; ring).
    rewrite Cmod_opp, Cmod_R, Rabs_pos_eq in T by lra. lra.
Qed.

(** ** The tree with this table *)
Theorem table_accurate_space w u e rnd hyp kl Y K alm : accurate_space w u e rnd hyp -> accurate_table w kl Y -> w <= 1 / 25 -> 5 * sqrt w <= INR K * w ->
  (forall n m a, close w (alm n m a) a) -> accurate_harmonics w (kl + 4 + 2 * K) (table_harith Y rnd (fun a b => rnd (a - b)) hyp alm).
Proof.
  intros (U & E & W & HR & HN) HY H25 HK Ha.
  assert (DR : forall x, close w (rnd x) x). { intros x. unfold close. eapply Rle_trans; [apply HR|]. apply Rmult_le_compat_r; [apply Rabs_pos|lra]. }
  apply table_accurate; [lra|exact HY|exact H25|exact HK|exact DR|intros a b; apply DR| |exact Ha].
  intros x y z. unfold close. rewrite (Rabs_right (sqrt _)) by (apply Rle_ge, sqrt_pos).
  replace (sqrt (x * x + y * y + z * z)) with (sqrt (rsum (fun c => c ^ 2) [x; y; z])) by (f_equal; unfold rsum; cbn; ring).
  eapply Rle_trans; [apply HN|]. apply Rmult_le_compat_r; [apply sqrt_pos|lra].
Qed.
Theorem ten_case_table : exists tb o v, tables3_after [] = Ok tb /\
  adaptive_fmm3_r double_round double_norm double_log double_table_harith (fun _ _ => UB) (fun _ _ => UB) 1 12 (1 / 100) ten_charges tb (Ok o) /\
  potential3_at_r double_round double_norm double_log double_table_harith (fun _ _ => UB) (fun _ _ => UB) true ten_charges o [1 / 2; 1 / 2; 1 / 2] = Ok v.
Proof.
  destruct (adaptive_rounded3 double_round double_norm double_log _ _ _ double_is_double_like double_space double_log_accurate ltac:(lra) _ double_table_harith double_table_harmonics
    (fun _ _ => UB) (fun _ _ => UB) (1 / 100) ten_charges ltac:(lra) (proj2 ten_order) (proj1 ten_order) 1 12 12 ltac:(lia) ltac:(lia) ten_refinable [] _ eq_refl) as (o & U & _ & Hh & E).
  destruct ten_space as (m & M & SR). destruct (lists_within_ex (f3_fmm o)) as (K & HK).
  assert (RP : representable double_round [1 / 2; 1 / 2; 1 / 2]) by (intros c [<-|[<-|[<-|[]]]]; apply round_half).
  assert (NS : forall s, In s ten_charges -> ps_pos s <> [1 / 2; 1 / 2; 1 / 2]). { intros s Hs E'. cbn in Hs. intuition (subst; cbn in E'; injection E'; intros; lra). }
  destruct (E m M K [1 / 2; 1 / 2; 1 / 2] true SR HK eq_refl RP) as ((ol & CL) & E1 & E2). assert (Hf := proj2 (U _) eq_refl).
  eexists. exists o. destruct ol as [n|].
  - destruct (E1 n CL) as (v & V & _). exists v. split; [reflexivity|]. split; [exact Hf|exact V].
  - destruct (E2 CL NS) as (v & V & _). exists v. split; [reflexivity|]. split; [exact Hf|exact V].
Qed.
Theorem table_tree rnd hyp lg w u e kl Y alm K0 mforce lforce eps srcs cap fuel h orders tb :
  double_like rnd hyp -> accurate_space w u e rnd hyp -> accurate_log e lg -> w <= / 10000000 -> accurate_table w kl Y -> 5 * sqrt w <= INR K0 * w ->
  (forall n m a, close w (alm n m a) a) ->
  0 < eps -> INR (length srcs) * u <= / 10000 -> 1001 / 1000 * eps < abs_charge srcs <= 2 ^ 41 * eps ->
  (1 <= cap)%nat -> (h <= fuel)%nat -> in_refinable_range 3 h (@ps_pos R) srcs -> tables3_after orders = Ok tb ->
  let A := table_harith Y rnd (fun a b => rnd (a - b)) hyp alm in
  exists o, (forall r, adaptive_fmm3_r rnd hyp lg A mforce lforce cap fuel eps srcs tb r <-> r = Ok o) /\
  forall m M K x field n, space_range h m M srcs -> lists_within K (f3_fmm o) -> length x = 3%nat -> representable rnd x ->
    containing_leaf (N := NumRnd rnd) 3 (f_tree (f3_fmm o)) x = Ok (Some n) ->
    exists v, potential3_at_r rnd hyp lg A mforce lforce field srcs o x = Ok v /\
      Rabs (v - direct_potential 3 field (others x srcs) x) <=
        bound3 w (f3_order o) h (roundings3 (kl + 4 + 2 * K0) (f3_order o) cap K (at_height (f_tree (f3_fmm o)))) m (others x srcs) x.
Proof.
  intros HD HE HL Hw HY HK Ha Heps Hn Hq Hcap Hf HR HT A.
  assert (HA := table_accurate_space w u e rnd hyp kl Y K0 alm HE HY ltac:(lra) HK Ha). fold A in HA.
  destruct (adaptive_rounded3 rnd hyp lg w u e HD HE HL Hw _ A HA mforce lforce eps srcs Heps Hn Hq cap fuel h Hcap Hf HR orders tb HT) as (o & U & _ & _ & E).
  exists o. split; [exact U|]. intros m M K x field n SR LK Hx Rx CL. exact (proj1 (proj2 (E m M K x field SR LK Hx Rx)) n CL).
Qed.
Theorem double_table_budget : exists K, INR K = 134217728 /\ 5 * sqrt (/ 562949953421312) <= INR K * / 562949953421312 /\ accurate_harmonics (/ 562949953421312) (1 + 4 + 2 * K) double_table_harith.
Proof.
  exists many. split; [exact many_is|]. split; [|exact double_table_harmonics]. rewrite many_is. assert (P := sqrt_pos (/ 562949953421312)). assert (S := sqrt_sqrt (/ 562949953421312) ltac:(lra)).
  apply Rsqr_incr_0; unfold Rsqr; [|lra|lra]. replace (5 * sqrt (/ 562949953421312) * (5 * sqrt (/ 562949953421312))) with (25 * (sqrt (/ 562949953421312) * sqrt (/ 562949953421312))) by ring.
  rewrite S. lra.
Qed.
