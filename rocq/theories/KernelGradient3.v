(** Derivatives of the terms of the expansions of the inverse distance, and bounds for the truncated gradients. *)
From Coq Require Import Reals List Arith ZArith Lia Lra.
From Coquelicot Require Import Coquelicot.
From Verif Require Import Outcome Tables CAux TableProofs Tables3D Table3DProofs SolidHarmonics Zonal HarmonicBounds NewtonSeries Kernel3 KernelBounds3
  Exp2Forces Exp2ForceErrors Harmonics3D Gradient3 Exp3Loops Exp3Forces.
Import ListNotations.
Local Open Scope R_scope.
Local Open Scope C_scope.

(** ** Irregular harmonics *)
Lemma irr_bracket u w n m :
  hsq w * dsh u w n m - (Cn n + Cn n + 1) * hdot w u * sh w n m =
  - ((Cn n + 1 - Cz m) * (Cn n + 1 + Cz m)) * (hz u * sh w (S n) m)
  + (Cn n + 1 - Cz m) * (Cn n + 1 + 1 - Cz m) * (hp u * sh w (S n) (m - 1))
  + (Cn n + 1 + Cz m) * (Cn n + 1 + 1 + Cz m) * (hq u * sh w (S n) (m + 1)).
Proof.
  destruct n as [|k].
  - assert (A : forall j, sh w 1 j = hz w * sh w 0 j + hp w * sh w 0 (j - 1) + hq w * sh w 0 (j + 1)).
    { intros j. rewrite <- sh_A. rewrite Cn_S, Cn_0. ring. }
    rewrite !A. cbn [dsh sh]. rewrite Cn_0. unfold hdot.
    replace (m - 1 + 1)%Z with m by lia. replace (m + 1 - 1)%Z with m by lia.
    destruct (Z.eqb_spec m 0) as [->|N0].
    { change (0 - 1 =? 0)%Z with false. change (0 + 1 =? 0)%Z with false. change (0 - 1 - 1 =? 0)%Z with false. change (0 + 1 + 1 =? 0)%Z with false. rewrite Cz_0. ring. }
    destruct (Z.eqb_spec (m - 1) 0) as [E|N1].
    { assert (m = 1%Z) as -> by lia. change (1 + 1 =? 0)%Z with false. change (1 - 1 - 1 =? 0)%Z with false. change (1 + 1 + 1 =? 0)%Z with false. rewrite Cz_1. ring. }
    destruct (Z.eqb_spec (m + 1) 0) as [E|N2].
    { assert (m = (-1)%Z) as -> by lia. change (-1 - 1 - 1 =? 0)%Z with false. change (-1 + 1 + 1 =? 0)%Z with false.
      replace (Cz (-1)) with (- (1) : C) by (rewrite <- Cz_1, <- Cz_opp; reflexivity). ring. }
    destruct (Z.eqb_spec (m - 1 - 1) 0) as [E|N3].
    { assert (m = 2%Z) as -> by lia. change (2 + 1 + 1 =? 0)%Z with false. replace (Cz 2) with ((1 + 1) : C) by (rewrite <- Cz_1, <- Cz_add; reflexivity). ring. }
    destruct (Z.eqb_spec (m + 1 + 1) 0) as [E|N4].
    { assert (m = (-2)%Z) as -> by lia. replace (Cz (-2)) with (- (1 + 1) : C) by (rewrite <- Cz_1, <- Cz_add, <- Cz_opp; reflexivity). ring. }
    ring.
  - pose proof (sh_rec_z w k m) as Rz. pose proof (sh_rec_p w k m) as Rp. pose proof (sh_rec_q w k m) as Rq.
    cbn [dsh]. rewrite !Cn_S in *. unfold hdot. revert Rz Rp Rq.
    generalize (sh w (S (S k)) m) (sh w (S (S k)) (m - 1)) (sh w (S (S k)) (m + 1)) (sh w (S k) m) (sh w k m) (sh w k (m - 1)) (sh w k (m + 1)).
    intros a b c d e f g Rz Rp Rq. lin (- hz u * dif Rz + hp u * dif Rq + hq u * dif Rp).
Qed.

Lemma cv_one v u n m : cv v u n 1 m = hz u * sh v n m + hp u * sh v n (m - 1) + hq u * sh v n (m + 1).
Proof.
  pose proof (cv_right v u n 0 m) as H. rewrite !cv_right0 in H. rewrite <- H, Cn_S, Cn_0. ring.
Qed.
Lemma Cz_n n : Cz (Z.of_nat n) = Cn n.
Proof. symmetry. apply Cn_z. Qed.
Lemma bic_one v u D n :
  zsum (Z.of_nat n) (fun m => sg m * wt (Z.of_nat n) m * sh v n (- m) * (hsq D * dsh u D n m - (Cn n + Cn n + 1) * hdot D u * sh D n m)) = - bic v u D n 1.
Proof.
  set (N := Z.of_nat n). set (K := (N + 2)%Z).
  rewrite <- (zsum_larger N K) by (try (intros m Hm; rewrite wt_out by lia; ring); lia).
  set (gz := fun k => sg k * wt (N + 1) k * (hz u * sh v n (- k)) * sh D (S n) k).
  set (gp := fun k => sg k * wt (N + 1) k * (hp u * sh v n (- k - 1)) * sh D (S n) k).
  set (gq := fun k => sg k * wt (N + 1) k * (hq u * sh v n (- k + 1)) * sh D (S n) k).
  assert (EB : bic v u D n 1 = zsum K gz + zsum K gp + zsum K gq).
  { unfold bic. replace (n + 1)%nat with (S n) by lia. replace (Z.of_nat (S n)) with (N + 1)%Z by lia.
    rewrite <- (zsum_larger (N + 1) K) by (try (intros m Hm; rewrite wt_out by lia; ring); lia).
    rewrite <- !zsum_plus. apply zsum_ext. intros m _. rewrite cv_one. unfold gz, gp, gq. ring. }
  rewrite EB.
  assert (Sp : zsum K (fun m => gp (m + -1)%Z) = zsum K gp).
  { apply zsum_shift_in; [lia| |lia]. intros m Hm. unfold gp. destruct (Z_le_gt_dec (Z.abs m) (N + 1)) as [H|H]; [|rewrite wt_out by lia; ring].
    rewrite (sh_out v) by lia. ring. }
  assert (Sq : zsum K (fun m => gq (m + 1)%Z) = zsum K gq).
  { apply zsum_shift_in; [lia| |lia]. intros m Hm. unfold gq. destruct (Z_le_gt_dec (Z.abs m) (N + 1)) as [H|H]; [|rewrite wt_out by lia; ring].
    rewrite (sh_out v) by lia. ring. }
  rewrite <- Sp, <- Sq, <- !zsum_plus.
  transitivity (zsum K (fun m => - (1) * (gz m + gp (m + -1)%Z + gq (m + 1)%Z))); [|rewrite zsum_scal; ring].
  apply zsum_ext. intros m _. rewrite irr_bracket. unfold gz, gp, gq.
  replace (- (m + -1) - 1)%Z with (- m)%Z by lia. replace (- (m + 1) + 1)%Z with (- m)%Z by lia. replace (m + -1)%Z with (m - 1)%Z by lia.
  rewrite sg_pred, sg_succ.
  destruct (Z_le_gt_dec (Z.abs m) N) as [H|H]; [|rewrite (sh_out v) by lia; ring].
  rewrite (wt_up N m) by lia. rewrite (wt_up_p N (m - 1)) by lia. rewrite (wt_up_m N (m + 1)) by lia.
  replace (m - 1 + 1)%Z with m by lia. replace (m + 1 - 1)%Z with m by lia.
  replace (N - (m - 1))%Z with (N + 1 - m)%Z by lia. replace (N + 1 - (m - 1))%Z with (N + 1 + 1 - m)%Z by lia.
  replace (N + (m + 1))%Z with (N + 1 + m)%Z by lia. replace (N + 1 + (m + 1))%Z with (N + 1 + 1 + m)%Z by lia.
  rewrite !Cz_sub, !Cz_add, Cz_1. unfold N. rewrite Cz_n. ring.
Qed.

(** The term of degree n of the series of the inverse distance about the origin, as a function of the far point. *)
Definition Tn (y : P3) (n : nat) (X : P3) : C := zon (H3 y) (H3 X) n * RtoC (/ pn X ^ (2 * n + 1)).
Definition dTn (y u : P3) (n : nat) (X : P3) : C := - (bic (H3 y) (H3 u) (H3 X) n 1 * RtoC (/ pn X ^ (2 * n + 3))).

Lemma Tn_derive y g t u n : dp3 g t u -> pn (g t) <> 0%R -> cdc (fun s => Tn y n (g s)) t (dTn y u n (g t)).
Proof.
  intros H Hnz. unfold Tn.
  assert (A : cdc (fun s => zon (H3 y) (H3 (g s)) n) t
    (zsum (Z.of_nat n) (fun m => sg m * wt (Z.of_nat n) m * sh (H3 y) n (- m) * dsh (H3 u) (H3 (g t)) n m))).
  { unfold zon, zsum. apply cdc_lsum. intros m _. apply cdc_scal. now apply sh_derive. }
  pose proof (inv_pow_derive _ t _ (2 * n + 1) (pn_derive g t u H Hnz) Hnz) as D.
  pose proof (cdc_mult _ _ t _ _ A (cdc_real _ t _ D)) as G. cbv beta in G.
  refine (cdc_eq _ _ _ _ G _). unfold dTn.
  replace (- (bic (H3 y) (H3 u) (H3 (g t)) n 1 * RtoC (/ pn (g t) ^ (2 * n + 3)))) with (- bic (H3 y) (H3 u) (H3 (g t)) n 1 * RtoC (/ pn (g t) ^ (2 * n + 3))) by ring.
  rewrite <- bic_one. rewrite H3_sq, H3_dot, <- pn_sq. set (r := pn (g t)) in *. set (X := g t) in *.
  rewrite (zsum_ext _ (fun m => sg m * wt (Z.of_nat n) m * sh (H3 y) n (- m) * (RtoC (r * r) * dsh (H3 u) (H3 X) n m - (Cn n + Cn n + 1) * RtoC (pdot X u) * sh (H3 X) n m))
    (fun m => RtoC (r * r) * (sg m * wt (Z.of_nat n) m * sh (H3 y) n (- m) * dsh (H3 u) (H3 X) n m) + - ((Cn n + Cn n + 1) * RtoC (pdot X u)) * (sg m * wt (Z.of_nat n) m * sh (H3 y) n (- m) * sh (H3 X) n m))) by (intros; ring).
  rewrite zsum_plus, !zsum_scal. fold (zon (H3 y) (H3 X) n).
  set (Z1 := zsum (Z.of_nat n) _). set (Z2 := zon (H3 y) (H3 X) n).
  assert (rn : (r ^ (2 * n + 1) <> 0)%R) by now apply pow_nonzero.
  replace (/ r ^ (2 * n + 3))%R with (/ r ^ (2 * n + 1) * / (r * r))%R by (replace (2 * n + 3)%nat with (2 * n + 1 + 2)%nat by lia; rewrite (pow_add r (2 * n + 1) 2); simpl; field; split; assumption).
  replace (- (INR (2 * n + 1) * (pdot X u / r) / r ^ (2 * n + 1 + 1)))%R with (- ((INR n + INR n + 1) * pdot X u) * (/ r ^ (2 * n + 1) * / (r * r)))%R
    by (rewrite (pow_add r (2 * n + 1) 1), plus_INR, mult_INR; simpl; field; split; assumption).
  unfold Cn. rewrite !RtoC_mult, RtoC_opp, RtoC_mult, !RtoC_plus. rewrite (RtoC_inv (r * r)) by (intros E; apply Rmult_integral in E; destruct E; contradiction).
  rewrite RtoC_mult. field. intros E. apply RtoC_inj in E. contradiction.
Qed.

Lemma polar_of X : exists th ph, X = polar (pn X) th ph.
Proof.
  destruct X as [[a b] c]. destruct (spherical_ok [a; b; c] eq_refl) as (r & th & ph & _ & Ep & Er & _). exists th, ph.
  unfold p3 in *. cbn [Vec.vget nth] in *. rewrite Er in Ep. exact Ep.
Qed.
Lemma dTn_bound y u n X : pn X <> 0%R -> (Cmod (dTn y u n X) <= INR (n + 1) * pn y ^ n * pn u / pn X ^ (n + 2))%R.
Proof.
  intros Hnz. pose proof (pn_nonneg X) as Hp. destruct (polar_of X) as (th & ph & E). unfold dTn. rewrite Cmod_opp, Cmod_mult, Cmod_R.
  set (r := pn X) in *. assert (Hr : (0 < r)%R) by lra. rewrite Rabs_inv, (Rabs_pos_eq (r ^ _)) by (left; now apply pow_lt).
  rewrite E. eapply Rle_trans; [apply Rmult_le_compat_r; [left; apply Rinv_0_lt_compat; now apply pow_lt|apply bic_bound; lra]|].
  right. replace (2 * n + 3)%nat with ((n + 1) + (n + 2))%nat by lia. rewrite (pow_add r (n + 1)).
  replace (choose (n + 1) n) with (n + 1)%nat.
  2:{ rewrite choose_sym_add. replace (1 + n)%nat with (S n) by lia. pose proof (choose_absorb n 0) as A. rewrite choose_0 in A. lia. }
  assert ((r ^ (n + 1) <> 0)%R) by (apply pow_nonzero; lra). assert ((r ^ (n + 2) <> 0)%R) by (apply pow_nonzero; lra). simpl (pn u ^ 1)%R. field. split; assumption.
Qed.

(** ** Derivative bounds from difference bounds *)
Lemma derive_le (E B : R -> R) e h : (0 < h)%R -> is_derive E 0%R e -> (forall t, (0 < t < h)%R -> (Rabs (E t - E 0) <= t * B t)%R) -> continuous B 0%R ->
  (Rabs e <= B 0)%R.
Proof.
  intros Hh HE HB HC. apply le_epsilon. intros eps Heps.
  apply is_derive_Reals in HE. destruct (HE (eps / 2)%R ltac:(lra)) as [d1 H1].
  destruct (proj1 (filterlim_locally B (B 0%R)) HC (mkposreal (eps / 2) ltac:(lra))) as [d2 H2].
  set (t := (Rmin (Rmin d1 d2) h / 2)%R).
  assert (Ht : (0 < t /\ t < d1 /\ t < d2 /\ t < h)%R).
  { unfold t. pose proof (cond_pos d1). pose proof (cond_pos d2).
    assert ((0 < Rmin (Rmin d1 d2) h)%R) by (repeat apply Rmin_glb_lt; lra).
    pose proof (Rmin_l (Rmin d1 d2) h). pose proof (Rmin_r (Rmin d1 d2) h). pose proof (Rmin_l d1 d2). pose proof (Rmin_r d1 d2). lra. }
  specialize (H1 t ltac:(lra) ltac:(rewrite Rabs_pos_eq; lra)). rewrite Rplus_0_l in H1.
  assert (H2' : (Rabs (B t - B 0) < eps / 2)%R).
  { apply (H2 t). unfold ball; simpl. unfold AbsRing_ball, abs, minus, plus, opp; simpl. rewrite Ropp_0, Rplus_0_r, Rabs_pos_eq; lra. }
  specialize (HB t ltac:(lra)).
  assert (HB' : (Rabs ((E t - E 0) / t) <= B t)%R).
  { unfold Rdiv. rewrite Rabs_mult, (Rabs_pos_eq (/ t)) by (left; apply Rinv_0_lt_compat; lra).
    apply Rmult_le_reg_r with t; [lra|]. rewrite Rmult_assoc, Rinv_l by lra. lra. }
  apply Rabs_def2 in H2'. rewrite Rabs_minus_sym in H1.
  replace e with ((e - (E t - E 0) / t) + (E t - E 0) / t)%R by ring. eapply Rle_trans; [apply Rabs_triang|]. lra.
Qed.

(** ** Sums *)
Lemma tail2 q m Q : (0 <= q < 1)%R -> (rsum (fun n => if (n <? m)%nat then 0 else INR (n + 1) * q ^ n)%R (seq 0 Q) <= INR (m + 1) * q ^ m / (1 - q) ^ 2)%R.
Proof.
  intros Hq.
  assert (G : forall k, ((1 - q) ^ 2 * rsum (fun n => INR (n + 1) * q ^ n)%R (seq m k) =
     INR (m + 1) * q ^ m - INR m * q ^ (m + 1) - INR (m + 1 + k) * q ^ (m + k) + INR (m + k) * q ^ (m + 1 + k))%R).
  { induction k as [|k IH].
    - change (seq m 0) with (@nil nat). unfold rsum; cbn [fold_right]. rewrite !Nat.add_0_r. ring.
    - rewrite rsum_seq_S, Rmult_plus_distr_l, IH. rewrite !pow_add, !plus_INR, !S_INR. simpl. ring. }
  assert (P : (0 < (1 - q) ^ 2)%R) by (apply pow_lt; lra).
  apply Rle_trans with (rsum (fun n => INR (n + 1) * q ^ n)%R (seq m (Q - m))).
  - destruct (le_lt_dec m Q) as [H|H].
    + replace Q with (m + (Q - m))%nat at 1 by lia. rewrite seq_app, rsum_app. rewrite (rsum_ext _ (fun _ => 0%R) (seq 0 m)).
      * rewrite rsum_zero, Rplus_0_l. right. apply rsum_ext. intros n Hn. apply in_seq in Hn. destruct (Nat.ltb_spec n m); [lia|reflexivity].
      * intros n Hn. apply in_seq in Hn. destruct (Nat.ltb_spec n m); [reflexivity|lia].
    + rewrite (rsum_ext _ (fun _ => 0%R) (seq 0 Q)).
      * rewrite rsum_zero. apply rsum_nonneg. intros n _. apply Rmult_le_pos; [apply pos_INR|apply pow_le; lra].
      * intros n Hn. apply in_seq in Hn. destruct (Nat.ltb_spec n m); [reflexivity|lia].
  - apply Rmult_le_reg_l with ((1 - q) ^ 2)%R; [assumption|]. rewrite G. set (k := (Q - m)%nat).
    replace ((1 - q) ^ 2 * (INR (m + 1) * q ^ m / (1 - q) ^ 2))%R with (INR (m + 1) * q ^ m)%R by (field; lra).
    assert (0 <= INR m * q ^ (m + 1))%R by (apply Rmult_le_pos; [apply pos_INR|apply pow_le; lra]).
    assert (INR (m + k) * q ^ (m + 1 + k) <= INR (m + 1 + k) * q ^ (m + k))%R.
    { replace (m + 1 + k)%nat with (S (m + k)) by lia. rewrite S_INR. simpl (q ^ S (m + k))%R. pose proof (pow_le q (m + k) (proj1 Hq)) as A1. pose proof (pos_INR (m + k)) as A2.
      assert (A3 : (0 <= INR (m + k) * q ^ (m + k) * (1 - q))%R) by (apply Rmult_le_pos; [now apply Rmult_le_pos|lra]). lra. }
    lra.
Qed.
Lemma negbin_row m X r J : (0 <= X < r)%R -> (rsum (fun i => INR (choose (m + i) m) * X ^ i / r ^ (m + i + 1))%R (seq 0 J) <= / (r - X) ^ (m + 1))%R.
Proof.
  intros H. assert (Hp : forall k, (0 < r ^ k)%R) by (intros; apply pow_lt; lra). assert (Hx : forall k, (0 < (r - X) ^ k)%R) by (intros; apply pow_lt; lra).
  destruct J as [|J].
  { change (seq 0 0) with (@nil nat). unfold rsum; cbn [fold_right]. left. apply Rinv_0_lt_compat, Hx. }
  assert (Hu : (0 <= X / r < 1)%R).
  { split; [apply Rmult_le_pos; [lra|left; apply Rinv_0_lt_compat; lra]|].
    apply Rmult_lt_reg_r with r; [lra|]. unfold Rdiv. rewrite Rmult_assoc, Rinv_l by lra. lra. }
  pose proof (negbin m (X / r) J Hu) as NB.
  rewrite (rsum_ext _ (fun j => / r ^ (m + 1) * (INR (choose (m + j) m) * (X / r) ^ j))%R).
  - rewrite rsum_scal. eapply Rle_trans; [apply Rmult_le_compat_l; [left; apply Rinv_0_lt_compat, Hp|exact NB]|].
    right. replace (1 - X / r)%R with ((r - X) / r)%R by (field; lra). replace (m + 1)%nat with (S m) by lia.
    unfold Rdiv. rewrite Rpow_mult_distr, pow_inv. field. split; apply Rgt_not_eq; [apply Hx|apply Hp].
  - intros j _. unfold Rdiv. rewrite Rpow_mult_distr, pow_inv. replace (m + j + 1)%nat with (m + 1 + j)%nat by lia.
    rewrite (pow_add r (m + 1)). field. split; apply Rgt_not_eq, Hp.
Qed.
Lemma choose_shift n i : (S i * choose (n + S i) n = S n * choose (S n + i) (S n))%nat.
Proof.
  rewrite (choose_sym_add n (S i)). replace (S i + n)%nat with (S (i + n)) by lia. rewrite choose_absorb.
  replace (S n + i)%nat with (S (n + i)) by lia. rewrite choose_absorb. rewrite (choose_sym_add n i). replace (n + i)%nat with (i + n)%nat by lia. reflexivity.
Qed.

(** ** Differences of the terms of the doubly centered series *)
Lemma Cpow_diff (a b : C) M j : (Cmod a <= M)%R -> (Cmod b <= M)%R -> (Cmod (Cpow a j - Cpow b j) <= INR j * M ^ (j - 1) * Cmod (a - b))%R.
Proof.
  intros Ha Hb. assert (HM : (0 <= M)%R) by (pose proof (Cmod_ge_0 a); lra).
  assert (Pa : forall k, (Cmod (Cpow a k) <= M ^ k)%R) by (intros; rewrite Cmod_pow; apply pow_incr; split; [apply Cmod_ge_0|assumption]).
  induction j as [|j IH].
  - simpl. replace (1 - 1) with (RtoC 0) by ring. rewrite Cmod_0. lra.
  - rewrite !Cpow_S. replace (a * Cpow a j - b * Cpow b j) with ((a - b) * Cpow a j + b * (Cpow a j - Cpow b j)) by ring.
    eapply Rle_trans; [apply Cmod_triangle|]. rewrite !Cmod_mult. replace (S j - 1)%nat with j by lia.
    pose proof (Pa j) as P. pose proof (Cmod_ge_0 (a - b)) as N.
    apply Rle_trans with (Cmod (a - b) * M ^ j + M * (INR j * M ^ (j - 1) * Cmod (a - b)))%R.
    + apply Rplus_le_compat; [apply Rmult_le_compat_l; assumption|]. apply Rmult_le_compat; try apply Cmod_ge_0; assumption.
    + right. rewrite S_INR. destruct j as [|j]; [simpl; ring|]. replace (S j - 1)%nat with j by lia. simpl (M ^ S j)%R. ring.
Qed.
Lemma gen_sub w w' phi : gen (H3 w') phi - gen (H3 w) phi = gen (H3 (psub w' w)) phi.
Proof. unfold gen, H3, hR, psub, c1, c2, c3. cbn [hz hp hq fst snd]. apply injective_projections; simpl; field. Qed.
Lemma average_minus K f g : average K f - average K g = average K (fun t => f t - g t).
Proof. unfold average. rewrite lsum_minus. unfold Cdiv. ring. Qed.
Lemma bic_diff r th ph v w w' M n j : (0 <= r)%R -> (pn w <= M)%R -> (pn w' <= M)%R ->
  (Cmod (bic (H3 v) (H3 w') (H3 (polar r th ph)) n j - bic (H3 v) (H3 w) (H3 (polar r th ph)) n j)
   <= r ^ (n + j) * INR (choose (n + j) n) * pn v ^ n * (INR j * M ^ (j - 1) * pn (psub w' w)))%R.
Proof.
  intros Hr Hw Hw'. rewrite !bic_axis by assumption.
  assert (HM : (0 <= M)%R) by (pose proof (pn_nonneg w); lra).
  set (fv := frame th ph v). set (fw := frame th ph w). set (fw' := frame th ph w').
  replace (Cpow (RtoC r) (n + j) * (Cn (fact (n + j)) * cv (H3 fv) (H3 fw') n j 0) - Cpow (RtoC r) (n + j) * (Cn (fact (n + j)) * cv (H3 fv) (H3 fw) n j 0))
    with (Cpow (RtoC r) (n + j) * (Cn (fact (n + j)) * (cv (H3 fv) (H3 fw') n j 0 - cv (H3 fv) (H3 fw) n j 0))) by ring.
  rewrite Cmod_mult, Cmod_pow, Cmod_mult, Cmod_Cn, Cmod_R, Rabs_pos_eq by assumption.
  rewrite !Rmult_assoc. apply Rmult_le_compat_l; [now apply pow_le|].
  pose proof (choose_fact (n + j) n ltac:(lia)) as F. replace (n + j - n)%nat with j in F by lia.
  apply (f_equal INR) in F. rewrite !mult_INR in F. rewrite <- F.
  rewrite !Rmult_assoc. apply Rmult_le_compat_l; [apply pos_INR|].
  rewrite <- !Rmult_assoc.
  rewrite <- (Cmod_Cn (fact n)), <- (Cmod_Cn (fact j)), <- !Cmod_mult.
  replace (Cn (fact n) * Cn (fact j) * (cv (H3 fv) (H3 fw') n j 0 - cv (H3 fv) (H3 fw) n j 0)) with
    (Cn (fact n) * Cn (fact j) * cv (H3 fv) (H3 fw') n j 0 - Cn (fact n) * Cn (fact j) * cv (H3 fv) (H3 fw) n j 0) by ring.
  rewrite !cv_average, average_minus. apply average_bound; [lia|]. intros phi.
  replace (Cpow (gen (H3 fv) phi) n * Cpow (gen (H3 fw') phi) j - Cpow (gen (H3 fv) phi) n * Cpow (gen (H3 fw) phi) j) with
    (Cpow (gen (H3 fv) phi) n * (Cpow (gen (H3 fw') phi) j - Cpow (gen (H3 fw) phi) j)) by ring.
  assert (GB : forall z, (Cmod (gen (H3 z) phi) <= pn z)%R) by (intros z; apply gen_bound).
  rewrite Cmod_mult, Cmod_pow, !Rmult_assoc.
  apply Rmult_le_compat; [apply pow_le, Cmod_ge_0|apply Cmod_ge_0| |].
  - apply pow_incr. split; [apply Cmod_ge_0|]. rewrite <- (frame_pn th ph v). apply GB.
  - eapply Rle_trans; [apply (Cpow_diff _ _ M)|].
    + eapply Rle_trans; [apply GB|]. unfold fw'. rewrite frame_pn. assumption.
    + eapply Rle_trans; [apply GB|]. unfold fw. rewrite frame_pn. assumption.
    + rewrite gen_sub, Rmult_assoc. apply Rmult_le_compat_l; [apply pos_INR|]. apply Rmult_le_compat_l; [now apply pow_le|].
      eapply Rle_trans; [apply GB|]. right. rewrite <- (frame_pn th ph (psub w' w)). f_equal. unfold fw, fw', frame, psub, c1, c2, c3; simpl. f_equal; [f_equal|]; ring.
Qed.

Definition kap3 (v w D : P3) (n j : nat) : C := bic (H3 v) (H3 w) (H3 D) n j * RtoC (/ pn D ^ (2 * (n + j) + 1)).
Definition ksum3 (v w D : P3) (p : nat) : C := lsum (fun n => lsum (kap3 v w D n) (seq 0 (S p))) (seq 0 (S p)).
Definition out3 (v w D : P3) (p : nat) (n j : nat) : C := if (andb (n <=? p)%nat (j <=? p)%nat) then RtoC 0 else kap3 v w D n j.
Definition osum3 (v w D : P3) (p Q : nat) : C := lsum (fun n => lsum (out3 v w D p n) (seq 0 (S (Q - n)))) (seq 0 (S Q)).

(** The series summed over triangles. *)
Lemma newton_out v w D p eps : (pn v + pn w < pn D)%R -> (0 < eps)%R ->
  exists Q0, forall Q, (Q0 <= Q)%nat -> (Cmod (RtoC (/ pn (psub D (padd v w))) - (ksum3 v w D p + osum3 v w D p Q))%C <= eps)%R.
Proof.
  intros Hvw Heps. set (r := pn D) in *. destruct (polar_of D) as (th & ph & ED). fold r in ED.
  assert (Hsum : (pn (padd v w) < r)%R) by (pose proof (pn_add v w); lra).
  assert (Hr : (0 < r)%R) by (pose proof (pn_nonneg (padd v w)); lra).
  set (rho := (pn (padd v w) / r)%R).
  assert (Hrho : (0 <= rho < 1)%R).
  { unfold rho. split; [apply Rmult_le_pos; [apply pn_nonneg|left; now apply Rinv_0_lt_compat]|].
    apply Rmult_lt_reg_r with r; [assumption|]. unfold Rdiv. rewrite Rmult_assoc, Rinv_l by lra. lra. }
  assert (Hc : (0 < r - pn (padd v w))%R) by lra.
  destruct (pow_lt_1_zero rho ltac:(rewrite Rabs_pos_eq; lra) (eps * (r - pn (padd v w)))%R ltac:(apply Rmult_lt_0_compat; lra)) as [N HN].
  exists (N + 2 * p)%nat. intros Q HQ.
  pose proof (newton_one r th ph (padd v w) Hr Hsum Q) as N1. rewrite <- ED in N1. fold rho in N1.
  assert (E1 : lsum (fun n => zon (H3 (padd v w)) (H3 D) n * RtoC (/ r ^ (2 * n + 1))) (seq 0 (S Q)) =
               lsum (fun n => lsum (kap3 v w D n) (seq 0 (S (Q - n)))) (seq 0 (S Q))).
  { rewrite <- triangle. apply lsum_ext. intros k _. rewrite H3_add, zon_split, <- lsum_scal_r. apply lsum_ext. intros n Hn.
    apply in_seq in Hn. unfold kap3. fold r. replace (n + (k - n))%nat with k by lia. reflexivity. }
  rewrite E1 in N1.
  set (box := fun n j => if (andb (n <=? p)%nat (j <=? p)%nat) then kap3 v w D n j else 0).
  assert (E2 : lsum (fun n => lsum (kap3 v w D n) (seq 0 (S (Q - n)))) (seq 0 (S Q)) = ksum3 v w D p + osum3 v w D p Q).
  { unfold ksum3, osum3. rewrite (lsum_ext _ (fun n => lsum (box n) (seq 0 (S (Q - n))) + lsum (out3 v w D p n) (seq 0 (S (Q - n))))).
    - rewrite lsum_plus. f_equal. rewrite (lsum_seq_support _ (S p)); [|lia|].
      + apply lsum_ext. intros n Hn. apply in_seq in Hn. rewrite (lsum_seq_support _ (S p)); [|lia|].
        * apply lsum_ext. intros j Hj. apply in_seq in Hj. unfold box.
          destruct (Nat.leb_spec n p); [|lia]. destruct (Nat.leb_spec j p); [|lia]. reflexivity.
        * intros j Hj. unfold box. destruct (Nat.leb_spec j p); [lia|]. rewrite Bool.andb_false_r. reflexivity.
      + intros n Hn. apply lsum_all_zero. intros j _. unfold box. destruct (Nat.leb_spec n p); [lia|]. reflexivity.
    - intros n _. rewrite <- lsum_plus. apply lsum_ext. intros j _. unfold box, out3. destruct (andb (n <=? p)%nat (j <=? p)%nat); ring. }
  rewrite E2 in N1. eapply Rle_trans; [exact N1|].
  specialize (HN (S Q) ltac:(lia)). rewrite Rabs_pos_eq in HN by (apply pow_le; lra).
  apply Rmult_le_reg_r with (r - pn (padd v w))%R; [assumption|]. unfold Rdiv. rewrite Rmult_assoc, Rinv_l by lra. lra.
Qed.

Definition Dd (r Y M : R) (n j : nat) : R := (INR (choose (n + j) n) * Y ^ n * (INR j * M ^ (j - 1)) / r ^ (n + j + 1))%R.
Lemma kap3_diff v w w' D Y M n j : (0 < pn D)%R -> (pn v <= Y)%R -> (pn w <= M)%R -> (pn w' <= M)%R ->
  (Cmod (kap3 v w' D n j - kap3 v w D n j)%C <= pn (psub w' w) * Dd (pn D) Y M n j)%R.
Proof.
  intros Hr Hv Hw Hw'. destruct (polar_of D) as (th & ph & ED). set (r := pn D) in *. unfold kap3. fold r.
  assert (HM : (0 <= M)%R) by (pose proof (pn_nonneg w); lra).
  assert (Hp : forall k, (0 < r ^ k)%R) by (intros; now apply pow_lt).
  replace (bic (H3 v) (H3 w') (H3 D) n j * RtoC (/ r ^ (2 * (n + j) + 1)) - bic (H3 v) (H3 w) (H3 D) n j * RtoC (/ r ^ (2 * (n + j) + 1)))
    with ((bic (H3 v) (H3 w') (H3 D) n j - bic (H3 v) (H3 w) (H3 D) n j) * RtoC (/ r ^ (2 * (n + j) + 1))) by ring.
  rewrite Cmod_mult, Cmod_R, Rabs_inv, (Rabs_pos_eq (r ^ _)) by (left; apply Hp). rewrite ED.
  eapply Rle_trans; [apply Rmult_le_compat_r; [left; apply Rinv_0_lt_compat, Hp|apply (bic_diff r th ph v w w' M); lra]|].
  unfold Dd. replace (2 * (n + j) + 1)%nat with ((n + j) + (n + j + 1))%nat by lia. rewrite (pow_add r (n + j)).
  replace (r ^ (n + j) * INR (choose (n + j) n) * pn v ^ n * (INR j * M ^ (j - 1) * pn (psub w' w)) * / (r ^ (n + j) * r ^ (n + j + 1)))%R with
    (pn (psub w' w) * (INR (choose (n + j) n) * pn v ^ n * (INR j * M ^ (j - 1)) / r ^ (n + j + 1)))%R by (field; split; apply Rgt_not_eq, Hp).
  apply Rmult_le_compat_l; [apply pn_nonneg|]. unfold Rdiv. apply Rmult_le_compat_r; [left; apply Rinv_0_lt_compat, Hp|].
  apply Rmult_le_compat_r; [apply Rmult_le_pos; [apply pos_INR|now apply pow_le]|]. apply Rmult_le_compat_l; [apply pos_INR|].
  apply pow_incr. split; [apply pn_nonneg|assumption].
Qed.
Lemma Dd_nonneg r Y M n j : (0 < r)%R -> (0 <= Y)%R -> (0 <= M)%R -> (0 <= Dd r Y M n j)%R.
Proof.
  intros Hr HY HM. unfold Dd. apply Rmult_le_pos; [|left; apply Rinv_0_lt_compat; now apply pow_lt].
  apply Rmult_le_pos; [apply Rmult_le_pos; [apply pos_INR|now apply pow_le]|apply Rmult_le_pos; [apply pos_INR|now apply pow_le]].
Qed.
Lemma Dd_row r Y M n Q : (0 <= Y)%R -> (0 <= M < r)%R -> (rsum (Dd r Y M n) (seq 0 (S Q)) <= INR (n + 1) * (Y / (r - M)) ^ n / (r - M) ^ 2)%R.
Proof.
  intros HY HM. assert (Hp : forall k, (0 < r ^ k)%R) by (intros; apply pow_lt; lra).
  rewrite <- cons_seq, rsum_cons, <- seq_shift. 
  assert (Z0 : Dd r Y M n 0 = 0%R) by (unfold Dd; simpl (INR 0); field; apply Rgt_not_eq, Hp). rewrite Z0, Rplus_0_l.
  rewrite rsum_map. rewrite (rsum_ext _ (fun i => INR (n + 1) * Y ^ n * (INR (choose (S n + i) (S n)) * M ^ i / r ^ (S n + i + 1)))%R).
  - rewrite rsum_scal. eapply Rle_trans; [apply Rmult_le_compat_l; [apply Rmult_le_pos; [apply pos_INR|now apply pow_le]|apply (negbin_row (S n)); lra]|].
    right. replace (S n + 1)%nat with (n + 2)%nat by lia. rewrite pow_add. unfold Rdiv. rewrite Rpow_mult_distr, pow_inv.
    assert ((r - M) ^ n <> 0)%R by (apply pow_nonzero; lra). field. split; [lra|assumption].
  - intros i _. unfold Dd. replace (S i - 1)%nat with i by lia. replace (n + S i + 1)%nat with (S n + i + 1)%nat by lia.
    pose proof (choose_shift n i) as F. apply (f_equal INR) in F. rewrite !mult_INR in F. replace (n + 1)%nat with (S n) by lia.
    unfold Rdiv. rewrite <- !Rmult_assoc. f_equal.
    replace (INR (choose (n + S i) n) * Y ^ n * INR (S i) * M ^ i)%R with (INR (S i) * INR (choose (n + S i) n) * (Y ^ n * M ^ i))%R by ring. rewrite F. ring.
Qed.
Lemma Dd_col r Y M j Q : (0 <= Y < r)%R -> (0 <= M)%R -> (rsum (fun n => Dd r Y M n j) (seq 0 (S Q)) <= INR j * (M / (r - Y)) ^ (j - 1) / (r - Y) ^ 2)%R.
Proof.
  intros HY HM. assert (Hp : forall k, (0 < r ^ k)%R) by (intros; apply pow_lt; lra).
  rewrite (rsum_ext _ (fun n => INR j * M ^ (j - 1) * (INR (choose (j + n) j) * Y ^ n / r ^ (j + n + 1)))%R).
  - rewrite rsum_scal. eapply Rle_trans; [apply Rmult_le_compat_l; [apply Rmult_le_pos; [apply pos_INR|now apply pow_le]|apply (negbin_row j); lra]|].
    right. destruct j as [|j]; [simpl (INR 0); unfold Rdiv; ring|]. replace (S j + 1)%nat with (j + 2)%nat by lia. replace (S j - 1)%nat with j by lia.
    rewrite pow_add. unfold Rdiv. rewrite Rpow_mult_distr, pow_inv.
    assert ((r - Y) ^ j <> 0)%R by (apply pow_nonzero; lra). field. split; [lra|assumption].
  - intros n _. unfold Dd. rewrite choose_sym_add. replace (n + j + 1)%nat with (j + n + 1)%nat by lia. unfold Rdiv. ring.
Qed.

Definition gtrunc3_two (Y X r : R) (p : nat) : R := ((INR (p + 2) * (Y / (r - X)) ^ S p + INR (p + 1) * (X / (r - Y)) ^ p) / (r - X - Y) ^ 2)%R.
Lemma outside_diff r Y M p Q : (0 <= Y)%R -> (0 <= M)%R -> (M + Y < r)%R ->
  (rsum (fun n => rsum (fun j => if (andb (n <=? p)%nat (j <=? p)%nat) then 0 else Dd r Y M n j)%R (seq 0 (S Q))) (seq 0 (S Q)) <= gtrunc3_two Y M r p)%R.
Proof.
  intros HY HX HXY. assert (Hr : (0 < r)%R) by lra.
  assert (B0 : forall n j, (0 <= Dd r Y M n j)%R) by (intros; apply Dd_nonneg; lra).
  apply Rle_trans with
    (rsum (fun n => if (n <=? p)%nat then 0 else rsum (Dd r Y M n) (seq 0 (S Q)))%R (seq 0 (S Q)) +
     rsum (fun j => if (j <=? p)%nat then 0 else rsum (fun n => Dd r Y M n j) (seq 0 (S Q)))%R (seq 0 (S Q)))%R.
  - rewrite (rsum_ext (fun j => if (j <=? p)%nat then 0%R else rsum (fun n => Dd r Y M n j) (seq 0 (S Q))) (fun j => rsum (fun n => if (j <=? p)%nat then 0%R else Dd r Y M n j) (seq 0 (S Q)))).
    + rewrite (rsum_swap (fun j n => if (j <=? p)%nat then 0%R else Dd r Y M n j)). rewrite <- rsum_plus. apply rsum_le. intros n _.
      destruct (n <=? p)%nat eqn:En.
      * rewrite Rplus_0_l. apply rsum_le. intros j _. destruct (j <=? p)%nat; simpl; lra.
      * match goal with |- (_ <= _ + ?s)%R => assert (Hs : (0 <= s)%R) end.
        { apply rsum_nonneg. intros j _. destruct (j <=? p)%nat; [lra|apply B0]. }
        match goal with |- (?a <= ?b + _)%R => assert (Ha : a = b) by (apply rsum_ext; intros; reflexivity) end.
        rewrite Ha. lra.
    + intros j _. destruct (j <=? p)%nat; [|reflexivity]. rewrite rsum_zero. reflexivity.
  - assert (U : forall A B, (0 <= A)%R -> (A + B < r)%R -> (0 <= A / (r - B) < 1)%R \/ (r - B <= 0)%R).
    { intros A B HA HAB. left. split; [apply Rmult_le_pos; [lra|left; apply Rinv_0_lt_compat; lra]|].
      apply Rmult_lt_reg_r with (r - B)%R; [lra|]. unfold Rdiv. rewrite Rmult_assoc, Rinv_l by lra. lra. }
    destruct (U Y M HY ltac:(lra)) as [U1|]; [|lra]. destruct (U M Y HX ltac:(lra)) as [U2|]; [|lra].
    assert (T : forall A B c, (0 <= A)%R -> (A + B < r)%R -> (/ (r - B) ^ 2 * (c / (1 - A / (r - B)) ^ 2) = c / (r - A - B) ^ 2)%R).
    { intros A B c HA HAB. replace (1 - A / (r - B))%R with ((r - A - B) / (r - B))%R by (field; lra). field. lra. }
    replace (gtrunc3_two Y M r p) with
      (/ (r - M) ^ 2 * (INR (S p + 1) * (Y / (r - M)) ^ S p / (1 - Y / (r - M)) ^ 2) + / (r - Y) ^ 2 * (INR (p + 1) * (M / (r - Y)) ^ p / (1 - M / (r - Y)) ^ 2))%R.
    + apply Rplus_le_compat.
      * eapply Rle_trans; [|apply Rmult_le_compat_l; [left; apply Rinv_0_lt_compat, pow_lt; lra|apply (tail2 _ (S p) (S Q) U1)]].
        rewrite <- rsum_scal. apply rsum_le. intros n _. destruct (Nat.leb_spec n p) as [Hn|Hn].
        -- destruct (Nat.ltb_spec n (S p)); [lra|lia].
        -- destruct (Nat.ltb_spec n (S p)); [lia|]. eapply Rle_trans; [apply Dd_row; lra|]. right. unfold Rdiv. ring.
      * eapply Rle_trans; [|apply Rmult_le_compat_l; [left; apply Rinv_0_lt_compat, pow_lt; lra|apply (tail2 _ p Q U2)]].
        rewrite <- (cons_seq Q 0), (rsum_cons _ 0%nat), <- seq_shift. rewrite rsum_map.
        change (0 <=? p)%nat with true. cbv iota. rewrite Rplus_0_l. rewrite <- rsum_scal. apply rsum_le. intros i _.
        destruct (Nat.leb_spec (S i) p) as [Hn|Hn].
        -- destruct (Nat.ltb_spec i p); [lra|lia].
        -- destruct (Nat.ltb_spec i p); [lia|].
           rewrite seq_shift. change (0%nat :: seq 1 Q) with (seq 0 (S Q)).
           eapply Rle_trans; [apply (Dd_col r Y M (S i) Q); lra|]. right. replace (S i - 1)%nat with i by lia. replace (i + 1)%nat with (S i) by lia. unfold Rdiv. ring.
    + rewrite (T Y M), (T M Y) by lra. unfold gtrunc3_two. replace (S p + 1)%nat with (p + 2)%nat by lia.
      replace (r - Y - M)%R with (r - M - Y)%R by ring. field. lra.
Qed.
