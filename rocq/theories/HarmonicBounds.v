(** Bounds on products of solid harmonics of points of real space, by averaging over roots of unity. *)
From Coq Require Import Reals List Arith ZArith Lia Lra.
From Coquelicot Require Import Coquelicot.
From Verif Require Import Outcome Tables CAux TableProofs Tables3D Table3DProofs SolidHarmonics Zonal.
Import ListNotations.
Local Open Scope R_scope.
Local Open Scope C_scope.

(** ** e^{i phi} *)
Lemma expi_0 : expi 0 = 1.
Proof. unfold expi. rewrite cos_0, sin_0. reflexivity. Qed.
Lemma expi_add a b : expi (a + b) = expi a * expi b.
Proof. unfold expi. rewrite cos_plus, sin_plus. apply injective_projections; simpl; ring. Qed.
Lemma expi_pow a n : Cpow (expi a) n = expi (INR n * a).
Proof.
  induction n as [|n IH]; [simpl; rewrite Rmult_0_l, expi_0; reflexivity|].
  simpl Cpow. rewrite IH, <- expi_add. f_equal. rewrite S_INR. ring.
Qed.
Lemma expi_Cmod a : Cmod (expi a) = 1%R.
Proof.
  unfold expi, Cmod; simpl. replace (cos a * (cos a * 1) + sin a * (sin a * 1))%R with 1%R; [apply sqrt_1|].
  pose proof (sin2_cos2 a) as H. unfold Rsqr in H. lra.
Qed.
Lemma expi_period m : expi (2 * PI * IZR m) = 1.
Proof.
  assert (G : forall k : nat, expi (2 * PI * INR k) = 1).
  { induction k as [|k IH]; [simpl; rewrite Rmult_0_r; apply expi_0|].
    rewrite S_INR, Rmult_plus_distr_l, Rmult_1_r, expi_add, IH. unfold expi. rewrite cos_2PI, sin_2PI. apply injective_projections; simpl; ring. }
  destruct (Z_le_gt_dec 0 m) as [H|H].
  - rewrite <- (Z2Nat.id m) by assumption. rewrite <- INR_IZR_INZ. apply G.
  - assert (E : expi (2 * PI * IZR m) * expi (2 * PI * INR (Z.to_nat (- m))) = 1).
    { rewrite <- expi_add. rewrite INR_IZR_INZ, Z2Nat.id by lia. rewrite opp_IZR.
      replace (2 * PI * IZR m + 2 * PI * - IZR m)%R with 0%R by ring. apply expi_0. }
    rewrite G in E. rewrite <- E. ring.
Qed.
Lemma expi_conj a : Cconj (expi a) = expi (- a).
Proof. unfold expi. rewrite cos_neg, sin_neg. reflexivity. Qed.

(** ** Roots of unity *)
Definition node (K k : nat) : R := (2 * PI * INR k / INR K)%R.
Lemma root_sum K m : (0 < K)%nat -> (Z.abs m < Z.of_nat K)%Z ->
  lsum (fun k => expi (IZR m * node K k)) (seq 0 K) = if Z.eqb m 0 then Cn K else 0.
Proof.
  intros HK Hm. assert (HKr : (0 < INR K)%R) by (apply lt_0_INR; lia).
  destruct (Z.eqb_spec m 0) as [->|Hne].
  - rewrite (lsum_ext _ (fun _ => RtoC 1)).
    + clear. induction K as [|K IH]; [reflexivity|]. rewrite lsum_seq_S, IH, Cn_S. reflexivity.
    + intros k _. rewrite Rmult_0_l. apply expi_0.
  - set (z := expi (2 * PI * IZR m / INR K)).
    assert (Hz : z <> 1).
    { intros E. assert (Ec : cos (2 * PI * IZR m / INR K) = 1%R) by (change (cos (2 * PI * IZR m / INR K)) with (fst z); rewrite E; reflexivity).
      replace (2 * PI * IZR m / INR K)%R with (2 * (PI * IZR m / INR K))%R in Ec by (field; lra).
      rewrite cos_2a_sin in Ec.
      assert (Es : sin (PI * IZR m / INR K) = 0%R) by nra.
      assert (Hpos : forall j, (0 < j)%Z -> (j < Z.of_nat K)%Z -> (0 < sin (PI * IZR j / INR K))%R).
      { intros j Hj HjK. apply IZR_lt in Hj. apply IZR_lt in HjK. rewrite <- INR_IZR_INZ in HjK. pose proof PI_RGT_0.
        apply sin_gt_0.
        - apply Rdiv_lt_0_compat; [nra|assumption].
        - apply Rmult_lt_reg_r with (INR K); [assumption|]. unfold Rdiv. rewrite Rmult_assoc, Rinv_l by lra. nra. }
      destruct (Z_le_gt_dec m 0) as [Hle|Hgt].
      - specialize (Hpos (- m)%Z ltac:(lia) ltac:(lia)). rewrite opp_IZR in Hpos.
        replace (PI * - IZR m / INR K)%R with (- (PI * IZR m / INR K))%R in Hpos by (field; lra).
        rewrite sin_neg in Hpos. lra.
      - specialize (Hpos m ltac:(lia) ltac:(lia)). lra. }
    rewrite (lsum_ext _ (Cpow z)).
    + pose proof (geom_C z K) as H.
      replace (Cpow z K) with (RtoC 1) in H.
      * apply (Creg_l (1 - z)); [intros E; apply Hz; symmetry; now apply Ceq_minus|]. rewrite H. ring.
      * unfold z. rewrite expi_pow. replace (INR K * (2 * PI * IZR m / INR K))%R with (2 * PI * IZR m)%R by (field; lra).
        symmetry. apply expi_period.
    + intros k _. unfold z. rewrite expi_pow. f_equal. unfold node. field. lra.
Qed.

(** ** Generating function *)
Definition gen (w : hpt) (phi : R) : C := hz w + hp w * expi phi + hq w * expi (- phi).
Lemma gen_sum w phi n : forall K, (Z.of_nat n <= K)%Z ->
  Cn (fact n) * zsum K (fun m => sh w n m * expi (IZR m * phi)) = Cpow (gen w phi) n.
Proof.
  assert (W : forall n K K', (Z.of_nat n <= K)%Z -> (Z.of_nat n <= K')%Z ->
    zsum K (fun m => sh w n m * expi (IZR m * phi)) = zsum K' (fun m => sh w n m * expi (IZR m * phi))).
  { intros k K K' H H'. transitivity (zsum (Z.of_nat k) (fun m => sh w k m * expi (IZR m * phi))).
    - apply zsum_larger; [lia|]. intros m Hm. rewrite sh_out by lia. ring.
    - symmetry. apply zsum_larger; [lia|]. intros m Hm. rewrite sh_out by lia. ring. }
  induction n as [|n IH]; intros K HK.
  - rewrite (W 0%nat K 0%Z) by lia. unfold zsum. change (zrange (- 0) 0) with [0%Z]. rewrite lsum_cons, lsum_nil.
    simpl. rewrite Rmult_0_l, expi_0. change (Cn 1) with (RtoC 1). ring.
  - rewrite (W (S n) K (Z.of_nat n + 2)%Z) by lia. set (L := (Z.of_nat n + 2)%Z).
    rewrite fact_simpl. replace (Cn (S n * fact n)) with (Cn (fact n) * Cn (S n))
      by (unfold Cn; rewrite mult_INR, RtoC_mult; ring).
    rewrite <- Cmult_assoc, <- zsum_scal.
    transitivity (Cn (fact n) * (zsum L (fun m => hz w * (sh w n m * expi (IZR m * phi))) +
       zsum L (fun m => (fun k => hp w * expi phi * (sh w n k * expi (IZR k * phi))) (m + -1)%Z) +
       zsum L (fun m => (fun k => hq w * expi (- phi) * (sh w n k * expi (IZR k * phi))) (m + 1)%Z))).
    + f_equal. rewrite <- !zsum_plus. apply zsum_ext. intros m _.
      replace (m + -1)%Z with (m - 1)%Z by lia.
      replace (expi (IZR m * phi)) with (expi phi * expi (IZR (m - 1) * phi)) at 2
        by (rewrite <- expi_add; f_equal; rewrite minus_IZR; ring).
      pose proof (sh_A w n m) as HA.
      assert (E1 : expi phi * expi (IZR (m - 1) * phi) = expi (IZR m * phi))
        by (rewrite <- expi_add; f_equal; rewrite minus_IZR; ring).
      assert (E2 : expi (- phi) * expi (IZR (m + 1) * phi) = expi (IZR m * phi))
        by (rewrite <- expi_add; f_equal; rewrite plus_IZR; ring).
      lin (dif HA * expi (IZR m * phi) + hz w * sh w n m * (- dif E1)
           + hp w * sh w n (m - 1) * (- dif E1) + hq w * sh w n (m + 1) * (- dif E2)).
    + rewrite (zsum_shift_in (fun k => hp w * expi phi * (sh w n k * expi (IZR k * phi)))),
        (zsum_shift_in (fun k => hq w * expi (- phi) * (sh w n k * expi (IZR k * phi))));
        try (unfold L; lia); try (intros m Hm; rewrite sh_out by (unfold L in Hm; lia); ring).
      rewrite !zsum_scal. simpl Cpow. rewrite <- (IH L) by (unfold L; lia). unfold gen. ring.
Qed.

(** The coefficient of t^0 in a product of powers is an average over roots of unity. *)
Definition average (K : nat) (g : R -> C) : C := lsum (fun k => g (node K k)) (seq 0 K) / Cn K.
Lemma cv_average v w k j : let K := (2 * (k + j) + 1)%nat in
  Cn (fact k) * Cn (fact j) * cv v w k j 0 = average K (fun phi => Cpow (gen v phi) k * Cpow (gen w phi) j).
Proof.
  intros K. unfold average.
  rewrite (lsum_ext _ (fun i => Cn (fact k) * Cn (fact j) *
     lsum (fun l => lsum (fun l' => sh v k l * sh w j l' * expi (IZR (l + l') * node K i)) (zrange (- Z.of_nat j) (Z.of_nat j))) (zrange (- Z.of_nat k) (Z.of_nat k)))).
  - rewrite lsum_scal.
    assert (E : lsum (fun i => lsum (fun l => lsum (fun l' => sh v k l * sh w j l' * expi (IZR (l + l') * node K i))
                 (zrange (- Z.of_nat j) (Z.of_nat j))) (zrange (- Z.of_nat k) (Z.of_nat k))) (seq 0 K) = cv v w k j 0 * Cn K).
    { rewrite lsum_swap. unfold cv, zsum. rewrite <- lsum_scal_r. apply lsum_ext. intros l Hl. apply in_zrange in Hl.
      rewrite lsum_swap.
      rewrite (lsum_ext _ (fun l' => if Z.eqb l' (- l) then sh v k l * sh w j (0 - l) * Cn K else 0)).
      - destruct (Z_le_gt_dec (Z.abs l) (Z.of_nat j)) as [Hj|Hj].
        + assert (G : forall a b, (a <= - l <= b)%Z -> lsum (fun l' => if Z.eqb l' (- l) then sh v k l * sh w j (0 - l) * Cn K else 0) (zrange a b) = sh v k l * sh w j (0 - l) * Cn K).
          { intros a b Hab. rewrite (zsum_widen _ (- l) (- l) a b); [|lia|lia|lia|].
            - rewrite (zrange_cons (- l)) by lia. rewrite zrange_nil by lia. rewrite lsum_cons, lsum_nil, Z.eqb_refl. ring.
            - intros m Hm. destruct (Z.eqb_spec m (- l)); [lia|reflexivity]. }
          apply G. lia.
        + rewrite (sh_out w) by lia. replace (sh v k l * 0 * Cn K) with (RtoC 0) by ring. apply lsum_all_zero. intros a _. destruct (a =? - l)%Z; reflexivity.
      - intros l' Hl'. apply in_zrange in Hl'. rewrite lsum_scal. rewrite root_sum by (unfold K; lia).
        destruct (Z.eqb_spec l' (- l)) as [->|Hne].
        + replace (l + - l)%Z with 0%Z by lia. simpl. reflexivity.
        + destruct (Z.eqb_spec (l + l') 0); [lia|]. ring. }
    rewrite E. field. unfold K. replace (2 * (k + j) + 1)%nat with (S (2 * (k + j))) by lia. apply Cn_S_nz.
  - intros i _. rewrite <- (gen_sum v (node K i) k (Z.of_nat k)) by lia. rewrite <- (gen_sum w (node K i) j (Z.of_nat j)) by lia.
    unfold zsum.
    set (S2 := lsum (fun l' => sh w j l' * expi (IZR l' * node K i)) (zrange (- Z.of_nat j) (Z.of_nat j))).
    transitivity (Cn (fact k) * Cn (fact j) * (lsum (fun l => sh v k l * expi (IZR l * node K i)) (zrange (- Z.of_nat k) (Z.of_nat k)) * S2)); [ring|].
    rewrite <- lsum_scal_r. f_equal. unfold S2. apply lsum_ext. intros l _. rewrite <- lsum_scal. apply lsum_ext. intros l' _.
    rewrite plus_IZR, Rmult_plus_distr_r, expi_add. ring.
Qed.

(** ** Points of real space *)
Definition hR (x1 x2 x3 : R) : hpt := mkh (RtoC x3) (x2 / 2, - x1 / 2)%R (- x2 / 2, - x1 / 2)%R.
Definition nrm (x1 x2 x3 : R) : R := sqrt (x1 * x1 + x2 * x2 + x3 * x3).
Lemma nrm_sq x1 x2 x3 : (nrm x1 x2 x3 * nrm x1 x2 x3 = x1 * x1 + x2 * x2 + x3 * x3)%R.
Proof. apply sqrt_sqrt. nra. Qed.
Lemma nrm_nonneg x1 x2 x3 : (0 <= nrm x1 x2 x3)%R.
Proof. apply sqrt_pos. Qed.
Lemma hdot_R x1 x2 x3 y1 y2 y3 : hdot (hR x1 x2 x3) (hR y1 y2 y3) = RtoC (x1 * y1 + x2 * y2 + x3 * y3).
Proof. unfold hdot, hR; simpl. apply injective_projections; simpl; field. Qed.
Lemma hsq_R x1 x2 x3 : hsq (hR x1 x2 x3) = RtoC (x1 * x1 + x2 * x2 + x3 * x3).
Proof. unfold hsq, hR; simpl. apply injective_projections; simpl; field. Qed.
Lemma hadd_R x1 x2 x3 y1 y2 y3 : hadd (hR x1 x2 x3) (hR y1 y2 y3) = hR (x1 + y1) (x2 + y2) (x3 + y3).
Proof.
  unfold hadd, hR; simpl. f_equal; apply injective_projections; simpl; field.
Qed.
Lemma hscal_R s x1 x2 x3 : hscal (RtoC s) (hR x1 x2 x3) = hR (s * x1) (s * x2) (s * x3).
Proof.
  unfold hscal, hR; simpl. f_equal; apply injective_projections; simpl; field.
Qed.

Lemma gen_bound x1 x2 x3 phi : (Cmod (gen (hR x1 x2 x3) phi) <= nrm x1 x2 x3)%R.
Proof.
  assert (E : gen (hR x1 x2 x3) phi = (x3, - (x1 * cos phi - x2 * sin phi))%R).
  { unfold gen, hR, expi; simpl. rewrite cos_neg, sin_neg. apply injective_projections; simpl; field. }
  rewrite E. unfold Cmod, nrm; simpl. apply sqrt_le_1_alt.
  pose proof (sin2_cos2 phi) as H. unfold Rsqr in H.
  assert (P : (0 <= (x1 * sin phi + x2 * cos phi) * (x1 * sin phi + x2 * cos phi))%R) by apply Rle_0_sqr.
  assert (Q : ((x1 * cos phi - x2 * sin phi) * (x1 * cos phi - x2 * sin phi) +
               (x1 * sin phi + x2 * cos phi) * (x1 * sin phi + x2 * cos phi) =
               (x1 * x1 + x2 * x2) * (sin phi * sin phi + cos phi * cos phi))%R) by ring.
  rewrite H in Q.
  match goal with |- (?a <= _)%R => replace a with (x3 * x3 + (x1 * cos phi - x2 * sin phi) * (x1 * cos phi - x2 * sin phi))%R by ring end. lra.
Qed.

Lemma Cmod_Cn n : Cmod (Cn n) = INR n.
Proof. unfold Cn. rewrite Cmod_R. apply Rabs_pos_eq. apply pos_INR. Qed.

Lemma average_bound K g B : (0 < K)%nat -> (forall phi, (Cmod (g phi) <= B)%R) -> (Cmod (average K g) <= B)%R.
Proof.
  intros HK H. unfold average. rewrite Cmod_div by (destruct K; [lia|apply Cn_S_nz]). rewrite Cmod_Cn.
  assert (HKr : (0 < INR K)%R) by (apply lt_0_INR; lia).
  apply Rmult_le_reg_r with (INR K); [assumption|]. unfold Rdiv. rewrite Rmult_assoc, Rinv_l, Rmult_1_r by lra.
  eapply Rle_trans; [apply lsum_Cmod|]. 
  eapply Rle_trans; [apply (rsum_le _ (fun _ => B)); intros; apply H|].
  rewrite <- (Rmult_1_r B). 
  replace (rsum (fun _ => (B * 1)%R) (seq 0 K)) with (B * 1 * INR K)%R; [lra|].
  clear. generalize (B * 1)%R. intros b. induction K as [|K IH]; [simpl; ring|]. rewrite rsum_seq_S, <- IH, S_INR. ring.
Qed.

Theorem cv_bound x1 x2 x3 y1 y2 y3 k j :
  (INR (fact k) * INR (fact j) * Cmod (cv (hR x1 x2 x3) (hR y1 y2 y3) k j 0) <= nrm x1 x2 x3 ^ k * nrm y1 y2 y3 ^ j)%R.
Proof.
  rewrite <- (Cmod_Cn (fact k)), <- (Cmod_Cn (fact j)), <- !Cmod_mult. rewrite cv_average. apply average_bound; [lia|].
  intros phi. rewrite Cmod_mult, !Cmod_pow.
  apply Rmult_le_compat; try (apply pow_le; apply Cmod_ge_0); apply pow_incr; split; try apply Cmod_ge_0; apply gen_bound.
Qed.
Lemma cv_right0 v w k m : cv v w k 0 m = sh v k m.
Proof.
  destruct (Z_le_gt_dec (Z.abs m) (Z.of_nat k)) as [H|H].
  - unfold cv, zsum. rewrite (zsum_widen _ m m); [|lia|lia|lia|].
    + rewrite (zrange_cons m) by lia. rewrite zrange_nil by lia. rewrite lsum_cons, lsum_nil. replace (m - m)%Z with 0%Z by lia. simpl. ring.
    + intros l Hl. rewrite (sh_out w 0) by lia. ring.
  - rewrite sh_out by lia. unfold cv, zsum. apply lsum_all_zero. intros l Hl. apply in_zrange in Hl.
    rewrite (sh_out w 0) by lia. ring.
Qed.
Theorem sh0_bound x1 x2 x3 n : (INR (fact n) * Cmod (sh (hR x1 x2 x3) n 0) <= nrm x1 x2 x3 ^ n)%R.
Proof.
  pose proof (cv_bound x1 x2 x3 0 0 0 n 0) as H. rewrite cv_right0 in H. simpl (INR (fact 0)) in H. simpl (_ ^ 0)%R in H. lra.
Qed.
