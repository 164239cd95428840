(** Two shifts of a three-dimensional expansion are one shift. *)
From Coq Require Import Reals List Arith ZArith Lia Lra.
From Coquelicot Require Import Coquelicot.
From Verif Require Import CAux Tables3D Table3DProofs SolidHarmonics Zonal HarmonicBounds Kernel3 Harmonics3D Exp3Loops Exp3Proofs.
Import ListNotations.
Local Open Scope R_scope.
Local Open Scope C_scope.

(** Sums over a square of pairs. *)
Definition S2 (K : Z) (f : Z -> Z -> C) : C := zsum K (fun n => zsum K (fun m => f n m)).
Lemma S2_ext K f g : (forall n m, f n m = g n m) -> S2 K f = S2 K g.
Proof. intros H. apply zsum_ext. intros n _. apply zsum_ext. intros m _. apply H. Qed.
Lemma S2_scal K c f : S2 K (fun n m => c * f n m) = c * S2 K f.
Proof. unfold S2. rewrite <- zsum_scal. apply zsum_ext. intros n _. apply zsum_scal. Qed.
Lemma zsum_swap K (f : Z -> Z -> C) : zsum K (fun n => zsum K (f n)) = zsum K (fun m => zsum K (fun n => f n m)).
Proof. unfold zsum. apply lsum_swap. Qed.
Lemma zsum_zero K (f : Z -> C) : (forall m, f m = 0) -> zsum K f = 0.
Proof. intros H. apply lsum_all_zero. intros m _. apply H. Qed.
Lemma S2_zero K (f : Z -> Z -> C) : (forall n m, f n m = 0) -> S2 K f = 0.
Proof. intros H. apply zsum_zero. intros n. apply zsum_zero. intros m. apply H. Qed.
Lemma S2_swap K (f : Z -> Z -> Z -> Z -> C) :
  S2 K (fun n m => S2 K (fun n' m' => f n m n' m')) = S2 K (fun n' m' => S2 K (fun n m => f n m n' m')).
Proof.
  unfold S2.
  transitivity (zsum K (fun n => zsum K (fun n' => zsum K (fun m => zsum K (fun m' => f n m n' m'))))).
  { apply zsum_ext. intros n _. apply zsum_swap. }
  rewrite zsum_swap. apply zsum_ext. intros n' _.
  transitivity (zsum K (fun n => zsum K (fun m' => zsum K (fun m => f n m n' m')))).
  { apply zsum_ext. intros n _. apply zsum_swap. }
  apply zsum_swap.
Qed.
Lemma S2_shift K p (f : Z -> Z -> C) a b : (0 <= p)%Z -> (3 * p <= K)%Z -> (Z.abs a <= p)%Z -> (Z.abs b <= p)%Z ->
  (forall n m, (2 * p < Z.abs n)%Z \/ (2 * p < Z.abs m)%Z -> f n m = 0) ->
  S2 K (fun n m => f (n + a)%Z (m + b)%Z) = S2 K f.
Proof.
  intros Hp HK Ha Hb H. unfold S2.
  rewrite (zsum_shift_in (fun n => zsum K (fun m => f n (m + b)%Z)) K a) by (try lia; intros n Hn; apply zsum_zero; intros m; apply H; lia).
  apply zsum_ext. intros n _. apply zsum_shift_in; [lia| |lia]. intros m Hm. apply H. lia.
Qed.

Section Convolution.
Variable p : Z.
Hypothesis Hp : (0 <= p)%Z.
Notation K := (3 * p)%Z.
Definition boxed (f : Z -> Z -> C) : Prop := forall n m, (n < 0)%Z \/ (p < n)%Z \/ (n < Z.abs m)%Z -> f n m = 0.
Variables k1 k2 F : Z -> Z -> C.
Hypothesis B1 : boxed k1.
Hypothesis B2 : boxed k2.
Lemma conv_assoc e j k : (e = 1 \/ e = -1)%Z ->
  S2 K (fun n' m' => k2 n' m' * S2 K (fun n m => k1 n m * F (j + e * n' + e * n)%Z (k + e * m' + e * m)%Z)) =
  S2 K (fun N M => S2 K (fun n m => k1 n m * k2 (N - n)%Z (M - m)%Z) * F (j + e * N)%Z (k + e * M)%Z).
Proof.
  intros He.
  transitivity (S2 K (fun n' m' => S2 K (fun n m => k1 n m * (k2 n' m' * F (j + e * n' + e * n)%Z (k + e * m' + e * m)%Z)))).
  { apply S2_ext. intros n' m'. rewrite <- S2_scal. apply S2_ext. intros n m. ring. }
  rewrite S2_swap.
  transitivity (S2 K (fun n m => S2 K (fun N M => k1 n m * (k2 (N - n)%Z (M - m)%Z * F (j + e * N)%Z (k + e * M)%Z)))).
  - apply S2_ext. intros n m. rewrite !S2_scal.
    destruct (Z_lt_le_dec n 0); [rewrite B1 by lia; ring|]. destruct (Z_lt_le_dec p n); [rewrite B1 by lia; ring|].
    destruct (Z_lt_le_dec n (Z.abs m)); [rewrite B1 by lia; ring|]. f_equal.
    rewrite <- (S2_shift K p (fun N M => k2 (N - n)%Z (M - m)%Z * F (j + e * N)%Z (k + e * M)%Z) n m); [|lia|lia|lia|lia|].
    + apply S2_ext. intros n' m'. f_equal; [f_equal; lia|]. f_equal; ring.
    + intros N M HNM. rewrite B2 by lia. ring.
  - rewrite S2_swap. apply S2_ext. intros N M. rewrite Cmult_comm, <- S2_scal. apply S2_ext. intros n m. ring.
Qed.
End Convolution.

(** The kernel of a shift. *)
Definition shz (p : Z) (v : hpt) (n m : Z) : C := if (andb (0 <=? n) (n <=? p))%Z then sh v (Z.to_nat n) m else 0.
Lemma shz_in p v n m : (0 <= n <= p)%Z -> shz p v n m = sh v (Z.to_nat n) m.
Proof. intros H. unfold shz. destruct (Z.leb_spec 0 n); [|lia]. destruct (Z.leb_spec n p); [reflexivity|lia]. Qed.
Lemma shz_out p v n m : (n < 0)%Z \/ (p < n)%Z -> shz p v n m = 0.
Proof. intros H. unfold shz. destruct (Z.leb_spec 0 n); [|reflexivity]. destruct (Z.leb_spec n p); [lia|reflexivity]. Qed.
Lemma shz_boxed p v : boxed p (shz p v).
Proof.
  intros n m H. destruct (Z_lt_le_dec n 0); [apply shz_out; lia|]. destruct (Z_lt_le_dec p n); [apply shz_out; lia|].
  rewrite shz_in by lia. apply sh_out. lia.
Qed.
Lemma shz_add p v w N M : (0 <= N <= p)%Z ->
  S2 (3 * p) (fun n m => shz p v n m * shz p w (N - n) (M - m)) = sh (hadd v w) (Z.to_nat N) M.
Proof.
  intros HN. rewrite sh_addition. unfold S2, zsum at 1.
  rewrite (zsum_widen _ 0 N (- (3 * p)) (3 * p)); [|lia|lia|lia|].
  - rewrite (lsum_z0 _ N) by lia. apply lsum_ext. intros n Hn. apply in_seq in Hn. rewrite (cv_wide _ _ _ _ _ (3 * p)) by lia.
    apply zsum_ext. intros m _. rewrite !shz_in by lia. rewrite Nat2Z.id. replace (Z.to_nat (N - Z.of_nat n)) with (Z.to_nat N - n)%nat by lia. reflexivity.
  - intros n Hn. apply zsum_zero. intros m. destruct (Z_lt_le_dec n 0); [rewrite shz_out by lia; ring|]. rewrite (shz_out p w) by lia. ring.
Qed.

(** ** Local expansions *)
Definition cut (p : Z) (f : Z -> Z -> C) (n m : Z) : C := if (andb (Z.abs m <=? n) (n <=? p))%Z then f n m else 0.
Lemma cut_in p f n m : (Z.abs m <= n)%Z -> (n <= p)%Z -> cut p f n m = f n m.
Proof. intros H1 H2. unfold cut. destruct (Z.leb_spec (Z.abs m) n); [|lia]. destruct (Z.leb_spec n p); [reflexivity|lia]. Qed.
Lemma cut_out p f n m : (n < Z.abs m)%Z \/ (p < n)%Z -> cut p f n m = 0.
Proof. intros H. unfold cut. destruct (Z.leb_spec (Z.abs m) n); [|reflexivity]. destruct (Z.leb_spec n p); [lia|reflexivity]. Qed.

Definition cl (n m : Z) : C := ipow (- Z.abs m) * RtoC (a_val n m).
Lemma ipow_nz m : ipow m <> 0.
Proof. intros E. assert (H : ipow m * ipow (- m) = 1) by (rewrite <- ipow_add; replace (m + - m)%Z with 0%Z by lia; reflexivity). rewrite E in H. apply C1_nz. rewrite <- H. ring. Qed.
Lemma cl_nz n m : cl n m <> 0.
Proof. unfold cl. apply Cmult_neq_0; [apply ipow_nz|apply a_nz]. Qed.

Lemma l2l_form p f S j k : (0 <= j <= p)%Z -> (Z.abs k <= j)%Z ->
  cl j k * l2l_coef p f S j k = S2 (3 * p) (fun n m => shz p (H3 (pneg S)) n m * cut p (fun n m => cl n m * f n m) (j + n) (k + m)).
Proof.
  intros Hj Hk. unfold l2l_coef. unfold S2, zsum at 1.
  rewrite (zsum_widen _ 0 (p - j) (- (3 * p)) (3 * p)); [|lia|lia|lia|].
  2:{ intros n Hn. apply zsum_zero. intros m. destruct (Z_lt_le_dec n 0); [rewrite shz_out by lia; ring|]. rewrite cut_out by lia. ring. }
  rewrite Cmult_assoc.
  replace (lsum _ (zrange 0 (p - j))) with (lsum (fun N => zsum (3 * p) (fun m => shz p (H3 (pneg S)) (N - j) m * cut p (fun n m => cl n m * f n m) N (k + m))) (zrange j p)).
  2:{ replace (zrange j p) with (zrange (0 + j) (p - j + j)) by (f_equal; lia). rewrite <- zsum_shift. apply lsum_ext. intros n _.
      replace (n + j - j)%Z with n by lia. replace (j + n)%Z with (n + j)%Z by lia. reflexivity. }
  rewrite <- lsum_scal. apply lsum_ext. intros n Hn. apply in_zrange in Hn.
  rewrite <- lsum_scal.
  unfold zsum. rewrite (zsum_widen _ (Z.max (- n) (k + j - n) - k) (Z.min n (k + n - j) - k) (- (3 * p)) (3 * p)); [|lia|lia|lia|].
  - replace (zrange (Z.max (- n) (k + j - n)) (Z.min n (k + n - j))) with (zrange (Z.max (- n) (k + j - n) - k + k) (Z.min n (k + n - j) - k + k)) by (f_equal; lia).
    rewrite <- zsum_shift. apply lsum_ext. intros m' Hm'. apply in_zrange in Hm'. set (m := (m' + k)%Z) in *.
    replace (k + m')%Z with m by (unfold m; lia). replace m' with (m - k)%Z by (unfold m; lia).
    rewrite shz_in, cut_in, sh_pneg, Z2Nat.id by lia. unfold cl.
    transitivity (sg (n + j) * ipow (exp3 k m) * (RtoC (A_val (n - j) (m - k)) * Yr S (n - j) (m - k)) * / RtoC (A_val n m) * f n m * (ipow (- Z.abs k) * (RtoC (a_val j k) * RtoC (A_val j k)))).
    { unfold Rdiv. rewrite RtoC_mult, RtoC_inv by apply A_val_nz. ring. }
    rewrite AY.
    replace (/ RtoC (A_val n m)) with (sg n * RtoC (a_val n m)).
    2:{ rewrite A_split. rewrite <- (sg_inv n) at 1. field. split; [apply a_nz|apply sg_nz]. }
    replace (RtoC (a_val j k) * RtoC (A_val j k)) with (sg j) by (rewrite A_split; field; apply a_nz).
    replace (ipow (- Z.abs m)) with (ipow (exp3 k m) * ipow (- Z.abs (m - k)) * ipow (- Z.abs k)).
    + transitivity ((sg (n + j) * sg n * sg j) * (ipow (exp3 k m) * ipow (- Z.abs (m - k)) * ipow (- Z.abs k)) * RtoC (a_val n m) * f n m * sg (n - j) * sh (H3 S) (Z.to_nat (n - j)) (m - k)); [ring|].
      rewrite <- !sg_add. replace (n + j + n + j)%Z with (2 * (n + j))%Z by lia. unfold sg at 1. rewrite Z.odd_mul. simpl. ring.
    + rewrite <- !ipow_add. unfold exp3.
      replace (Z.abs m - Z.abs (m - k) - Z.abs k + - Z.abs (m - k) + - Z.abs k)%Z with (2 * (Z.abs m + - Z.abs (m - k) + - Z.abs k) + - Z.abs m)%Z by lia.
      rewrite ipow_add, ipow_2, !sg_add, !sg_opp, !sg_abs, <- !sg_add.
      replace (m + (m - k) + k)%Z with (2 * m)%Z by lia. unfold sg. rewrite Z.odd_mul. simpl. ring.
  - intros m Hm. destruct (Z_le_gt_dec (Z.abs m) (n - j)) as [Q|Q]; [rewrite cut_out by lia; ring|]. rewrite shz_boxed by lia. ring.
Qed.

Theorem l2l_l2l p f S S' j k : (0 <= j <= p)%Z -> (Z.abs k <= j)%Z -> l2l_coef p (l2l_coef p f S) S' j k = l2l_coef p f (padd S S') j k.
Proof.
  intros Hj Hk. apply (Creg_l (cl j k)); [apply cl_nz|]. rewrite !l2l_form by assumption.
  set (F := cut p (fun n m => cl n m * f n m)).
  transitivity (S2 (3 * p) (fun n' m' => shz p (H3 (pneg S')) n' m' * S2 (3 * p) (fun n m => shz p (H3 (pneg S)) n m * F (j + 1 * n' + 1 * n)%Z (k + 1 * m' + 1 * m)%Z))).
  - apply S2_ext. intros n' m'. rewrite !Z.mul_1_l.
    destruct (Z_lt_le_dec n' 0); [rewrite shz_out by lia; ring|]. destruct (Z_lt_le_dec p n'); [rewrite shz_out by lia; ring|].
    destruct (Z_lt_le_dec n' (Z.abs m')); [rewrite shz_boxed by lia; ring|]. f_equal.
    destruct (Z_lt_le_dec p (j + n')).
    + rewrite cut_out by lia. symmetry. apply zsum_zero. intros n. apply zsum_zero. intros m.
      destruct (Z_lt_le_dec n 0); [rewrite shz_out by lia; ring|]. unfold F. rewrite cut_out by lia. ring.
    + rewrite cut_in by lia. rewrite l2l_form by lia. apply S2_ext. intros n m. rewrite !Z.mul_1_l. reflexivity.
  - rewrite (conv_assoc p ltac:(lia) _ _ F (shz_boxed p _) (shz_boxed p _) 1 j k (or_introl eq_refl)).
    apply S2_ext. intros N M. rewrite !Z.mul_1_l. destruct (Z_lt_le_dec N 0).
    + rewrite (shz_out p _ N M) by lia. rewrite S2_zero; [ring|]. intros n m.
      destruct (Z_lt_le_dec n 0); [rewrite shz_out by lia; ring|]. rewrite (shz_out p _ (N - n)) by lia. ring.
    + destruct (Z_lt_le_dec p N); [unfold F; rewrite cut_out by lia; ring|]. f_equal. rewrite shz_add, shz_in by lia.
      rewrite <- H3_add. do 2 f_equal. unfold padd, pneg, pscal, c1, c2, c3; cbn [fst snd]. f_equal; [f_equal|]; ring.
Qed.

(** ** Multipole expansions *)
Definition cm (n m : Z) : C := RtoC (A_val n m) * ipow (- Z.abs m).
Lemma cm_nz n m : cm n m <> 0.
Proof. unfold cm. apply Cmult_neq_0; [apply RtoC_nz, A_val_nz|apply ipow_nz]. Qed.
Definition kz (p : Z) (S : P3) (n m : Z) : C := sg n * sg m * shz p (H3 S) n (- m).
Lemma kz_boxed p S : boxed p (kz p S).
Proof. intros n m H. unfold kz. rewrite shz_boxed by lia. ring. Qed.
Lemma kz_add p S S' N M : (0 <= N <= p)%Z -> S2 (3 * p) (fun n m => kz p S n m * kz p S' (N - n) (M - m)) = kz p (padd S S') N M.
Proof.
  intros HN. unfold kz. rewrite (shz_in p _ N) by lia. rewrite H3_add, <- (shz_add p) by lia. rewrite <- S2_scal. unfold S2.
  apply zsum_ext. intros n _. rewrite <- (zsum_opp (3 * p) (fun m => sg N * sg M * (shz p (H3 S) n m * shz p (H3 S') (N - n) (- M - m)))).
  apply zsum_ext. intros m _. replace (- M - - m)%Z with (- (M - m))%Z by lia.
  replace (sg N * sg M) with ((sg n * sg (N - n)) * (sg m * sg (M - m))) by (rewrite <- !sg_add; do 2 f_equal; lia). ring.
Qed.
Lemma m2m_form p f S j k : (0 <= j <= p)%Z -> (Z.abs k <= j)%Z ->
  cm j k * m2m_coef f S j k = S2 (3 * p) (fun n m => kz p S n m * cut p (fun n m => cm n m * f n m) (j - n) (k - m)).
Proof.
  intros Hj Hk. unfold m2m_coef. unfold S2, zsum at 1.
  rewrite (zsum_widen _ 0 j (- (3 * p)) (3 * p)); [|lia|lia|lia|].
  2:{ intros n Hn. apply zsum_zero. intros m. destruct (Z_lt_le_dec n 0); [rewrite kz_boxed by lia; ring|]. rewrite cut_out by lia. ring. }
  replace (cm j k * (lsum (fun n => lsum (fun m => ipow (exp1 k m) * RtoC (A_val n m * A_val (j - n) (k - m)) * (f (j - n)%Z (k - m)%Z * Yr S n (- m))) (zrange (Z.max (- n) (n + k - j)) (Z.min n (j + k - n)))) (zrange 0 j) / RtoC (A_val j k)))
    with (ipow (- Z.abs k) * lsum (fun n => lsum (fun m => ipow (exp1 k m) * RtoC (A_val n m * A_val (j - n) (k - m)) * (f (j - n)%Z (k - m)%Z * Yr S n (- m))) (zrange (Z.max (- n) (n + k - j)) (Z.min n (j + k - n)))) (zrange 0 j)).
  2:{ unfold cm. field. apply RtoC_nz, A_val_nz. }
  rewrite <- lsum_scal. apply lsum_ext. intros n Hn. apply in_zrange in Hn. rewrite <- lsum_scal. unfold zsum.
  rewrite (zsum_widen _ (Z.max (- n) (n + k - j)) (Z.min n (j + k - n)) (- (3 * p)) (3 * p)); [|lia|lia|lia|].
  - apply lsum_ext. intros m Hm. apply in_zrange in Hm. rewrite cut_in by lia. unfold kz, cm. rewrite shz_in by lia.
    transitivity (ipow (- Z.abs k) * ipow (exp1 k m) * (RtoC (A_val n (- m)) * Yr S n (- m)) * (RtoC (A_val (j - n) (k - m)) * f (j - n)%Z (k - m)%Z)).
    { rewrite A_val_opp, RtoC_mult. ring. }
    rewrite AY, Z.abs_opp.
    replace (ipow (- Z.abs k) * ipow (exp1 k m) * (sg n * ipow (- Z.abs m) * sh (H3 S) (Z.to_nat n) (- m)))
      with (sg n * (ipow (- Z.abs k) * ipow (exp1 k m) * ipow (- Z.abs m)) * sh (H3 S) (Z.to_nat n) (- m)) by ring.
    replace (ipow (- Z.abs k) * ipow (exp1 k m) * ipow (- Z.abs m)) with (sg m * ipow (- Z.abs (k - m))).
    + ring.
    + rewrite <- !ipow_add. unfold exp1. replace (- Z.abs k + (Z.abs k - Z.abs m - Z.abs (k - m)) + - Z.abs m)%Z with (2 * (- Z.abs m) + - Z.abs (k - m))%Z by lia.
      rewrite ipow_add, ipow_2, sg_opp, sg_abs. reflexivity.
  - intros m Hm. destruct (Z_le_gt_dec (Z.abs m) n) as [Q|Q]; [rewrite cut_out by lia; ring|]. rewrite kz_boxed by lia. ring.
Qed.

Theorem m2m_m2m f S S' j k : (0 <= j)%Z -> (Z.abs k <= j)%Z -> m2m_coef (m2m_coef f S) S' j k = m2m_coef f (padd S S') j k.
Proof.
  intros Hj Hk. set (p := j). apply (Creg_l (cm j k)); [apply cm_nz|]. rewrite !(m2m_form p) by (unfold p; lia).
  set (F := cut p (fun n m => cm n m * f n m)).
  transitivity (S2 (3 * p) (fun n' m' => kz p S' n' m' * S2 (3 * p) (fun n m => kz p S n m * F (j + -1 * n' + -1 * n)%Z (k + -1 * m' + -1 * m)%Z))).
  - apply S2_ext. intros n' m'. replace (j + -1 * n')%Z with (j - n')%Z by lia. replace (k + -1 * m')%Z with (k - m')%Z by lia.
    destruct (Z_lt_le_dec n' 0); [rewrite kz_boxed by lia; ring|]. f_equal.
    destruct (Z_lt_le_dec (j - n') (Z.abs (k - m'))).
    + rewrite cut_out by lia. symmetry. apply zsum_zero. intros n. apply zsum_zero. intros m.
      destruct (Z_lt_le_dec n (Z.abs m)); [rewrite kz_boxed by lia; ring|]. unfold F. rewrite cut_out by lia. ring.
    + rewrite cut_in by (unfold p; lia). rewrite (m2m_form p) by (unfold p; lia). apply S2_ext. intros n m. unfold F.
      replace (j - n' + -1 * n)%Z with (j - n' - n)%Z by lia. replace (k - m' + -1 * m)%Z with (k - m' - m)%Z by lia. reflexivity.
  - rewrite (conv_assoc p Hj _ _ F (kz_boxed p _) (kz_boxed p _) (-1) j k (or_intror eq_refl)).
    apply S2_ext. intros N M. replace (j + -1 * N)%Z with (j - N)%Z by lia. replace (k + -1 * M)%Z with (k - M)%Z by lia. destruct (Z_lt_le_dec N 0).
    + rewrite (kz_boxed p _ N M) by lia. rewrite S2_zero; [ring|]. intros n m.
      destruct (Z_lt_le_dec n 0); [rewrite kz_boxed by lia; ring|]. rewrite (kz_boxed p _ (N - n)%Z) by lia. ring.
    + destruct (Z_lt_le_dec p N); [unfold F; rewrite !cut_out by (unfold p in *; lia); rewrite !Cmult_0_r; reflexivity|]. rewrite kz_add by lia. reflexivity.
Qed.
