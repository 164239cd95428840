(** Norms of the coefficients of three-dimensional expansions under the translations. *)
From Coq Require Import Reals List Arith ZArith Lia Lra Psatz.
From Coquelicot Require Import Coquelicot.
From Verif Require Import Tables CAux Tables3D Table3DProofs SolidHarmonics Zonal HarmonicBounds Kernel3 Harmonics3D Exp3Loops Exp3Proofs HarmonicNorms.
Import ListNotations.
Local Open Scope R_scope.
Arguments Cmod x%C.

(** ** The norm of the coefficients of one degree *)
Definition vn (j : Z) (g : Z -> C) : R := rn (fun k => Cmod (g k)) (zrange (- j) j).
Lemma vn_nonneg j g : 0 <= vn j g. Proof. apply rn_nonneg. Qed.
Lemma vn_ext j g g' : (forall k, (Z.abs k <= j)%Z -> g k = g' k) -> vn j g = vn j g'.
Proof. intros H. apply rn_ext. intros k Hk. apply in_zrange in Hk. rewrite H by lia. reflexivity. Qed.
Lemma vn_bound j g (x : Z -> R) : (forall k, (Z.abs k <= j)%Z -> Cmod (g k) <= x k) -> vn j g <= rn x (zrange (- j) j).
Proof. intros H. apply rn_le. intros k Hk. apply in_zrange in Hk. split; [apply Cmod_ge_0|]. apply H. lia. Qed.
Lemma vn_plus j g h : vn j (fun k => g k + h k)%C <= vn j g + vn j h.
Proof. eapply Rle_trans; [|apply rn_plus]. apply vn_bound. intros k _. apply Cmod_triangle. Qed.
Lemma vn_scal j c g : vn j (fun k => c * g k)%C = Cmod c * vn j g.
Proof.
  unfold vn. rewrite <- (Rabs_pos_eq (Cmod c)) by apply Cmod_ge_0. rewrite <- rn_scal. apply rn_ext. intros k _. apply Cmod_mult.
Qed.
Lemma vn_opp j g : vn j (fun k => - g k)%C = vn j g.
Proof. apply rn_ext. intros k _. apply Cmod_opp. Qed.
Lemma vn_minus j g h : vn j (fun k => g k - h k)%C <= vn j g + vn j h.
Proof. eapply Rle_trans; [apply (vn_plus j g (fun k => - h k)%C)|]. rewrite vn_opp. lra. Qed.
Lemma vn_flip j g : vn j (fun k => g (- k)%Z) = vn j g.
Proof. apply (rn_opp (fun k => Cmod (g k))). Qed.
Lemma vn_zero j : vn j (fun _ => RtoC 0) = 0.
Proof. unfold vn. rewrite (rn_ext _ (fun _ => 0)) by (intros; apply Cmod_0). apply rn_zero. Qed.
Lemma vn_sum {B} (f : B -> Z -> C) (L : list B) j : vn j (fun k => lsum (fun b => f b k) L) <= rsum (fun b => vn j (f b)) L.
Proof. eapply Rle_trans; [apply vn_bound|apply (rn_sum (fun b k => Cmod (f b k)))]. intros k _. apply lsum_Cmod. Qed.
Lemma vn_el j g k : (Z.abs k <= j)%Z -> Cmod (g k) <= vn j g.
Proof.
  intros H. rewrite <- (Rabs_pos_eq (Cmod (g k))) by apply Cmod_ge_0. apply (rn_el (fun k => Cmod (g k))). apply in_zrange. lia.
Qed.
Lemma rsum_const {A} (B : R) (l : list A) : rsum (fun _ => B) l = INR (length l) * B.
Proof. induction l as [|a l IH]; [cbn; ring|]. rewrite rsum_cons, IH. cbn [length]. rewrite S_INR. ring. Qed.
Lemma rn_const j B : (0 <= j)%Z -> 0 <= B -> rn (fun _ : Z => B) (zrange (- j) j) <= IZR (j + 1) * B.
Proof.
  intros Hj HB. apply rn_bound; [apply Rmult_le_pos; [apply IZR_le; lia|exact HB]|].
  rewrite rsum_const. unfold zrange. rewrite map_length, seq_length, INR_IZR_INZ, Z2Nat.id by lia. rewrite !plus_IZR, minus_IZR, opp_IZR.
  assert (0 <= IZR j) by (apply IZR_le; exact Hj). nra.
Qed.
Lemma vn_const j g B : (0 <= j)%Z -> 0 <= B -> (forall k, (Z.abs k <= j)%Z -> Cmod (g k) <= B) -> vn j g <= IZR (j + 1) * B.
Proof. intros Hj HB H. eapply Rle_trans; [apply vn_bound; exact H|]. apply rn_const; assumption. Qed.

Lemma Rabs_m1 : Rabs (-1) = 1.
Proof. unfold Rabs. destruct (Rcase_abs (-1)); lra. Qed.
Lemma Cmod_sg n : Cmod (sg n) = 1.
Proof. unfold sg. rewrite Cmod_R. destruct (Z.odd n); [apply Rabs_m1|apply Rabs_R1]. Qed.
Lemma Cmod_Ci : Cmod Ci = 1.
Proof. unfold Cmod, Ci; cbn [fst snd]. replace (0 ^ 2 + 1 ^ 2) with 1 by ring. apply sqrt_1. Qed.
Lemma Cmod_ipow n : Cmod (ipow n) = 1.
Proof.
  unfold ipow. assert (H := Z.mod_pos_bound n 4 ltac:(lia)).
  destruct (n mod 4)%Z as [|[q|[q|q|]|]|q]; try apply Cmod_1; try apply Cmod_Ci; try (rewrite Cmod_opp; apply Cmod_Ci).
  rewrite Cmod_R. apply Rabs_m1.
Qed.
Lemma Rabs_A n m : Rabs (A_val n m) = / a_val n m.
Proof.
  unfold A_val, Rdiv. rewrite Rabs_mult, (Rabs_pos_eq (/ a_val n m)) by (left; apply Rinv_0_lt_compat, a_val_pos).
  destruct (Z.odd n); [rewrite Rabs_m1|rewrite Rabs_R1]; ring.
Qed.

(** ** Solid harmonics *)
Lemma polar_ex v : exists th ph, v = polar (pn v) th ph.
Proof.
  destruct (spherical_ok [c1 v; c2 v; c3 v] eq_refl) as (r & th & ph & _ & E & Er & _). exists th, ph.
  replace (p3 [c1 v; c2 v; c3 v]) with v in * by (destruct v as [[x y] z]; reflexivity). rewrite <- Er. exact E.
Qed.
Lemma Cmod_sqr z : RtoC (Cmod z * Cmod z) = (Cconj z * z)%C.
Proof.
  destruct z as [x y]. unfold Cmod, Cconj; cbn [fst snd]. rewrite sqrt_sqrt by nra. apply injective_projections; cbn; ring.
Qed.
Lemma vn_Yr v n : (0 <= n)%Z -> vn n (Yr v n) <= pn v ^ Z.to_nat n.
Proof.
  intros Hn. apply rn_bound; [apply pow_le, pn_nonneg|].
  destruct (polar_ex v) as (th & ph & E). assert (B := zon_bound (pn v) th ph v (Z.to_nat n) (pn_nonneg v)). rewrite <- E in B.
  replace (zon (H3 v) (H3 v) (Z.to_nat n)) with (RtoC (rsum (fun k => Cmod (Yr v n k) * Cmod (Yr v n k)) (zrange (- n) n))) in B.
  - rewrite Cmod_R in B. eapply Rle_trans; [apply Rle_abs|exact B].
  - rewrite RtoC_rsum. unfold zon, zsum. rewrite Z2Nat.id by lia. apply lsum_ext. intros m Hm. apply in_zrange in Hm.
    rewrite Cmod_sqr, Yr_conj, YY by lia. reflexivity.
Qed.
Lemma Yr_pt v n m : (Z.abs m <= n)%Z -> Cmod (Yr v n m) <= pn v ^ Z.to_nat n.
Proof. intros H. eapply Rle_trans; [apply vn_el; exact H|]. apply vn_Yr. lia. Qed.

(** ** The translations *)
Definition m2m_abs (F T : Z -> Z -> R) (j n k : Z) : R := rsum (fun m => wgt n (j - n) m (k - m) * (T n m * F (j - n)%Z (k - m)%Z)) (irange n (j - n) k).
Definition m2l_abs (F T : Z -> Z -> R) (j n k : Z) : R := rsum (fun m => wgt j n (- k) m * (F n m * T (j + n)%Z (m - k)%Z)) (zrange (- n) n).
Definition l2l_abs (F T : Z -> Z -> R) (j n k : Z) : R := rsum (fun m => wgt j (n - j) k (m - k) * (F n m * T (n - j)%Z (m - k)%Z)) (irange n (n - j) k).

Lemma m2m_abs_norm F T j n : (0 <= n <= j)%Z ->
  rn (m2m_abs F T j n) (zrange (- j) j) <= sqrt (chz j n) * (rn (T n) (zrange (- n) n) * rn (F (j - n)%Z) (zrange (- (j - n)) (j - n))).
Proof. intros H. assert (X := conv_norm n (j - n) (T n) (F (j - n)%Z) ltac:(lia) ltac:(lia)). replace (n + (j - n))%Z with j in X by lia. exact X. Qed.
Lemma m2l_abs_norm F T j n : (0 <= n)%Z -> (0 <= j)%Z ->
  rn (m2l_abs F T j n) (zrange (- j) j) <= sqrt (chz (j + n) j) * (rn (F n) (zrange (- n) n) * rn (T (j + n)%Z) (zrange (- (j + n)) (j + n))).
Proof. intros Hn Hj. apply (con_norm j n (F n) (T (j + n)%Z)); assumption. Qed.
Lemma l2l_abs_norm F T j n : (0 <= j <= n)%Z ->
  rn (l2l_abs F T j n) (zrange (- j) j) <= sqrt (chz n j) * (rn (F n) (zrange (- n) n) * rn (T (n - j)%Z) (zrange (- (n - j)) (n - j))).
Proof. intros H. assert (X := adj_norm j (n - j) (T (n - j)%Z) (F n) ltac:(lia) ltac:(lia)). replace (j + (n - j))%Z with n in X by lia. exact X. Qed.

(** The weights of the code. *)
Lemma m2m_weight n m j k : (Cmod (ipow (exp1 k m) * RtoC (A_val n m * A_val (j - n) (k - m)) / RtoC (A_val j k))%C = wgt n (j - n) m (k - m)).
Proof.
  rewrite Cmod_div by (apply RtoC_nz, A_val_nz). rewrite Cmod_mult, Cmod_ipow, !Cmod_R, Rabs_mult, !Rabs_A. unfold wgt.
  replace (n + (j - n))%Z with j by lia. replace (m + (k - m))%Z with k by lia. field. repeat split; apply Rgt_not_eq, a_val_pos.
Qed.
Lemma m2l_weight n m j k : (Rabs (A_val n m / A_val (j + n) (m - k)) * Rabs (A_val j k) = wgt j n (- k) m).
Proof.
  unfold Rdiv. rewrite Rabs_mult, Rabs_inv, !Rabs_A. unfold wgt. rewrite a_val_opp. replace (- k + m)%Z with (m - k)%Z by lia.
  field. repeat split; apply Rgt_not_eq, a_val_pos.
Qed.
Lemma l2l_weight n m j k : (Rabs (A_val j k) * Rabs (A_val (n - j) (m - k) / A_val n m) = wgt j (n - j) k (m - k)).
Proof.
  unfold Rdiv. rewrite Rabs_mult, Rabs_inv, !Rabs_A. unfold wgt. replace (j + (n - j))%Z with n by lia. replace (k + (m - k))%Z with m by lia.
  field. repeat split; apply Rgt_not_eq, a_val_pos.
Qed.
Lemma m2m_range n j k : zrange (Z.max (- n) (n + k - j)) (Z.min n (j + k - n)) = irange n (j - n) k.
Proof. unfold irange. f_equal; lia. Qed.
Lemma l2l_range n j k : zrange (Z.max (- n) (k + j - n)) (Z.min n (k + n - j)) = irange n (n - j) k.
Proof. unfold irange. f_equal; lia. Qed.

Definition m2m_term (f : Z -> Z -> C) (S : P3) (j n k : Z) : C :=
  lsum (fun m => ipow (exp1 k m) * RtoC (A_val n m * A_val (j - n) (k - m)) / RtoC (A_val j k) * (f (j - n)%Z (k - m)%Z * Yr S n (- m)))%C (irange n (j - n) k).
Lemma m2m_terms f S j k : m2m_coef f S j k = lsum (fun n => m2m_term f S j n k) (zrange 0 j).
Proof.
  unfold m2m_coef, Cdiv. rewrite <- lsum_scal_r. apply lsum_ext. intros n _. unfold m2m_term. rewrite m2m_range, <- lsum_scal_r. apply lsum_ext. intros m _.
  unfold Cdiv. ring.
Qed.
Lemma m2m_term_norm f S j n : (0 <= n <= j)%Z -> vn j (m2m_term f S j n) <= sqrt (chz j n) * (pn S ^ Z.to_nat n * vn (j - n) (f (j - n)%Z)).
Proof.
  intros H. eapply Rle_trans; [apply vn_bound with (x := m2m_abs (fun n m => Cmod (f n m)) (fun n m => Cmod (Yr S n (- m))) j n)|].
  - intros k _. unfold m2m_term, m2m_abs. eapply Rle_trans; [apply lsum_Cmod|]. apply rsum_le. intros m _. rewrite !Cmod_mult, m2m_weight. right. ring.
  - eapply Rle_trans; [apply m2m_abs_norm; exact H|]. apply Rmult_le_compat_l; [apply sqrt_pos|]. apply Rmult_le_compat_r; [apply vn_nonneg|].
    rewrite (rn_opp (fun m => Cmod (Yr S n m))). apply vn_Yr. lia.
Qed.

(** ** Moving the argument of a harmonic *)
Lemma choose_mono_n k n : forall m, (n <= m)%nat -> (choose n k <= choose m k)%nat.
Proof.
  intros m H. induction H as [|m H IH]; [lia|]. eapply Nat.le_trans; [exact IH|]. destruct k; [rewrite !choose_0; lia|]. rewrite choose_SS. lia.
Qed.
Lemma choose_ge1 n k : (k <= n)%nat -> (1 <= choose n k)%nat.
Proof. intros H. eapply Nat.le_trans; [|apply (choose_mono_n k k n H)]. rewrite choose_diag. lia. Qed.
Lemma choose_double N i : (2 * i <= N)%nat -> INR (choose N (2 * i)) <= INR (choose N i) * INR (choose N i).
Proof.
  intros H.
  assert (E : INR (choose N (2 * i)) * INR (choose (2 * i) i) = INR (choose N i) * INR (choose (N - i) i)).
  { rewrite !choose_quot by lia. replace (2 * i - i)%nat with i by lia. replace (N - i - i)%nat with (N - 2 * i)%nat by lia.
    field. repeat split; apply not_0_INR, fact_neq_0. }
  assert (H1 : 1 <= INR (choose (2 * i) i)) by (apply (le_INR 1), choose_ge1; lia).
  assert (H2 : INR (choose (N - i) i) <= INR (choose N i)) by (apply le_INR, choose_mono_n; lia).
  assert (P1 := pos_INR (choose N (2 * i))). assert (P2 := pos_INR (choose N i)). nra.
Qed.
Lemma chz_double j n : (0 <= n <= j)%Z -> sqrt (chz j n) <= INR (choose (Z.to_nat (2 * j)) (Z.to_nat n)).
Proof.
  intros H. rewrite <- (sqrt_square (INR (choose (Z.to_nat (2 * j)) (Z.to_nat n)))) by apply pos_INR. apply sqrt_le_1_alt. unfold chz.
  replace (Z.to_nat (2 * n)) with (2 * Z.to_nat n)%nat by lia. apply choose_double. lia.
Qed.
Lemma m2m_term0 f S j k : (0 <= j)%Z -> (Z.abs k <= j)%Z -> m2m_term f S j 0 k = f j k.
Proof.
  intros Hj Hk. unfold m2m_term, irange. rewrite Z.sub_0_r. replace (Z.max (- 0) (k - j)) with 0%Z by lia. replace (Z.min 0 (k + j)) with 0%Z by lia.
  change (zrange 0 0) with [0%Z]. rewrite lsum_cons, lsum_nil, Z.sub_0_r, Cplus_0_r.
  replace (exp1 k 0) with 0%Z by (unfold exp1; rewrite Z.sub_0_r; lia). rewrite ipow_0.
  replace (A_val 0 0) with 1. 2:{ unfold A_val, a_val. cbn. rewrite Rmult_1_r, sqrt_1. field. }
  replace (Yr S 0 (- 0)) with (RtoC 1).
  - rewrite Rmult_1_l. field. apply RtoC_nz, A_val_nz.
  - unfold Yr, a_val. change (Z.to_nat (0 - - 0)) with 0%nat. change (Z.to_nat (0 + - 0)) with 0%nat. change (ipow (- Z.abs (- 0))) with (RtoC 1).
    change (sh (H3 S) (Z.to_nat 0) (- 0)) with (RtoC 1). change (INR (fact 0)) with 1. rewrite Rmult_1_r, sqrt_1. ring.
Qed.
Lemma zrange_cons a b : (a <= b)%Z -> zrange a b = a :: zrange (a + 1) b.
Proof.
  intros H. unfold zrange. replace (Z.to_nat (b - a + 1)) with (S (Z.to_nat (b - (a + 1) + 1))) by lia. cbn [seq map]. f_equal; [lia|].
  rewrite <- seq_shift, map_map. apply map_ext. intros i. lia.
Qed.
Lemma Yr_move y S x j : (0 <= j)%Z -> 0 <= x -> pn S <= x * pn y ->
  vn j (fun k => Yr (padd y S) j k - Yr y j k)%C <= ((1 + x) ^ Z.to_nat (2 * j) - 1) * pn y ^ Z.to_nat j.
Proof.
  intros Hj Hx HS. rewrite <- vn_flip.
  set (f := fun n m => (RtoC 1 * Yr y n (- m))%C).
  rewrite (vn_ext j _ (fun k => lsum (fun n => m2m_term f S j n k) (zrange 1 j))).
  2:{ intros k Hk. assert (E := m2m_one 1 y S j k Hj Hk). fold f in E. rewrite m2m_terms in E. rewrite (zrange_cons 0 j) in E by lia.
      rewrite lsum_cons, m2m_term0 in E by assumption. rewrite Cmult_1_l in E. rewrite <- E. unfold f at 1. change (0 + 1)%Z with 1%Z. ring. }
  eapply Rle_trans; [apply vn_sum|].
  assert (Py := pn_nonneg y). assert (PS := pn_nonneg S).
  apply Rle_trans with (rsum (fun n => INR (choose (Z.to_nat (2 * j)) (Z.to_nat n)) * x ^ Z.to_nat n * pn y ^ Z.to_nat j) (zrange 1 j)).
  - apply rsum_le. intros n Hn. apply in_zrange in Hn. eapply Rle_trans; [apply m2m_term_norm; lia|].
    rewrite Rmult_assoc. apply Rmult_le_compat; [apply sqrt_pos|apply Rmult_le_pos; [apply pow_le; exact PS|apply vn_nonneg]|apply chz_double; lia|].
    apply Rle_trans with ((x * pn y) ^ Z.to_nat n * pn y ^ Z.to_nat (j - n)).
    + apply Rmult_le_compat; [apply pow_le; exact PS|apply vn_nonneg|apply pow_incr; split; assumption|].
      unfold f. rewrite (vn_ext _ _ (fun m => Yr y (j - n) (- m))) by (intros; ring). rewrite (vn_flip (j - n) (Yr y (j - n))). apply vn_Yr. lia.
    + rewrite Rpow_mult_distr, Rmult_assoc, <- pow_add. replace (Z.to_nat n + Z.to_nat (j - n))%nat with (Z.to_nat j) by lia. lra.
  - rewrite rsum_scal_r. apply Rmult_le_compat_r; [apply pow_le; exact Py|].
    rewrite Rbinomial. unfold zrange. rewrite rsum_map. replace (Z.to_nat (j - 1 + 1)) with (Z.to_nat j) by lia.
    change (seq 0 (Datatypes.S (Z.to_nat (2 * j)))) with (0%nat :: seq 1 (Z.to_nat (2 * j))). rewrite rsum_cons, choose_0.
    replace (seq 1 (Z.to_nat (2 * j))) with (seq 1 (Z.to_nat j) ++ seq (1 + Z.to_nat j) (Z.to_nat j)) by (rewrite <- seq_app; f_equal; lia). rewrite rsum_app.
    rewrite pow1. change (INR 1) with 1. change (x ^ 0) with 1.
    assert (Q : 0 <= rsum (fun k => INR (choose (Z.to_nat (2 * j)) k) * 1 ^ (Z.to_nat (2 * j) - k) * x ^ k) (seq (1 + Z.to_nat j) (Z.to_nat j))).
    { apply rsum_nonneg. intros k _. rewrite pow1, Rmult_1_r. apply Rmult_le_pos; [apply pos_INR|apply pow_le; exact Hx]. }
    rewrite <- (seq_shift (Z.to_nat j) 0), rsum_map.
    rewrite (rsum_ext (fun a => INR (choose (Z.to_nat (2 * j)) (Z.to_nat (1 + Z.of_nat a))) * x ^ Z.to_nat (1 + Z.of_nat a))
      (fun k => INR (choose (Z.to_nat (2 * j)) (Datatypes.S k)) * 1 ^ (Z.to_nat (2 * j) - Datatypes.S k) * x ^ Datatypes.S k)); [lra|].
    intros k _. rewrite pow1, Rmult_1_r. replace (Z.to_nat (1 + Z.of_nat k)) with (Datatypes.S k) by lia. reflexivity.
Qed.
