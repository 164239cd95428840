(** Bounds on the coefficients of three-dimensional expansions that all translations keep. *)
From Coq Require Import Reals List Arith ZArith Lia Lra Psatz.
From Coquelicot Require Import Coquelicot.
From Verif Require Import Tables CAux Tables3D Table3DProofs SolidHarmonics Zonal HarmonicBounds Kernel3 Harmonics3D Exp3Loops Exp3Proofs Exp3Errors HarmonicNorms ShiftGroup CoefNorms.
Import ListNotations.
Local Open Scope R_scope.
Arguments Cmod x%C.

Lemma rsum_bound {A} (f : A -> R) (l : list A) B : 0 <= B -> (forall a, In a l -> f a <= B) -> forall N, INR (length l) <= N -> rsum f l <= N * B.
Proof.
  intros HB H N HN. eapply Rle_trans; [apply (rsum_le f (fun _ => B)); exact H|]. rewrite rsum_const. apply Rmult_le_compat_r; assumption.
Qed.
Lemma zrange_len a b N : (b - a + 1 <= N)%Z -> (0 <= N)%Z -> INR (length (zrange a b)) <= IZR N.
Proof. intros H H0. unfold zrange. rewrite map_length, seq_length, INR_IZR_INZ. apply IZR_le. lia. Qed.
Definition pz : P3 := (0, 0, 0).
Lemma pn_pz : pn pz = 0.
Proof. unfold pn, nrm, pz, c1, c2, c3; cbn [fst snd]. replace (0 * 0 + 0 * 0 + 0 * 0) with 0 by ring. apply sqrt_0. Qed.
Lemma Yr_pz n m : (0 < n)%Z -> (Z.abs m <= n)%Z -> Yr pz n m = RtoC 0.
Proof.
  intros Hn Hm. apply Cmod_eq_0. apply Rle_antisym; [|apply Cmod_ge_0]. eapply Rle_trans; [apply Yr_pt; exact Hm|]. rewrite pn_pz, pow_i by lia. lra.
Qed.
Lemma Yr_0 v : Yr v 0 0 = RtoC 1.
Proof.
  unfold Yr, a_val. change (Z.to_nat (0 - 0)) with 0%nat. change (Z.to_nat (0 + 0)) with 0%nat. change (ipow (- Z.abs 0)) with (RtoC 1).
  change (sh (H3 v) (Z.to_nat 0) 0) with (RtoC 1). change (INR (fact 0)) with 1. rewrite Rmult_1_r, sqrt_1. ring.
Qed.

(** ** Linearity *)
Lemma m2m_plus f g S j k : (m2m_coef (fun n m => f n m + g n m)%C S j k = m2m_coef f S j k + m2m_coef g S j k)%C.
Proof.
  assert (E := m2m_lsum [f; g] (fun h => h) S j k). rewrite !lsum_cons, lsum_nil, Cplus_0_r in E. rewrite <- E. apply m2m_ext.
  intros n m _ _. rewrite !lsum_cons, lsum_nil. ring.
Qed.
Lemma l2l_plus p f g S j k : (l2l_coef p (fun n m => f n m + g n m)%C S j k = l2l_coef p f S j k + l2l_coef p g S j k)%C.
Proof.
  unfold l2l_coef. rewrite <- Cmult_plus_distr_l, <- lsum_plus. f_equal. apply lsum_ext. intros n _. rewrite <- lsum_plus. apply lsum_ext. intros m _. ring.
Qed.
Lemma l2l_ext p f g S j k : (0 <= j)%Z -> (forall n m, (Z.abs m <= n)%Z -> (n <= p)%Z -> f n m = g n m) -> l2l_coef p f S j k = l2l_coef p g S j k.
Proof.
  intros Hj H. unfold l2l_coef. f_equal. apply lsum_ext. intros n Hn. apply in_zrange in Hn. apply lsum_ext. intros m Hm. apply in_zrange in Hm. rewrite H by lia. reflexivity.
Qed.
Lemma m2l_plus p f g D j k : (m2l_coef p (fun n m => f n m + g n m)%C D j k = m2l_coef p f D j k + m2l_coef p g D j k)%C.
Proof.
  unfold m2l_coef. rewrite <- Cmult_plus_distr_r, <- lsum_plus. f_equal. apply lsum_ext. intros n _. rewrite <- lsum_plus. apply lsum_ext. intros m _. ring.
Qed.
Lemma m2l_ext p f g D j k : (forall n m, (Z.abs m <= n)%Z -> (n <= p)%Z -> f n m = g n m) -> m2l_coef p f D j k = m2l_coef p g D j k.
Proof.
  intros H. unfold m2l_coef. f_equal. apply lsum_ext. intros n Hn. apply in_zrange in Hn. apply lsum_ext. intros m Hm. apply in_zrange in Hm. rewrite H by lia. reflexivity.
Qed.

(** ** Multipole coefficients *)
Definition MN (p : Z) (a E : R) (f : Z -> Z -> C) : Prop := forall j, (0 <= j <= p)%Z -> vn j (f j) <= E * a ^ Z.to_nat j.
(** The bound of the coefficients shifted anywhere. *)
Definition RMN (p : Z) (a E : R) (f : Z -> Z -> C) : Prop := forall S, MN p (a + pn S) E (m2m_coef f S).

Lemma MN_E p a E f : (0 <= p)%Z -> MN p a E f -> 0 <= E.
Proof. intros Hp H. specialize (H 0%Z ltac:(lia)). cbn in H. assert (P := vn_nonneg 0 (f 0%Z)). lra. Qed.
Lemma MN_m2m p a E f S : 0 <= a -> (0 <= p)%Z -> MN p a E f -> MN p (a + pn S) (IZR (p + 1) * E) (m2m_coef f S).
Proof.
  intros Ha Hp H j Hj. assert (HE := MN_E _ _ _ _ Hp H). assert (PS := pn_nonneg S).
  rewrite (vn_ext j _ (fun k => lsum (fun n => m2m_term f S j n k) (zrange 0 j))) by (intros; apply m2m_terms).
  eapply Rle_trans; [apply vn_sum|]. rewrite Rmult_assoc. apply rsum_bound.
  - apply Rmult_le_pos; [exact HE|apply pow_le; lra].
  - intros n Hn. apply in_zrange in Hn. eapply Rle_trans; [apply m2m_term_norm; lia|].
    apply Rle_trans with (sqrt (chz j n) * (pn S ^ Z.to_nat n * (E * a ^ Z.to_nat (j - n)))).
    + apply Rmult_le_compat_l; [apply sqrt_pos|]. apply Rmult_le_compat_l; [apply pow_le; exact PS|]. apply H. lia.
    + replace (sqrt (chz j n) * (pn S ^ Z.to_nat n * (E * a ^ Z.to_nat (j - n)))) with (E * (sqrt (chz j n) * pn S ^ Z.to_nat n * a ^ Z.to_nat (j - n))) by ring.
      apply Rmult_le_compat_l; [exact HE|]. assert (X := chz_pow (pn S) a n (j - n) PS Ha ltac:(lia) ltac:(lia)).
      replace (j - n + n)%Z with j in X by lia. rewrite Rplus_comm. exact X.
  - apply zrange_len; lia.
Qed.
Lemma MN_RMN p a E f : 0 <= a -> (0 <= p)%Z -> MN p a E f -> RMN p a (IZR (p + 1) * E) f.
Proof. intros Ha Hp H S. apply MN_m2m; assumption. Qed.
Lemma m2m_pz f j k : (0 <= j)%Z -> (Z.abs k <= j)%Z -> m2m_coef f pz j k = f j k.
Proof.
  intros Hj Hk. rewrite m2m_terms, zrange_cons, lsum_cons, m2m_term0 by lia. rewrite lsum_all_zero; [ring|]. intros n Hn. apply in_zrange in Hn.
  unfold m2m_term. apply lsum_all_zero. intros m Hm. apply in_irange in Hm. rewrite Yr_pz by lia. ring.
Qed.
Lemma RMN_MN p a E f : RMN p a E f -> MN p a E f.
Proof.
  intros H j Hj. specialize (H pz j Hj). rewrite pn_pz, Rplus_0_r in H. rewrite (vn_ext j _ (m2m_coef f pz j)); [exact H|]. intros k Hk. symmetry. apply m2m_pz; lia.
Qed.
Lemma RMN_E p a E f : (0 <= p)%Z -> RMN p a E f -> 0 <= E.
Proof. intros Hp H. apply RMN_MN in H. apply MN_E in H; assumption. Qed.
Lemma MN_mono p a a' E E' f : (0 <= p)%Z -> 0 <= a <= a' -> E <= E' -> MN p a E f -> MN p a' E' f.
Proof.
  intros Hp Ha HE H j Hj. assert (P := MN_E _ _ _ _ Hp H). eapply Rle_trans; [apply H; exact Hj|].
  apply Rmult_le_compat; [exact P|apply pow_le; lra|exact HE|apply pow_incr; exact Ha].
Qed.
Lemma RMN_mono p a a' E E' f : (0 <= p)%Z -> 0 <= a <= a' -> E <= E' -> RMN p a E f -> RMN p a' E' f.
Proof. intros Hp Ha HE H S. assert (P := pn_nonneg S). eapply MN_mono; [exact Hp| |exact HE|apply H]. lra. Qed.
Lemma RMN_ext p a E f g : (forall n m, (Z.abs m <= n)%Z -> (n <= p)%Z -> f n m = g n m) -> RMN p a E f -> RMN p a E g.
Proof.
  intros X H S j Hj. rewrite (vn_ext j _ (m2m_coef f S j)); [apply H; exact Hj|]. intros k _. apply m2m_ext. intros n m Hn Hm. symmetry. apply X; lia.
Qed.
Lemma RMN_plus p a E E' f g : RMN p a E f -> RMN p a E' g -> RMN p a (E + E') (fun n m => f n m + g n m)%C.
Proof.
  intros H H' S j Hj. rewrite (vn_ext j _ (fun k => m2m_coef f S j k + m2m_coef g S j k)%C) by (intros; apply m2m_plus).
  eapply Rle_trans; [apply vn_plus|]. rewrite Rmult_plus_distr_r. apply Rplus_le_compat; [apply H|apply H']; exact Hj.
Qed.
Lemma RMN_shift p a E f S : RMN p a E f -> 0 <= a -> (0 <= p)%Z -> RMN p (a + pn S) E (m2m_coef f S).
Proof.
  intros H Ha Hp S' j Hj. rewrite (vn_ext j _ (m2m_coef f (padd S S') j)) by (intros; apply m2m_m2m; lia).
  assert (HE := RMN_E _ _ _ _ Hp H). eapply Rle_trans; [apply H; exact Hj|]. apply Rmult_le_compat_l; [exact HE|]. apply pow_incr.
  assert (X := pn_add S S'). assert (Y := pn_nonneg (padd S S')). lra.
Qed.
Lemma RMN_zero p a : 0 <= a -> RMN p a 0 (fun _ _ => RtoC 0).
Proof.
  intros Ha S j Hj. rewrite (vn_ext j _ (fun _ => RtoC 0)); [rewrite vn_zero; lra|]. intros k _. unfold m2m_coef.
  rewrite lsum_all_zero; [unfold Cdiv; ring|]. intros n _. apply lsum_all_zero. intros m _. ring.
Qed.
Lemma RMN_source p a q y : (0 <= p)%Z -> pn y <= a -> RMN p a (Rabs q) (fun n m => RtoC q * Yr y n (- m))%C.
Proof.
  intros Hp Hy S j Hj. rewrite (vn_ext j _ (fun k => RtoC q * Yr (padd y S) j (- k))%C) by (intros; apply m2m_one; lia).
  rewrite vn_scal, Cmod_R. apply Rmult_le_compat_l; [apply Rabs_pos|]. rewrite (vn_flip j (Yr (padd y S) j)). eapply Rle_trans; [apply vn_Yr; lia|].
  apply pow_incr. split; [apply pn_nonneg|]. eapply Rle_trans; [apply pn_add|]. lra.
Qed.
Lemma RMN_lsum {A} p a (E : A -> R) (g : A -> Z -> Z -> C) L : 0 <= a -> (forall s, In s L -> RMN p a (E s) (g s)) ->
  RMN p a (rsum E L) (fun n m => lsum (fun s => g s n m) L).
Proof.
  intros Ha. induction L as [|s L IH]; intros H.
  - apply (RMN_zero p a Ha).
  - rewrite rsum_cons. apply (RMN_ext p a _ (fun n m => g s n m + lsum (fun s => g s n m) L)%C); [intros; rewrite lsum_cons; reflexivity|].
    apply RMN_plus; [apply H; left; reflexivity|]. apply IH. intros; apply H; right; assumption.
Qed.

(** ** Local coefficients *)
Definition LN (p : Z) (b E : R) (f : Z -> Z -> C) : Prop := forall j, (0 <= j <= p)%Z -> b ^ Z.to_nat j * vn j (f j) <= E.
Definition RLN (p : Z) (b E : R) (f : Z -> Z -> C) : Prop := forall S b', 0 <= b' -> b' + pn S <= b -> LN p b' E (l2l_coef p f S).

Definition l2l_term (f : Z -> Z -> C) (S : P3) (j n k : Z) : C :=
  lsum (fun m => RtoC (A_val j k) * (sg (n + j) * ipow (exp3 k m) * RtoC (A_val (n - j) (m - k) / A_val n m)) * (f n m * Yr S (n - j) (m - k)))%C (irange n (n - j) k).
Lemma l2l_terms p f S j k : l2l_coef p f S j k = lsum (fun n => l2l_term f S j n k) (zrange j p).
Proof.
  unfold l2l_coef. rewrite <- lsum_scal. apply lsum_ext. intros n _. unfold l2l_term. rewrite l2l_range, <- lsum_scal. apply lsum_ext. intros m _. ring.
Qed.
Lemma l2l_term_norm f S j n : (0 <= j <= n)%Z -> vn j (l2l_term f S j n) <= sqrt (chz n j) * (vn n (f n) * pn S ^ Z.to_nat (n - j)).
Proof.
  intros H. eapply Rle_trans; [apply vn_bound with (x := l2l_abs (fun n m => Cmod (f n m)) (fun n m => Cmod (Yr S n m)) j n)|].
  - intros k _. unfold l2l_term, l2l_abs. eapply Rle_trans; [apply lsum_Cmod|]. apply rsum_le. intros m _.
    rewrite !Cmod_mult, Cmod_sg, Cmod_ipow, !Cmod_R, <- l2l_weight. right. ring.
  - eapply Rle_trans; [apply l2l_abs_norm; exact H|]. apply Rmult_le_compat_l; [apply sqrt_pos|]. apply Rmult_le_compat_l; [apply vn_nonneg|]. apply vn_Yr. lia.
Qed.
Lemma LN_E p b E f : (0 <= p)%Z -> LN p b E f -> 0 <= E.
Proof. intros Hp H. specialize (H 0%Z ltac:(lia)). cbn in H. assert (P := vn_nonneg 0 (f 0%Z)). lra. Qed.
Lemma LN_mono p b b' E E' f : 0 <= b' <= b -> E <= E' -> LN p b E f -> LN p b' E' f.
Proof.
  intros Hb HE H j Hj. eapply Rle_trans; [|exact HE]. eapply Rle_trans; [|apply H; exact Hj]. apply Rmult_le_compat_r; [apply vn_nonneg|]. apply pow_incr. exact Hb.
Qed.
Lemma LN_l2l p b E f S b' : 0 <= b' -> b' + pn S <= b -> LN p b E f -> LN p b' (IZR (p + 1) * E) (l2l_coef p f S).
Proof.
  intros Hb HS H j Hj. assert (HE := LN_E _ _ _ _ (Z.le_trans 0 j p ltac:(lia) ltac:(lia)) H). assert (PS := pn_nonneg S).
  rewrite (vn_ext j _ (fun k => lsum (fun n => l2l_term f S j n k) (zrange j p))) by (intros; apply l2l_terms).
  eapply Rle_trans; [apply Rmult_le_compat_l; [apply pow_le; exact Hb|apply vn_sum]|]. rewrite <- rsum_scal. apply rsum_bound.
  - exact HE.
  - intros n Hn. apply in_zrange in Hn. eapply Rle_trans; [apply Rmult_le_compat_l; [apply pow_le; exact Hb|apply l2l_term_norm; lia]|].
    eapply Rle_trans; [|apply (H n ltac:(lia))].
    replace (b' ^ Z.to_nat j * (sqrt (chz n j) * (vn n (f n) * pn S ^ Z.to_nat (n - j)))) with ((sqrt (chz n j) * b' ^ Z.to_nat j * pn S ^ Z.to_nat (n - j)) * vn n (f n)) by ring.
    apply Rmult_le_compat_r; [apply vn_nonneg|]. assert (X := chz_pow b' (pn S) j (n - j) Hb PS ltac:(lia) ltac:(lia)). replace (n - j + j)%Z with n in X by lia.
    eapply Rle_trans; [exact X|]. apply pow_incr. lra.
  - apply zrange_len; lia.
Qed.
Lemma LN_RLN p b E f : LN p b E f -> RLN p b (IZR (p + 1) * E) f.
Proof. intros H S b' Hb HS. eapply LN_l2l; eassumption. Qed.
Lemma l2l_pz p f j k : (0 <= j <= p)%Z -> (Z.abs k <= j)%Z -> l2l_coef p f pz j k = f j k.
Proof.
  intros Hj Hk. rewrite l2l_terms, zrange_cons, lsum_cons by lia. rewrite (lsum_all_zero _ (zrange (j + 1) p)).
  - unfold l2l_term, irange. replace (Z.max (- j) (k - (j - j))) with k by lia. replace (Z.min j (k + (j - j))) with k by lia. rewrite zrange_cons by lia.
    rewrite lsum_cons. replace (zrange (k + 1) k) with (@nil Z) by (unfold zrange; replace (Z.to_nat (k - (k + 1) + 1)) with 0%nat by lia; reflexivity).
    rewrite lsum_nil, !Z.sub_diag, Yr_0. replace (exp3 k k) with 0%Z by (unfold exp3; rewrite Z.sub_diag; cbn; lia). rewrite ipow_0.
    replace (A_val 0 0) with 1. 2:{ unfold A_val, a_val. cbn. rewrite Rmult_1_r, sqrt_1. field. }
    replace (sg (j + j)) with (RtoC 1). 2:{ unfold sg. replace (j + j)%Z with (2 * j)%Z by lia. rewrite Z.odd_mul. reflexivity. }
    unfold Rdiv. rewrite Rmult_1_l, RtoC_inv by apply A_val_nz. field. apply RtoC_nz, A_val_nz.
  - intros n Hn. apply in_zrange in Hn. apply lsum_all_zero. intros m Hm. apply in_irange in Hm. rewrite Yr_pz by lia. ring.
Qed.
Lemma RLN_LN p b E f : 0 <= b -> RLN p b E f -> LN p b E f.
Proof.
  intros Hb H j Hj. specialize (H pz b Hb ltac:(rewrite pn_pz; lra) j Hj). rewrite (vn_ext j _ (l2l_coef p f pz j)); [exact H|]. intros k Hk. symmetry. apply l2l_pz; lia.
Qed.
Lemma RLN_E p b E f : 0 <= b -> (0 <= p)%Z -> RLN p b E f -> 0 <= E.
Proof. intros Hb Hp H. apply RLN_LN in H; [|exact Hb]. apply LN_E in H; assumption. Qed.
Lemma RLN_mono p b b' E E' f : b' <= b -> E <= E' -> RLN p b E f -> RLN p b' E' f.
Proof. intros Hb HE H S c Hc HS. eapply LN_mono; [|exact HE|apply (H S c Hc)]; [split; [exact Hc|apply Rle_refl]|lra]. Qed.
Lemma RLN_ext p b E f g : (forall n m, (Z.abs m <= n)%Z -> (n <= p)%Z -> f n m = g n m) -> RLN p b E f -> RLN p b E g.
Proof.
  intros X H S b' Hb HS j Hj. rewrite (vn_ext j _ (l2l_coef p f S j)); [apply H; assumption|]. intros k _. apply l2l_ext; [lia|]. intros n m Hn Hm. symmetry. apply X; lia.
Qed.
Lemma RLN_plus p b E E' f g : RLN p b E f -> RLN p b E' g -> RLN p b (E + E') (fun n m => f n m + g n m)%C.
Proof.
  intros H H' S b' Hb HS j Hj. rewrite (vn_ext j _ (fun k => l2l_coef p f S j k + l2l_coef p g S j k)%C) by (intros; apply l2l_plus).
  eapply Rle_trans; [apply Rmult_le_compat_l; [apply pow_le; exact Hb|apply vn_plus]|]. rewrite Rmult_plus_distr_l.
  apply Rplus_le_compat; [apply H|apply H']; assumption.
Qed.
Lemma RLN_shift p b E f S b' : 0 <= b' -> b' + pn S <= b -> RLN p b E f -> RLN p b' E (l2l_coef p f S).
Proof.
  intros Hb HS H S' c Hc HS' j Hj. rewrite (vn_ext j _ (l2l_coef p f (padd S S') j)) by (intros; apply l2l_l2l; lia).
  apply H; [exact Hc| |exact Hj]. assert (X := pn_add S S'). lra.
Qed.
Lemma LN_zero p b : LN p b 0 (fun _ _ => RtoC 0).
Proof. intros j Hj. rewrite vn_zero. lra. Qed.
Lemma RLN_zero p b : RLN p b 0 (fun _ _ => RtoC 0).
Proof. assert (X := LN_RLN p b 0 _ (LN_zero p b)). rewrite Rmult_0_r in X. exact X. Qed.
Lemma RLN_lsum {A} p b (E : A -> R) (g : A -> Z -> Z -> C) L : (forall s, In s L -> RLN p b (E s) (g s)) ->
  RLN p b (rsum E L) (fun n m => lsum (fun s => g s n m) L).
Proof.
  induction L as [|s L IH]; intros H.
  - apply RLN_zero.
  - rewrite rsum_cons. apply (RLN_ext p b _ (fun n m => g s n m + lsum (fun s => g s n m) L)%C); [intros; rewrite lsum_cons; reflexivity|].
    apply RLN_plus; [apply H; left; reflexivity|]. apply IH. intros; apply H; right; assumption.
Qed.
Lemma LN_source p b q D : 0 <= b <= pn D -> 0 < pn D -> LN p b (Rabs q / pn D) (fun n m => RtoC (q * / pn D ^ (2 * Z.to_nat n + 1)) * Yr D n (- m))%C.
Proof.
  intros Hb HD j Hj. rewrite vn_scal, Cmod_R, (vn_flip j (Yr D j)), Rabs_mult, Rabs_inv, (Rabs_pos_eq (pn D ^ _)) by (apply pow_le; lra).
  apply Rle_trans with (b ^ Z.to_nat j * (Rabs q * / pn D ^ (2 * Z.to_nat j + 1) * pn D ^ Z.to_nat j)).
  - apply Rmult_le_compat_l; [apply pow_le; lra|]. apply Rmult_le_compat_l; [|apply vn_Yr; lia].
    apply Rmult_le_pos; [apply Rabs_pos|]. left. apply Rinv_0_lt_compat, pow_lt. exact HD.
  - assert (P : 0 < pn D ^ Z.to_nat j) by (apply pow_lt; exact HD).
    replace (b ^ Z.to_nat j * (Rabs q * / pn D ^ (2 * Z.to_nat j + 1) * pn D ^ Z.to_nat j)) with (Rabs q / pn D * (b ^ Z.to_nat j / pn D ^ Z.to_nat j)).
    + rewrite <- (Rmult_1_r (Rabs q / pn D)) at 2. apply Rmult_le_compat_l.
      * apply Rmult_le_pos; [apply Rabs_pos|left; apply Rinv_0_lt_compat; exact HD].
      * apply (Rmult_le_reg_r (pn D ^ Z.to_nat j)); [exact P|]. unfold Rdiv. rewrite Rmult_assoc, Rinv_l, Rmult_1_r, Rmult_1_l by lra. apply pow_incr. exact Hb.
    + replace (2 * Z.to_nat j + 1)%nat with (Datatypes.S (Z.to_nat j + Z.to_nat j)) by lia. cbn [pow]. rewrite pow_add. field. split; lra.
Qed.

(** ** Conversion *)
Definition m2l_term (f : Z -> Z -> C) (D : P3) (j n k : Z) : C :=
  lsum (fun m => sg n * ipow (exp2 k m) * RtoC (A_val n m / A_val (j + n) (m - k) * / pn D ^ (2 * Z.to_nat (j + n) + 1)) * RtoC (A_val j k) *
      (f n m * Yr D (j + n) (m - k)))%C (zrange (- n) n).
Lemma m2l_terms p f D j k : m2l_coef p f D j k = lsum (fun n => m2l_term f D j n k) (zrange 0 p).
Proof.
  unfold m2l_coef. rewrite <- lsum_scal_r. apply lsum_ext. intros n _. unfold m2l_term. rewrite <- lsum_scal_r. apply lsum_ext. intros m _. ring.
Qed.
Lemma inv_pow_split r n : 0 < r -> / r ^ (2 * n + 1) * r ^ n = / r * / r ^ n.
Proof.
  intros H. assert (0 < r ^ n) by (apply pow_lt; exact H). replace (2 * n + 1)%nat with (Datatypes.S (n + n)) by lia. cbn [pow]. rewrite pow_add. field. split; lra.
Qed.
Lemma m2l_term_norm f D j n : (0 <= j)%Z -> (0 <= n)%Z -> 0 < pn D ->
  vn j (m2l_term f D j n) <= sqrt (chz (j + n) j) * (vn n (f n) * (/ pn D * / pn D ^ Z.to_nat (j + n))).
Proof.
  intros Hj Hn HD. set (i := / pn D ^ (2 * Z.to_nat (j + n) + 1)). assert (Hi : 0 < i) by (apply Rinv_0_lt_compat, pow_lt; exact HD).
  eapply Rle_trans; [apply vn_bound with (x := m2l_abs (fun n m => Cmod (f n m)) (fun N m => i * Cmod (Yr D N m)) j n)|].
  - intros k _. unfold m2l_term, m2l_abs. eapply Rle_trans; [apply lsum_Cmod|]. apply rsum_le. intros m _. fold i.
    rewrite !Cmod_mult, Cmod_sg, Cmod_ipow, !Cmod_R, <- m2l_weight. rewrite Rabs_mult, (Rabs_pos_eq i) by lra. right. ring.
  - eapply Rle_trans; [apply m2l_abs_norm; assumption|]. apply Rmult_le_compat_l; [apply sqrt_pos|]. apply Rmult_le_compat_l; [apply vn_nonneg|].
    rewrite rn_scal, Rabs_pos_eq by lra. rewrite <- inv_pow_split by exact HD. apply Rmult_le_compat_l; [left; exact Hi|]. apply vn_Yr. lia.
Qed.
Lemma m2l_LN p a b E f D : 0 <= a -> 0 <= b -> 0 < pn D -> a + b <= pn D -> (0 <= p)%Z -> MN p a E f -> LN p b (IZR (p + 1) * (E / pn D)) (m2l_coef p f D).
Proof.
  intros Ha Hb HD HR Hp H j Hj. assert (HE := MN_E _ _ _ _ Hp H).
  rewrite (vn_ext j _ (fun k => lsum (fun n => m2l_term f D j n k) (zrange 0 p))) by (intros; apply m2l_terms).
  eapply Rle_trans; [apply Rmult_le_compat_l; [apply pow_le; exact Hb|apply vn_sum]|]. rewrite <- rsum_scal. apply rsum_bound.
  - apply Rmult_le_pos; [exact HE|left; apply Rinv_0_lt_compat; exact HD].
  - intros n Hn. apply in_zrange in Hn. assert (PD : 0 < pn D ^ Z.to_nat (j + n)) by (apply pow_lt; exact HD).
    assert (PI : 0 < / pn D) by (apply Rinv_0_lt_compat; exact HD). assert (PJ : 0 < / pn D ^ Z.to_nat (j + n)) by (apply Rinv_0_lt_compat; exact PD).
    apply Rle_trans with (b ^ Z.to_nat j * (sqrt (chz (j + n) j) * (E * a ^ Z.to_nat n * (/ pn D * / pn D ^ Z.to_nat (j + n))))).
    + apply Rmult_le_compat_l; [apply pow_le; exact Hb|]. eapply Rle_trans; [apply m2l_term_norm; try lia; exact HD|]. apply Rmult_le_compat_l; [apply sqrt_pos|].
      apply Rmult_le_compat_r; [apply Rmult_le_pos; lra|]. apply H. lia.
    + replace (b ^ Z.to_nat j * (sqrt (chz (j + n) j) * (E * a ^ Z.to_nat n * (/ pn D * / pn D ^ Z.to_nat (j + n)))))
        with (E * / pn D * ((sqrt (chz (j + n) j) * b ^ Z.to_nat j * a ^ Z.to_nat n) * / pn D ^ Z.to_nat (j + n))) by ring.
      unfold Rdiv. rewrite <- (Rmult_1_r (E * / pn D)) at 2. apply Rmult_le_compat_l; [apply Rmult_le_pos; lra|].
      apply (Rmult_le_reg_r (pn D ^ Z.to_nat (j + n))); [exact PD|]. rewrite Rmult_assoc, Rinv_l, Rmult_1_r, Rmult_1_l by lra.
      assert (X := chz_pow b a j n Hb Ha ltac:(lia) ltac:(lia)). replace (n + j)%Z with (j + n)%Z in X by lia. eapply Rle_trans; [exact X|].
      apply pow_incr. lra.
  - apply zrange_len; lia.
Qed.

(** ** Evaluation *)
Lemma degree_bound n (f : Z -> C) X : (0 <= n)%Z -> Cmod (lsum (fun m => f m * Yr X n m)%C (zrange (- n) n)) <= vn n f * pn X ^ Z.to_nat n.
Proof.
  intros Hn. eapply Rle_trans; [apply lsum_Cmod|].
  rewrite (rsum_ext _ (fun m => Cmod (f m) * Cmod (Yr X n m))) by (intros; apply Cmod_mult).
  eapply Rle_trans; [apply Rle_abs|]. eapply Rle_trans; [apply cauchy_rn|]. apply Rmult_le_compat_l; [apply vn_nonneg|]. apply vn_Yr. exact Hn.
Qed.
Lemma lval_bound p b E f X : (0 <= p)%Z -> pn X <= b -> LN p b E f -> Cmod (lval3 p f X) <= IZR (p + 1) * E.
Proof.
  intros Hp HX H. unfold lval3, lsum2. eapply Rle_trans; [apply lsum_Cmod|]. apply rsum_bound; [apply (LN_E _ _ _ _ Hp H)| |apply zrange_len; lia].
  intros n Hn. apply in_zrange in Hn. eapply Rle_trans; [apply degree_bound; lia|]. eapply Rle_trans; [|apply (H n ltac:(lia))].
  rewrite Rmult_comm. apply Rmult_le_compat_r; [apply vn_nonneg|]. apply pow_incr. split; [apply pn_nonneg|exact HX].
Qed.
Lemma mval_bound p a E f X : (0 <= p)%Z -> 0 <= a <= pn X -> 0 < pn X -> MN p a E f -> Cmod (mval3 p f X) <= IZR (p + 1) * (E / pn X).
Proof.
  intros Hp Ha HX H. assert (HE := MN_E _ _ _ _ Hp H). unfold mval3, lsum2. eapply Rle_trans; [apply lsum_Cmod|].
  assert (PI : 0 < / pn X) by (apply Rinv_0_lt_compat; exact HX).
  apply rsum_bound; [apply Rmult_le_pos; lra| |apply zrange_len; lia].
  intros n Hn. apply in_zrange in Hn. rewrite lsum_scal, Cmod_mult, Cmod_R.
  assert (P : 0 < pn X ^ Z.to_nat n) by (apply pow_lt; exact HX). assert (PN : 0 < / pn X ^ (2 * Z.to_nat n + 1)) by (apply Rinv_0_lt_compat, pow_lt; exact HX).
  rewrite Rabs_pos_eq by lra.
  apply Rle_trans with (/ pn X ^ (2 * Z.to_nat n + 1) * (E * a ^ Z.to_nat n * pn X ^ Z.to_nat n)).
  - apply Rmult_le_compat_l; [lra|]. eapply Rle_trans; [apply degree_bound; lia|]. apply Rmult_le_compat_r; [lra|]. apply H. lia.
  - replace (/ pn X ^ (2 * Z.to_nat n + 1) * (E * a ^ Z.to_nat n * pn X ^ Z.to_nat n)) with (E * a ^ Z.to_nat n * (/ pn X ^ (2 * Z.to_nat n + 1) * pn X ^ Z.to_nat n)) by ring.
    rewrite inv_pow_split by exact HX. apply Rle_trans with (E * pn X ^ Z.to_nat n * (/ pn X * / pn X ^ Z.to_nat n)).
    + apply Rmult_le_compat_r; [apply Rmult_le_pos; [lra|left; apply Rinv_0_lt_compat; exact P]|]. apply Rmult_le_compat_l; [exact HE|]. apply pow_incr. exact Ha.
    + right. field. split; lra.
Qed.
