(** Norms of the rounding errors of the three-dimensional expansions. *)
From Coq Require Import Reals List Arith ZArith Lia Lra Psatz.
From Coquelicot Require Import Coquelicot.
From Verif Require Import Num Outcome Vec VecProofs Tables CAux TableProofs Tables3D Table3DProofs SolidHarmonics Zonal HarmonicBounds Kernel3 Spherical SphericalProofs Harmonics3D Fields
  Expansion3D Exp3Loops Exp3Proofs Exp3Errors HarmonicNorms ShiftGroup CoefNorms CoefBounds RoundedExpansion2D RoundedExpansion3D RoundedComplexSpec ApproxC RoundedHarmonicSpec RoundedHarmonics RoundedLoops3.
Import ListNotations.
Local Open Scope R_scope.
Arguments Cmod x%C.
Arguments ap w n%nat x'%C x%C X%R.

Section Errors3.
Variable w : R.
Hypothesis Hw : 0 <= w <= 1 / 2.
Variable p : nat.
Notation P := (Z.of_nat p).

Definition k1 : R := IZR (P + 1).
Lemma k1_ge : 1 <= k1. Proof. apply IZR_le. lia. Qed.
(** The growth of the errors by one operation. *)
Definition gam : R := 2 * k1 ^ 3 * w.
Definition ge (n : nat) : R := (1 + gam) ^ n.
Lemma k3_ge : 1 <= k1 ^ 3. Proof. apply pow_R1_Rle. apply k1_ge. Qed.
Lemma gam_nonneg : 0 <= gam.
Proof. unfold gam. assert (H := k3_ge). nra. Qed.
Lemma ge_1 n : 1 <= ge n.
Proof. apply pow_R1_Rle. assert (H := gam_nonneg). lra. Qed.
Lemma ge_mono n m : (n <= m)%nat -> ge n <= ge m.
Proof. intros H. apply Rle_pow; [assert (G := gam_nonneg); lra|exact H]. Qed.
Lemma ew_nonneg n : 0 <= (1 + w) ^ n - 1.
Proof. assert (1 <= (1 + w) ^ n) by (apply pow_R1_Rle; lra). lra. Qed.
Lemma ge_count c n : 0 <= c <= 2 * k1 ^ 3 -> c * ((1 + w) ^ n - 1) <= ge n - 1.
Proof.
  intros Hc. assert (K := k3_ge). assert (E := ew_nonneg n). apply Rle_trans with (2 * k1 ^ 3 * ((1 + w) ^ n - 1)); [apply Rmult_le_compat_r; lra|]. clear Hc c E.
  induction n as [|n IH]; [unfold ge; cbn; lra|]. assert (E := ew_nonneg n). unfold ge in *. rewrite <- (tech_pow_Rmult (1 + w)), <- (tech_pow_Rmult (1 + gam)).
  assert (G : w <= gam).
  { unfold gam. assert (X : 0 <= (2 * k1 ^ 3 - 1) * w) by (apply Rmult_le_pos; lra). lra. }
  assert (G0 := gam_nonneg).
  set (k := 2 * k1 ^ 3) in *. assert (GE : gam = k * w) by reflexivity. set (x := (1 + w) ^ n) in *. set (y := (1 + gam) ^ n) in *.
  replace (k * ((1 + w) * x - 1)) with (k * (x - 1) * (1 + w) + gam) by (rewrite GE; ring).
  assert (0 <= k * (x - 1)) by (apply Rmult_le_pos; [unfold k; lra|exact E]).
  set (v := k * (x - 1)) in *. 
  assert (M1 : v * (1 + w) <= v * (1 + gam)) by (apply Rmult_le_compat_l; lra). assert (M2 : v * (1 + gam) <= (y - 1) * (1 + gam)) by (apply Rmult_le_compat_r; lra).
  replace ((1 + gam) * y - 1) with ((y - 1) * (1 + gam) + gam) by ring.
  apply Rplus_le_compat_r. eapply Rle_trans; [exact M1|exact M2].
Qed.
Lemma ge_comp c n N : 0 <= c <= 2 * k1 ^ 3 -> c * (((1 + w) ^ N - 1) * ge n) + (ge n - 1) <= ge (n + N) - 1.
Proof.
  intros Hc. assert (H := ge_count c N Hc). assert (G := ge_1 n). unfold ge in *. rewrite pow_add. set (x := (1 + gam) ^ n) in *. set (y := (1 + gam) ^ N) in *.
  replace (c * (((1 + w) ^ N - 1) * x)) with (c * ((1 + w) ^ N - 1) * x) by ring. nra.
Qed.
Lemma k_le (c : R) : c <= k1 \/ c <= k1 ^ 2 \/ c <= k1 ^ 3 \/ c <= 2 * k1 -> c <= 2 * k1 ^ 3.
Proof. assert (K := k1_ge). assert (k1 <= k1 ^ 2) by (cbn; nra). assert (k1 ^ 2 <= k1 ^ 3) by (cbn; nra). intros [H1|[H1|[H1|H1]]]; lra. Qed.

Lemma k_of j : (0 <= j <= P)%Z -> IZR (j + 1) <= k1.
Proof. intros H. apply IZR_le. lia. Qed.

(** ** From bounds of each coefficient *)
Lemma pw_MN a E f : 0 <= a -> 0 <= E -> (forall j k, (0 <= j <= P)%Z -> (Z.abs k <= j)%Z -> Cmod (f j k) <= E * a ^ Z.to_nat j) -> MN P a (k1 * E) f.
Proof.
  intros Ha HE H j Hj. assert (X : 0 <= E * a ^ Z.to_nat j) by (apply Rmult_le_pos; [exact HE|apply pow_le; exact Ha]).
  eapply Rle_trans; [apply (vn_const j _ (E * a ^ Z.to_nat j)); [lia|exact X|intros; apply H; assumption]|].
  rewrite Rmult_assoc. apply Rmult_le_compat_r; [exact X|]. apply k_of. exact Hj.
Qed.
Lemma pw_LN b E f : 0 <= b -> 0 <= E -> (forall j k, (0 <= j <= P)%Z -> (Z.abs k <= j)%Z -> b ^ Z.to_nat j * Cmod (f j k) <= E) -> LN P b (k1 * E) f.
Proof.
  intros Hb HE H j Hj. rewrite <- (Rabs_pos_eq (b ^ Z.to_nat j)) by (apply pow_le; exact Hb). rewrite <- Cmod_R, <- vn_scal.
  eapply Rle_trans; [apply (vn_const j _ E); [lia|exact HE|]|apply Rmult_le_compat_r; [exact HE|apply k_of; exact Hj]].
  intros k Hk. rewrite Cmod_mult, Cmod_R, Rabs_pos_eq by (apply pow_le; exact Hb). apply H; assumption.
Qed.

Lemma tn_pow r n : 0 <= r -> (0 <= n <= P)%Z -> rn (fun _ : Z => r ^ Z.to_nat n) (zrange (- n) n) <= k1 * r ^ Z.to_nat n.
Proof.
  intros Hr Hn. assert (0 <= r ^ Z.to_nat n) by (apply pow_le; exact Hr). eapply Rle_trans; [apply rn_const; [lia|assumption]|].
  apply Rmult_le_compat_r; [assumption|]. apply k_of. exact Hn.
Qed.

Lemma m2m_size_norm a E f S : 0 <= a -> MN P a E f -> forall j, (0 <= j <= P)%Z ->
  rn (m2m_size f (pn S) j) (zrange (- j) j) <= k1 ^ 2 * E * (a + pn S) ^ Z.to_nat j.
Proof.
  intros Ha H j Hj. assert (HE := MN_E _ _ _ _ (Nat2Z.is_nonneg p) H). assert (PS := pn_nonneg S). assert (K := k1_ge). unfold m2m_size.
  eapply Rle_trans; [apply (rn_sum (fun n k => m2m_abs _ _ j n k))|].
  replace (k1 ^ 2 * E * (a + pn S) ^ Z.to_nat j) with (k1 * (k1 * (E * (a + pn S) ^ Z.to_nat j))) by ring. apply rsum_bound.
  - repeat apply Rmult_le_pos; try lra. apply pow_le; lra.
  - intros n Hn. apply in_zrange in Hn. eapply Rle_trans; [apply m2m_abs_norm; lia|].
    apply Rle_trans with (sqrt (chz j n) * ((k1 * pn S ^ Z.to_nat n) * (E * a ^ Z.to_nat (j - n)))).
    + apply Rmult_le_compat_l; [apply sqrt_pos|]. apply Rmult_le_compat; [apply rn_nonneg|apply rn_nonneg|apply tn_pow; [exact PS|lia]|apply H; lia].
    + replace (sqrt (chz j n) * (k1 * pn S ^ Z.to_nat n * (E * a ^ Z.to_nat (j - n)))) with (k1 * (E * (sqrt (chz j n) * pn S ^ Z.to_nat n * a ^ Z.to_nat (j - n)))) by ring.
      apply Rmult_le_compat_l; [lra|]. apply Rmult_le_compat_l; [exact HE|]. assert (X := chz_pow (pn S) a n (j - n) PS Ha ltac:(lia) ltac:(lia)).
      replace (j - n + n)%Z with j in X by lia. rewrite Rplus_comm. exact X.
  - apply zrange_len; lia.
Qed.
Lemma l2l_size_norm b b' E f S : 0 <= b' -> b' + pn S <= b -> LN P b E f -> forall j, (0 <= j <= P)%Z ->
  b' ^ Z.to_nat j * rn (l2l_size P f (pn S) j) (zrange (- j) j) <= k1 ^ 2 * E.
Proof.
  intros Hb HS H j Hj. assert (HE := LN_E _ _ _ _ (Nat2Z.is_nonneg p) H). assert (PS := pn_nonneg S). assert (K := k1_ge). unfold l2l_size.
  eapply Rle_trans; [apply Rmult_le_compat_l; [apply pow_le; exact Hb|apply (rn_sum (fun n k => l2l_abs _ _ j n k))]|]. rewrite <- rsum_scal.
  replace (k1 ^ 2 * E) with (k1 * (k1 * E)) by ring. apply rsum_bound.
  - apply Rmult_le_pos; lra.
  - intros n Hn. apply in_zrange in Hn. eapply Rle_trans; [apply Rmult_le_compat_l; [apply pow_le; exact Hb|apply l2l_abs_norm; lia]|].
    apply Rle_trans with (b' ^ Z.to_nat j * (sqrt (chz n j) * (vn n (f n) * (k1 * pn S ^ Z.to_nat (n - j))))).
    + apply Rmult_le_compat_l; [apply pow_le; exact Hb|]. apply Rmult_le_compat_l; [apply sqrt_pos|]. apply Rmult_le_compat_l; [apply vn_nonneg|]. apply tn_pow; [exact PS|lia].
    + replace (b' ^ Z.to_nat j * (sqrt (chz n j) * (vn n (f n) * (k1 * pn S ^ Z.to_nat (n - j))))) with (k1 * ((sqrt (chz n j) * b' ^ Z.to_nat j * pn S ^ Z.to_nat (n - j)) * vn n (f n))) by ring.
      apply Rmult_le_compat_l; [lra|]. eapply Rle_trans; [|apply (H n ltac:(lia))].
      apply Rmult_le_compat_r; [apply vn_nonneg|]. assert (X := chz_pow b' (pn S) j (n - j) Hb PS ltac:(lia) ltac:(lia)). replace (n - j + j)%Z with n in X by lia.
      eapply Rle_trans; [exact X|]. apply pow_incr. lra.
  - apply zrange_len; lia.
Qed.
Lemma m2l_size_norm a b E f r : 0 <= a -> 0 <= b -> 0 < r -> a + b <= r -> MN P a E f -> forall j, (0 <= j <= P)%Z ->
  b ^ Z.to_nat j * rn (m2l_size P f r j) (zrange (- j) j) <= k1 * (2 * k1 * (E / r)).
Proof.
  intros Ha Hb Hr HR H j Hj. assert (HE := MN_E _ _ _ _ (Nat2Z.is_nonneg p) H). assert (K := k1_ge). assert (PI : 0 < / r) by (apply Rinv_0_lt_compat; exact Hr). unfold m2l_size.
  eapply Rle_trans; [apply Rmult_le_compat_l; [apply pow_le; exact Hb|apply (rn_sum (fun n k => m2l_abs _ _ j n k))]|]. rewrite <- rsum_scal.
  apply rsum_bound.
  - unfold Rdiv. repeat apply Rmult_le_pos; lra.
  - intros n Hn. apply in_zrange in Hn. assert (PD : 0 < r ^ Z.to_nat (j + n)) by (apply pow_lt; exact Hr).
    assert (PJ : 0 < (/ r) ^ Z.to_nat (j + n)) by (apply pow_lt; exact PI). assert (PP : 0 <= / r * (/ r) ^ Z.to_nat (j + n)) by (apply Rmult_le_pos; lra).
    apply Rle_trans with (b ^ Z.to_nat j * (sqrt (chz (j + n) j) * (E * a ^ Z.to_nat n * (2 * k1 * (/ r * (/ r) ^ Z.to_nat (j + n)))))).
    + apply Rmult_le_compat_l; [apply pow_le; exact Hb|]. eapply Rle_trans; [apply m2l_abs_norm; lia|]. apply Rmult_le_compat_l; [apply sqrt_pos|].
      apply Rmult_le_compat; [apply rn_nonneg|apply rn_nonneg|apply H; lia|]. eapply Rle_trans; [apply rn_const; [lia|exact PP]|]. apply Rmult_le_compat_r; [exact PP|].
      unfold k1. rewrite <- mult_IZR. apply IZR_le. lia.
    + replace (b ^ Z.to_nat j * (sqrt (chz (j + n) j) * (E * a ^ Z.to_nat n * (2 * k1 * (/ r * (/ r) ^ Z.to_nat (j + n))))))
        with (2 * k1 * (E * / r * ((sqrt (chz (j + n) j) * b ^ Z.to_nat j * a ^ Z.to_nat n) * (/ r) ^ Z.to_nat (j + n)))) by ring.
      apply Rmult_le_compat_l; [lra|]. unfold Rdiv. rewrite <- (Rmult_1_r (E * / r)) at 2. apply Rmult_le_compat_l; [apply Rmult_le_pos; lra|].
      rewrite pow_inv. apply (Rmult_le_reg_r (r ^ Z.to_nat (j + n))); [exact PD|]. rewrite Rmult_assoc, Rinv_l, Rmult_1_r, Rmult_1_l by lra.
      assert (X := chz_pow b a j n Hb Ha ltac:(lia) ltac:(lia)). replace (n + j)%Z with (j + n)%Z in X by lia. eapply Rle_trans; [exact X|].
      apply pow_incr. lra.
  - apply zrange_len; lia.
Qed.

(** ** Errors of the operations *)
Variable ky : nat.
Notation Nop := (Nop ky P).
Notation e N := ((1 + w) ^ N - 1).
(** Rounded coefficients [f'] of an exact [f]. *)
Definition mclose (n : nat) (a X : R) (f' f : Z -> Z -> C) : Prop := RMN P a X f /\ RMN P a ((ge n - 1) * X) (fun n m => f' n m - f n m)%C.
Definition lclose (n : nat) (b X : R) (f' f : Z -> Z -> C) : Prop := RLN P b X f /\ RLN P b ((ge n - 1) * X) (fun n m => f' n m - f n m)%C.

Lemma mclose_le n m a X f' f : 0 <= a -> mclose n a X f' f -> (n <= m)%nat -> mclose m a X f' f.
Proof.
  intros Ha [H1 H2] Hm. split; [exact H1|]. assert (G := ge_mono n m Hm). assert (HX := RMN_E _ _ _ _ (Nat2Z.is_nonneg p) H1).
  eapply RMN_mono; [lia| | |exact H2]; [lra|]. apply Rmult_le_compat_r; lra.
Qed.
Lemma lclose_le n m b X f' f : 0 <= b -> lclose n b X f' f -> (n <= m)%nat -> lclose m b X f' f.
Proof.
  intros Hb [H1 H2] Hm. split; [exact H1|]. assert (G := ge_mono n m Hm). assert (HX := RLN_E _ _ _ _ Hb (Nat2Z.is_nonneg p) H1).
  eapply RLN_mono; [apply Rle_refl| |exact H2]. apply Rmult_le_compat_r; lra.
Qed.
Lemma mclose_total n a X f' f : mclose n a X f' f -> RMN P a (ge n * X) f'.
Proof.
  intros [H1 H2]. replace (ge n * X) with (X + (ge n - 1) * X) by ring. eapply RMN_ext; [|apply RMN_plus; [exact H1|exact H2]]. intros; cbn; ring.
Qed.
Lemma lclose_total n b X f' f : lclose n b X f' f -> RLN P b (ge n * X) f'.
Proof.
  intros [H1 H2]. replace (ge n * X) with (X + (ge n - 1) * X) by ring. eapply RLN_ext; [|apply RLN_plus; [exact H1|exact H2]]. intros; cbn; ring.
Qed.
Lemma mclose_zero n a : 0 <= a -> mclose n a 0 (fun _ _ => RtoC 0) (fun _ _ => RtoC 0).
Proof.
  intros Ha. split; [apply RMN_zero; exact Ha|]. rewrite Rmult_0_r. eapply RMN_ext; [|apply RMN_zero; exact Ha]. intros; cbn; ring.
Qed.
Lemma lclose_zero n b : lclose n b 0 (fun _ _ => RtoC 0) (fun _ _ => RtoC 0).
Proof. split; [apply RLN_zero|]. rewrite Rmult_0_r. eapply RLN_ext; [|apply RLN_zero]. intros; cbn; ring. Qed.

(** Sources. *)
Lemma mclose_sources c S a f' N : 0 <= a -> (forall s, In s S -> pn (rel s c) <= a) ->
  (forall n m, (0 <= n <= P)%Z -> (Z.abs m <= n)%Z -> ap w N (f' n m) (me_coef c S n m) (rsum (fun s => Rabs (ps_q s) * pn (rel s c) ^ Z.to_nat n) S)) ->
  mclose N a (rsum (fun s => Rabs (ps_q s)) S) f' (me_coef c S).
Proof.
  intros Ha HS H. set (Q := rsum (fun s => Rabs (ps_q s)) S). assert (HQ : 0 <= Q) by (apply rsum_nonneg; intros; apply Rabs_pos). assert (K := k1_ge). assert (EN := ew_nonneg N). split.
  - apply (RMN_lsum P a (fun s => Rabs (ps_q s)) (fun s n m => RtoC (ps_q s) * Yr (rel s c) n (- m))%C); [exact Ha|]. intros s Hs. apply RMN_source; [lia|apply HS; exact Hs].
  - eapply RMN_mono; [lia|split; [exact Ha|apply Rle_refl]| |apply MN_RMN; [exact Ha|lia|apply (pw_MN a (e N * Q)); [exact Ha|apply Rmult_le_pos; assumption|]]].
    + fold k1. replace (k1 * (k1 * (e N * Q))) with (k1 ^ 2 * e N * Q) by ring. apply Rmult_le_compat_r; [exact HQ|]. apply ge_count. split; [apply pow_le; lra|]. apply k_le. right. left. apply Rle_refl.
    + intros j k Hj Hk. destruct (H j k Hj Hk) as [_ B]. eapply Rle_trans; [exact B|]. rewrite Rmult_assoc. apply Rmult_le_compat_l; [exact EN|].
      unfold Q. rewrite Rmult_comm, <- rsum_scal. apply rsum_le. intros s Hs. rewrite Rmult_comm. apply Rmult_le_compat_r; [apply Rabs_pos|]. apply pow_incr.
      split; [apply pn_nonneg|apply HS; exact Hs].
Qed.
Lemma lclose_sources c S b f' N : 0 <= b -> (forall s, In s S -> b <= pn (rel s c) /\ 0 < pn (rel s c)) ->
  (forall n m, (0 <= n <= P)%Z -> (Z.abs m <= n)%Z ->
     ap w N (f' n m) (le_coef c S n m) (rsum (fun s => Rabs (ps_q s) * (/ pn (rel s c) * (/ pn (rel s c)) ^ Z.to_nat n)) S)) ->
  lclose N b (k1 * rsum (fun s => Rabs (ps_q s) / pn (rel s c)) S) f' (le_coef c S).
Proof.
  intros Hb HS H. set (Z1 := rsum (fun s => Rabs (ps_q s) / pn (rel s c)) S).
  assert (QP : forall s, In s S -> 0 <= Rabs (ps_q s) / pn (rel s c)).
  { intros s Hs. destruct (HS s Hs) as [_ X]. apply Rmult_le_pos; [apply Rabs_pos|left; apply Rinv_0_lt_compat; exact X]. }
  assert (HZ : 0 <= Z1) by (apply rsum_nonneg; exact QP). assert (K := k1_ge). assert (EN := ew_nonneg N). split.
  - unfold Z1. rewrite <- rsum_scal.
    apply (RLN_lsum P b (fun s => k1 * (Rabs (ps_q s) / pn (rel s c))) (fun s n m => RtoC (ps_q s * / pn (rel s c) ^ (2 * Z.to_nat n + 1)) * Yr (rel s c) n (- m))%C).
    intros s Hs. destruct (HS s Hs) as [X1 X2]. apply LN_RLN, LN_source; [split; assumption|exact X2].
  - eapply RLN_mono; [apply Rle_refl| |apply LN_RLN, (pw_LN b (e N * Z1)); [exact Hb|apply Rmult_le_pos; assumption|]].
    + fold k1. replace (k1 * (k1 * (e N * Z1))) with (k1 * e N * (k1 * Z1)) by ring. apply Rmult_le_compat_r; [apply Rmult_le_pos; lra|]. apply ge_count. split; [lra|]. apply k_le. left. apply Rle_refl.
    + intros j k Hj Hk. destruct (H j k Hj Hk) as [_ B]. eapply Rle_trans; [apply Rmult_le_compat_l; [apply pow_le; exact Hb|exact B]|].
      replace (b ^ Z.to_nat j * (e N * rsum (fun s => Rabs (ps_q s) * (/ pn (rel s c) * (/ pn (rel s c)) ^ Z.to_nat j)) S))
        with (e N * (b ^ Z.to_nat j * rsum (fun s => Rabs (ps_q s) * (/ pn (rel s c) * (/ pn (rel s c)) ^ Z.to_nat j)) S)) by ring.
      apply Rmult_le_compat_l; [exact EN|]. rewrite <- rsum_scal. apply rsum_le. intros s Hs. destruct (HS s Hs) as [X1 X2]. rewrite pow_inv.
      assert (PD : 0 < pn (rel s c) ^ Z.to_nat j) by (apply pow_lt; exact X2).
      replace (b ^ Z.to_nat j * (Rabs (ps_q s) * (/ pn (rel s c) * / pn (rel s c) ^ Z.to_nat j))) with (Rabs (ps_q s) / pn (rel s c) * (b ^ Z.to_nat j * / pn (rel s c) ^ Z.to_nat j)) by (unfold Rdiv; ring).
      rewrite <- (Rmult_1_r (Rabs (ps_q s) / pn (rel s c))) at 2. apply Rmult_le_compat_l; [apply QP; exact Hs|].
      apply (Rmult_le_reg_r (pn (rel s c) ^ Z.to_nat j)); [exact PD|]. rewrite Rmult_assoc, Rinv_l, Rmult_1_r, Rmult_1_l by lra. apply pow_incr. split; assumption.
Qed.

(** Translations. *)
Lemma ap_rest N g x X f : ap w N g x X -> ap w N g x X /\ (g - f = (g - x) + (x - f))%C.
Proof. intros H. split; [exact H|ring]. Qed.
Lemma mclose_shift n a X f' f S g : 0 <= a -> mclose n a X f' f ->
  (forall j k, (0 <= j <= P)%Z -> (Z.abs k <= j)%Z -> ap w Nop (g j k) (m2m_coef f' S j k) (m2m_size f' (pn S) j k)) ->
  mclose (n + Nop) (a + pn S) X g (m2m_coef f S).
Proof.
  intros Ha H G. assert (T := mclose_total _ _ _ _ _ H). destruct H as [H1 H2]. assert (HX := RMN_E _ _ _ _ (Nat2Z.is_nonneg p) H1). assert (PS := pn_nonneg S).
  assert (K := k1_ge). assert (EN := ew_nonneg Nop). assert (G1 := ge_1 n). split; [apply RMN_shift; [exact H1|exact Ha|lia]|].
  assert (D : MN P (a + pn S) (e Nop * (k1 ^ 2 * (ge n * X))) (fun j k => g j k - m2m_coef f' S j k)%C).
  { intros j Hj. eapply Rle_trans; [apply (vn_bound j _ (fun k => e Nop * m2m_size f' (pn S) j k)); intros k Hk; apply (G j k Hj Hk)|].
    rewrite rn_scal, Rabs_pos_eq by exact EN. rewrite Rmult_assoc. apply Rmult_le_compat_l; [exact EN|]. apply m2m_size_norm; [exact Ha|apply RMN_MN; exact T|exact Hj]. }
  apply MN_RMN in D; [|lra|lia]. fold k1 in D. assert (S2 := RMN_shift _ _ _ _ S H2 Ha (Nat2Z.is_nonneg p)).
  assert (Z1 := RMN_plus _ _ _ _ _ _ D S2). eapply (RMN_mono P (a + pn S)); [lia|split; [lra|apply Rle_refl]| |eapply RMN_ext; [|exact Z1]].
  - replace (k1 * (e Nop * (k1 ^ 2 * (ge n * X))) + (ge n - 1) * X) with ((k1 ^ 3 * (e Nop * ge n) + (ge n - 1)) * X) by ring.
    apply Rmult_le_compat_r; [exact HX|]. apply ge_comp. split; [apply pow_le; lra|]. apply k_le. right. right. left. apply Rle_refl.
  - intros j k Hk Hj. cbv beta.
    assert (E : (m2m_coef f' S j k = m2m_coef f S j k + m2m_coef (fun n m => f' n m - f n m)%C S j k)%C).
    { rewrite <- m2m_plus. apply m2m_ext. intros; ring. }
    rewrite E. ring.
Qed.
Lemma lclose_shift n b b' X f' f S g : 0 <= b' -> b' + pn S <= b -> lclose n b X f' f ->
  (forall j k, (0 <= j <= P)%Z -> (Z.abs k <= j)%Z -> ap w Nop (g j k) (l2l_coef P f' S j k) (l2l_size P f' (pn S) j k)) ->
  lclose (n + Nop) b' X g (l2l_coef P f S).
Proof.
  intros Hb HS H G. assert (T := lclose_total _ _ _ _ _ H). destruct H as [H1 H2]. assert (PS := pn_nonneg S). assert (HX := RLN_E P b X f ltac:(lra) (Nat2Z.is_nonneg p) H1).
  assert (K := k1_ge). assert (EN := ew_nonneg Nop). assert (G1 := ge_1 n). split; [eapply RLN_shift; eassumption|].
  assert (D : LN P b' (e Nop * (k1 ^ 2 * (ge n * X))) (fun j k => g j k - l2l_coef P f' S j k)%C).
  { intros j Hj. eapply Rle_trans; [apply Rmult_le_compat_l; [apply pow_le; exact Hb|apply (vn_bound j _ (fun k => e Nop * l2l_size P f' (pn S) j k)); intros k Hk; apply (G j k Hj Hk)]|].
    rewrite rn_scal, Rabs_pos_eq by exact EN.
    replace (b' ^ Z.to_nat j * (e Nop * rn (l2l_size P f' (pn S) j) (zrange (- j) j))) with (e Nop * (b' ^ Z.to_nat j * rn (l2l_size P f' (pn S) j) (zrange (- j) j))) by ring.
    apply Rmult_le_compat_l; [exact EN|]. apply (l2l_size_norm b); [exact Hb|exact HS|apply RLN_LN; [lra|exact T]|exact Hj]. }
  apply LN_RLN in D. fold k1 in D. assert (S2 := RLN_shift _ _ _ _ S b' Hb HS H2).
  assert (Z1 := RLN_plus _ _ _ _ _ _ D S2). eapply RLN_mono; [apply Rle_refl| |eapply RLN_ext; [|exact Z1]].
  - replace (k1 * (e Nop * (k1 ^ 2 * (ge n * X))) + (ge n - 1) * X) with ((k1 ^ 3 * (e Nop * ge n) + (ge n - 1)) * X) by ring.
    apply Rmult_le_compat_r; [exact HX|]. apply ge_comp. split; [apply pow_le; lra|]. apply k_le. right. right. left. apply Rle_refl.
  - intros j k Hk Hj. cbv beta.
    assert (E : (l2l_coef P f' S j k = l2l_coef P f S j k + l2l_coef P (fun n m => f' n m - f n m)%C S j k)%C).
    { rewrite <- l2l_plus. apply l2l_ext; [lia|]. intros; ring. }
    rewrite E. ring.
Qed.
Lemma lclose_convert n a b X f' f D g : 0 <= a -> 0 <= b -> 0 < pn D -> a + b <= pn D -> mclose n a X f' f ->
  (forall j k, (0 <= j <= P)%Z -> (Z.abs k <= j)%Z -> ap w Nop (g j k) (m2l_coef P f' D j k) (m2l_size P f' (pn D) j k)) ->
  lclose (n + Nop) b (k1 ^ 2 * (X / pn D)) g (m2l_coef P f D).
Proof.
  intros Ha Hb HD HR H G. assert (T := mclose_total _ _ _ _ _ H). destruct H as [H1 H2]. assert (HX := RMN_E _ _ _ _ (Nat2Z.is_nonneg p) H1).
  assert (K := k1_ge). assert (EN := ew_nonneg Nop). assert (G1 := ge_1 n). assert (PI : 0 < / pn D) by (apply Rinv_0_lt_compat; exact HD).
  assert (XD : 0 <= X / pn D) by (apply Rmult_le_pos; lra). split.
  { replace (k1 ^ 2 * (X / pn D)) with (k1 * (k1 * (X / pn D))) by ring. apply LN_RLN. apply (m2l_LN P a); try assumption; [lia|]. apply RMN_MN. exact H1. }
  assert (DL : LN P b (e Nop * (k1 * (2 * k1 * (ge n * X / pn D)))) (fun j k => g j k - m2l_coef P f' D j k)%C).
  { intros j Hj. eapply Rle_trans; [apply Rmult_le_compat_l; [apply pow_le; exact Hb|apply (vn_bound j _ (fun k => e Nop * m2l_size P f' (pn D) j k)); intros k Hk; apply (G j k Hj Hk)]|].
    rewrite rn_scal, Rabs_pos_eq by exact EN.
    replace (b ^ Z.to_nat j * (e Nop * rn (m2l_size P f' (pn D) j) (zrange (- j) j))) with (e Nop * (b ^ Z.to_nat j * rn (m2l_size P f' (pn D) j) (zrange (- j) j))) by ring.
    apply Rmult_le_compat_l; [exact EN|]. apply (m2l_size_norm a); try assumption. apply RMN_MN. exact T. }
  apply LN_RLN in DL. fold k1 in DL.
  assert (S2 := LN_RLN _ _ _ _ (m2l_LN P a b _ _ D Ha Hb HD HR (Nat2Z.is_nonneg p) (RMN_MN _ _ _ _ H2))). fold k1 in S2.
  assert (Z1 := RLN_plus _ _ _ _ _ _ DL S2). eapply RLN_mono; [apply Rle_refl| |eapply RLN_ext; [|exact Z1]].
  - replace (k1 * (e Nop * (k1 * (2 * k1 * (ge n * X / pn D)))) + k1 * (k1 * ((ge n - 1) * X / pn D)))
      with ((2 * k1 * (e Nop * ge n) + (ge n - 1)) * (k1 ^ 2 * (X / pn D))) by (field; lra).
    apply Rmult_le_compat_r; [apply Rmult_le_pos; [apply pow_le; lra|exact XD]|]. apply ge_comp. split; [lra|]. apply k_le. right. right. right. apply Rle_refl.
  - intros j k Hk Hj. cbv beta.
    assert (E : (m2l_coef P f' D j k = m2l_coef P f D j k + m2l_coef P (fun n m => f' n m - f n m)%C D j k)%C).
    { rewrite <- m2l_plus. apply m2l_ext. intros; ring. }
    rewrite E. ring.
Qed.

(** Sums. *)
Lemma mclose_add n a X Y f' f g' g h : 0 <= a -> mclose n a X f' f -> mclose n a Y g' g ->
  (forall j k, (0 <= j <= P)%Z -> (Z.abs k <= j)%Z -> close_norm w (h j k) (f' j k + g' j k)%C) ->
  mclose (n + 1) a (X + Y) h (fun j k => f j k + g j k)%C.
Proof.
  intros Ha F G H. assert (TF := mclose_total _ _ _ _ _ F). assert (TG := mclose_total _ _ _ _ _ G). destruct F as [F1 F2]. destruct G as [G1 G2].
  assert (HX := RMN_E _ _ _ _ (Nat2Z.is_nonneg p) F1). assert (HY := RMN_E _ _ _ _ (Nat2Z.is_nonneg p) G1). assert (K := k1_ge). assert (GE := ge_1 n).
  assert (T := RMN_plus _ _ _ _ _ _ TF TG). split; [apply RMN_plus; assumption|].
  assert (D : MN P a (w * (ge n * (X + Y))) (fun j k => h j k - (f' j k + g' j k))%C).
  { intros j Hj. eapply Rle_trans; [apply (vn_bound j _ (fun k => w * Cmod (f' j k + g' j k)%C)); intros k Hk; apply (H j k Hj Hk)|].
    rewrite rn_scal, Rabs_pos_eq by lra. rewrite Rmult_assoc. apply Rmult_le_compat_l; [lra|]. rewrite Rmult_plus_distr_l. apply (RMN_MN _ _ _ _ T j Hj). }
  apply MN_RMN in D; [|lra|lia]. fold k1 in D. assert (Z1 := RMN_plus _ _ _ _ _ _ D (RMN_plus _ _ _ _ _ _ F2 G2)).
  eapply (RMN_mono P a); [lia|split; [lra|apply Rle_refl]| |eapply RMN_ext; [|exact Z1]].
  - replace (k1 * (w * (ge n * (X + Y))) + ((ge n - 1) * X + (ge n - 1) * Y)) with ((k1 * (((1 + w) ^ 1 - 1) * ge n) + (ge n - 1)) * (X + Y)) by ring.
    apply Rmult_le_compat_r; [lra|]. apply ge_comp. split; [lra|]. apply k_le. left. apply Rle_refl.
  - intros. cbv beta. ring.
Qed.
Lemma lclose_add n b X Y f' f g' g h : 0 <= b -> lclose n b X f' f -> lclose n b Y g' g ->
  (forall j k, (0 <= j <= P)%Z -> (Z.abs k <= j)%Z -> close_norm w (h j k) (f' j k + g' j k)%C) ->
  lclose (n + 1) b (X + Y) h (fun j k => f j k + g j k)%C.
Proof.
  intros Hb F G H. assert (TF := lclose_total _ _ _ _ _ F). assert (TG := lclose_total _ _ _ _ _ G). destruct F as [F1 F2]. destruct G as [G1 G2].
  assert (HX := RLN_E _ _ _ _ Hb (Nat2Z.is_nonneg p) F1). assert (HY := RLN_E _ _ _ _ Hb (Nat2Z.is_nonneg p) G1). assert (K := k1_ge). assert (GE := ge_1 n).
  assert (T := RLN_plus _ _ _ _ _ _ TF TG). split; [apply RLN_plus; assumption|].
  assert (D : LN P b (w * (ge n * (X + Y))) (fun j k => h j k - (f' j k + g' j k))%C).
  { intros j Hj. eapply Rle_trans; [apply Rmult_le_compat_l; [apply pow_le; exact Hb|apply (vn_bound j _ (fun k => w * Cmod (f' j k + g' j k)%C)); intros k Hk; apply (H j k Hj Hk)]|].
    rewrite rn_scal, Rabs_pos_eq by lra. replace (b ^ Z.to_nat j * (w * rn (fun k => Cmod (f' j k + g' j k)%C) (zrange (- j) j))) with (w * (b ^ Z.to_nat j * rn (fun k => Cmod (f' j k + g' j k)%C) (zrange (- j) j))) by ring.
    apply Rmult_le_compat_l; [lra|]. rewrite Rmult_plus_distr_l. apply (RLN_LN _ _ _ _ Hb T j Hj). }
  apply LN_RLN in D. fold k1 in D. assert (Z1 := RLN_plus _ _ _ _ _ _ D (RLN_plus _ _ _ _ _ _ F2 G2)).
  eapply RLN_mono; [apply Rle_refl| |eapply RLN_ext; [|exact Z1]].
  - replace (k1 * (w * (ge n * (X + Y))) + ((ge n - 1) * X + (ge n - 1) * Y)) with ((k1 * (((1 + w) ^ 1 - 1) * ge n) + (ge n - 1)) * (X + Y)) by ring.
    apply Rmult_le_compat_r; [lra|]. apply ge_comp. split; [lra|]. apply k_le. left. apply Rle_refl.
  - intros. cbv beta. ring.
Qed.

(** Values. *)
Lemma row_sum n (f : Z -> C) : (0 <= n <= P)%Z -> rsum (fun m => Cmod (f m)) (zrange (- n) n) <= k1 * vn n f.
Proof.
  intros Hn. rewrite (rsum_ext _ (fun m => 1 * Cmod (f m))) by (intros; ring). eapply Rle_trans; [apply Rle_abs|]. eapply Rle_trans; [apply cauchy_rn|].
  apply Rmult_le_compat_r; [apply vn_nonneg|]. eapply Rle_trans; [apply rn_const; [lia|lra]|]. rewrite Rmult_1_r. apply k_of. exact Hn.
Qed.
Lemma lclose_value n b X f' f V y : pn V <= b -> lclose n b X f' f ->
  Rabs (y - - Re (lval3 P f' V)) <= e (Nop + Z.to_nat ((P + 1) * (P + 1))) * rsum (fun n => rsum (fun m => Cmod (f' n m) * pn V ^ Z.to_nat n) (zrange (- n) n)) (zrange 0 P) ->
  Rabs (y - - Re (lval3 P f V)) <= (ge (n + (Nop + Z.to_nat ((P + 1) * (P + 1)))) - 1) * (k1 * X).
Proof.
  intros HV H Y. set (N := (Nop + Z.to_nat ((P + 1) * (P + 1)))%nat) in *. assert (T := lclose_total _ _ _ _ _ H). destruct H as [H1 H2]. assert (PV := pn_nonneg V).
  assert (Hb : 0 <= b) by lra. assert (HX := RLN_E _ _ _ _ Hb (Nat2Z.is_nonneg p) H1). assert (K := k1_ge). assert (EN := ew_nonneg N). assert (GE := ge_1 n).
  apply RLN_LN in T; [|exact Hb]. apply RLN_LN in H2; [|exact Hb].
  assert (B2 := lval_bound P b _ _ V (Nat2Z.is_nonneg p) HV H2). fold k1 in B2.
  assert (BR : Rabs (- Re (lval3 P f' V) - - Re (lval3 P f V)) <= k1 * ((ge n - 1) * X)).
  { eapply Rle_trans; [|exact B2]. assert (E : lval3 P f' V = (lval3 P f V + lval3 P (fun n m => f' n m - f n m) V)%C).
    { rewrite <- lval_plus. apply lval_ext. intros. cbv beta. ring. }
    rewrite E. eapply Rle_trans; [|apply Re_le_Cmod]. rewrite <- Rabs_Ropp. right. f_equal. unfold Re. cbn [fst Cplus]. ring. }
  assert (BS : rsum (fun n => rsum (fun m => Cmod (f' n m) * pn V ^ Z.to_nat n) (zrange (- n) n)) (zrange 0 P) <= k1 * (k1 * (ge n * X))).
  { apply rsum_bound; [repeat apply Rmult_le_pos; lra| |apply zrange_len; lia]. intros j Hj. apply in_zrange in Hj.
    rewrite (rsum_ext _ (fun m => pn V ^ Z.to_nat j * Cmod (f' j m))) by (intros; ring). rewrite rsum_scal.
    apply Rle_trans with (pn V ^ Z.to_nat j * (k1 * vn j (f' j))).
    - apply Rmult_le_compat_l; [apply pow_le; exact PV|]. apply row_sum. lia.
    - replace (pn V ^ Z.to_nat j * (k1 * vn j (f' j))) with (k1 * (pn V ^ Z.to_nat j * vn j (f' j))) by ring. apply Rmult_le_compat_l; [lra|].
      eapply Rle_trans; [|apply (T j ltac:(lia))]. apply Rmult_le_compat_r; [apply vn_nonneg|]. apply pow_incr. split; assumption. }
  replace (y - - Re (lval3 P f V)) with ((y - - Re (lval3 P f' V)) + (- Re (lval3 P f' V) - - Re (lval3 P f V))) by ring.
  eapply Rle_trans; [apply Rabs_triang|]. eapply Rle_trans; [apply Rplus_le_compat; [eapply Rle_trans; [exact Y|apply Rmult_le_compat_l; [exact EN|exact BS]]|exact BR]|].
  replace (e N * (k1 * (k1 * (ge n * X))) + k1 * ((ge n - 1) * X)) with ((k1 * (e N * ge n) + (ge n - 1)) * (k1 * X)) by ring.
  apply Rmult_le_compat_r; [apply Rmult_le_pos; lra|]. apply ge_comp. split; [lra|]. apply k_le. left. apply Rle_refl.
Qed.
Lemma mclose_value n a X f' f V y : 0 <= a <= pn V -> 0 < pn V -> mclose n a X f' f ->
  Rabs (y - - Re (mval3 P f' V)) <= e (Nop + Z.to_nat ((P + 1) * (P + 1))) * rsum (fun n => rsum (fun m => Cmod (f' n m) * (/ pn V * (/ pn V) ^ Z.to_nat n)) (zrange (- n) n)) (zrange 0 P) ->
  Rabs (y - - Re (mval3 P f V)) <= (ge (n + (Nop + Z.to_nat ((P + 1) * (P + 1)))) - 1) * (k1 * (X / pn V)).
Proof.
  intros HV PV H Y. set (N := (Nop + Z.to_nat ((P + 1) * (P + 1)))%nat) in *. assert (T := mclose_total _ _ _ _ _ H). destruct H as [H1 H2].
  assert (HX := RMN_E _ _ _ _ (Nat2Z.is_nonneg p) H1). assert (K := k1_ge). assert (EN := ew_nonneg N). assert (GE := ge_1 n). assert (PI : 0 < / pn V) by (apply Rinv_0_lt_compat; exact PV).
  apply RMN_MN in T. apply RMN_MN in H2.
  assert (B2 := mval_bound P a _ _ V (Nat2Z.is_nonneg p) HV PV H2). fold k1 in B2.
  assert (BR : Rabs (- Re (mval3 P f' V) - - Re (mval3 P f V)) <= k1 * ((ge n - 1) * X / pn V)).
  { eapply Rle_trans; [|exact B2]. assert (E : mval3 P f' V = (mval3 P f V + mval3 P (fun n m => f' n m - f n m) V)%C).
    { unfold mval3, lsum2. rewrite <- lsum_plus. apply lsum_ext. intros j _. rewrite <- lsum_plus. apply lsum_ext. intros m _. ring. }
    rewrite E. eapply Rle_trans; [|apply Re_le_Cmod]. rewrite <- Rabs_Ropp. right. f_equal. unfold Re. cbn [fst Cplus]. ring. }
  assert (BS : rsum (fun n => rsum (fun m => Cmod (f' n m) * (/ pn V * (/ pn V) ^ Z.to_nat n)) (zrange (- n) n)) (zrange 0 P) <= k1 * (k1 * (ge n * X / pn V))).
  { apply rsum_bound; [unfold Rdiv; repeat apply Rmult_le_pos; lra| |apply zrange_len; lia]. intros j Hj. apply in_zrange in Hj.
    assert (PJ : 0 < (/ pn V) ^ Z.to_nat j) by (apply pow_lt; exact PI). assert (PD : 0 < pn V ^ Z.to_nat j) by (apply pow_lt; exact PV).
    rewrite (rsum_ext _ (fun m => (/ pn V * (/ pn V) ^ Z.to_nat j) * Cmod (f' j m))) by (intros; ring). rewrite rsum_scal.
    apply Rle_trans with ((/ pn V * (/ pn V) ^ Z.to_nat j) * (k1 * (ge n * X * a ^ Z.to_nat j))).
    - apply Rmult_le_compat_l; [apply Rmult_le_pos; lra|]. eapply Rle_trans; [apply row_sum; lia|]. apply Rmult_le_compat_l; [lra|]. apply (T j ltac:(lia)).
    - replace (/ pn V * (/ pn V) ^ Z.to_nat j * (k1 * (ge n * X * a ^ Z.to_nat j))) with (k1 * (ge n * X / pn V) * (a ^ Z.to_nat j * (/ pn V) ^ Z.to_nat j)) by (unfold Rdiv; ring).
      rewrite <- (Rmult_1_r (k1 * (ge n * X / pn V))) at 2. apply Rmult_le_compat_l; [unfold Rdiv; repeat apply Rmult_le_pos; lra|]. rewrite pow_inv.
      apply (Rmult_le_reg_r (pn V ^ Z.to_nat j)); [exact PD|]. rewrite Rmult_assoc, Rinv_l, Rmult_1_r, Rmult_1_l by lra. apply pow_incr. exact HV. }
  replace (y - - Re (mval3 P f V)) with ((y - - Re (mval3 P f' V)) + (- Re (mval3 P f' V) - - Re (mval3 P f V))) by ring.
  eapply Rle_trans; [apply Rabs_triang|]. eapply Rle_trans; [apply Rplus_le_compat; [eapply Rle_trans; [exact Y|apply Rmult_le_compat_l; [exact EN|exact BS]]|exact BR]|].
  replace (e N * (k1 * (k1 * (ge n * X / pn V))) + k1 * ((ge n - 1) * X / pn V)) with ((k1 * (e N * ge n) + (ge n - 1)) * (k1 * (X / pn V))) by (unfold Rdiv; ring).
  apply Rmult_le_compat_r; [unfold Rdiv; repeat apply Rmult_le_pos; lra|]. apply ge_comp. split; [lra|]. apply k_le. left. apply Rle_refl.
Qed.
End Errors3.
