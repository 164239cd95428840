(** Error calculus for complex numbers: [ap w n x' x X] says that [x'] is [x], of modulus at most [X], up to the error of [n]
    operations. *)
From Coq Require Import Reals List Arith Lra Lia.
From Coquelicot Require Import Coquelicot.
From Verif Require Import CAux RoundedExpansion2D RoundedComplexSpec.
Import ListNotations.
Local Open Scope R_scope.
Arguments Cmod x%C.
Arguments Re z%C.
Arguments close_norm w z'%C z%C.
Arguments close_parts w z'%C z%C.

Lemma comps_norm w (z' z : C) : 0 <= w -> close_parts w z' z -> close_norm w z' z.
Proof.
  intros Hw [H1 H2]. unfold close_norm. destruct z' as [a b], z as [c e]. unfold close, Re, Im in *; cbn [fst snd] in *.
  unfold Cmod, Cminus, Cplus, Copp; cbn [fst snd].
  rewrite <- (sqrt_pow2 w Hw), <- sqrt_mult_alt by apply pow2_ge_0. apply sqrt_le_1_alt.
  assert (S : forall x y, Rabs x <= w * Rabs y -> x ^ 2 <= w ^ 2 * y ^ 2).
  { intros x y H. rewrite <- (pow2_abs x), <- (pow2_abs y), <- Rpow_mult_distr. apply pow_incr. split; [apply Rabs_pos|exact H]. }
  pose proof (S _ _ H1). pose proof (S _ _ H2). unfold Rminus in *. lra.
Qed.

Section Calculus.
Variable w : R.
Hypothesis Hw : 0 <= w <= 1 / 2.

Definition ap (n : nat) (x' x : C) (X : R) : Prop := Cmod x <= X /\ Cmod (x' - x) <= ((1 + w) ^ n - 1) * X.
Arguments ap n%nat x'%C x%C X%R.

Lemma pw_ge1 n : 1 <= (1 + w) ^ n.
Proof. apply pow_R1_Rle. lra. Qed.
Lemma pw_mono n m : (n <= m)%nat -> (1 + w) ^ n <= (1 + w) ^ m.
Proof. intros H. apply Rle_pow; [lra|exact H]. Qed.
Lemma pw_S n : (1 + w) ^ S n = (1 + w) * (1 + w) ^ n.
Proof. reflexivity. Qed.

Lemma ap_nonneg n x' x X : ap n x' x X -> 0 <= X.
Proof. intros [H _]. pose proof (Cmod_ge_0 x). lra. Qed.
Lemma ap_exact n x X : Cmod x <= X -> ap n x x X.
Proof.
  intros H. split; [exact H|]. replace (x - x)%C with (RtoC 0) by ring. rewrite Cmod_0.
  pose proof (pw_ge1 n). pose proof (Cmod_ge_0 x). apply Rmult_le_pos; lra.
Qed.
Lemma ap_weaken n m x' x X Y : ap n x' x X -> (n <= m)%nat -> X <= Y -> ap m x' x Y.
Proof.
  intros H L B. pose proof (ap_nonneg _ _ _ _ H) as P. destruct H as [H1 H2]. split; [lra|]. eapply Rle_trans; [exact H2|].
  pose proof (pw_ge1 n). pose proof (pw_mono n m L). apply Rmult_le_compat; lra.
Qed.
Lemma ap_size n x' x X : ap n x' x X -> Cmod x' <= (1 + w) ^ n * X.
Proof.
  intros [H1 H2]. replace x' with (x + (x' - x))%C by ring. eapply Rle_trans; [apply Cmod_triangle|]. lra.
Qed.
(** A value that is close in absolute value to an approximated one. *)
Lemma ap_round n x' x X y : ap n x' x X -> close_norm w y x' -> ap (S n) y x X.
Proof.
  intros H C. pose proof (ap_size _ _ _ _ H) as S. pose proof (ap_nonneg _ _ _ _ H) as P. destruct H as [H1 H2]. split; [exact H1|].
  replace (y - x)%C with ((y - x') + (x' - x))%C by ring. eapply Rle_trans; [apply Cmod_triangle|].
  unfold close_norm in C. assert (w * Cmod x' <= w * ((1 + w) ^ n * X)) by (apply Rmult_le_compat_l; lra). rewrite pw_S. lra.
Qed.
Lemma ap_add n x' x X y' y Y : ap n x' x X -> ap n y' y Y -> ap n (x' + y') (x + y) (X + Y).
Proof.
  intros [H1 H2] [H3 H4]. split; [eapply Rle_trans; [apply Cmod_triangle|lra]|].
  replace (x' + y' - (x + y))%C with ((x' - x) + (y' - y))%C by ring. eapply Rle_trans; [apply Cmod_triangle|lra].
Qed.
Lemma ap_opp n x' x X : ap n x' x X -> ap n (- x') (- x) X.
Proof.
  intros [H1 H2]. split; [rewrite Cmod_opp; exact H1|]. replace (- x' - - x)%C with (- (x' - x))%C by ring. rewrite Cmod_opp. exact H2.
Qed.
Lemma ap_sub n x' x X y' y Y : ap n x' x X -> ap n y' y Y -> ap n (x' - y') (x - y) (X + Y).
Proof. intros H H'. apply ap_add; [exact H|]. apply ap_opp. exact H'. Qed.
Lemma ap_mul n m x' x X y' y Y : ap n x' x X -> ap m y' y Y -> ap (n + m) (x' * y') (x * y) (X * Y).
Proof.
  intros H H'. pose proof (ap_nonneg _ _ _ _ H) as P. pose proof (ap_nonneg _ _ _ _ H') as P'. pose proof (ap_size _ _ _ _ H) as SZ.
  destruct H as [H1 H2], H' as [H3 H4]. pose proof (Cmod_ge_0 x). pose proof (Cmod_ge_0 y). pose proof (Cmod_ge_0 x').
  split; [rewrite Cmod_mult; apply Rmult_le_compat; assumption|].
  replace (x' * y' - x * y)%C with (x' * (y' - y) + (x' - x) * y)%C by ring. eapply Rle_trans; [apply Cmod_triangle|].
  rewrite !Cmod_mult, pow_add. pose proof (Cmod_ge_0 (y' - y)%C). pose proof (Cmod_ge_0 (x' - x)%C).
  assert (Cmod x' * Cmod (y' - y) <= ((1 + w) ^ n * X) * (((1 + w) ^ m - 1) * Y)) by (apply Rmult_le_compat; assumption).
  assert (Cmod (x' - x) * Cmod y <= (((1 + w) ^ n - 1) * X) * Y) by (apply Rmult_le_compat; assumption).
  eapply Rle_trans; [apply Rplus_le_compat; eassumption|]. right. ring.
Qed.
Lemma close_real x' x : close w x' x -> ap 1 (RtoC x') (RtoC x) (Rabs x).
Proof.
  intros H. split; [rewrite Cmod_R; lra|]. rewrite <- RtoC_minus, Cmod_R. unfold close in H. simpl. lra.
Qed.

(** Reciprocals of a value with one rounding error. *)
Lemma inv_close (z' z : C) D : close_norm w z' z -> 0 < D <= Cmod z -> z' <> RtoC 0 /\ / Cmod z' <= (1 + 2 * w) / D /\ Cmod (/ z' - / z)%C <= w * ((1 + 2 * w) / D).
Proof.
  intros C [HD Hz]. unfold close_norm in C.
  assert (L : (1 - w) * Cmod z <= Cmod z').
  { pose proof (Cmod_tri_minus z (z - z')%C). replace (z - (z - z'))%C with z' in H by ring. rewrite (Cmod_minus_sym z z') in H. lra. }
  assert (P : 0 < (1 - w) * Cmod z) by (apply Rmult_lt_0_compat; lra).
  assert (P' : 0 < Cmod z') by lra. assert (NZ' : z' <> RtoC 0) by (apply Cmod_nz; exact P').
  assert (NZ : z <> RtoC 0) by (apply Cmod_nz; lra).
  assert (I : / Cmod z' <= (1 + 2 * w) / Cmod z).
  { apply (Rmult_le_reg_r (Cmod z')); [exact P'|]. rewrite Rinv_l by lra.
    apply (Rle_trans _ ((1 + 2 * w) / Cmod z * ((1 - w) * Cmod z))).
    - replace ((1 + 2 * w) / Cmod z * ((1 - w) * Cmod z)) with ((1 + 2 * w) * (1 - w)) by (field; lra). nra.
    - apply Rmult_le_compat_l; [|exact L]. apply Rmult_le_pos; [lra|]. left. apply Rinv_0_lt_compat. lra. }
  assert (ID : (1 + 2 * w) / Cmod z <= (1 + 2 * w) / D).
  { apply Rmult_le_compat_l; [lra|]. apply Rinv_le_contravar; lra. }
  split; [exact NZ'|]. split; [lra|].
  replace (/ z' - / z)%C with (- ((z' - z) * / z * / z'))%C by (field; split; assumption).
  rewrite Cmod_opp, !Cmod_mult, !Cmod_inv by assumption.
  apply (Rle_trans _ (w * Cmod z * / Cmod z * / Cmod z')).
  - apply Rmult_le_compat_r; [left; apply Rinv_0_lt_compat; exact P'|]. apply Rmult_le_compat_r; [left; apply Rinv_0_lt_compat; lra|exact C].
  - replace (w * Cmod z * / Cmod z * / Cmod z') with (w * / Cmod z') by (field; lra). apply Rmult_le_compat_l; lra.
Qed.
Lemma ap_div n x' x X (z' z : C) D y : ap n x' x X -> close_norm w z' z -> 0 < D <= Cmod z -> close_norm w y (x' / z') -> ap (n + 3) y (x / z) (X / D).
Proof.
  intros H C HD Y. pose proof (ap_nonneg _ _ _ _ H) as P. pose proof (ap_size _ _ _ _ H) as SZ.
  destruct (inv_close _ _ _ C HD) as (NZ' & I & E). destruct H as [H1 H2].
  assert (NZ : z <> RtoC 0) by (apply Cmod_nz; lra).
  pose proof (Cmod_ge_0 x). pose proof (Cmod_ge_0 x'). pose proof (Cmod_ge_0 (x' - x)%C). pose proof (Cmod_ge_0 (/ z' - / z)%C).
  assert (PD : 0 < / D) by (apply Rinv_0_lt_compat; lra).
  assert (PI : 0 <= / Cmod z') by (left; apply Rinv_0_lt_compat, Cmod_gt_0; exact NZ').
  split.
  - rewrite Cmod_div by exact NZ. apply Rmult_le_compat; try lra.
    + left. apply Rinv_0_lt_compat. lra.
    + apply Rinv_le_contravar; lra.
  - set (E0 := (1 + w) ^ n) in *. assert (G : 1 <= E0) by apply pw_ge1.
    replace (y - x / z)%C with ((y - x' / z') + ((x' - x) * / z' + x * (/ z' - / z)))%C by (unfold Cdiv; ring).
    eapply Rle_trans; [apply Cmod_triangle|]. eapply Rle_trans; [apply Rplus_le_compat_l, Cmod_triangle|]. rewrite !Cmod_mult, Cmod_inv by exact NZ'.
    unfold close_norm in Y. rewrite Cmod_div in Y by exact NZ'. unfold Rdiv in Y.
    set (J := (1 + 2 * w) / D) in *. assert (J0 : 0 <= J) by (apply Rmult_le_pos; lra).
    assert (A1 : Cmod (y - x' / z')%C <= w * (E0 * X * J)).
    { eapply Rle_trans; [exact Y|]. apply Rmult_le_compat_l; [lra|]. apply Rmult_le_compat; assumption. }
    assert (A2 : Cmod (x' - x) * / Cmod z' <= ((E0 - 1) * X) * J) by (apply Rmult_le_compat; assumption).
    assert (A3 : Cmod x * Cmod (/ z' - / z)%C <= X * (w * J)) by (apply Rmult_le_compat; assumption).
    eapply Rle_trans; [apply Rplus_le_compat; [exact A1|apply Rplus_le_compat; [exact A2|exact A3]]|].
    replace (w * (E0 * X * J) + ((E0 - 1) * X * J + X * (w * J))) with ((X / D) * ((1 + 2 * w) * ((1 + w) * E0 - 1 + w))) by (unfold J; field; lra).
    rewrite (Rmult_comm _ (X / D)). apply Rmult_le_compat_l; [apply Rmult_le_pos; lra|].
    rewrite pow_add. fold E0. simpl.
    assert (T : (1 + 2 * w) * (1 + w) * E0 <= E0 * ((1 + w) * ((1 + w) * ((1 + w) * 1)))).
    { rewrite (Rmult_comm E0). apply Rmult_le_compat_r; [lra|]. assert (0 <= w * (w * (1 + w))) by (repeat apply Rmult_le_pos; lra). nra. }
    nra.
Qed.
Lemma ap_inv (z' z : C) D y : close_norm w z' z -> 0 < D <= Cmod z -> close_norm w y (RtoC 1 / z') -> ap 3 y (/ z) (/ D).
Proof.
  intros C HD Y. replace (/ z)%C with (RtoC 1 / z)%C by (unfold Cdiv; ring). replace (/ D) with (1 / D) by (unfold Rdiv; ring).
  apply (ap_div 0 (RtoC 1) (RtoC 1) 1 z' z D y); try assumption. apply ap_exact. rewrite Cmod_1. lra.
Qed.

(** ** Real parts *)
Definition re (z : C) : C := RtoC (Re z).
Arguments re z%C.
Lemma Cmod_re z : Cmod (re z) = Rabs (Re z).
Proof. unfold re. apply Cmod_R. Qed.
Lemma ap_re n x' x X : ap n x' x X -> ap n (re x') (re x) X.
Proof.
  intros [H1 H2]. split.
  - rewrite Cmod_re. eapply Rle_trans; [apply Re_le_Cmod|exact H1].
  - unfold re. rewrite <- RtoC_minus, Cmod_R. eapply Rle_trans; [|exact H2]. eapply Rle_trans; [|apply Re_le_Cmod]. right. reflexivity.
Qed.
Lemma re_plus a b : re (a + b) = (re a + re b)%C.
Proof. unfold re. rewrite Re_plus, RtoC_plus. reflexivity. Qed.
Lemma re_minus a b : re (a - b) = (re a - re b)%C.
Proof. unfold re. rewrite Re_minus, RtoC_minus. reflexivity. Qed.
Lemma re_RtoC x : re (RtoC x) = RtoC x.
Proof. reflexivity. Qed.
Lemma close_re x' x : close w (Re x') (Re x) -> close_norm w (re x') (re x).
Proof. intros H. unfold close_norm. rewrite Cmod_re. unfold re. rewrite <- RtoC_minus, Cmod_R. exact H. Qed.

(** ** The operations *)
Variable A : carith.
Hypothesis HA : accurate_complex w A.

Lemma w0 : 0 <= w. Proof. lra. Qed.
Lemma op_add n x' x X y' y Y : ap n x' x X -> ap n y' y Y -> ap (S n) (c_add A x' y') (x + y) (X + Y).
Proof. intros H H'. eapply ap_round; [apply ap_add; eassumption|]. apply comps_norm; [lra|apply (ac_add _ _ HA)]. Qed.
Lemma op_sub n x' x X y' y Y : ap n x' x X -> ap n y' y Y -> ap (S n) (c_sub A x' y') (x - y) (X + Y).
Proof. intros H H'. eapply ap_round; [apply ap_sub; eassumption|]. apply comps_norm; [lra|apply (ac_sub _ _ HA)]. Qed.
Lemma op_mul n m x' x X y' y Y : ap n x' x X -> ap m y' y Y -> ap (S (n + m)) (c_mul A x' y') (x * y) (X * Y).
Proof. intros H H'. eapply ap_round; [apply ap_mul; eassumption|]. apply (ac_mul _ _ HA). Qed.
Lemma op_scale n q x' x X : ap n x' x X -> ap (S n) (c_scale A q x') (RtoC q * x) (Rabs q * X).
Proof.
  intros H. eapply ap_round; [|apply comps_norm; [lra|apply (ac_scale _ _ HA)]].
  apply (ap_mul 0 n). - apply ap_exact. rewrite Cmod_R. lra. - exact H.
Qed.
Lemma op_scale_ap n m q' q Q x' x X : ap m (RtoC q') (RtoC q) Q -> ap n x' x X -> ap (S (m + n)) (c_scale A q' x') (RtoC q * x) (Q * X).
Proof. intros H H'. eapply ap_round; [apply ap_mul; eassumption|]. apply comps_norm; [lra|apply (ac_scale _ _ HA)]. Qed.
Lemma op_divr n x' x X q : 0 < q -> ap n x' x X -> ap (S n) (c_divr A x' q) (x / RtoC q) (X / q).
Proof.
  intros Hq H. eapply ap_round; [|apply comps_norm; [lra|apply (ac_divr _ _ HA); lra]].
  unfold Cdiv. replace n with (n + 0)%nat by lia. apply ap_mul; [exact H|]. apply ap_exact. rewrite <- RtoC_inv by lra. rewrite Cmod_R.
  rewrite Rabs_pos_eq; [lra|]. left. apply Rinv_0_lt_compat. exact Hq.
Qed.
Lemma op_div n x' x X (z' z : C) D : ap n x' x X -> close_norm w z' z -> 0 < D <= Cmod z -> ap (n + 3) (c_div A x' z') (x / z) (X / D).
Proof. intros H C HD. eapply ap_div; try eassumption. apply (ac_div _ _ HA). apply (inv_close z' z D C HD). Qed.
Lemma op_inv (z' z : C) D : close_norm w z' z -> 0 < D <= Cmod z -> ap 3 (c_div A (RtoC 1) z') (/ z) (/ D).
Proof. intros C HD. eapply ap_inv; try eassumption. apply (ac_div _ _ HA). apply (inv_close z' z D C HD). Qed.
Lemma op_diff a b : close_norm w (c_sub A a b) (a - b).
Proof. apply comps_norm; [lra|apply (ac_sub _ _ HA)]. Qed.
Lemma close_ap z' z X : close_norm w z' z -> Cmod z <= X -> ap 1 z' z X.
Proof.
  intros C H. split; [exact H|]. eapply Rle_trans; [exact C|]. replace ((1 + w) ^ 1 - 1) with w by ring. apply Rmult_le_compat_l; lra.
Qed.
(** Accumulation of real parts. *)
Lemma op_add_re n x' x X y' y Y : ap n (re x') (re x) X -> ap n (re y') (re y) Y -> ap (S n) (re (c_add A x' y')) (re (x + y)) (X + Y).
Proof.
  intros H H'. eapply ap_round; [rewrite re_plus; apply ap_add; eassumption|]. rewrite <- re_plus. apply close_re. apply (ac_add _ _ HA).
Qed.
Lemma op_sub_re n x' x X y' y Y : ap n (re x') (re x) X -> ap n (re y') (re y) Y -> ap (S n) (re (c_sub A x' y')) (re (x - y)) (X + Y).
Proof.
  intros H H'. eapply ap_round; [rewrite re_minus; apply ap_sub; eassumption|]. rewrite <- re_minus. apply close_re. apply (ac_sub _ _ HA).
Qed.
Lemma op_scale_re n q x' x X : ap n (re x') (re x) X -> ap (S n) (re (c_scale A q x')) (re (RtoC q * x)) (Rabs q * X).
Proof.
  intros H. assert (E : forall z, re (RtoC q * z) = (RtoC q * re z)%C) by (intros z; unfold re; rewrite Re_scal, RtoC_mult; reflexivity).
  eapply ap_round.
  - rewrite E. apply (ap_mul 0 n); [|exact H]. apply ap_exact. rewrite Cmod_R. lra.
  - rewrite <- E. apply close_re. apply (ac_scale _ _ HA).
Qed.
Lemma op_scale_ap_re n m q' q Q x' x X : ap m (RtoC q') (RtoC q) Q -> ap n (re x') (re x) X -> ap (S (m + n)) (re (c_scale A q' x')) (re (RtoC q * x)) (Q * X).
Proof.
  intros H0 H. assert (E : forall q z, re (RtoC q * z) = (RtoC q * re z)%C) by (intros q0 z; unfold re; rewrite Re_scal, RtoC_mult; reflexivity).
  eapply ap_round.
  - rewrite E. apply (ap_mul m n); eassumption.
  - rewrite <- E. apply close_re. apply (ac_scale _ _ HA).
Qed.
(** A product with a real factor. *)
Lemma op_mul_re n m x' x X y' y Y : Im x' = 0 -> Im x = 0 -> ap n x' x X -> ap m (re y') (re y) Y -> ap (S (n + m)) (re (c_mul A x' y')) (re (x * y)) (X * Y).
Proof.
  intros I' I H H'. assert (E : forall a b, Im a = 0 -> re (a * b) = (a * re b)%C).
  { intros [a1 a2] [b1 b2] E. unfold Im in E; cbn in E. subst a2. unfold re, Re, RtoC, Cmult; cbn. f_equal; ring. }
  eapply ap_round; [rewrite E by exact I; apply ap_mul; eassumption|]. rewrite <- E by exact I'. apply close_re. apply (ac_mul_real _ _ HA). left; exact I'.
Qed.
Lemma op_mul_one_re n x' x X : ap n (re x') (re x) X -> ap (S n) (re (c_mul A x' (RtoC 1))) (re (x * RtoC 1)) X.
Proof.
  intros H. eapply ap_round; [rewrite Cmult_1_r; exact H|]. pose proof (ac_mul_real _ _ HA x' (RtoC 1) (or_intror (eq_refl : Im (RtoC 1) = 0))) as K.
  rewrite Cmult_1_r in K. apply close_re. exact K.
Qed.
(** The logarithm. *)
Lemma ln_close r' r : 0 < r -> Rabs (r' - r) <= w * r -> Rabs (ln r' - ln r) <= 2 * w.
Proof.
  intros Hr H. apply Rabs_le_between in H. assert (0 < r') by nra.
  assert (U : forall a b, 0 < a -> 0 < b -> ln a - ln b <= (a - b) / b).
  { intros a b Pa Pb. rewrite <- ln_div by assumption. assert (Q : 0 < a / b) by (apply Rdiv_lt_0_compat; assumption).
    pose proof (exp_ineq1_le (ln (a / b))) as X. rewrite exp_ln in X by exact Q. replace ((a - b) / b) with (a / b - 1) by (field; lra). lra. }
  apply Rabs_le. split.
  - pose proof (U r r' Hr ltac:(assumption)) as X. assert ((r - r') / r' <= 2 * w); [|lra].
    apply (Rmult_le_reg_r r'); [assumption|]. unfold Rdiv. rewrite Rmult_assoc, Rinv_l by lra. nra.
  - pose proof (U r' r ltac:(assumption) Hr) as X. assert ((r' - r) / r <= 2 * w); [|lra].
    apply (Rmult_le_reg_r r); [assumption|]. unfold Rdiv. rewrite Rmult_assoc, Rinv_l by lra. nra.
Qed.
Lemma op_log (z' z v : C) L : close_norm w z' z -> 0 < Cmod z -> Rabs (ln (Cmod z)) <= L -> Re v = ln (Cmod z) -> ap 4 (re (c_log A z')) (re v) (L + 1).
Proof.
  intros C P HL V. destruct (inv_close z' z (Cmod z) C ltac:(lra)) as (NZ' & _ & _).
  assert (M : Rabs (Cmod z' - Cmod z) <= w * Cmod z).
  { pose proof (Cmod_tri_minus z' z). pose proof (Cmod_tri_minus z z'). rewrite (Cmod_minus_sym z z') in H0. unfold close_norm in C. apply Rabs_le. lra. }
  apply ln_close in M; [|exact P]. pose proof (ac_log _ _ HA z' NZ') as K. split.
  - rewrite Cmod_re, V. lra.
  - unfold re. rewrite <- RtoC_minus, Cmod_R, V.
    assert (S : Rabs (ln (Cmod z')) <= L + 1). { apply Rabs_le_between in HL. apply Rabs_le_between in M. apply Rabs_le. lra. }
    assert (B : Rabs (Re (c_log A z') - ln (Cmod z)) <= w * (L + 2) + 2 * w).
    { replace (Re (c_log A z') - ln (Cmod z)) with ((Re (c_log A z') - ln (Cmod z')) + (ln (Cmod z') - ln (Cmod z))) by ring.
      eapply Rle_trans; [apply Rabs_triang|]. apply Rplus_le_compat; [|exact M]. eapply Rle_trans; [exact K|]. apply Rmult_le_compat_l; lra. }
    eapply Rle_trans; [exact B|]. assert (4 * w <= (1 + w) ^ 4 - 1) by (simpl; nra). pose proof (Rabs_pos (ln (Cmod z))).
    apply (Rle_trans _ (4 * w * (L + 1))); [nra|]. apply Rmult_le_compat_r; lra.
Qed.

(** ** Loops *)
Lemma op_fold {I} (f' f : I -> C) (F : I -> R) n l : forall x' x X, ap n x' x X -> (forall i, In i l -> ap n (f' i) (f i) (F i)) ->
  ap (n + length l) (fold_left (fun acc i => c_add A acc (f' i)) l x') (x + lsum f l) (X + rsum F l).
Proof.
  assert (G : forall k x' x X, ap (n + k) x' x X -> (forall i, In i l -> ap n (f' i) (f i) (F i)) ->
    ap (n + k + length l) (fold_left (fun acc i => c_add A acc (f' i)) l x') (x + lsum f l) (X + rsum F l)).
  { induction l as [|i l IH]; intros k x' x X H K; cbn [fold_left lsum rsum fold_right length].
    - rewrite Cplus_0_r, Rplus_0_r, Nat.add_0_r. exact H.
    - fold (lsum f l). fold (rsum F l). rewrite Cplus_assoc, <- Rplus_assoc. replace (n + k + S (length l))%nat with (n + S k + length l)%nat by lia.
      apply IH; [|intros; apply K; right; assumption]. replace (n + S k)%nat with (S (n + k)) by lia. apply op_add; [exact H|].
      eapply ap_weaken; [apply K; left; reflexivity|lia|lra]. }
  intros x' x X H K. specialize (G 0%nat x' x X). rewrite !Nat.add_0_r in G. apply G; assumption.
Qed.
Lemma op_fold_re {I} (f' f : I -> C) (F : I -> R) n l : forall x' x X, ap n (re x') (re x) X -> (forall i, In i l -> ap n (re (f' i)) (re (f i)) (F i)) ->
  ap (n + length l) (re (fold_left (fun acc i => c_add A acc (f' i)) l x')) (re (x + lsum f l)) (X + rsum F l).
Proof.
  assert (G : forall k x' x X, ap (n + k) (re x') (re x) X -> (forall i, In i l -> ap n (re (f' i)) (re (f i)) (F i)) ->
    ap (n + k + length l) (re (fold_left (fun acc i => c_add A acc (f' i)) l x')) (re (x + lsum f l)) (X + rsum F l)).
  { induction l as [|i l IH]; intros k x' x X H K; cbn [fold_left lsum rsum fold_right length].
    - rewrite Cplus_0_r, Rplus_0_r, Nat.add_0_r. exact H.
    - fold (lsum f l). fold (rsum F l). rewrite Cplus_assoc, <- Rplus_assoc. replace (n + k + S (length l))%nat with (n + S k + length l)%nat by lia.
      apply IH; [|intros; apply K; right; assumption]. replace (n + S k)%nat with (S (n + k)) by lia. apply op_add_re; [exact H|].
      eapply ap_weaken; [apply K; left; reflexivity|lia|lra]. }
  intros x' x X H K. specialize (G 0%nat x' x X). rewrite !Nat.add_0_r in G. apply G; assumption.
Qed.
End Calculus.
