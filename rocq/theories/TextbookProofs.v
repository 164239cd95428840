(** Accuracy of the textbook complex arithmetic. *)
From Coq Require Import List Reals Lra Lia.
From Coquelicot Require Import Coquelicot.
From Verif Require Import CAux RoundedSpec RoundedExpansion2D RoundedComplexSpec TextbookComplex.
Import ListNotations.
Local Open Scope R_scope.
Arguments Cmod x%C.
Arguments Re z%C.
Arguments Im z%C.

Lemma Cmod_parts (z : C) r : 0 <= r -> Rabs (Re z) <= r -> Rabs (Im z) <= r -> Cmod z <= 3 / 2 * r.
Proof.
  intros R0 H0 H1. unfold Cmod. fold (Re z) (Im z). assert (S0 : (Re z) ^ 2 <= r ^ 2) by (rewrite <- (pow2_abs (Re z)); apply pow_incr; split; [apply Rabs_pos|exact H0]).
  assert (S1 : (Im z) ^ 2 <= r ^ 2) by (rewrite <- (pow2_abs (Im z)); apply pow_incr; split; [apply Rabs_pos|exact H1]).
  change (fst z) with (Re z). change (snd z) with (Im z). assert (P0 := pow2_ge_0 (Re z)). assert (P1 := pow2_ge_0 (Im z)).
  apply Rsqr_incr_0_var; [|lra]. rewrite Rsqr_sqrt by lra. unfold Rsqr. nra.
Qed.
(** Cauchy-Schwarz. *)
Lemma cauchy a b c d : Rabs (a * c) + Rabs (b * d) <= sqrt (a ^ 2 + b ^ 2) * sqrt (c ^ 2 + d ^ 2).
Proof.
  rewrite !Rabs_mult. assert (A := Rabs_pos a). assert (B := Rabs_pos b). assert (C := Rabs_pos c). assert (D := Rabs_pos d).
  rewrite <- (pow2_abs a), <- (pow2_abs b), <- (pow2_abs c), <- (pow2_abs d). generalize dependent (Rabs a). generalize dependent (Rabs b). generalize dependent (Rabs c). generalize dependent (Rabs d).
  clear. intros d D c C b B a A. rewrite <- sqrt_mult by nra. apply Rsqr_incr_0_var; [|apply sqrt_pos]. rewrite Rsqr_sqrt by nra. unfold Rsqr.
  assert (X := pow2_ge_0 (a * d - b * c)). nra.
Qed.

Section Textbook.
Variable rnd : R -> R.
Variable hyp : list R -> R.
Variable lg : R -> R.
Variables u e : R.
Hypothesis Hu : 0 <= u <= 1 / 32.
Hypothesis He : 0 <= e <= 1 / 2.
Hypothesis Hrnd : accurate_rounding u rnd.
Hypothesis Hhyp : accurate_norm e hyp.
Hypothesis Hlg : accurate_log e lg.
Notation T := (textbook rnd hyp lg).

Lemma rnd_err x : Rabs (rnd x - x) <= u * Rabs x. Proof. apply Hrnd. Qed.
Lemma rnd_0 : rnd 0 = 0.
Proof. assert (H := Hrnd 0). rewrite Rabs_R0, Rmult_0_r in H. assert (P := Rabs_pos (rnd 0 - 0)). destruct (Req_dec (rnd 0) 0) as [E|E]; [exact E|]. assert (0 < Rabs (rnd 0 - 0)) by (apply Rabs_pos_lt; lra). lra. Qed.
Lemma close_rnd x : close (16 * u) (rnd x) x.
Proof. unfold close. eapply Rle_trans; [apply rnd_err|]. apply Rmult_le_compat_r; [apply Rabs_pos|lra]. Qed.
(** Sum or difference of two rounded numbers. *)
Lemma sum_err a b X : Rabs a + Rabs b <= X -> Rabs (rnd (rnd a + rnd b) - (a + b)) <= 5 / 2 * u * X.
Proof.
  intros HX. assert (Ea := rnd_err a). assert (Eb := rnd_err b). assert (Es := rnd_err (rnd a + rnd b)).
  assert (Pa := Rabs_pos a). assert (Pb := Rabs_pos b). assert (S1 : Rabs (rnd a + rnd b) <= 33 / 32 * X).
  { replace (rnd a + rnd b) with ((rnd a - a) + (rnd b - b) + (a + b)) by ring. eapply Rle_trans; [apply Rabs_triang|]. assert (T1 := Rabs_triang (rnd a - a) (rnd b - b)).
    assert (T2 := Rabs_triang a b). assert (u * Rabs a <= 1 / 32 * Rabs a) by (apply Rmult_le_compat_r; lra). assert (u * Rabs b <= 1 / 32 * Rabs b) by (apply Rmult_le_compat_r; lra). lra. }
  replace (rnd (rnd a + rnd b) - (a + b)) with ((rnd (rnd a + rnd b) - (rnd a + rnd b)) + ((rnd a - a) + (rnd b - b))) by ring.
  eapply Rle_trans; [apply Rabs_triang|]. assert (T1 := Rabs_triang (rnd a - a) (rnd b - b)).
  assert (u * Rabs (rnd a + rnd b) <= u * (33 / 32 * X)) by (apply Rmult_le_compat_l; lra).
  assert (u * (Rabs a + Rabs b) <= u * X) by (apply Rmult_le_compat_l; lra). assert (0 <= u * X) by (apply Rmult_le_pos; lra). lra.
Qed.
Lemma diff_err a b X : Rabs a + Rabs b <= X -> Rabs (rnd (rnd a - rnd b) - (a - b)) <= 5 / 2 * u * X.
Proof.
  intros HX. assert (Ea := rnd_err a). assert (Eb := rnd_err b). assert (Es := rnd_err (rnd a - rnd b)).
  assert (Pa := Rabs_pos a). assert (Pb := Rabs_pos b). assert (S1 : Rabs (rnd a - rnd b) <= 33 / 32 * X).
  { replace (rnd a - rnd b) with ((rnd a - a) + - (rnd b - b) + (a + - b)) by ring. eapply Rle_trans; [apply Rabs_triang|]. assert (T1 := Rabs_triang (rnd a - a) (- (rnd b - b))).
    assert (T2 := Rabs_triang a (- b)). rewrite Rabs_Ropp in T1, T2.
    assert (u * Rabs a <= 1 / 32 * Rabs a) by (apply Rmult_le_compat_r; lra). assert (u * Rabs b <= 1 / 32 * Rabs b) by (apply Rmult_le_compat_r; lra). lra. }
  replace (rnd (rnd a - rnd b) - (a - b)) with ((rnd (rnd a - rnd b) - (rnd a - rnd b)) + ((rnd a - a) + - (rnd b - b))) by ring.
  eapply Rle_trans; [apply Rabs_triang|]. assert (T1 := Rabs_triang (rnd a - a) (- (rnd b - b))). rewrite Rabs_Ropp in T1.
  assert (u * Rabs (rnd a - rnd b) <= u * (33 / 32 * X)) by (apply Rmult_le_compat_l; lra).
  assert (u * (Rabs a + Rabs b) <= u * X) by (apply Rmult_le_compat_l; lra). assert (0 <= u * X) by (apply Rmult_le_pos; lra). lra.
Qed.

Lemma mul_parts a b : Rabs (Re (mul_t rnd a b) - Re (a * b)) <= 5 / 2 * u * (Cmod a * Cmod b) /\ Rabs (Im (mul_t rnd a b) - Im (a * b)) <= 5 / 2 * u * (Cmod a * Cmod b).
Proof.
  destruct a as [a1 a2], b as [b1 b2]. unfold mul_t, Cmult, Cmod; cbn [Re Im fst snd]. split.
  - apply diff_err. apply cauchy.
  - apply sum_err. eapply Rle_trans; [apply cauchy|]. rewrite (Rplus_comm (b2 ^ 2)). lra.
Qed.
Lemma mul_norm a b : close_norm (4 * u) (mul_t rnd a b) (a * b)%C.
Proof.
  unfold close_norm. destruct (mul_parts a b) as [H0 H1]. rewrite Cmod_mult. assert (P : 0 <= Cmod a * Cmod b) by (apply Rmult_le_pos; apply Cmod_ge_0).
  assert (P' : 0 <= u * (Cmod a * Cmod b)) by (apply Rmult_le_pos; lra).
  eapply Rle_trans; [apply (Cmod_parts _ (5 / 2 * u * (Cmod a * Cmod b)))|lra]; [lra|exact H0|exact H1].
Qed.
Lemma div_norm a z : z <> RtoC 0 -> close_norm (16 * u) (div_t rnd a z) (a / z)%C.
Proof.
  intros Hz. set (n := rnd (rnd (Re z * Re z) + rnd (Im z * Im z))). set (x := rnd (rnd (Re a * Re z) + rnd (Im a * Im z))). set (y := rnd (rnd (Im a * Re z) - rnd (Re a * Im z))).
  set (n0 := Re z * Re z + Im z * Im z). set (x0 := Re a * Re z + Im a * Im z). set (y0 := Im a * Re z - Re a * Im z).
  assert (CZ : 0 < Cmod z) by (apply Cmod_gt_0; exact Hz).
  assert (N0 : n0 = Cmod z * Cmod z).
  { unfold Cmod. rewrite sqrt_sqrt by (assert (A1 := pow2_ge_0 (fst z)); assert (A2 := pow2_ge_0 (snd z)); lra). unfold n0, Re, Im. ring. }
  assert (NP : 0 < n0) by (rewrite N0; apply Rmult_lt_0_compat; assumption).
  assert (E : (a / z)%C = (x0 / n0, y0 / n0)).
  { unfold x0, y0, n0. destruct a as [a1 a2], z as [z1 z2]. unfold Cdiv, Cinv, Cmult, Re, Im; cbn [fst snd].
    unfold n0, Re, Im in NP; cbn [fst snd] in NP.
    f_equal; field; lra. }
  set (X := Cmod a * Cmod z). assert (XP : 0 <= X) by (apply Rmult_le_pos; apply Cmod_ge_0).
  assert (HX : Rabs (x - x0) <= 5 / 2 * u * X).
  { apply sum_err. apply (cauchy (Re a) (Im a) (Re z) (Im z)). }
  assert (HY : Rabs (y - y0) <= 5 / 2 * u * X).
  { apply diff_err. eapply Rle_trans; [apply (cauchy (Im a) (Re a) (Re z) (Im z))|]. right. unfold X, Cmod, Re, Im. rewrite (Rplus_comm (snd a ^ 2)). reflexivity. }
  assert (HN : Rabs (n - n0) <= 5 / 2 * u * n0).
  { apply sum_err. rewrite !Rabs_pos_eq by (apply Rle_0_sqr). right. reflexivity. }
  assert (X0 : Rabs x0 <= X). { eapply Rle_trans; [apply Rabs_triang|]. apply (cauchy (Re a) (Im a) (Re z) (Im z)). }
  assert (Y0 : Rabs y0 <= X). { unfold y0, Rminus. eapply Rle_trans; [apply Rabs_triang|]. rewrite Rabs_Ropp. eapply Rle_trans; [apply (cauchy (Im a) (Re a) (Re z) (Im z))|].
    right. unfold X, Cmod, Re, Im. rewrite (Rplus_comm (snd a ^ 2)). reflexivity. }
  assert (NL : 9 / 10 * n0 <= n). { apply Rabs_le_between in HN. assert (u * n0 <= 1 / 32 * n0) by (apply Rmult_le_compat_r; lra). lra. }
  assert (Q : forall v v0, Rabs (v - v0) <= 5 / 2 * u * X -> Rabs v0 <= X -> Rabs (rnd (v / n) - v0 / n0) <= 10 * u * (X / n0)).
  { intros v v0 H1 H2. assert (Z : 0 <= X / n0) by (apply Rmult_le_pos; [exact XP|left; apply Rinv_0_lt_compat; exact NP]).
    assert (UX : 0 <= u * X) by (apply Rmult_le_pos; lra).
    assert (D1 : Rabs (v / n - v0 / n0) <= 35 / 6 * u * (X / n0)).
    { replace (v / n - v0 / n0) with (((v - v0) + - (v0 * ((n - n0) / n0))) / n) by (field; lra). unfold Rdiv at 1. rewrite Rabs_mult, (Rabs_pos_eq (/ n)) by (left; apply Rinv_0_lt_compat; lra).
      assert (T1 : Rabs ((v - v0) + - (v0 * ((n - n0) / n0))) <= 5 * u * X).
      { eapply Rle_trans; [apply Rabs_triang|]. rewrite Rabs_Ropp, Rabs_mult. assert (Rabs ((n - n0) / n0) <= 5 / 2 * u).
        { unfold Rdiv at 1. rewrite Rabs_mult, (Rabs_pos_eq (/ n0)) by (left; apply Rinv_0_lt_compat; lra). apply (Rmult_le_reg_r n0); [exact NP|]. rewrite Rmult_assoc, Rinv_l, Rmult_1_r by lra. exact HN. }
        assert (Rabs v0 * Rabs ((n - n0) / n0) <= X * (5 / 2 * u)) by (apply Rmult_le_compat; try apply Rabs_pos; assumption). lra. }
      assert (T2 : / n <= 7 / 6 * / n0). { apply (Rmult_le_reg_r (n * n0)); [apply Rmult_lt_0_compat; lra|]. replace (/ n * (n * n0)) with n0 by (field; lra). replace (7 / 6 * / n0 * (n * n0)) with (7 / 6 * n) by (field; lra). lra. }
      replace (35 / 6 * u * (X / n0)) with (5 * u * X * (7 / 6 * / n0)) by (field; lra). apply Rmult_le_compat; [apply Rabs_pos|left; apply Rinv_0_lt_compat; lra|exact T1|exact T2]. }
    assert (UZ : 0 <= u * (X / n0)) by (apply Rmult_le_pos; lra). assert (UU : u * (u * (X / n0)) <= 1 / 32 * (u * (X / n0))) by (apply Rmult_le_compat_r; lra).
    assert (V0 : Rabs (v0 / n0) <= X / n0). { unfold Rdiv. rewrite Rabs_mult, (Rabs_pos_eq (/ n0)) by (left; apply Rinv_0_lt_compat; lra). apply Rmult_le_compat_r; [left; apply Rinv_0_lt_compat; lra|exact H2]. }
    assert (D2 : Rabs (v / n) <= X / n0 + 35 / 6 * u * (X / n0)). { replace (v / n) with ((v / n - v0 / n0) + v0 / n0) by ring. eapply Rle_trans; [apply Rabs_triang|]. lra. }
    assert (D3 := rnd_err (v / n)). assert (D4 : u * Rabs (v / n) <= u * (X / n0 + 35 / 6 * u * (X / n0))) by (apply Rmult_le_compat_l; lra).
    replace (rnd (v / n) - v0 / n0) with ((rnd (v / n) - v / n) + (v / n - v0 / n0)) by ring. eapply Rle_trans; [apply Rabs_triang|]. lra. }
  unfold close_norm. rewrite Cmod_div by exact Hz.
  assert (EQ : X / n0 = Cmod a / Cmod z) by (unfold X; rewrite N0; field; lra).
  assert (UZ : 0 <= u * (X / n0)). { apply Rmult_le_pos; [lra|]. apply Rmult_le_pos; [exact XP|left; apply Rinv_0_lt_compat; exact NP]. }
  rewrite <- EQ. eapply Rle_trans; [apply (Cmod_parts _ (10 * u * (X / n0)))|]; [lra| | |lra].
  - rewrite E. cbn. apply Q; assumption.
  - rewrite E. cbn. apply Q; assumption.
Qed.
Lemma log_err z : z <> RtoC 0 -> Rabs (lg (hyp [Re z; Im z]) - ln (Cmod z)) <= 3 * e * (1 + Rabs (ln (Cmod z))).
Proof.
  intros Hz. assert (CZ : 0 < Cmod z) by (apply Cmod_gt_0; exact Hz). assert (N := Hhyp [Re z; Im z]). rewrite !rsum_cons in N. change (rsum (fun c : R => c ^ 2) []) with 0 in N. rewrite Rplus_0_r in N.
  change (sqrt (Re z ^ 2 + Im z ^ 2)) with (Cmod z) in N. set (r := hyp [Re z; Im z]) in *. set (c := Cmod z) in *.
  assert (RB : (1 - e) * c <= r <= (1 + e) * c) by (apply Rabs_le_between in N; lra).
  assert (RP : 0 < r) by (assert (0 < (1 - e) * c) by (apply Rmult_lt_0_compat; lra); lra).
  assert (L1 : Rabs (ln r - ln c) <= 2 * e).
  { assert (G : forall y, 1 - e <= y <= 1 + e -> Rabs (ln y) <= 2 * e).
    { intros y Hy. apply Rabs_le. split.
      - assert (Z : - ln y <= / y - 1). { rewrite <- ln_Rinv by lra. assert (0 < / y) by (apply Rinv_0_lt_compat; lra). assert (E := exp_ineq1_le (ln (/ y))). rewrite exp_ln in E by assumption. lra. }
        assert (/ y <= 1 + 2 * e). { apply (Rmult_le_reg_r y); [lra|]. rewrite Rinv_l by lra. nra. } lra.
      - assert (E := exp_ineq1_le (ln y)). rewrite exp_ln in E by lra. lra. }
    rewrite <- ln_div by assumption. apply G. split; apply (Rmult_le_reg_r c); try assumption; unfold Rdiv; rewrite (Rmult_assoc r), Rinv_l by lra; lra. }
  assert (L2 := Hlg r RP). assert (L3 : Rabs (ln r) <= Rabs (ln c) + 2 * e). { replace (ln r) with ((ln r - ln c) + ln c) by ring. eapply Rle_trans; [apply Rabs_triang|]. lra. }
  replace (lg r - ln c) with ((lg r - ln r) + (ln r - ln c)) by ring. eapply Rle_trans; [apply Rabs_triang|].
  assert (P := Rabs_pos (ln c)). assert (e * Rabs (ln r) <= e * (Rabs (ln c) + 2 * e)) by (apply Rmult_le_compat_l; lra). assert (e * e <= 1 / 2 * e) by (apply Rmult_le_compat_r; lra).
  assert (0 <= e * Rabs (ln c)) by (apply Rmult_le_pos; lra). lra.
Qed.
Theorem textbook_accurate w : 16 * u <= w -> 3 * e <= w -> accurate_complex w T.
Proof.
  intros W1 W2. assert (CR : forall x, close w (rnd x) x).
  { intros x. unfold close. eapply Rle_trans; [apply rnd_err|]. apply Rmult_le_compat_r; [apply Rabs_pos|lra]. }
  assert (CN : forall v a b, close_norm v a b -> v <= w -> close_norm w a b).
  { intros v a b H L. unfold close_norm in *. eapply Rle_trans; [exact H|]. apply Rmult_le_compat_r; [apply Cmod_ge_0|exact L]. }
  split; cbn [textbook c_add c_sub c_mul c_div c_addr c_scale c_divr c_log c_bin].
  - intros a b. split; apply CR.
  - intros a b. split; apply CR.
  - intros a x. split; [apply CR|reflexivity].
  - intros x a. split; cbn [Re Im fst snd].
    + replace (Re (RtoC x * a)) with (x * Re a) by (unfold Re, RtoC, Cmult; cbn; ring). apply CR.
    + replace (Im (RtoC x * a)) with (x * Im a) by (unfold Im, RtoC, Cmult; cbn; ring). apply CR.
  - intros a x Hx. split; cbn [Re Im fst snd].
    + replace (Re (a / RtoC x)) with (Re a / x) by (unfold Re, RtoC, Cdiv, Cinv, Cmult; cbn; field; exact Hx). apply CR.
    + replace (Im (a / RtoC x)) with (Im a / x) by (unfold Im, RtoC, Cdiv, Cinv, Cmult; cbn; field; exact Hx). apply CR.
  - intros a b. eapply CN; [apply mul_norm|lra].
  - intros a b H. assert (G : forall x, close w (rnd (rnd x)) x).
    { intros x. unfold close. assert (E1 := rnd_err x). assert (E2 := rnd_err (rnd x)). assert (P := Rabs_pos x).
      assert (E3 : Rabs (rnd x) <= 2 * Rabs x). { replace (rnd x) with ((rnd x - x) + x) by ring. eapply Rle_trans; [apply Rabs_triang|]. assert (u * Rabs x <= 1 * Rabs x) by (apply Rmult_le_compat_r; lra). lra. }
      replace (rnd (rnd x) - x) with ((rnd (rnd x) - rnd x) + (rnd x - x)) by ring. eapply Rle_trans; [apply Rabs_triang|].
      assert (u * Rabs (rnd x) <= u * (2 * Rabs x)) by (apply Rmult_le_compat_l; lra). assert (16 * u * Rabs x <= w * Rabs x) by (apply Rmult_le_compat_r; lra). assert (0 <= u * Rabs x) by (apply Rmult_le_pos; lra). lra. }
    unfold mul_t; cbn [Re Im fst snd]. change (fst a) with (Re a). change (fst b) with (Re b). change (snd a) with (Im a). change (snd b) with (Im b).
    replace (Re (a * b)) with (Re a * Re b) by (unfold Cmult; cbn; unfold Re, Im in *; destruct H as [-> | ->]; ring).
    replace (Im a * Im b) with 0 by (destruct H as [-> | ->]; ring). rewrite rnd_0, Rminus_0_r. apply G.
  - intros a z Hz. eapply CN; [apply div_norm; exact Hz|lra].
  - intros z Hz. cbn [Re fst]. eapply Rle_trans; [apply (log_err z Hz)|]. apply Rmult_le_compat_r; [|exact W2]. assert (P := Rabs_pos (ln (Cmod z))). lra.
  - intros n k x. apply CR.
Qed.
End Textbook.
