(** The Legendre series of the inverse distance. *)
From Coq Require Import Reals List Arith Lia Lra.
From Coquelicot Require Import Coquelicot.
From Verif Require Import CAux.
Import ListNotations.
Local Open Scope R_scope.

Section Newton.
Variables (a b r : R) (Z : nat -> R).
Hypothesis Z0 : Z 0%nat = 1.
Hypothesis Z1 : Z 1%nat = a.
Hypothesis Zrec : forall n, (INR n + 2) * Z (S (S n)) = (2 * INR n + 3) * a * Z (S n) - (INR n + 1) * b * Z n.
Hypothesis r_range : 0 <= r < 1.
Hypothesis Zbound : forall n, Rabs (Z n) <= r ^ n.
Hypothesis pos : forall t, 0 <= t <= 1 -> 0 < 1 - 2 * a * t + b * t * t.

Let rho := (1 + r) / 2.
Lemma rho_range : 0 < rho < 1 /\ r <= rho.
Proof. unfold rho. lra. Qed.

Lemma Z_radius t : 0 <= t <= 1 -> Rbar_lt (Rabs t) (CV_radius Z).
Proof.
  intros Ht. apply Rbar_lt_le_trans with (Finite (/ rho)).
  - simpl. rewrite Rabs_pos_eq by lra. destruct rho_range as [H _].
    apply Rle_lt_trans with 1; [lra|]. rewrite <- Rinv_1. apply Rinv_lt_contravar; lra.
  - destruct (CV_radius_bounded Z) as [H _]. apply H. exists 1. intros n.
    destruct rho_range as [H1 H2]. rewrite Rabs_mult, <- RPow_abs, (Rabs_pos_eq (/ rho)) by (left; apply Rinv_0_lt_compat; lra).
    rewrite pow_inv.
    apply Rmult_le_reg_r with (rho ^ n); [apply pow_lt; lra|]. rewrite Rmult_assoc, Rinv_l by (apply pow_nonzero; lra).
    rewrite Rmult_1_r, Rmult_1_l. eapply Rle_trans; [apply Zbound|]. apply pow_incr. lra.
Qed.

Let g := PSeries Z.
Let g' := PSeries (PS_derive Z).
Lemma g_derive t : 0 <= t <= 1 -> is_derive g t (g' t).
Proof. intros Ht. apply is_derive_PSeries. now apply Z_radius. Qed.

Lemma Z_pseries t : 0 <= t <= 1 -> is_pseries Z t (g t).
Proof. intros Ht. apply PSeries_correct. apply CV_radius_inside. now apply Z_radius. Qed.
Lemma dZ_pseries t : 0 <= t <= 1 -> is_pseries (PS_derive Z) t (g' t).
Proof.
  intros Ht. apply PSeries_correct. apply CV_radius_inside. rewrite CV_radius_derive. now apply Z_radius.
Qed.

Lemma ode t : 0 <= t <= 1 -> (1 - 2 * a * t + b * t * t) * g' t = (a - b * t) * g t.
Proof.
  intros Ht. pose proof (Z_pseries t Ht) as HZ. pose proof (dZ_pseries t Ht) as HD.
  pose proof (is_pseries_incr_1 _ _ _ HD) as HD1. pose proof (is_pseries_incr_1 _ _ _ HD1) as HD2.
  pose proof (is_pseries_incr_1 _ _ _ HZ) as HZ1.
  assert (comm : forall x : R, mult t x = mult x t) by (intros; apply Rmult_comm).
  pose proof (is_pseries_scal (- (2 * a)) _ _ _ (Rmult_comm _ _) HD1) as T1.
  pose proof (is_pseries_scal b _ _ _ (Rmult_comm _ _) HD2) as T2.
  pose proof (is_pseries_scal (- a) _ _ _ (Rmult_comm _ _) HZ) as T3.
  pose proof (is_pseries_scal b _ _ _ (Rmult_comm _ _) HZ1) as T4.
  pose proof (is_pseries_plus _ _ _ _ _ (is_pseries_plus _ _ _ _ _ (is_pseries_plus _ _ _ _ _ (is_pseries_plus _ _ _ _ _ HD T1) T2) T3) T4) as T.
  assert (E : forall n, PS_plus (PS_plus (PS_plus (PS_plus (PS_derive Z) (PS_scal (- (2 * a)) (PS_incr_1 (PS_derive Z))))
      (PS_scal b (PS_incr_1 (PS_incr_1 (PS_derive Z))))) (PS_scal (- a) Z)) (PS_scal b (PS_incr_1 Z)) n = 0).
  { intros n. unfold PS_plus, PS_scal, PS_derive. cbv [plus scal]; simpl; cbv [mult]; simpl.
    destruct n as [|[|n]].
    - cbv [PS_incr_1 zero]; simpl. rewrite Z0, Z1. unfold mult; simpl. unfold zero; simpl. ring.
    - unfold PS_incr_1. unfold mult, zero; simpl. pose proof (Zrec 0) as H. simpl in H. rewrite Z1, Z0 in *. lra.
    - unfold PS_incr_1. unfold mult, zero; simpl. pose proof (Zrec (S n)) as H. rewrite !S_INR in H.
      destruct n as [|n]; [simpl in *; lra|]. rewrite !S_INR in *. lra. }
  assert (T0 : is_pseries (fun _ : nat => 0) t 0).
  { unfold is_pseries. apply is_series_ext with (fun _ : nat => 0).
    - intros n. change (0 = pow_n t n * 0). ring.
    - apply filterlim_ext with (fun _ : nat => 0).
      + intros n. symmetry. induction n as [|n IH]; [apply sum_O|]. rewrite sum_Sn, IH. change (0 + 0 = 0). ring.
      + apply filterlim_const. }
  pose proof (is_pseries_ext _ _ _ _ E T) as TE.
  pose proof (is_series_unique _ _ TE) as U1. pose proof (is_series_unique _ _ T0) as U0.
  pose proof (eq_trans (eq_sym U1) U0) as U2.
  cbv [plus scal] in U2; simpl in U2; cbv [mult] in U2; simpl in U2. lra.
Qed.

Let s t := sqrt (1 - 2 * a * t + b * t * t).
Lemma s_derive t : 0 <= t <= 1 -> is_derive s t ((b * t - a) / s t).
Proof.
  intros Ht. pose proof (pos t Ht) as Hp. unfold s.
  evar_last; [apply is_derive_comp; [apply is_derive_Reals; apply derivable_pt_lim_sqrt; exact Hp|]|].
  - auto_derive; [trivial|reflexivity].
  - cbv [scal]; simpl; cbv [mult]; simpl. assert (0 < sqrt (1 - 2 * a * t + b * t * t)) by now apply sqrt_lt_R0.
    field. lra.
Qed.
Lemma product_const : g 0 * s 0 = g 1 * s 1.
Proof.
  apply (eq_is_derive (fun t => g t * s t) 0 1); [|lra]. intros t Ht.
  evar_last; [apply (is_derive_mult g s t); [now apply g_derive|now apply s_derive|intros; apply Rmult_comm]|].
  cbv [plus mult zero]; simpl. pose proof (ode t Ht) as O. pose proof (pos t Ht) as Hp.
  assert (Hs : 0 < s t) by (unfold s; now apply sqrt_lt_R0).
  assert (Hss : s t * s t = 1 - 2 * a * t + b * t * t) by (apply sqrt_sqrt; lra).
  rewrite <- Hss in O. apply Rmult_eq_reg_r with (s t); [|lra]. rewrite Rmult_0_l.
  replace ((g' t * s t + g t * ((b * t - a) / s t)) * s t) with (s t * s t * g' t + g t * (b * t - a)) by (field; lra).
  rewrite O. ring.
Qed.
Lemma g_1 : g 1 = / sqrt (1 - 2 * a + b).
Proof.
  pose proof product_const as H. unfold g at 1 in H. rewrite PSeries_0, Z0 in H. unfold s in H.
  replace (1 - 2 * a * 0 + b * 0 * 0) with 1 in H by ring. rewrite sqrt_1 in H.
  replace (1 - 2 * a * 1 + b * 1 * 1) with (1 - 2 * a + b) in H by ring.
  pose proof (pos 1 ltac:(lra)) as Hp. replace (1 - 2 * a * 1 + b * 1 * 1) with (1 - 2 * a + b) in Hp by ring.
  assert (0 < sqrt (1 - 2 * a + b)) by now apply sqrt_lt_R0.
  apply Rmult_eq_reg_r with (sqrt (1 - 2 * a + b)); [|lra]. rewrite <- H. field. lra.
Qed.

Lemma partial_diff N M : (N <= M)%nat ->
  Rabs (rsum Z (seq 0 (S M)) - rsum Z (seq 0 (S N))) <= r ^ (S N) / (1 - r).
Proof.
  intros H. assert (G : forall k, Rabs (rsum Z (seq 0 (S (N + k))) - rsum Z (seq 0 (S N))) <= (r ^ (S N) - r ^ (S (N + k))) / (1 - r)).
  { induction k as [|k IH].
    - rewrite Nat.add_0_r. rewrite !Rminus_diag_eq by reflexivity. rewrite Rabs_R0. unfold Rdiv. rewrite Rmult_0_l. lra.
    - rewrite Nat.add_succ_r. rewrite rsum_seq_S. simpl (0 + S (N + k))%nat.
      replace (rsum Z (seq 0 (S (N + k))) + Z (S (N + k)) - rsum Z (seq 0 (S N))) with
        ((rsum Z (seq 0 (S (N + k))) - rsum Z (seq 0 (S N))) + Z (S (N + k))) by ring.
      eapply Rle_trans; [apply Rabs_triang|]. 
      eapply Rle_trans; [apply Rplus_le_compat; [apply IH|apply Zbound]|].
      right. simpl. field. lra. }
  specialize (G (M - N)%nat). replace (N + (M - N))%nat with M in G by lia.
  eapply Rle_trans; [apply G|]. unfold Rdiv. apply Rmult_le_compat_r; [left; apply Rinv_0_lt_compat; lra|].
  pose proof (pow_le r (S M)). lra.
Qed.

Theorem newton_series N : Rabs (/ sqrt (1 - 2 * a + b) - rsum Z (seq 0 (S N))) <= r ^ (S N) / (1 - r).
Proof.
  rewrite <- g_1.
  assert (HS : is_lim_seq (fun M => rsum Z (seq 0 (S M))) (g 1)).
  { pose proof (Z_pseries 1 ltac:(lra)) as H. unfold is_pseries, is_series in H.
    apply (is_lim_seq_ext (sum_n (fun k => scal (pow_n 1 k) (Z k)))); [|exact H].
    intros M. rewrite (sum_n_ext _ Z).
    - induction M as [|M IH]; [rewrite sum_O; simpl; ring|]. rewrite sum_Sn, IH, (rsum_seq_S Z 0 (S M)). reflexivity.
    - intros k. rewrite pow_n_pow, pow1. change (1 * Z k = Z k). ring. }
  assert (HD : is_lim_seq (fun M => Rabs (rsum Z (seq 0 (S M)) - rsum Z (seq 0 (S N)))) (Rabs (g 1 - rsum Z (seq 0 (S N))))).
  { apply (is_lim_seq_abs _ (Finite (g 1 - rsum Z (seq 0 (S N))))). apply is_lim_seq_minus'; [exact HS|apply is_lim_seq_const]. }
  assert (L : Rbar_le (Rabs (g 1 - rsum Z (seq 0 (S N)))) (r ^ (S N) / (1 - r))).
  { apply (is_lim_seq_le_loc (fun M => Rabs (rsum Z (seq 0 (S M)) - rsum Z (seq 0 (S N)))) (fun _ => r ^ (S N) / (1 - r)) _ _); [|exact HD|apply is_lim_seq_const].
    exists N. intros M HM. now apply partial_diff. }
  exact L.
Qed.
End Newton.
