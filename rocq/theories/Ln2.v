(** Bounds of [ln 2] from the series of the area tangent. *)
From Coq Require Import Arith Lia Lra Reals.
From Coquelicot Require Import Coquelicot.
Local Open Scope R_scope.

Fixpoint ath (n : nat) (x : R) : R := match n with O => 0 | S k => ath k x + x ^ (2 * k + 1) / INR (2 * k + 1) end.
Fixpoint geo (n : nat) (x : R) : R := match n with O => 0 | S k => geo k x + x ^ (2 * k) end.
Lemma geo_sum n x : (1 - x ^ 2) * geo n x = 1 - x ^ (2 * n).
Proof.
  induction n as [|n IH]; [rewrite Nat.mul_0_r; cbn [geo pow]; ring|]. cbn [geo]. replace (2 * S n)%nat with (2 * n + 2)%nat by lia. rewrite Rmult_plus_distr_l, IH, pow_add. ring.
Qed.
Lemma mono_derive k c x : is_derive (fun y => c * (y ^ (2 * k + 1) / INR (2 * k + 1))) x (c * x ^ (2 * k)).
Proof.
  assert (N : INR (2 * k + 1) <> 0) by (apply not_0_INR; lia).
  assert (D := is_derive_pow (fun y => y) (2 * k + 1) x 1 (is_derive_id x)).
  apply (is_derive_scal _ _ (c * / INR (2 * k + 1))) in D.
  replace (c * x ^ (2 * k)) with (c * / INR (2 * k + 1) * (INR (2 * k + 1) * 1 * x ^ Init.Nat.pred (2 * k + 1))).
  - eapply is_derive_ext; [|exact D]. intros t. change (c * / INR (2 * k + 1) * t ^ (2 * k + 1) = c * (t ^ (2 * k + 1) * / INR (2 * k + 1))). ring.
  - replace (Init.Nat.pred (2 * k + 1)) with (2 * k)%nat by lia. field. exact N.
Qed.
Lemma ath_derive n x : is_derive (ath n) x (geo n x).
Proof.
  induction n as [|n IH]; [apply (is_derive_const (V := R_NormedModule) 0)|]. cbn [ath geo].
  apply (is_derive_plus (V := R_NormedModule)); [exact IH|]. assert (D := mono_derive n 1 x). rewrite Rmult_1_l in D. eapply is_derive_ext; [|exact D]. intros t. apply Rmult_1_l.
Qed.
(** [ln ((1 + x) / (1 - x)) - 2 ath n x - c x^(2n+1) / (2n+1)]. *)
Definition gap (n : nat) (c x : R) : R := ln (1 + x) - ln (1 - x) - 2 * ath n x - c * (x ^ (2 * n + 1) / INR (2 * n + 1)).
Lemma gap_derive n c x : -1 < x < 1 -> is_derive (gap n c) x ((2 / (1 - x ^ 2) - c) * x ^ (2 * n)).
Proof.
  intros Hx. unfold gap.
  replace ((2 / (1 - x ^ 2) - c) * x ^ (2 * n)) with (minus (minus (/ (1 + x) + / (1 - x)) (2 * geo n x)) (c * x ^ (2 * n))).
  - apply (is_derive_minus (V := R_NormedModule)); [apply (is_derive_minus (V := R_NormedModule))|apply mono_derive].
    + auto_derive; [lra|]. field. lra.
    + apply is_derive_scal. apply ath_derive.
  - unfold minus, plus, opp; cbn. assert (G := geo_sum n x). assert (P : 1 - x ^ 2 <> 0) by nra.
    replace (geo n x) with ((1 - x ^ (2 * n)) / (1 - x ^ 2)) by (rewrite <- G; field; exact P). cbn [pow Nat.mul] in *. field. split; [|split]; nra.
Qed.
Lemma gap_0 n c : gap n c 0 = 0.
Proof.
  unfold gap. assert (E : ath n 0 = 0).
  { induction n as [|n IH]; [reflexivity|]. cbn [ath]. rewrite IH. rewrite pow_i by lia. unfold Rdiv. ring. }
  rewrite E, pow_i by lia. rewrite Rplus_0_r, Rminus_0_r, ln_1. unfold Rdiv. ring.
Qed.
Lemma gap_third n c : exists x, 0 <= x <= / 3 /\ gap n c (/ 3) = (2 / (1 - x ^ 2) - c) * x ^ (2 * n) * / 3.
Proof.
  destruct (MVT_gen (gap n c) 0 (/ 3) (fun x => (2 / (1 - x ^ 2) - c) * x ^ (2 * n))) as (x & Hx & E).
  - rewrite Rmin_left, Rmax_right by lra. intros x Hx. apply gap_derive. lra.
  - rewrite Rmin_left, Rmax_right by lra. intros x Hx. apply continuity_pt_filterlim. apply (ex_derive_continuous (V := R_NormedModule)). eexists. apply gap_derive. lra.
  - rewrite Rmin_left, Rmax_right in Hx by lra. rewrite gap_0, !Rminus_0_r in E. exists x. split; [exact Hx|exact E].
Qed.
Lemma gap_sign n x (c : R) : 0 <= x <= / 3 -> 0 <= x ^ (2 * n) /\ 2 <= 2 / (1 - x ^ 2) <= 9 / 4.
Proof.
  intros Hx. split; [apply pow_le; lra|]. assert (P : 8 / 9 <= 1 - x ^ 2 <= 1) by (cbn [pow]; nra).
  split; apply (Rmult_le_reg_r (1 - x ^ 2)); try lra; replace (2 / (1 - x ^ 2) * (1 - x ^ 2)) with 2 by (field; lra); lra.
Qed.
Theorem ln2_series n : 2 * ath n (/ 3) <= ln 2 <= 2 * ath n (/ 3) + 9 / 4 * ((/ 3) ^ (2 * n + 1) / INR (2 * n + 1)).
Proof.
  assert (E : ln (1 + / 3) - ln (1 - / 3) = ln 2).
  { replace 2 with ((1 + / 3) * / (1 - / 3)) by field. rewrite ln_mult, ln_Rinv by lra. ring. }
  split.
  - destruct (gap_third n 0) as (x & Hx & G). destruct (gap_sign n x 0 Hx) as [P [Q1 Q2]]. unfold gap in G. rewrite E in G.
    assert (0 <= (2 / (1 - x ^ 2) - 0) * x ^ (2 * n) * / 3) by (apply Rmult_le_pos; [apply Rmult_le_pos; lra|lra]). lra.
  - destruct (gap_third n (9 / 4)) as (x & Hx & G). destruct (gap_sign n x 0 Hx) as [P [Q1 Q2]]. unfold gap in G. rewrite E in G.
    assert (0 <= (9 / 4 - 2 / (1 - x ^ 2)) * x ^ (2 * n) * / 3) by (apply Rmult_le_pos; [apply Rmult_le_pos; lra|lra]). lra.
Qed.
(** [ln 2] up to 1e-18. *)
Theorem ln2_digits : 693147180559945309 / 1000000000000000000 <= ln 2 <= 693147180559945310 / 1000000000000000000.
Proof.
  assert (S := ln2_series 20). cbn [ath Nat.mul Nat.add] in S. rewrite !INR_IZR_INZ in S. cbn [Z.of_nat Pos.of_succ_nat Pos.succ] in S. cbn [pow] in S. lra.
Qed.
