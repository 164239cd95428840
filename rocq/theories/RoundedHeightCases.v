(** In double precision with a correctly rounded logarithm the order can be one more than needed. *)
From Coq Require Import List Bool ZArith Arith Lia Lra Reals.
From Flocq Require Import Core.
From Verif Require Import Num Outcome Vec AdaptiveTree CAux FieldSpec FmmApi FmmApiProofs RoundedSpec RoundedCases RoundedPairCases RoundedApi RoundedHeight Ln2.
Import ListNotations.
Local Open Scope R_scope.

Lemma format_int_pow m e : (Z.abs m < 2 ^ 53)%Z -> generic_format radix2 (FLX_exp 53) (IZR m * bpow radix2 e).
Proof. intros H. apply generic_format_FLX. exists (Float radix2 m e); [reflexivity|]. cbn [Fnum]. change (radix2 ^ 53)%Z with (2 ^ 53)%Z. exact H. Qed.
Lemma double_below u v : generic_format radix2 (FLX_exp 53) u -> 0 <= u -> v < u + u * / 18014398509481984 -> double_round v <= u.
Proof.
  intros F P H. apply round_N_le_midp; [apply FLX_exp_valid; reflexivity|exact F|]. rewrite succ_eq_pos by exact P.
  assert (G := ulp_FLX_ge radix2 53 (prec_gt_0_ := eq_refl) u). rewrite Rabs_right in G by lra. change (bpow radix2 (- (53))) with (/ 9007199254740992) in G. lra.
Qed.
Lemma double_above u v : generic_format radix2 (FLX_exp 53) u -> 0 < u -> u - u * (499 / 500) * / 18014398509481984 < v -> u <= double_round v.
Proof.
  intros F P H. assert (V : Valid_exp (FLX_exp 53)) by (apply FLX_exp_valid; reflexivity). apply round_N_ge_midp; [exact V|exact F|].
  assert (E := pred_plus_ulp radix2 (FLX_exp 53) u P F). assert (P0 := pred_ge_0 radix2 (FLX_exp 53) u P F).
  assert (G := ulp_FLX_ge radix2 53 (prec_gt_0_ := eq_refl) (pred radix2 (FLX_exp 53) u)). rewrite Rabs_right in G by lra. change (bpow radix2 (- (53))) with (/ 9007199254740992) in G. lra.
Qed.
(** The rounded logarithms of 2 and of [2^29] … *)
Lemma log_2 : 0 < double_log 2 <= 6243314768165359 / 9007199254740992.
Proof.
  destruct ln2_digits as [L U]. split.
  - assert (H := double_log_accurate 2 ltac:(lra)). apply Rabs_le_inv in H. rewrite Rabs_right in H by lra. lra.
  - unfold double_log. replace (6243314768165359 / 9007199254740992) with (IZR 6243314768165359 * bpow radix2 (-53)) by (change (bpow radix2 (-53)) with (/ 9007199254740992); lra).
    apply double_below; [apply format_int_pow; reflexivity| |]; change (bpow radix2 (-53)) with (/ 9007199254740992); lra.
Qed.
Lemma log_big : 5658004008649857 / 281474976710656 <= double_log (2 ^ 29).
Proof.
  destruct ln2_digits as [L U]. unfold double_log. rewrite ln_pow by lra. replace (INR 29) with 29 by (cbn [INR]; ring).
  replace (5658004008649857 / 281474976710656) with (IZR 5658004008649857 * bpow radix2 (-48)) by (change (bpow radix2 (-48)) with (/ 281474976710656); lra).
  apply double_above; [apply format_int_pow; reflexivity| |]; change (bpow radix2 (-48)) with (/ 281474976710656); lra.
Qed.
(** … and their rounded quotient. *)
Lemma quotient_big : 29 < double_round (double_log (2 ^ 29) / double_log 2).
Proof.
  destruct log_2 as [P U]. assert (B := log_big).
  assert (Q : 29 + 20 / 10000000000000000 < double_log (2 ^ 29) / double_log 2).
  { apply (Rmult_lt_reg_r (double_log 2)); [exact P|]. replace (double_log (2 ^ 29) / double_log 2 * double_log 2) with (double_log (2 ^ 29)) by (field; lra). lra. }
  apply Rlt_le_trans with (8162774324609025 / 281474976710656); [lra|].
  replace (8162774324609025 / 281474976710656) with (IZR 8162774324609025 * bpow radix2 (-48)) by (change (bpow radix2 (-48)) with (/ 281474976710656); lra).
  apply double_above; [apply format_int_pow; reflexivity| |]; change (bpow radix2 (-48)) with (/ 281474976710656); lra.
Qed.
Definition heavy : list (psrc R) := [PSrc [0; 0] (2 ^ 29)].
Lemma heavy_charge : abs_charge heavy = 2 ^ 29.
Proof. unfold abs_charge, heavy. cbn [rsum fold_right ps_q]. assert (0 < 2 ^ 29) by (apply pow_lt; lra). rewrite Rabs_right by lra. ring. Qed.
Theorem heavy_exact : order_of 1 heavy = Ok 29%nat.
Proof.
  assert (P : forall k, 0 < 2 ^ k) by (intros; apply pow_lt; lra). apply order_spec. rewrite heavy_charge. split; [lra|]. split; [assert (1 <= 2 ^ 29) by (apply pow_R1_Rle; lra); lra|]. split; [reflexivity|]. split.
  - apply Req_le. unfold Rdiv. apply Rinv_r. apply Rgt_not_eq. apply (P 29%nat).
  - intros q Hq. apply (Rmult_lt_reg_r (2 ^ q)); [apply P|]. replace (2 ^ 29 / 2 ^ q * 2 ^ q) with (2 ^ 29) by (unfold Rdiv; rewrite Rmult_assoc, Rinv_l, Rmult_1_r by (apply Rgt_not_eq; apply P); reflexivity). rewrite Rmult_1_l. apply Rlt_pow; [lra|exact Hq].
Qed.
Theorem heavy_rounded : order_of_r double_round double_log 1 heavy = Ok 30%nat.
Proof.
  assert (U : 0 <= / 9007199254740992 <= / 10000000) by lra. assert (E : 0 <= / 4503599627370496 <= / 10000000) by lra.
  assert (N : INR (length heavy) * / 9007199254740992 <= / 10000) by (cbn [length heavy INR]; lra).
  assert (Q : / 2 ^ 100 <= abs_charge heavy / 1 <= 2 ^ 100).
  { rewrite heavy_charge. assert (1 <= 2 ^ 29) by (apply pow_R1_Rle; lra). assert (2 ^ 29 <= 2 ^ 100) by (apply Rle_pow; [lra|lia]).
    assert (/ 2 ^ 100 <= / 1) by (apply Rinv_le_contravar; lra). lra. }
  destruct (order_rounded double_round double_log _ _ U E double_accurate double_log_accurate 1 heavy ltac:(lra) N Q) as (p & H & _).
  { rewrite heavy_charge. assert (1 <= 2 ^ 29) by (apply pow_R1_Rle; lra). lra. }
  destruct (order_off_by_one double_round double_log _ _ U E double_accurate double_log_accurate 1 heavy ltac:(lra) N Q 29 p heavy_exact H) as [L _].
  rewrite H. f_equal. unfold order_of_r in H.
  assert (P : 0 < 2 ^ 29) by (apply pow_lt; lra). assert (ET : total_charge_r double_round heavy = 2 ^ 29).
  { unfold total_charge_r, heavy. cbn [fold_left ps_q]. rewrite Rabs_right by lra. rewrite Rplus_0_l. replace (2 ^ 29) with (IZR 1 * bpow radix2 29) by (change (bpow radix2 29) with (IZR (2 ^ 29)); rewrite Rmult_1_l; change 29%Z with (Z.of_nat 29); rewrite <- pow_IZR; reflexivity). apply round_int_pow. discriminate. }
  rewrite ET in H. destruct (Rlt_dec 0 1) as [_|]; [|lra]. destruct (Rlt_dec 0 (2 ^ 29)) as [_|]; [|lra].
  replace (2 ^ 29 / 1) with (2 ^ 29) in H by field.
  replace (double_round (2 ^ 29)) with (2 ^ 29) in H by (rewrite <- ET; symmetry; unfold total_charge_r, heavy; cbn [fold_left ps_q]; apply round_generic; [apply valid_rnd_N|apply generic_format_round; [apply FLX_exp_valid; reflexivity|apply valid_rnd_N]]).
  assert (B := quotient_big). set (q := double_round (double_log (2 ^ 29) / double_log 2)) in *. clearbody q. destruct (Rceil_spec q) as [C1 C2]. set (z := Rceil q) in *. clearbody z.
  assert (29 < IZR z) by lra. apply lt_IZR in H0. unfold to_unsigned in H. destruct (0 <=? z)%Z; [|discriminate]. destruct (z <? 2 ^ 32)%Z; [|discriminate]. cbn [andb] in H. injection H as <-. lia.
Qed.
