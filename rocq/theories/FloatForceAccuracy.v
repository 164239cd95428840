(** Accuracy of the forces of two-dimensional multipole expansions in doubles, with underflow. *)
From Coq Require Import Reals List Bool ZArith Arith Lia Lra Psatz.
From Coquelicot Require Import Complex.
From Flocq Require Import Core BinarySingleNaN PrimFloat.
From Verif Require Import Num Outcome Vec Tables TableProofs CAux FloatCases FloatFit FloatExpansion2D FloatExpansionSpec FloatOverflow FloatExpansionProofs FloatExpansionCases FloatCoefficientSpec FloatCoefficients FloatMultipole FloatForceSpec.
From Coq Require Import Floats.
Import ListNotations.
Local Open Scope R_scope.

Lemma nat_float_real j : (Z.of_nat j <= 9007199254740992)%Z -> real_of (nat_float j) = INR j.
Proof. intros L. unfold nat_float. rewrite (proj2 (of_Z_real (Z.of_nat j) ltac:(lia))), INR_IZR_INZ. reflexivity. Qed.
Lemma small_inv : / 2 ^ 1020 <= / 8 * / 2 ^ 1000.
Proof. replace (/ 8 * / 2 ^ 1000) with (/ 2 ^ 1003) by (rewrite (pow_add 2 3 1000 : 2 ^ 1003 = 2 ^ 3 * 2 ^ 1000), Rinv_mult; f_equal; f_equal; ring). apply inv_pow_le. lia. Qed.
Section Force.
Variable A : cfarith.
Hypothesis HM : usual_product (f_mul A).
Hypothesis HD : accurate_quotient (f_div A).
Notation m := (f_mul A).
Notation dv := (f_div A).
Variables (z : CF) (zeta : C) (D : R).
Hypothesis FZ : fin z.
Hypothesis D0 : 0 < D.
Hypothesis ZD : Cmod zeta = D.
Hypothesis ZE : Cmod (creal z - zeta)%C <= 4 * u * D.
Hypothesis DR : 2 * / 2 ^ 400 <= D <= / 2 * 2 ^ 400.
Notation close_inv w k := (Cmod (creal w - / Cpow zeta k)%C <= 48 * INR k * u * / D ^ k).
Lemma zeta_nz : zeta <> RtoC 0. Proof. apply nonzero_mod. lra. Qed.
Lemma inv_mod k : Cmod (/ Cpow zeta k)%C = / D ^ k.
Proof. rewrite Cmod_inv by (apply Cpow_nz, zeta_nz). rewrite Cmod_pow, ZD. reflexivity. Qed.
(** A quotient by a number close to [t]. *)
Lemma quotient_error w y (om t : C) R e f G : fin y -> / 2 ^ 400 <= Cmod (value_of y) <= 2 ^ 400 -> 0 < G -> Cmod t = G -> Cmod (creal y - t)%C <= f * u * G -> 0 <= f <= 100 -> 0 < R -> 0 <= e -> e * u <= / 1000 ->
  fin (dv w y) -> (fin w -> Cmod om <= R /\ Cmod (creal w - om)%C <= e * u * R) -> / 2 ^ 1000 <= R * / G -> / 2 ^ 1000 <= R * G ->
  fin w /\ Cmod (creal (dv w y) - om / t)%C <= (e + f + 35) * u * (R * / G).
Proof.
  intros FY YR G0 TG YE F0 R0 E0 EU F HW E1 E2. destruct (HD w y FY YR F) as [FW Q]. split; [exact FW|]. destruct (HW FW) as [OM WE]. change (value_of y) with (creal y) in *. change (value_of w) with (creal w) in *. change (value_of (dv w y)) with (creal (dv w y)) in *.
  assert (TN : t <> RtoC 0) by (apply nonzero_mod; lra). assert (P := small_inv). assert (I1 : 0 < / 2 ^ 1000) by (apply Rinv_0_lt_compat, pow_lt; lra). set (i := / G) in *. assert (I0 : 0 < i) by (apply Rinv_0_lt_compat, G0). assert (IG : i * G = 1) by (apply Rinv_l; lra).
  assert (FU : 0 <= f * u <= / 1000) by (split; [apply Rmult_le_pos; lra|lra]). assert (YM : (1 - f * u) * G <= Cmod (creal y) <= (1 + f * u) * G).
  { split; [|assert (H := Cmod_from _ _ _ _ YE (Req_le _ _ TG)); lra]. assert (T := Cmod_triangle (creal y) (t - creal y)%C). replace (creal y + (t - creal y))%C with t in T by ring. replace (t - creal y)%C with (- (creal y - t))%C in T by ring. rewrite Cmod_opp in T. lra. }
  assert (YL : 999 / 1000 * G <= Cmod (creal y)) by nra. assert (YN : creal y <> RtoC 0) by (apply nonzero_mod; lra).
  assert (WM := Cmod_from _ _ _ _ WE OM). assert (WM' : Cmod (creal w) <= 1001 / 1000 * R) by (assert (e * u * R <= / 1000 * R) by (apply Rmult_le_compat_r; lra); lra).
  assert (RI : 0 < R * i) by (apply Rmult_lt_0_compat; lra).
  assert (Q1 : Cmod (creal (dv w y) - creal w / creal y)%C <= 32 * u * (101 / 100 * (R * i))).
  { apply Q.
    - eapply Rle_trans; [exact WM'|]. apply Rle_trans with (101 / 100 * (R * i) * (999 / 1000 * G)); [|apply Rmult_le_compat_l; lra]. replace (101 / 100 * (R * i) * (999 / 1000 * G)) with (100899 / 100000 * R * (i * G)) by field. rewrite IG. lra.
    - lra.
    - apply Rle_trans with (101 / 100 * (R * i) * (999 / 1000 * G) ^ 2); [|apply Rmult_le_compat_l; [lra|apply pow_incr; split; [apply Rmult_le_pos; lra|exact YL]]].
      replace (101 / 100 * (R * i) * (999 / 1000 * G) ^ 2) with (101 / 100 * (999 / 1000) ^ 2 * (R * G) * (i * G)) by field. rewrite IG. assert (G1 : 1 <= 101 / 100 * (999 / 1000) ^ 2) by lra. nra. }
  assert (CI : Cmod (/ creal y)%C <= 1002 / 1000 * i).
  { rewrite Cmod_inv by exact YN. apply Rmult_le_reg_r with (Cmod (creal y)); [lra|]. rewrite Rinv_l by lra. apply Rle_trans with (1002 / 1000 * i * (999 / 1000 * G)); [|apply Rmult_le_compat_l; lra]. replace (1002 / 1000 * i * (999 / 1000 * G)) with (1000998 / 1000000 * (i * G)) by field. rewrite IG. lra. }
  assert (CI2 : Cmod (/ creal y)%C <= (1 + 2 * (f * u)) * i).
  { rewrite Cmod_inv by exact YN. apply Rmult_le_reg_r with (Cmod (creal y)); [lra|]. rewrite Rinv_l by lra. apply Rle_trans with ((1 + 2 * (f * u)) * i * ((1 - f * u) * G)); [|apply Rmult_le_compat_l; [apply Rmult_le_pos; lra|lra]].
    replace ((1 + 2 * (f * u)) * i * ((1 - f * u) * G)) with ((1 + 2 * (f * u)) * (1 - f * u) * (i * G)) by ring. rewrite IG. nra. }
  assert (Q2 : Cmod (creal w / creal y - om / t)%C <= e * u * R * ((1 + 2 * (f * u)) * i) + R * (f * u * G * ((1002 / 1000 * i) * i))).
  { replace (creal w / creal y - om / t)%C with ((creal w - om) * / creal y + om * (- (creal y - t) * (/ creal y * / t)))%C by (field; split; assumption).
    eapply Rle_trans; [apply Cmod_triangle|]. rewrite !Cmod_mult, Cmod_opp, (Cmod_inv t) by exact TN. rewrite TG. fold i.
    apply Rplus_le_compat; [apply Rmult_le_compat; try apply Cmod_ge_0; assumption|]. apply Rmult_le_compat; [apply Cmod_ge_0|repeat (apply Rmult_le_pos || apply Cmod_ge_0 || lra)|exact OM|].
    apply Rmult_le_compat; [apply Cmod_ge_0|apply Rmult_le_pos; [apply Cmod_ge_0|lra]|exact YE|apply Rmult_le_compat_r; [lra|exact CI]]. }
  eapply Rle_trans; [exact (Cmod_diff _ _ _ _ _ Q1 Q2)|]. set (x := u * (R * i)). assert (X0 : 0 < x) by (apply Rmult_lt_0_compat; lra).
  replace (32 * u * (101 / 100 * (R * i))) with (808 / 25 * x) by (unfold x; field). replace (e * u * R * ((1 + 2 * (f * u)) * i)) with (e * x + 2 * f * (e * u) * x) by (unfold x; ring).
  replace (R * (f * u * G * (1002 / 1000 * i * i))) with (1002 / 1000 * f * x * (i * G)) by (unfold x; field). rewrite IG. replace ((e + f + 35) * u * (R * i)) with (e * x + f * x + 35 * x) by (unfold x; ring).
  assert (FX : f * x <= 100 * x) by (apply Rmult_le_compat_r; lra). assert (FX0 : 0 <= f * x) by (apply Rmult_le_pos; lra).
  assert (FE : 2 * f * (e * u) * x <= 2 / 1000 * (f * x)) by (replace (2 * f * (e * u) * x) with (e * u * (2 * (f * x))) by ring; replace (2 / 1000 * (f * x)) with (/ 1000 * (2 * (f * x))) by field; apply Rmult_le_compat_r; lra). lra.
Qed.
Variable p : nat.
Hypothesis PB : INR p <= 1000.
Hypothesis HI : forall j, (j <= p + 1)%nat -> / 2 ^ 1000 <= / D ^ j.
Lemma inverse_step k w : (1 <= k <= p)%nat -> (fin w -> close_inv w k) -> fin (dv w z) -> close_inv (dv w z) (S k).
Proof.
  intros K HW F. assert (KI : INR k <= INR p) by (apply le_INR; lia). assert (K0 := pos_INR k). assert (DK : 0 < / D ^ k) by (apply Rinv_0_lt_compat, pow_lt, D0).
  assert (RS : / D ^ S k = / D ^ k * / D) by (cbn [pow]; rewrite Rinv_mult; ring).
  destruct (quotient_error w z (/ Cpow zeta k)%C zeta (/ D ^ k) (48 * INR k) 4 D FZ (z_range z zeta D ZD ZE DR) D0 ZD ZE ltac:(lra) DK ltac:(lra) ltac:(lra) F) as [_ Q].
  - intros FW. split; [right; apply inv_mod|exact (HW FW)].
  - rewrite <- RS. apply HI. lia.
  - destruct k as [|k]; [lia|]. replace (/ D ^ S k * D) with (/ D ^ k) by (cbn [pow]; field; split; [apply pow_nonzero|]; lra). apply HI. lia.
  - rewrite RS, S_INR. replace (/ Cpow zeta (S k))%C with (/ Cpow zeta k / zeta)%C by (rewrite Cpow_S; field; split; [apply Cpow_nz, zeta_nz|apply zeta_nz]).
    eapply Rle_trans; [exact Q|]. apply Rmult_le_compat_r; [apply Rmult_le_pos; [lra|left; apply Rinv_0_lt_compat, D0]|]. lra.
Qed.
Lemma inverse_start : / 2 ^ 1000 <= D ^ 2 -> fin (m z z) -> / 2 ^ 400 <= Cmod (value_of (m z z)) <= 2 ^ 400 -> fin (dv oneC (m z z)) -> (1 <= p)%nat -> close_inv (dv oneC (m z z)) 2.
Proof.
  intros E2 F2 R2 F P1. assert (ZM := z_mod z zeta D ZD ZE). assert (O : creal oneC = RtoC 1) by (unfold creal, oneC, RtoC; cbn [fst snd]; rewrite (proj2 FloatFit.one_real), (proj2 zero_real); reflexivity).
  assert (D2 : 0 < D ^ 2) by (apply pow_lt, D0). assert (MM : Cmod (creal z) * Cmod (creal z) <= 101 / 100 * D ^ 2).
  { apply Rle_trans with ((1 + 4 * u) * D * ((1 + 4 * u) * D)); [apply Rmult_le_compat; try apply Cmod_ge_0; lra|]. replace ((1 + 4 * u) * D * ((1 + 4 * u) * D)) with ((1 + 4 * u) * (1 + 4 * u) * D ^ 2) by ring. apply Rmult_le_compat_r; lra. }
  assert (P := small_inv). assert (I1 : 0 < / 2 ^ 1000) by (apply Rinv_0_lt_compat, pow_lt; lra). destruct (cmul_error m HM z z _ F2 MM ltac:(apply eta_of; lra)) as (_ & _ & E).
  assert (E3 : Cmod (creal z * creal z - Cpow zeta 2)%C <= 4 * u * D * ((1 + 4 * u) * D + D)).
  { replace (Cpow zeta 2) with (zeta * zeta)%C by (cbn [Cpow]; ring). replace (creal z * creal z - zeta * zeta)%C with ((creal z - zeta) * (creal z + zeta))%C by ring. rewrite Cmod_mult. apply Rmult_le_compat; try apply Cmod_ge_0; [exact ZE|]. eapply Rle_trans; [apply Cmod_triangle|]. lra. }
  assert (E4 := Cmod_diff _ _ _ _ _ E E3). assert (G : Cmod (Cpow zeta 2) = D ^ 2) by (rewrite Cmod_pow, ZD; reflexivity).
  assert (E5 : Cmod (creal (m z z) - Cpow zeta 2)%C <= 25 * u * D ^ 2).
  { eapply Rle_trans; [exact E4|]. replace (16 * u * (101 / 100 * D ^ 2) + 4 * u * D * ((1 + 4 * u) * D + D)) with ((16 * (101 / 100) + 4 * (2 + 4 * u)) * u * D ^ 2) by field. apply Rmult_le_compat_r; [lra|]. apply Rmult_le_compat_r; lra. }
  assert (IW : fin oneC -> Cmod (RtoC 1) <= 1 /\ Cmod (creal oneC - RtoC 1)%C <= 0 * u * 1).
  { intros _. rewrite O. replace (RtoC 1 - RtoC 1)%C with (RtoC 0) by ring. rewrite Cmod_0, Cmod_1. split; lra. }
  destruct (quotient_error oneC (m z z) (RtoC 1) (Cpow zeta 2) 1 0 25 (D ^ 2) F2 R2 D2 G E5 ltac:(lra) ltac:(lra) ltac:(lra) ltac:(lra) F IW) as [_ Q].
  - rewrite Rmult_1_l. apply HI. lia.
  - rewrite Rmult_1_l. exact E2.
  - replace (/ Cpow zeta 2)%C with (RtoC 1 / Cpow zeta 2)%C by (field; apply Cpow_nz, zeta_nz). eapply Rle_trans; [exact Q|]. rewrite Rmult_1_l. assert (0 < / D ^ 2) by (apply Rinv_0_lt_compat, D2). replace (INR 2) with 2 by (simpl; ring). apply Rmult_le_compat_r; lra.
Qed.
(** The loop of multipole_expansion.hpp 129-132. *)
Variables (al : nat -> C) (N q rho : R).
Hypothesis N1 : 1 <= N <= 1048576.
Hypothesis Q0 : 0 < q.
Hypothesis R0 : 0 < rho.
Hypothesis RD : rho <= D.
Hypothesis HR : forall j, (j <= p)%nat -> / 2 ^ 1000 <= q * rho ^ j.
Hypothesis HX : forall j, (j <= p)%nat -> / 2 ^ 1000 <= q * (rho ^ j * / D ^ S j).
Hypothesis AL : forall k, (1 <= k <= p)%nat -> Cmod (RtoC (INR k) * al k)%C <= N * (q * rho ^ k).
Notation close k a := (Cmod (creal a - al k)%C <= N * (5 * N + 24 * INR k + 12) * u * (q * rho ^ k)).
Notation V := (N * q * / D).
Notation E := ((INR p + 1) * (6 * N + 25 * INR p + 70) * u * V).
Lemma force_term k a ip : (1 <= k <= p)%nat -> (fin a -> close k a) -> (fin ip -> close_inv ip (S k)) -> fin (m (cscale (nat_float k) a) ip) ->
  Cmod (creal (m (cscale (nat_float k) a) ip) - RtoC (INR k) * al k / Cpow zeta (S k))%C <= E /\ Cmod (RtoC (INR k) * al k / Cpow zeta (S k))%C <= V.
Proof.
  intros K HC HP F. assert (KI : INR k <= INR p) by (apply le_INR; lia). assert (K1 : 1 <= INR k) by (change 1 with (INR 1); apply le_INR; lia).
  assert (KZ : (Z.of_nat k <= 9007199254740992)%Z). { assert (G : INR k <= 1000) by lra. rewrite INR_IZR_INZ in G. apply le_IZR in G. lia. }
  assert (FS : fin (cscale (nat_float k) a)) by (apply (fin_from (m (cscale (nat_float k) a) ip)); [intros B; apply ruined_bad, mul_bad_l; assumption|exact F]).
  assert (FI : fin ip) by (apply (fin_from (m (cscale (nat_float k) a) ip)); [intros B; apply ruined_bad, mul_bad_r; assumption|exact F]). specialize (HP FI).
  assert (FA : fin a) by (apply (fin_from (cscale (nat_float k) a)); [apply bad_scale|exact FS]). specialize (HC FA). assert (NR := nat_float_real k KZ). assert (P := small_inv). assert (I1 : 0 < / 2 ^ 1000) by (apply Rinv_0_lt_compat, pow_lt; lra).
  assert (ALK := AL k K). assert (IM := inv_mod (S k)). assert (HRK := HR k ltac:(lia)). assert (HXK := HX k ltac:(lia)). rewrite (S_INR k) in HP. set (n := INR k) in *. set (s := rho ^ k) in *. set (r := / D ^ S k) in *. assert (s0 : 0 < s) by (apply pow_lt, R0). assert (r0 : 0 < r) by (apply Rinv_0_lt_compat, pow_lt, D0).
  set (T := q * s) in *. assert (T0 : 0 < T) by (apply Rmult_lt_0_compat; lra). set (w := (RtoC n * al k)%C) in *. assert (NT : 1 * T <= N * T) by (apply Rmult_le_compat_r; lra).
  assert (SR : s * r <= / D). { unfold s, r. cbn [pow]. rewrite Rinv_mult. assert (DK : 0 < D ^ k) by (apply pow_lt, D0). replace (rho ^ k * (/ D * / D ^ k)) with (rho ^ k * / D ^ k * / D) by ring. rewrite <- (Rmult_1_l (/ D)) at 2. apply Rmult_le_compat_r; [left; apply Rinv_0_lt_compat, D0|].
    apply Rmult_le_reg_r with (D ^ k); [exact DK|]. rewrite Rmult_assoc, Rinv_l, Rmult_1_r, Rmult_1_l by lra. apply pow_incr. lra. }
  set (h := n * (5 * N + 24 * n + 12)). assert (H0 : 0 <= h) by (unfold h; apply Rmult_le_pos; lra). assert (HU : h * u <= / 1000) by (unfold h; nra).
  assert (CA : Cmod (RtoC n * creal a - w)%C <= h * u * (N * T)).
  { unfold w. replace (RtoC n * creal a - RtoC n * al k)%C with (RtoC n * (creal a - al k))%C by ring. rewrite Cmod_mult, Cmod_R, Rabs_pos_eq by lra. apply Rle_trans with (n * (N * (5 * N + 24 * n + 12) * u * T)); [apply Rmult_le_compat_l; [lra|exact HC]|]. right. unfold h. ring. }
  assert (CB := Cmod_from _ _ _ _ CA ALK). assert (HT : h * u * (N * T) <= / 1000 * (N * T)) by (apply Rmult_le_compat_r; lra). rewrite Cmod_mult, Cmod_R in CB.
  destruct (cscale_error (nat_float k) a (1001 / 1000 * (N * T)) FS) as [_ SE]; [rewrite NR; fold n; lra|apply eta_of; lra|]. rewrite NR in SE. fold n in SE. set (bb := cscale (nat_float k) a) in *.
  assert (BE := Cmod_diff _ _ _ _ _ SE CA). replace (4 * u * (1001 / 1000 * (N * T)) + h * u * (N * T)) with ((h + 1001 / 250) * u * (N * T)) in BE by field. assert (BM := Cmod_from _ _ _ _ BE ALK).
  assert (BM' : Cmod (creal bb) <= 101 / 100 * (N * T)). { replace ((h + 1001 / 250) * u * (N * T)) with (h * u * (N * T) + 1001 / 250 * u * (N * T)) in BM by ring. lra. }
  assert (PM := Cmod_from _ _ _ _ HP (Req_le _ _ IM)). fold r in PM. assert (PM' : Cmod (creal ip) <= 1001 / 1000 * r) by (assert (48 * (n + 1) * u * r <= / 1000 * r) by (apply Rmult_le_compat_r; lra); lra).
  set (y := N * T * r). assert (Y0 : 0 < y) by (unfold y; apply Rmult_lt_0_compat; lra). assert (YV : y <= V). { unfold y, T. replace (N * (q * s) * r) with (N * q * (s * r)) by ring. apply Rmult_le_compat_l; [apply Rmult_le_pos; lra|exact SR]. }
  assert (MM : Cmod (creal bb) * Cmod (creal ip) <= 102 / 100 * y). { apply Rle_trans with (101 / 100 * (N * T) * (1001 / 1000 * r)); [apply Rmult_le_compat; try apply Cmod_ge_0; assumption|]. replace (101 / 100 * (N * T) * (1001 / 1000 * r)) with (101101 / 100000 * y) by (unfold y; field). lra. }
  assert (YE : / 2 ^ 1000 <= y). { unfold y. apply Rle_trans with (T * r); [unfold T; rewrite Rmult_assoc; exact HXK|apply Rmult_le_compat_r; lra]. }
  destruct (cmul_error m HM bb ip _ F MM ltac:(apply eta_of; lra)) as (_ & _ & PE).
  assert (PN : Cpow zeta (S k) <> RtoC 0) by (apply Cpow_nz, zeta_nz).
  assert (CE : Cmod (creal bb * creal ip - w / Cpow zeta (S k))%C <= (h + 1001 / 250) * u * (N * T) * (1001 / 1000 * r) + N * T * (48 * (n + 1) * u * r)).
  { replace (creal bb * creal ip - w / Cpow zeta (S k))%C with ((creal bb - w) * creal ip + w * (creal ip - / Cpow zeta (S k)))%C by (field; exact PN). eapply Rle_trans; [apply Cmod_triangle|]. rewrite !Cmod_mult. apply Rplus_le_compat; apply Rmult_le_compat; try apply Cmod_ge_0; assumption. }
  split.
  - eapply Rle_trans; [exact (Cmod_diff _ _ _ _ _ PE CE)|]. replace (16 * u * (102 / 100 * y) + ((h + 1001 / 250) * u * (N * T) * (1001 / 1000 * r) + N * T * (48 * (n + 1) * u * r))) with ((16 * (102 / 100) + (h + 1001 / 250) * (1001 / 1000) + 48 * (n + 1)) * u * y) by (unfold y; field).
    apply Rmult_le_compat; [apply Rmult_le_pos; [|lra]; lra|lra| |exact YV]. apply Rmult_le_compat_r; [lra|]. unfold h. set (P' := INR p) in *. assert (n * n <= P' * P') by (apply Rmult_le_compat; lra). assert (n * N <= P' * N) by (apply Rmult_le_compat_r; lra). assert (0 <= P' * N) by (apply Rmult_le_pos; lra). nra.
  - unfold Cdiv. rewrite Cmod_mult, IM. eapply Rle_trans; [apply Rmult_le_compat_r; [lra|exact ALK]|]. fold y. exact YV.
Qed.
Fixpoint force_tail (k l : nat) : C := match l with O => RtoC 0 | S l' => (RtoC (INR k) * al k / Cpow zeta (S k) + force_tail (S k) l')%C end.
Lemma force_loop_fin cs : forall k ip res, fin (me2_force_loopF A z ip res k cs) -> fin res.
Proof. induction cs as [|a cs IH]; intros k ip res F; cbn [me2_force_loopF] in F; [exact F|]. apply IH in F. apply (fin_from (csub res (m (cscale (nat_float k) a) ip))); [apply bad_sub_l|exact F]. Qed.
Lemma force_loop W cs : V <= W -> forall k ip res S0 eps sig, (1 <= k)%nat -> (k + length cs <= S p)%nat -> (forall j a, nth_error cs j = Some a -> fin a -> close (k + j)%nat a) -> (cs <> nil -> fin ip -> close_inv ip (S k)) ->
  Cmod (creal res - S0)%C <= eps -> Cmod S0 <= sig -> sig + INR (length cs) * V <= W -> eps + INR (length cs) * (5 * u * W + E) <= / 100 * W ->
  fin (me2_force_loopF A z ip res k cs) ->
  Cmod (creal (me2_force_loopF A z ip res k cs) - (S0 - force_tail k (length cs)))%C <= eps + INR (length cs) * (5 * u * W + E).
Proof.
  intros W1. assert (ID : 0 < / D) by (apply Rinv_0_lt_compat, D0). assert (NQ : 0 < V) by (repeat apply Rmult_lt_0_compat; lra). assert (E0 : 0 <= E) by (assert (G := pos_INR p); repeat apply Rmult_le_pos; lra).
  induction cs as [|a cs IH]; intros k ip res S0 eps sig K L HC HP HRE HS SW EW F.
  - cbn [me2_force_loopF length force_tail] in *. change (INR 0) with 0 in *. replace (S0 - RtoC 0)%C with S0 by ring. lra.
  - cbn [me2_force_loopF length force_tail] in *. rewrite (S_INR (length cs)) in *. assert (LN := pos_INR (length cs)). assert (F1 := force_loop_fin cs _ _ _ F). set (t := m (cscale (nat_float k) a) ip) in *.
    assert (FT : fin t) by (apply (fin_from (csub res t)); [apply bad_sub_r|exact F1]).
    destruct (force_term k a ip ltac:(lia) ltac:(intros FA; specialize (HC 0%nat a eq_refl FA); rewrite Nat.add_0_r in HC; exact HC) (HP ltac:(discriminate)) FT) as [TE TM]. set (tt := (RtoC (INR k) * al k / Cpow zeta (S k))%C) in *. fold t in TE.
    assert (LW : 0 <= INR (length cs) * (5 * u * W + E)) by (apply Rmult_le_pos; lra). assert (LQ : 0 <= INR (length cs) * V) by (apply Rmult_le_pos; lra).
    assert (DF : Cmod (creal res - creal t - (S0 - tt))%C <= eps + E). { replace (creal res - creal t - (S0 - tt))%C with (creal res - S0 + - (creal t - tt))%C by ring. eapply Rle_trans; [apply Cmod_triangle|]. rewrite Cmod_opp. lra. }
    assert (ST : Cmod (S0 - tt)%C <= sig + V). { unfold Cminus. eapply Rle_trans; [apply Cmod_triangle|]. rewrite Cmod_opp. lra. }
    assert (SB := Cmod_from _ _ _ _ DF ST). assert (SB' : Cmod (creal res - creal t)%C <= 101 / 100 * W) by lra.
    assert (WE : eta <= u * (101 / 100 * W)). { apply eta_of. assert (G := HX 0%nat ltac:(lia)). rewrite pow_O, pow_1, Rmult_1_l in G. assert (P := small_inv). assert (I1 : 0 < / 2 ^ 1000) by (apply Rinv_0_lt_compat, pow_lt; lra). assert (1 * (q * / D) <= N * (q * / D)) by (apply Rmult_le_compat_r; [apply Rmult_le_pos; lra|lra]). apply Rle_trans with (/ 8 * / 2 ^ 1000); [exact P|]. apply Rle_trans with (/ 2 ^ 1000); [lra|]. apply Rle_trans with (q * / D); [exact G|]. apply Rle_trans with W; [|lra]. apply Rle_trans with V; [|exact W1]. lra. }
    destruct (csub_error res t _ F1 SB' WE) as (_ & _ & RE). assert (RE' := Cmod_diff _ _ _ _ _ RE DF).
    replace (S0 - (tt + force_tail (S k) (length cs)))%C with (S0 - tt - force_tail (S k) (length cs))%C by ring.
    replace (eps + (INR (length cs) + 1) * (5 * u * W + E)) with (eps + (5 * u * W + E) + INR (length cs) * (5 * u * W + E)) by ring.
    assert (UW : 0 < u * W) by (apply Rmult_lt_0_compat; lra).
    apply (IH (S k) (dv ip z) (csub res t) (S0 - tt)%C (eps + (5 * u * W + E)) (sig + V)).
    + lia.
    + lia.
    + intros j a' J FA. specialize (HC (S j) a' J FA). replace (S k + j)%nat with (k + S j)%nat by lia. exact HC.
    + intros NE FD. destruct cs as [|a' cs']; [congruence|]. cbn [length] in L. apply (inverse_step (S k) ip); [lia|exact (HP ltac:(discriminate))|exact FD].
    + lra.
    + exact ST.
    + lra.
    + lra.
    + exact F.
Qed.
End Force.
