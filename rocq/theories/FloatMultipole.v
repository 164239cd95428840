(** Accuracy of the potential of two-dimensional multipole expansions in doubles, with underflow. *)
From Coq Require Import Reals List Bool ZArith Arith Lia Lra Psatz.
From Coquelicot Require Import Complex.
From Flocq Require Import Core Relative Plus_error BinarySingleNaN PrimFloat.
From Verif Require Import Num Outcome Vec Tables TableProofs CAux FloatCases FloatFit FloatExpansion2D FloatExpansionSpec FloatOverflow FloatExpansionProofs FloatExpansionCases FloatCoefficientSpec FloatCoefficients.
From Coq Require Import Floats.
Import ListNotations.
Local Open Scope R_scope.
Notation u := (/ 9007199254740992).

Lemma eta_of M : / 2 ^ 1020 <= M -> eta <= u * M.
Proof.
  intros H. apply Rle_trans with (u * / 2 ^ 1020); [|apply Rmult_le_compat_l; lra]. replace u with (/ 2 ^ 53) by (f_equal; cbn; ring). rewrite <- Rinv_mult, <- pow_add.
  unfold eta. replace (/ 2 ^ (53 + 1020)) with (pw (-1073)); [apply bpow_le; lia|]. change (-1073)%Z with (- Z.of_nat 1073)%Z. rewrite bpow_opp, pw_pow. reflexivity.
Qed.
Section Potential.
Variable A : cfarith.
Hypothesis HM : usual_product (f_mul A).
Hypothesis HD : accurate_quotient (f_div A).
Hypothesis HL : accurate_logarithm (f_log A).
Notation m := (f_mul A).
Notation dv := (f_div A).
(** The real part of a product. *)
Lemma mul_re_error a b M : PrimFloat.is_finite (fst (m a b)) = true -> Cmod (creal a) * Cmod (creal b) <= M -> eta <= u * M -> fin a /\ fin b /\ Rabs (real_of (fst (m a b)) - fst (creal a * creal b)%C) <= 8 * u * M.
Proof.
  intros F H E. assert (G := HM a b). cbv zeta in G. destruct (_ && _)%bool in G.
  - destruct G as [G _]. rewrite G in F. discriminate.
  - rewrite G in F |- *. cbn [fst] in *. apply sub_finite in F. destruct F as (A1 & A2 & E1). apply mul_finite in A1, A2. destruct A1 as (X1 & X2 & R1), A2 as (X3 & X4 & R2).
    split; [split; assumption|]. split; [split; assumption|]. destruct a as [a1 a2], b as [b1 b2]. unfold creal in *. cbn [fst snd Cmult] in *. destruct (part_le (real_of a1) (real_of a2) (real_of b1) (real_of b2)) as (P1 & P2 & _ & _).
    assert (L0 : 0 <= M) by (eapply Rle_trans; [|exact H]; apply Rmult_le_pos; apply Cmod_ge_0). rewrite E1, R1, R2.
    assert (T1 := two_products _ _ M L0 E (Rle_trans _ _ _ P1 H) (Rle_trans _ _ _ P2 H) (-1) (or_intror eq_refl)).
    replace (rndF (real_of a1 * real_of b1) - rndF (real_of a2 * real_of b2)) with (rndF (real_of a1 * real_of b1) + -1 * rndF (real_of a2 * real_of b2)) by ring.
    replace (real_of a1 * real_of b1 - real_of a2 * real_of b2) with (real_of a1 * real_of b1 + -1 * (real_of a2 * real_of b2)) by ring. exact T1.
Qed.
Lemma re_finite a b : PrimFloat.is_finite (fst (m a b)) = true -> fin a /\ fin b.
Proof. intros F. destruct (mul_re_error a b (Rmax (Cmod (creal a) * Cmod (creal b)) 1) F (Rmax_l _ _)) as (H1 & H2 & _); [apply eta_small, Rmax_r|auto]. Qed.

Variables (z : CF) (zeta : C) (D : R).
Hypothesis FZ : fin z.
Hypothesis D0 : 0 < D.
Hypothesis ZD : Cmod zeta = D.
Hypothesis ZE : Cmod (creal z - zeta)%C <= 4 * u * D.
Hypothesis DR : 2 * / 2 ^ 400 <= D <= / 2 * 2 ^ 400.
Lemma z_mod : (1 - 4 * u) * D <= Cmod (creal z) <= (1 + 4 * u) * D.
Proof.
  split; [|assert (H := Cmod_from _ _ _ _ ZE (Req_le _ _ ZD)); lra].
  assert (T := Cmod_triangle (creal z) (zeta - creal z)%C). replace (creal z + (zeta - creal z))%C with zeta in T by ring. replace (zeta - creal z)%C with (- (creal z - zeta))%C in T by ring. rewrite Cmod_opp in T. lra.
Qed.
Lemma z_range : / 2 ^ 400 <= Cmod (value_of z) <= 2 ^ 400.
Proof. change (value_of z) with (creal z). assert (H := z_mod). assert (0 < / 2 ^ 400) by (apply Rinv_0_lt_compat, pow_lt; lra). assert (0 < 2 ^ 400) by (apply pow_lt; lra). nra. Qed.
Lemma nonzero_mod (w : C) : 0 < Cmod w -> w <> RtoC 0.
Proof. intros H ->. rewrite Cmod_0 in H. lra. Qed.
(** The computed inverse powers. *)
Notation ipow k := (Nat.iter k (fun w => dv w z) oneC).
Lemma inverse_power k : INR k <= 1048576 -> (forall j, (j <= k)%nat -> / 2 ^ 1000 <= / D ^ j) -> / 2 ^ 1000 <= D -> fin (ipow k) -> Cmod (creal (ipow k) - / Cpow zeta k)%C <= 48 * INR k * u * / D ^ k.
Proof.
  assert (ZN : zeta <> RtoC 0) by (apply nonzero_mod; lra). assert (ZM := z_mod). assert (CN : creal z <> RtoC 0) by (apply nonzero_mod; nra).
  intros K HE HD1. induction k as [|k IH]; intros F.
  - change (ipow 0) with oneC. cbn [Cpow pow INR]. assert (O : creal oneC = RtoC 1) by (unfold creal, oneC, RtoC; cbn [fst snd]; rewrite (proj2 FloatFit.one_real), (proj2 zero_real); reflexivity).
    rewrite O. replace (RtoC 1 - / RtoC 1)%C with (RtoC 0) by (field; intros H; injection H; lra). rewrite Cmod_0. lra.
  - cbn [Nat.iter] in *. change (Nat.iter k (fun w => dv w z) oneC) with (ipow k) in *. set (w := ipow k) in *. assert (SI := S_INR k). assert (K0 := pos_INR k). destruct (HD w z FZ z_range F) as [FW Q].
    specialize (IH ltac:(lra) ltac:(intros j J; apply HE; lia) FW). rewrite SI. set (n := INR k) in *. set (r := / D ^ k) in *. assert (DK : 0 < D ^ k) by (apply pow_lt, D0). assert (R0 : 0 < r) by (apply Rinv_0_lt_compat, DK).
    assert (RS : / D ^ S k = r * / D) by (unfold r; cbn [pow]; rewrite Rinv_mult; ring). rewrite RS. set (i := / D) in *. assert (I0 : 0 < i) by (apply Rinv_0_lt_compat, D0). assert (ID : i * D = 1) by (apply Rinv_l; lra).
    assert (IM : Cmod (/ Cpow zeta k)%C = r) by (rewrite Cmod_inv by (apply Cpow_nz, ZN); rewrite Cmod_pow, ZD; reflexivity).
    assert (WM := Cmod_from _ _ _ _ IH (Req_le _ _ IM)). assert (NU : 48 * n * u <= / 1000) by lra. assert (WM' : Cmod (creal w) <= 1001 / 1000 * r) by nra.
    assert (E1 : / 2 ^ 1000 <= r * i) by (rewrite <- RS; apply HE; lia). assert (P1 : / 2 ^ 1020 <= / 2 * / 2 ^ 1000).
    { replace (/ 2 * / 2 ^ 1000) with (/ 2 ^ 1001) by (rewrite <- Rinv_mult; reflexivity). apply Rinv_le_contravar; [apply pow_lt; lra|apply Rle_pow; [lra|lia]]. }
    assert (Q1 : Cmod (value_of (dv w z) - value_of w / value_of z)%C <= 32 * u * (101 / 100 * (r * i))).
    { apply Q.
      - change (value_of w) with (creal w). change (value_of z) with (creal z). eapply Rle_trans; [exact WM'|]. apply Rle_trans with (101 / 100 * (r * i) * ((1 - 4 * u) * D)); [|apply Rmult_le_compat_l; [assert (0 < r * i) by (apply Rmult_lt_0_compat; lra); lra|lra]].
        replace (101 / 100 * (r * i) * ((1 - 4 * u) * D)) with (101 / 100 * (1 - 4 * u) * r * (i * D)) by ring. rewrite ID. nra.
      - assert (0 < / 2 ^ 1000) by (apply Rinv_0_lt_compat, pow_lt; lra). lra.
      - change (value_of z) with (creal z). assert (E2 : / 2 ^ 1000 <= r * D).
        { destruct k as [|k']; [unfold r; cbn [pow]; lra|]. replace (r * D) with (/ D ^ k') by (unfold r; cbn [pow]; field; split; [apply pow_nonzero; lra|lra]). apply HE. lia. }
        assert (ZS : (1 - 8 * u) * D ^ 2 <= Cmod (creal z) ^ 2). { apply Rle_trans with (((1 - 4 * u) * D) ^ 2); [|apply pow_incr; split; [apply Rmult_le_pos; lra|lra]]. rewrite Rpow_mult_distr. apply Rmult_le_compat_r; [apply pow2_ge_0|]. nra. }
        apply Rle_trans with (101 / 100 * (r * i) * ((1 - 8 * u) * D ^ 2)); [|apply Rmult_le_compat_l; [assert (0 < r * i) by (apply Rmult_lt_0_compat; lra); lra|exact ZS]].
        replace (101 / 100 * (r * i) * ((1 - 8 * u) * D ^ 2)) with (101 / 100 * (1 - 8 * u) * (r * D) * (i * D)) by ring. rewrite ID. assert (0 < / 2 ^ 1000) by (apply Rinv_0_lt_compat, pow_lt; lra). nra. }
    change (value_of (dv w z)) with (creal (dv w z)) in Q1. change (value_of w) with (creal w) in Q1. change (value_of z) with (creal z) in Q1.
    assert (CI : Cmod (/ creal z)%C <= (1 + 5 * u) * i).
    { rewrite Cmod_inv by exact CN. apply Rmult_le_reg_r with (Cmod (creal z)); [nra|]. rewrite Rinv_l by nra. apply Rle_trans with ((1 + 5 * u) * i * ((1 - 4 * u) * D)); [|apply Rmult_le_compat_l; [nra|lra]]. replace ((1 + 5 * u) * i * ((1 - 4 * u) * D)) with ((1 + 5 * u) * (1 - 4 * u) * (i * D)) by ring. rewrite ID. lra. }
    assert (Q2 : Cmod (creal w / creal z - / Cpow zeta (S k))%C <= 48 * n * u * r * ((1 + 5 * u) * i) + r * (4 * u * D * (((1 + 5 * u) * i) * i))).
    { rewrite Cpow_S. assert (PN : Cpow zeta k <> RtoC 0) by (apply Cpow_nz, ZN).
      replace (creal w / creal z - / (zeta * Cpow zeta k))%C with ((creal w - / Cpow zeta k) * / creal z + / Cpow zeta k * (- (creal z - zeta) * (/ creal z * / zeta)))%C by (field; repeat split; assumption).
      eapply Rle_trans; [apply Cmod_triangle|]. rewrite !Cmod_mult, Cmod_opp, IM, (Cmod_inv zeta) by exact ZN. rewrite ZD. fold i.
      apply Rplus_le_compat; [apply Rmult_le_compat; try apply Cmod_ge_0; assumption|]. apply Rmult_le_compat_l; [lra|]. apply Rmult_le_compat; [apply Cmod_ge_0|apply Rmult_le_pos; [apply Cmod_ge_0|lra]|exact ZE|apply Rmult_le_compat_r; [lra|exact CI]]. }
    eapply Rle_trans; [exact (Cmod_diff _ _ _ _ _ Q1 Q2)|]. set (y := u * (r * i)). assert (Y0 : 0 < y) by (apply Rmult_lt_0_compat; [lra|apply Rmult_lt_0_compat; lra]).
    replace (32 * u * (101 / 100 * (r * i))) with (808 / 25 * y) by (unfold y; field). replace (48 * n * u * r * ((1 + 5 * u) * i)) with (48 * (n * y) + 240 * u * (n * y)) by (unfold y; ring).
    replace (r * (4 * u * D * ((1 + 5 * u) * i * i))) with (4 * (1 + 5 * u) * y * (i * D)) by (unfold y; ring). rewrite ID. replace (48 * (n + 1) * u * (r * i)) with (48 * (n * y) + 48 * y) by (unfold y; ring).
    assert (NY : n * y <= 1048576 * y) by (apply Rmult_le_compat_r; lra). assert (240 * u * (n * y) <= 240 * u * (1048576 * y)) by (apply Rmult_le_compat_l; lra). lra.
Qed.
(** The loop of multipole_expansion.hpp 109-112. *)
Variables (al : nat -> C) (N q rho : R) (p : nat).
Hypothesis PB : INR p <= 1048576.
Hypothesis N1 : 1 <= N <= 1048576.
Hypothesis Q0 : 0 < q.
Hypothesis R0 : 0 < rho.
Hypothesis RD : rho <= D.
Hypothesis HI : forall j, (j <= p)%nat -> / 2 ^ 1000 <= / D ^ j.
Hypothesis HX : forall j, (j <= p)%nat -> / 2 ^ 1000 <= q * (rho ^ j * / D ^ j).
Hypothesis HD1 : / 2 ^ 1000 <= D.
Hypothesis AL : forall k, (k <= p)%nat -> Cmod (al k) <= N * (q * rho ^ k).
Notation close k a := (Cmod (creal a - al k)%C <= N * (5 * N + 24 * INR k + 12) * u * (q * rho ^ k)).
Notation E := (N * (6 * N + 80 * INR p + 32) * u * q).
Lemma term_error k a : (k <= p)%nat -> (fin a -> close k a) -> PrimFloat.is_finite (fst (m a (ipow k))) = true ->
  Rabs (real_of (fst (m a (ipow k))) - Re (al k / Cpow zeta k)%C) <= E /\ Rabs (Re (al k / Cpow zeta k)%C) <= N * q.
Proof.
  intros K HC F. destruct (re_finite _ _ F) as [FA FI]. specialize (HC FA). assert (KI : INR k <= INR p) by (apply le_INR, K). assert (K0 := pos_INR k).
  assert (IE := inverse_power k ltac:(lra) ltac:(intros j J; apply HI; lia) HD1 FI). set (w := ipow k) in *.
  assert (ZN : zeta <> RtoC 0) by (apply nonzero_mod; lra). assert (PN : Cpow zeta k <> RtoC 0) by (apply Cpow_nz, ZN).
  assert (IM : Cmod (/ Cpow zeta k)%C = / D ^ k) by (rewrite Cmod_inv by exact PN; rewrite Cmod_pow, ZD; reflexivity).
  assert (HXK := HX k K). set (r := / D ^ k) in *. set (s := rho ^ k) in *. set (n := INR k) in *. assert (DK : 0 < D ^ k) by (apply pow_lt, D0). assert (r0 : 0 < r) by (apply Rinv_0_lt_compat, DK). assert (s0 : 0 < s) by (apply pow_lt, R0).
  assert (SR : s * r <= 1). { unfold s, r. apply Rmult_le_reg_r with (D ^ k); [exact DK|]. rewrite Rmult_assoc, Rinv_l, Rmult_1_r, Rmult_1_l by lra. apply pow_incr. lra. }
  assert (SR0 : 0 < s * r) by (apply Rmult_lt_0_compat; lra). assert (WM := Cmod_from _ _ _ _ IE (Req_le _ _ IM)). assert (NU : 48 * n * u <= / 1000) by lra. assert (WM' : Cmod (creal w) <= 1001 / 1000 * r) by nra.
  assert (QS : 0 < q * s) by (apply Rmult_lt_0_compat; lra). set (T := q * s) in *. assert (NT : 0 < N * T) by (apply Rmult_lt_0_compat; lra).
  assert (AM := Cmod_from _ _ _ _ HC (AL k K)). change (q * rho ^ k) with T in AM. assert (AM' : Cmod (creal a) <= 101 / 100 * (N * T)).
  { eapply Rle_trans; [exact AM|]. replace (N * (5 * N + 24 * n + 12) * u * T) with ((5 * N + 24 * n + 12) * u * (N * T)) by ring. assert ((5 * N + 24 * n + 12) * u * (N * T) <= / 100 * (N * T)) by (apply Rmult_le_compat_r; [apply Rlt_le; exact NT|clear - N1 KI PB; lra]). lra. }
  assert (NQ : 0 < N * q * (s * r)) by (apply Rmult_lt_0_compat; [apply Rmult_lt_0_compat; lra|lra]).
  assert (MM : Cmod (creal a) * Cmod (creal w) <= 102 / 100 * (N * q * (s * r))).
  { apply Rle_trans with (101 / 100 * (N * T) * (1001 / 1000 * r)); [apply Rmult_le_compat; try apply Cmod_ge_0; assumption|]. replace (101 / 100 * (N * T) * (1001 / 1000 * r)) with (101101 / 100000 * (N * q * (s * r))) by (unfold T; field). lra. }
  assert (ME : eta <= u * (102 / 100 * (N * q * (s * r)))).
  { apply eta_of. assert (P1 : / 2 ^ 1020 <= / 2 ^ 1000) by (apply Rinv_le_contravar; [apply pow_lt; lra|apply Rle_pow; [lra|lia]]). assert (G : 1 * (q * (s * r)) <= N * (q * (s * r))) by (apply Rmult_le_compat_r; [apply Rmult_le_pos; lra|lra]). replace (N * q * (s * r)) with (N * (q * (s * r))) by ring. lra. }
  destruct (mul_re_error a w _ F MM ME) as (_ & _ & RE).
  assert (CE : Cmod (creal a * creal w - al k / Cpow zeta k)%C <= N * (5 * N + 24 * n + 12) * u * T * (1001 / 1000 * r) + N * T * (48 * n * u * r)).
  { replace (creal a * creal w - al k / Cpow zeta k)%C with ((creal a - al k) * creal w + al k * (creal w - / Cpow zeta k))%C by (field; exact PN). eapply Rle_trans; [apply Cmod_triangle|]. rewrite !Cmod_mult.
    apply Rplus_le_compat; apply Rmult_le_compat; try apply Cmod_ge_0; try assumption. apply AL, K. }
  split.
  - assert (RC := proj1 (part_mod (creal a * creal w - al k / Cpow zeta k)%C)). replace (real_of (fst (m a w)) - Re (al k / Cpow zeta k)%C) with (real_of (fst (m a w)) - fst (creal a * creal w)%C + (fst (creal a * creal w)%C - fst (al k / Cpow zeta k)%C)) by (unfold Re; ring).
    eapply Rle_trans; [apply Rabs_triang|]. change (fst (creal a * creal w)%C - fst (al k / Cpow zeta k)%C) with (fst (creal a * creal w - al k / Cpow zeta k)%C).
    apply Rle_trans with (8 * u * (102 / 100 * (N * q * (s * r))) + (N * (5 * N + 24 * n + 12) * u * T * (1001 / 1000 * r) + N * T * (48 * n * u * r))); [lra|].
    set (y := N * u * q * (s * r)). assert (Y0 : 0 <= y) by (unfold y; apply Rmult_le_pos; [apply Rmult_le_pos; [apply Rmult_le_pos; lra|lra]|lra]).
    replace (8 * u * (102 / 100 * (N * q * (s * r))) + (N * (5 * N + 24 * n + 12) * u * T * (1001 / 1000 * r) + N * T * (48 * n * u * r))) with ((204 / 25 + (5 * N + 24 * n + 12) * (1001 / 1000) + 48 * n) * y) by (unfold y, T; field).
    apply Rle_trans with ((6 * N + 80 * INR p + 32) * y); [apply Rmult_le_compat_r; lra|]. unfold y. replace ((6 * N + 80 * INR p + 32) * (N * u * q * (s * r))) with (E * (s * r)) by ring.
    rewrite <- (Rmult_1_r E) at 2. apply Rmult_le_compat_l; [|exact SR]. repeat apply Rmult_le_pos; lra.
  - eapply Rle_trans; [apply (proj1 (part_mod _))|]. unfold Cdiv. rewrite Cmod_mult, IM. apply Rle_trans with (N * T * r); [apply Rmult_le_compat_r; [lra|apply AL, K]|]. replace (N * T * r) with (N * q * (s * r)) by (unfold T; ring). rewrite <- (Rmult_1_r (N * q)) at 2. apply Rmult_le_compat_l; [apply Rmult_le_pos; lra|exact SR].
Qed.
Fixpoint tail_sum (k l : nat) : R := match l with O => 0 | S l' => Re (al k / Cpow zeta k)%C + tail_sum (S k) l' end.
Lemma loop_fin cs : forall ip res, PrimFloat.is_finite (fst (me2_pot_loopF A z ip res cs)) = true -> PrimFloat.is_finite (fst res) = true.
Proof. induction cs as [|a cs IH]; intros ip res F; cbn [me2_pot_loopF] in F; [exact F|]. apply IH in F. cbn [cadd fst] in F. apply add_finite in F. apply F. Qed.
Lemma pot_loop W cs : N * q <= W -> forall k res S0 eps sig, (k + length cs <= S p)%nat -> (forall j a, nth_error cs j = Some a -> fin a -> close (k + j)%nat a) ->
  Rabs (real_of (fst res) - S0) <= eps -> Rabs S0 <= sig -> sig + INR (length cs) * (N * q) <= W -> eps + INR (length cs) * (3 * u * W + E) <= / 100 * W ->
  PrimFloat.is_finite (fst (me2_pot_loopF A z (ipow k) res cs)) = true ->
  Rabs (real_of (fst (me2_pot_loopF A z (ipow k) res cs)) - (S0 + tail_sum k (length cs))) <= eps + INR (length cs) * (3 * u * W + E).
Proof.
  intros W1. assert (NQ : 0 < N * q) by (apply Rmult_lt_0_compat; lra). assert (E0 : 0 <= E) by (assert (G := pos_INR p); repeat apply Rmult_le_pos; lra).
  induction cs as [|a cs IH]; intros k res S0 eps sig L HC HR HS SW EW F.
  - cbn [me2_pot_loopF length tail_sum] in *. change (INR 0) with 0 in *. rewrite Rplus_0_r. lra.
  - cbn [me2_pot_loopF length tail_sum] in *. rewrite S_INR in *. assert (LN := pos_INR (length cs)). assert (F1 := loop_fin cs _ _ F). cbn [cadd fst] in F1. apply add_finite in F1. destruct F1 as (_ & FT & RA).
    destruct (term_error k a ltac:(lia) ltac:(intros FA; specialize (HC 0%nat a eq_refl FA); rewrite Nat.add_0_r in HC; exact HC) FT) as [TE TM]. set (t := Re (al k / Cpow zeta k)%C) in *. set (tt := real_of (fst (m a (ipow k)))) in *.
    assert (LW : 0 <= INR (length cs) * (3 * u * W + E)) by (apply Rmult_le_pos; lra). assert (LQ : 0 <= INR (length cs) * (N * q)) by (apply Rmult_le_pos; lra).
    assert (SB : Rabs (real_of (fst res) + tt) <= 101 / 100 * W).
    { replace (real_of (fst res) + tt) with (S0 + t + ((real_of (fst res) - S0) + (tt - t))) by ring. eapply Rle_trans; [apply Rabs_triang|]. assert (G1 := Rabs_triang S0 t). assert (G2 := Rabs_triang (real_of (fst res) - S0) (tt - t)). lra. }
    assert (WE : eta <= u * (101 / 100 * W)). { apply Rle_trans with (u * W); [|lra]. apply eta_of. assert (G := HX 0%nat ltac:(lia)). cbn [pow] in G. rewrite Rinv_1 in G. assert (P1 : / 2 ^ 1020 <= / 2 ^ 1000) by (apply Rinv_le_contravar; [apply pow_lt; lra|apply Rle_pow; [lra|lia]]). nra. }
    assert (RE := rnd_within _ _ SB WE). rewrite <- RA in RE.
    replace (S0 + (t + tail_sum (S k) (length cs))) with (S0 + t + tail_sum (S k) (length cs)) by ring.
    replace (eps + (INR (length cs) + 1) * (3 * u * W + E)) with (eps + (3 * u * W + E) + INR (length cs) * (3 * u * W + E)) by ring.
    apply (IH (S k) (cadd res (m a (ipow k))) (S0 + t) (eps + (3 * u * W + E)) (sig + N * q)).
    + cbn [length] in L. lia.
    + intros j a' J FA. specialize (HC (S j) a' J FA). replace (S k + j)%nat with (k + S j)%nat by lia. exact HC.
    + cbn [cadd fst]. set (v := real_of (fst res + fst (m a (ipow k)))%float) in *. replace (v - (S0 + t)) with (v - (real_of (fst res) + tt) + ((real_of (fst res) - S0) + (tt - t))) by ring.
      eapply Rle_trans; [apply Rabs_triang|]. assert (G2 := Rabs_triang (real_of (fst res) - S0) (tt - t)). assert (0 < u * W) by (apply Rmult_lt_0_compat; lra). lra.
    + eapply Rle_trans; [apply Rabs_triang|]. lra.
    + lra.
    + lra.
    + exact F.
Qed.
End Potential.

(** *** The potential of the expansion of sources *)
Lemma inv_pow_le n k : (n <= k)%nat -> / 2 ^ k <= / 2 ^ n.
Proof. intros H. apply Rinv_le_contravar; [apply pow_lt; lra|apply Rle_pow; [lra|exact H]]. Qed.
Lemma moment_bound c q rho k srcs : (forall s, In s srcs -> within c q rho s) -> Cmod (moment c k srcs) <= INR (length srcs) * (q * rho ^ k).
Proof.
  intros HS. induction srcs as [|s srcs IH]; cbn [moment fold_right length].
  - rewrite Cmod_0. change (INR 0) with 0. lra.
  - fold (moment c k srcs). rewrite S_INR. destruct (HS s (or_introl eq_refl)) as [HQ HR]. specialize (IH (fun s' J => HS s' (or_intror J))).
    eapply Rle_trans; [apply Cmod_triangle|]. rewrite Cmod_mult, Cmod_R, Cmod_pow. assert (T : Rabs (real_of (ps_q s)) * Cmod (point_of (ps_pos s) - point_of c)%C ^ k <= q * rho ^ k); [|lra].
    apply Rmult_le_compat; [apply Rabs_pos|apply pow_le, Cmod_ge_0|exact HQ|]. apply pow_incr. split; [apply Cmod_ge_0|exact HR].
Qed.
Lemma coefficient_bound c q rho k srcs : 0 < q -> 0 < rho -> (forall s, In s srcs -> within c q rho s) -> Cmod (coefficient c k srcs) <= (INR (length srcs) + 1) * (q * rho ^ k).
Proof.
  intros Q0 R0 HS. assert (T0 : 0 < q * rho ^ k) by (apply Rmult_lt_0_compat; [exact Q0|apply pow_lt, R0]). assert (M := moment_bound c q rho k srcs HS). destruct k as [|k]; cbn [coefficient]; [lra|].
  assert (J1 : 1 <= INR (S k)) by (change 1 with (INR 1); apply le_INR; lia). assert (JN : RtoC (INR (S k)) <> RtoC 0) by (apply CINR_nz; lia).
  unfold Cdiv. rewrite Cmod_mult, Cmod_opp, (Cmod_inv _ JN), Cmod_R, (Rabs_pos_eq (INR (S k))) by lra. apply Rle_trans with (Cmod (moment c (S k) srcs) * 1); [|lra].
  apply Rmult_le_compat_l; [apply Cmod_ge_0|]. rewrite <- Rinv_1. apply Rinv_le_contravar; lra.
Qed.
Lemma tail_sum_last al zeta l : forall k, tail_sum zeta al k (S l) = tail_sum zeta al k l + Re (al (k + l)%nat / Cpow zeta (k + l))%C.
Proof.
  induction l as [|l IH]; intros k; [cbn [tail_sum]; rewrite Nat.add_0_r; ring|]. change (tail_sum zeta al k (S (S l))) with (Re (al k / Cpow zeta k)%C + tail_sum zeta al (S k) (S l)). rewrite IH.
  change (tail_sum zeta al k (S l)) with (Re (al k / Cpow zeta k)%C + tail_sum zeta al (S k) l). replace (S k + l)%nat with (k + S l)%nat by lia. ring.
Qed.
Lemma tail_series c srcs zeta p : tail_sum zeta (fun k => coefficient c k srcs) 1 p = Re (inverse_series c srcs zeta p).
Proof. induction p as [|p IH]; [reflexivity|]. rewrite tail_sum_last, IH. cbn [inverse_series]. unfold Re. cbn [Cplus fst]. reflexivity. Qed.
Lemma div_from_length cs : forall j, length (div_fromF j cs) = length cs.
Proof. induction cs as [|a cs IH]; intros j; [reflexivity|]. cbn [div_fromF length]. rewrite IH. reflexivity. Qed.
Lemma step0_snd srcs : forall z, snd (fold_left step0 srcs z) = snd z.
Proof. induction srcs as [|s srcs IH]; intros z; [reflexivity|]. cbn [fold_left]. rewrite IH. reflexivity. Qed.
Lemma ln_near x y : 0 < y -> (1 - 4 * u) * y <= x <= (1 + 4 * u) * y -> Rabs (ln x - ln y) <= 5 * u.
Proof.
  intros Y H. assert (X : 0 < x) by nra. assert (G : forall a b, 0 < a -> 0 < b -> b <= (1 + 5 * u) * a -> ln b - ln a <= 5 * u).
  { intros a b HA HB L. assert (P : 0 < 1 + 5 * u) by lra. assert (LB : ln b <= ln ((1 + 5 * u) * a)) by (destruct (Rle_lt_or_eq_dec _ _ L) as [K|K]; [left; apply ln_increasing; assumption|rewrite K; right; reflexivity]).
    rewrite ln_mult in LB by assumption. assert (LE : ln (1 + 5 * u) <= 5 * u). { rewrite <- (ln_exp (5 * u)) at 2. left. apply ln_increasing; [exact P|]. apply exp_ineq1. lra. } lra. }
  apply Rabs_le. assert (G1 := G y x Y X ltac:(nra)). assert (G2 := G x y X Y ltac:(nra)). lra.
Qed.
Lemma ln_range b x : / 2 ^ b <= x <= 2 ^ b -> Rabs (ln x) <= INR b.
Proof.
  intros [L U]. assert (P : 0 < 2 ^ b) by (apply pow_lt; lra). assert (P' := Rinv_0_lt_compat _ P). assert (L2 : 0 < ln 2 < 1).
  { split; [rewrite <- ln_1; apply ln_increasing; lra|]. rewrite <- (ln_exp 1). apply ln_increasing; [lra|]. assert (H := exp_ineq1 1 ltac:(lra)). lra. }
  assert (LP : ln (2 ^ b) = INR b * ln 2). { clear. induction b as [|b IH]; [cbn [pow INR]; rewrite ln_1; ring|]. cbn [pow]. rewrite ln_mult, IH, S_INR by (first [apply pow_lt; lra|lra]). ring. }
  assert (M : forall s t, 0 < s -> s <= t -> ln s <= ln t) by (intros s t HS K; destruct (Rle_lt_or_eq_dec _ _ K) as [K'| ->]; [left; apply ln_increasing; assumption|right; reflexivity]).
  assert (A1 := M _ _ P' L). assert (A2 := M x _ ltac:(lra) U). rewrite ln_Rinv in A1 by exact P. rewrite LP in A1, A2. assert (B0 := pos_INR b). assert (INR b * ln 2 <= INR b * 1) by (apply Rmult_le_compat_l; lra). apply Rabs_le. lra.
Qed.
Section Sources.
Variable A : cfarith.
Hypothesis HM : usual_product (f_mul A).
Hypothesis HD : accurate_quotient (f_div A).
Hypothesis HL : accurate_logarithm (f_log A).
Lemma start_error z a0 Q D B N q : fin z -> (1 - 4 * u) * D <= Cmod (creal z) <= (1 + 4 * u) * D -> / 2 ^ 400 <= Cmod (value_of z) <= 2 ^ 400 -> 0 < D -> Rabs (ln D) <= B -> 1 <= N <= 1048576 -> 0 < q -> / 2 ^ 1020 <= q ->
  Rabs Q <= N * q -> (PrimFloat.is_finite a0 = true -> Rabs (real_of a0 - Q) <= N * (5 * N + 12) * u * q) -> PrimFloat.is_finite (a0 * fst (f_log A z))%float = true ->
  Rabs (real_of (a0 * fst (f_log A z))%float - Q * ln D) <= (6 * N + 30) * u * (N * q * (B + 1)) /\ Rabs (Q * ln D) <= N * q * B.
Proof.
  intros FZ ZM ZR D0 HB N1 Q0 QE HQ HA F. apply mul_finite in F. destruct F as (F1 & F2 & E). specialize (HA F1). assert (HG := HL z FZ ZR). change (value_of z) with (creal z) in *. assert (LN := ln_near _ _ D0 ZM).
  rewrite E. set (t := real_of a0) in *. set (l := real_of (fst (f_log A z))) in *. set (lz := ln (Cmod (creal z))) in *. set (ld := ln D) in *. assert (B0 := Rle_trans _ _ _ (Rabs_pos ld) HB).
  assert (LZ : Rabs lz <= B + 5 * u) by (replace lz with (lz - ld + ld) by ring; eapply Rle_trans; [apply Rabs_triang|]; lra).
  assert (LE : Rabs (l - ld) <= 10 * u * (B + 1)) by (replace (l - ld) with (l - lz + (lz - ld)) by ring; eapply Rle_trans; [apply Rabs_triang|]; lra).
  assert (LM : Rabs l <= 101 / 100 * (B + 1)) by (replace l with (l - ld + ld) by ring; eapply Rle_trans; [apply Rabs_triang|]; lra).
  assert (NQ : 0 < N * q) by (apply Rmult_lt_0_compat; lra). assert (HA' : Rabs (t - Q) <= (5 * N + 12) * u * (N * q)) by lra.
  assert (S : (5 * N + 12) * u * (N * q) <= / 100 * (N * q)) by (apply Rmult_le_compat_r; lra). assert (TM : Rabs t <= 101 / 100 * (N * q)) by (replace t with (t - Q + Q) by ring; eapply Rle_trans; [apply Rabs_triang|]; lra).
  set (V := N * q * (B + 1)). assert (V0 : 0 < V) by (unfold V; apply Rmult_lt_0_compat; lra).
  assert (MM : Rabs (t * l) <= 103 / 100 * V). { rewrite Rabs_mult. apply Rle_trans with (101 / 100 * (N * q) * (101 / 100 * (B + 1))); [apply Rmult_le_compat; try apply Rabs_pos; assumption|]. replace (101 / 100 * (N * q) * (101 / 100 * (B + 1))) with (10201 / 10000 * V) by (unfold V; field). lra. }
  assert (VE : eta <= u * (103 / 100 * V)). { apply eta_of. assert (1 * q <= N * q) by (apply Rmult_le_compat_r; lra). assert (N * q * 1 <= V) by (unfold V; apply Rmult_le_compat_l; lra). lra. }
  assert (RE := rnd_within _ _ MM VE). split.
  - replace (rndF (t * l) - Q * ld) with (rndF (t * l) - t * l + ((t - Q) * l + Q * (l - ld))) by ring. eapply Rle_trans; [apply Rabs_triang|]. assert (G := Rabs_triang ((t - Q) * l) (Q * (l - ld))). rewrite !Rabs_mult in G.
    assert (G1 : Rabs (t - Q) * Rabs l <= (5 * N + 12) * u * (N * q) * (101 / 100 * (B + 1))) by (apply Rmult_le_compat; try apply Rabs_pos; assumption).
    assert (G2 : Rabs Q * Rabs (l - ld) <= N * q * (10 * u * (B + 1))) by (apply Rmult_le_compat; try apply Rabs_pos; assumption).
    replace ((5 * N + 12) * u * (N * q) * (101 / 100 * (B + 1))) with (101 / 100 * (5 * N + 12) * (u * V)) in G1 by (unfold V; field). replace (N * q * (10 * u * (B + 1))) with (10 * (u * V)) in G2 by (unfold V; ring).
    replace (2 * u * (103 / 100 * V)) with (103 / 50 * (u * V)) in RE by field. replace ((6 * N + 30) * u * V) with ((6 * N + 30) * (u * V)) by ring. assert (U0 : 0 < u * V) by (apply Rmult_lt_0_compat; lra).
    apply Rle_trans with ((103 / 50 + 101 / 100 * (5 * N + 12) + 10) * (u * V)); [lra|]. apply Rmult_le_compat_r; lra.
  - rewrite Rabs_mult. apply Rmult_le_compat; try apply Rabs_pos; assumption.
Qed.
Theorem potential_error a b p c srcs x rho q v : (1 <= b <= 398)%nat -> (a + 2 * b * (p + 1) <= 1000)%nat -> INR (length srcs) + 1 <= 1048576 ->
  PrimFloat.is_finite (nth 0 x 0%float) = true -> PrimFloat.is_finite (nth 1 x 0%float) = true -> PrimFloat.is_finite (nth 0 c 0%float) = true -> PrimFloat.is_finite (nth 1 c 0%float) = true ->
  / 2 ^ a <= q -> / 2 ^ b <= rho -> rho <= separation x c -> separation x c <= 2 ^ b -> (forall s, In s srcs -> within c q rho s) ->
  me2_potF A (me2_sourcesF A c p srcs) x = Ok v -> PrimFloat.is_finite v = true ->
  Rabs (real_of v - expansion_value c p srcs x) <= (INR (length srcs) + 1) * q * u * (INR b + INR p + 1) * (12 * (INR (length srcs) + 1) + 83 * INR p + 62).
Proof.
  intros Hb Hab NB FX0 FX1 FC0 FC1 HQ HR RD DU HS E F. set (n := INR (length srcs)) in *. assert (N0 : 0 <= n) by apply pos_INR. set (N := n + 1) in *. set (D := separation x c) in *.
  assert (PP : forall k, 0 < / 2 ^ k) by (intros k; apply Rinv_0_lt_compat, pow_lt; lra). assert (Q0 : 0 < q) by (assert (G := PP a); lra). assert (R0 : 0 < rho) by (assert (G := PP b); lra). assert (D0 : 0 < D) by lra.
  assert (P500 : (p <= 500)%nat) by nia. assert (PI : INR p <= 1048576) by (apply le_INR in P500; rewrite (INR_IZR_INZ 500) in P500; simpl in P500; lra). assert (P0 := pos_INR p).
  assert (RP : forall j, / 2 ^ (b * j) <= rho ^ j). { intros j. rewrite pow_mult, <- pow_inv. apply pow_incr. split; [apply Rlt_le, PP|exact HR]. }
  assert (DP : forall j, D ^ j <= 2 ^ (b * j)). { intros j. rewrite pow_mult. apply pow_incr. split; lra. }
  assert (DI : forall j, / 2 ^ (b * j) <= / D ^ j). { intros j. apply Rinv_le_contravar; [apply pow_lt, D0|apply DP]. }
  assert (M2 : forall i j s t, / 2 ^ i <= s -> / 2 ^ j <= t -> / 2 ^ (i + j) <= s * t). { intros i j s t HS' HT. rewrite pow_add, Rinv_mult. apply Rmult_le_compat; first [apply Rlt_le, PP|assumption]. }
  assert (E1 : forall j, (j <= p)%nat -> eta <= u * rho ^ j). { intros j J. apply eta_of. eapply Rle_trans; [|apply RP]. apply inv_pow_le. nia. }
  assert (E2 : forall k, (k <= p)%nat -> eta <= u * (q * rho ^ k)). { intros k K. apply eta_of. eapply Rle_trans; [|apply M2; [exact HQ|apply RP]]. apply inv_pow_le. nia. }
  assert (HI : forall j, (j <= p)%nat -> / 2 ^ 1000 <= / D ^ j). { intros j J. eapply Rle_trans; [|apply DI]. apply inv_pow_le. nia. }
  assert (HX : forall j, (j <= p)%nat -> / 2 ^ 1000 <= q * (rho ^ j * / D ^ j)). { intros j J. eapply Rle_trans; [|apply M2; [exact HQ|apply M2; [apply RP|apply DI]]]. apply inv_pow_le. nia. }
  assert (DL : / 2 ^ b <= D) by lra. assert (HD1 : / 2 ^ 1000 <= D) by (eapply Rle_trans; [|exact DL]; apply inv_pow_le; lia).
  assert (DR : 2 * / 2 ^ 400 <= D <= / 2 * 2 ^ 400).
  { split.
    - replace (2 * / 2 ^ 400) with (/ 2 ^ 399) by (change 400%nat with (S 399); cbn [pow]; field; apply pow_nonzero; lra). eapply Rle_trans; [|exact DL]. apply inv_pow_le. lia.
    - replace (/ 2 * 2 ^ 400) with (2 ^ 399) by (change 400%nat with (S 399); cbn [pow]; field). eapply Rle_trans; [exact DU|]. apply Rle_pow; [lra|lia]. }
  set (zeta := (point_of x - point_of c)%C). assert (ZD : Cmod zeta = D) by reflexivity. set (z := csub (cplxF x) (cplxF c)).
  assert (FZ : fin z).
  { assert (B0 := part_mod zeta). rewrite ZD in B0. destruct B0 as [B0 B1]. assert (PW : D <= pw 970). { eapply Rle_trans; [exact DU|]. rewrite <- pw_pow. apply bpow_le. lia. }
    split; cbn [z csub cplxF fst snd]; apply sub_small; try assumption; (eapply Rle_trans; [|exact PW]); assumption. }
  assert (ZE : Cmod (creal z - zeta)%C <= 4 * u * D).
  { destruct (csub_error (cplxF x) (cplxF c) D FZ) as (_ & _ & K); [right; exact ZD| |exact K]. apply eta_of. eapply Rle_trans; [|exact DL]. apply inv_pow_le. lia. }
  assert (ZM := z_mod z zeta D ZD ZE). assert (ZR := z_range z zeta D ZD ZE DR).
  set (al := fun k => coefficient c k srcs). assert (AL : forall k, (k <= p)%nat -> Cmod (al k) <= N * (q * rho ^ k)) by (intros k _; apply coefficient_bound; assumption).
  set (e := me2_sourcesF A c p srcs) in *. assert (CE : forall k w, (k <= p)%nat -> nth_error (sf_co e) k = Some w -> fin w -> Cmod (creal w - al k)%C <= N * (5 * N + 24 * INR k + 12) * u * (q * rho ^ k)).
  { intros k w K EW FW. apply (coefficient_error A HM c q rho Q0 R0 p k srcs w K); try assumption; [apply le_INR in K; lra|intros j J; apply E1; lia|apply E2, K]. }
  unfold me2_potF in E. assert (EC : sf_ctr e = cplxF c) by reflexivity. rewrite EC in E. fold z in E.
  assert (C0 : exists a0 cs, sf_co e = a0 :: cs /\ length cs = p /\ snd a0 = 0%float).
  { unfold e, me2_sourcesF. cbn [sf_co]. set (cs := fold_left (me2_add_sourceF A (cplxF c)) srcs (repeat zeroC (S p))). assert (C0 : nth_error cs 0 = Some (fold_left step0 srcs zeroC)) by (apply fold_nth0; reflexivity).
    assert (LC : length cs = S p) by (unfold cs; rewrite fold_length, repeat_length; reflexivity). destruct cs as [|c0 cs']; [discriminate|]. cbn [div_tailF]. injection C0 as C0. injection LC as LC.
    eexists c0, _. split; [reflexivity|]. split; [rewrite div_from_length; exact LC|]. rewrite C0, step0_snd. reflexivity. }
  destruct C0 as (a0 & cs & EQ & LC & S0). unfold sf_get in E. rewrite EQ in E. cbn [nth_error of_option bind tl] in E. injection E as E.
  assert (BL := ln_range b D (conj DL DU)). set (B := INR b) in *. assert (B0 : 0 <= B) by apply pos_INR. assert (N1 : 1 <= N <= 1048576) by (split; [unfold N; lra|exact NB]). assert (NQ : 0 < N * q) by (apply Rmult_lt_0_compat; lra).
  change (f_div A oneC z) with (Nat.iter 1 (fun w => f_div A w z) oneC) in E. rewrite <- E in F. assert (FS := loop_fin A z cs _ _ F). cbn [cscale fst] in FS.
  destruct (start_error z (fst a0) (Re (al 0%nat)) D B N q FZ ZM ZR D0 BL N1 Q0) as [SE SM]; [|eapply Rle_trans; [apply (proj1 (part_mod _))|]; specialize (AL 0%nat ltac:(lia)); cbn [pow] in AL; rewrite Rmult_1_r in AL; exact AL| |exact FS|].
  { eapply Rle_trans; [|exact HQ]. apply inv_pow_le. lia. }
  { intros FA. assert (FA' : fin a0) by (split; [exact FA|rewrite S0; reflexivity]). assert (G := CE 0%nat a0 ltac:(lia) ltac:(rewrite EQ; reflexivity) FA'). cbn [pow INR] in G. assert (G1 := proj1 (part_mod (creal a0 - al 0%nat)%C)).
    change (fst (creal a0 - al 0%nat)%C) with (real_of (fst a0) - Re (al 0%nat)) in G1. eapply Rle_trans; [exact G1|]. eapply Rle_trans; [exact G|]. right. ring. }
  set (W := N * q * (B + INR p + 1)). set (EE := N * (6 * N + 80 * INR p + 32) * u * q).
  assert (W1 : N * q <= W). { unfold W. rewrite <- (Rmult_1_r (N * q)) at 1. apply Rmult_le_compat_l; lra. }
  assert (VB : N * q * (B + 1) + INR p * (N * q) = W) by (unfold W; ring). assert (VW : N * q * (B + 1) <= W) by (assert (0 <= INR p * (N * q)) by (apply Rmult_le_pos; lra); lra).
  assert (PQ : INR p * (N * q) <= W) by (assert (0 <= N * q * (B + 1)) by (apply Rmult_le_pos; lra); lra). assert (W0 : 0 < W) by lra.
  assert (PE : INR p * (3 * u * W + EE) <= (3 * INR p * u + (6 * N + 80 * INR p + 32) * u) * W).
  { replace (INR p * (3 * u * W + EE)) with (3 * INR p * u * W + (6 * N + 80 * INR p + 32) * u * (INR p * (N * q))) by (unfold EE; ring). rewrite (Rmult_plus_distr_r (3 * INR p * u) ((6 * N + 80 * INR p + 32) * u) W). apply Rplus_le_compat_l, Rmult_le_compat_l; [apply Rmult_le_pos; lra|exact PQ]. }
  assert (SE' : (6 * N + 30) * u * (N * q * (B + 1)) <= (6 * N + 30) * u * W) by (apply Rmult_le_compat_l; [apply Rmult_le_pos; lra|exact VW]).
  assert (K := pot_loop A HM HD z zeta D FZ D0 ZD ZE DR al N q rho p PI N1 Q0 R0 RD HI HX HD1 AL W cs W1 1 (cscale (fst a0) (f_log A z)) (Re (al 0%nat) * ln D) ((6 * N + 30) * u * (N * q * (B + 1))) (N * q * (B + 1))).
  rewrite LC in K. fold EE in K. eapply Rle_trans; [rewrite <- E; unfold expansion_value; fold zeta; rewrite <- tail_series, ZD; apply K|].
  - lia.
  - intros j w J FW. apply (CE (1 + j)%nat w); [|rewrite EQ; exact J|exact FW]. assert (j < length cs)%nat by (apply nth_error_Some; congruence). lia.
  - exact SE.
  - eapply Rle_trans; [exact SM|]. apply Rmult_le_compat_l; lra.
  - lra.
  - assert (G : ((6 * N + 30) * u + (3 * INR p * u + (6 * N + 80 * INR p + 32) * u)) * W <= / 100 * W) by (apply Rmult_le_compat_r; lra). lra.
  - exact F.
  - apply Rle_trans with (((6 * N + 30) * u + (3 * INR p * u + (6 * N + 80 * INR p + 32) * u)) * W); [lra|]. unfold W. right. ring.
Qed.
End Sources.
