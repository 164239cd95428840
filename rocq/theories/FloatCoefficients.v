(** Accuracy of the coefficients of two-dimensional multipole expansions in doubles, with underflow. *)
From Coq Require Import Reals List Bool ZArith Arith Lia Lra Psatz.
From Coquelicot Require Import Complex.
From Flocq Require Import Core Relative Plus_error BinarySingleNaN PrimFloat.
From Verif Require Import Num Outcome Vec Tables TableProofs CAux FloatCases FloatFit FloatExpansion2D FloatExpansionSpec FloatOverflow FloatExpansionProofs FloatExpansionCases FloatCoefficientSpec.
From Coq Require Import Floats.
Import ListNotations.
Local Open Scope R_scope.
Notation u := (/ 9007199254740992).

Definition fin (z : CF) : Prop := PrimFloat.is_finite (fst z) = true /\ PrimFloat.is_finite (snd z) = true.
Lemma fin_not_bad z : fin z -> ~ bad z.
Proof. intros [H G] [B|B]; congruence. Qed.
Lemma not_bad_fin z : ~ bad z -> fin z.
Proof. intros H. destruct (bad_cases z) as [B|B]; [contradiction|exact B]. Qed.
Lemma fin_from z w : (bad w -> bad z) -> fin z -> fin w.
Proof. intros H F. apply not_bad_fin. intros B. exact (fin_not_bad z F (H B)). Qed.
Lemma parts_mod (z w : C) e : Rabs (fst z - fst w) <= e -> Rabs (snd z - snd w) <= e -> Cmod (z - w)%C <= 2 * e.
Proof.
  intros H1 H2. assert (E : 0 <= e) by (eapply Rle_trans; [apply Rabs_pos|exact H1]).
  eapply Rle_trans; [apply Cmod_2Rmax|]. apply Rle_trans with (R_sqrt.sqrt 2 * e).
  - apply Rmult_le_compat_l; [apply sqrt_pos|]. apply Rmax_lub; [exact H1|exact H2].
  - apply Rmult_le_compat_r; [exact E|]. rewrite <- (sqrt_square 2) at 2 by lra. apply sqrt_le_1_alt. lra.
Qed.
Lemma part_mod (z : C) : Rabs (fst z) <= Cmod z /\ Rabs (snd z) <= Cmod z.
Proof. assert (B := Rmax_Cmod z). split; [exact (Rle_trans _ _ _ (Rmax_l _ _) B)|exact (Rle_trans _ _ _ (Rmax_r _ _) B)]. Qed.
Lemma rnd_within r M : Rabs r <= M -> eta <= u * M -> Rabs (rndF r - r) <= 2 * u * M.
Proof. intros H E. eapply Rle_trans; [apply rndF_error|]. assert (u * Rabs r <= u * M) by (apply Rmult_le_compat_l; lra). lra. Qed.
(** *** The operations *)
Lemma csub_error a b M : fin (csub a b) -> Cmod (creal a - creal b)%C <= M -> eta <= u * M -> fin a /\ fin b /\ Cmod (creal (csub a b) - (creal a - creal b))%C <= 4 * u * M.
Proof.
  intros [F1 F2] H E. cbn [csub fst snd] in F1, F2. apply sub_finite in F1, F2. destruct F1 as (A1 & B1 & E1), F2 as (A2 & B2 & E2).
  split; [split; assumption|]. split; [split; assumption|]. replace (4 * u * M) with (2 * (2 * u * M)) by ring. destruct (part_mod (creal a - creal b)%C) as [P1 P2].
  apply parts_mod; cbn [creal csub fst snd]; [rewrite E1|rewrite E2]; (apply rnd_within; [eapply Rle_trans; [|exact H]|exact E]); [exact P1|exact P2].
Qed.
Lemma cscale_error q a M : fin (cscale q a) -> Rabs (real_of q) * Cmod (creal a) <= M -> eta <= u * M -> fin a /\ Cmod (creal (cscale q a) - RtoC (real_of q) * creal a)%C <= 4 * u * M.
Proof.
  intros [F1 F2] H E. cbn [cscale fst snd] in F1, F2. apply mul_finite in F1, F2. destruct F1 as (A1 & B1 & E1), F2 as (A2 & B2 & E2).
  split; [split; assumption|]. replace (4 * u * M) with (2 * (2 * u * M)) by ring. destruct (part_mod (creal a)) as [P1 P2]. assert (Q := Rabs_pos (real_of q)).
  apply parts_mod; cbn [creal cscale fst snd Cmult RtoC]; [rewrite E1|rewrite E2].
  - replace (real_of q * real_of (fst a) - 0 * real_of (snd a)) with (real_of q * real_of (fst a)) by ring. apply rnd_within; [|exact E]. rewrite Rabs_mult. eapply Rle_trans; [apply Rmult_le_compat_l; [exact Q|exact P1]|exact H].
  - replace (real_of q * real_of (snd a) + 0 * real_of (fst a)) with (real_of q * real_of (snd a)) by ring. apply rnd_within; [|exact E]. rewrite Rabs_mult. eapply Rle_trans; [apply Rmult_le_compat_l; [exact Q|exact P2]|exact H].
Qed.
Lemma cdivr_error a j M : (1 <= j)%nat -> (Z.of_nat j <= 9007199254740992)%Z -> fin (cdivr a (nat_float j)) -> Cmod (creal a) <= M -> eta <= u * M ->
  fin a /\ Cmod (creal (cdivr a (nat_float j)) - creal a / RtoC (INR j))%C <= 4 * u * M.
Proof.
  intros J L F H E. assert (FA : fin a) by (apply (fin_from (cdivr a (nat_float j))); [apply bad_divr|exact F]). split; [exact FA|].
  assert (D : real_of (nat_float j) = INR j) by (unfold nat_float; rewrite (proj2 (of_Z_real (Z.of_nat j) ltac:(lia))), INR_IZR_INZ; reflexivity).
  assert (J1 : 1 <= INR j) by (change 1 with (INR 1); apply le_INR; lia). destruct F as [F1 F2]. cbn [cdivr fst snd] in F1, F2. apply quotient_real in F1, F2; try (rewrite D; lra). rewrite D in F1, F2.
  destruct (part_mod (creal a)) as [P1 P2]. replace (4 * u * M) with (2 * (2 * u * M)) by ring.
  assert (Q : (creal a / RtoC (INR j))%C = (real_of (fst a) / INR j, real_of (snd a) / INR j)).
  { unfold Cdiv, Cinv, Cmult, creal, RtoC. cbn [fst snd]. f_equal; field; lra. }
  rewrite Q. assert (DJ : forall r, Rabs r <= M -> Rabs (r / INR j) <= M). { intros r HR. unfold Rdiv. rewrite Rabs_mult, (Rabs_pos_eq (/ INR j)) by (apply Rlt_le, Rinv_0_lt_compat; lra). assert (I1 : / INR j <= 1) by (rewrite <- Rinv_1; apply Rinv_le_contravar; lra). assert (R0 := Rabs_pos r). assert (I0 : 0 < / INR j) by (apply Rinv_0_lt_compat; lra). nra. }
  apply parts_mod; cbn [creal cdivr fst snd]; [rewrite F1|rewrite F2]; (apply rnd_within; [apply DJ; eapply Rle_trans; [|exact H]|exact E]); [exact P1|exact P2].
Qed.
Section Powers.
Variable m : CF -> CF -> CF.
Hypothesis HM : usual_product m.
Lemma cmul_error a b M : fin (m a b) -> Cmod (creal a) * Cmod (creal b) <= M -> eta <= u * M -> fin a /\ fin b /\ Cmod (creal (m a b) - creal a * creal b)%C <= 16 * u * M.
Proof.
  intros F H E. assert (FA : fin a) by (apply (fin_from (m a b)); [intros B; apply ruined_bad, mul_bad_l; assumption|exact F]). assert (FB : fin b) by (apply (fin_from (m a b)); [intros B; apply ruined_bad, mul_bad_r; assumption|exact F]).
  split; [exact FA|]. split; [exact FB|]. clear FA FB. destruct F as [F1 F2]. specialize (HM a b). cbv zeta in HM. destruct (_ && _)%bool in HM.
  - destruct HM as [K _]. rewrite K in F1. discriminate.
  - rewrite HM in F1, F2 |- *. cbn [fst snd] in F1, F2. apply sub_finite in F1. destruct F1 as (A1 & A2 & E1). apply add_finite in F2. destruct F2 as (A3 & A4 & E2).
    apply mul_finite in A1, A2, A3, A4. destruct A1 as (_ & _ & R1), A2 as (_ & _ & R2), A3 as (_ & _ & R3), A4 as (_ & _ & R4).
    destruct a as [a1 a2], b as [b1 b2]. unfold creal in *. cbn [fst snd] in *. destruct (part_le (real_of a1) (real_of a2) (real_of b1) (real_of b2)) as (P1 & P2 & P3 & P4).
    assert (L0 : 0 <= M) by (eapply Rle_trans; [|exact H]; apply Rmult_le_pos; apply Cmod_ge_0).
    assert (T1 := two_products _ _ M L0 E (Rle_trans _ _ _ P1 H) (Rle_trans _ _ _ P2 H) (-1) (or_intror eq_refl)). assert (T2 := two_products _ _ M L0 E (Rle_trans _ _ _ P3 H) (Rle_trans _ _ _ P4 H) 1 (or_introl eq_refl)).
    replace (16 * u * M) with (2 * (8 * u * M)) by ring. apply parts_mod; cbn [Cmult fst snd].
    + rewrite E1, R1, R2. replace (rndF (real_of a1 * real_of b1) - rndF (real_of a2 * real_of b2)) with (rndF (real_of a1 * real_of b1) + -1 * rndF (real_of a2 * real_of b2)) by ring.
      replace (real_of a1 * real_of b1 - real_of a2 * real_of b2) with (real_of a1 * real_of b1 + -1 * (real_of a2 * real_of b2)) by ring. exact T1.
    + rewrite E2, R3, R4. replace (rndF (real_of a1 * real_of b2) + rndF (real_of a2 * real_of b1)) with (rndF (real_of a1 * real_of b2) + 1 * rndF (real_of a2 * real_of b1)) by ring.
      replace (real_of a1 * real_of b2 + real_of a2 * real_of b1) with (real_of a1 * real_of b2 + 1 * (real_of a2 * real_of b1)) by ring. exact T2.
Qed.
Notation powers z w i := (Nat.iter i (fun p => m p w) z).
Lemma Cmod_from (x y : C) e r : Cmod (x - y)%C <= e -> Cmod y <= r -> Cmod x <= r + e.
Proof. intros H1 H2. replace x with (y + (x - y))%C by ring. eapply Rle_trans; [apply Cmod_triangle|]. lra. Qed.
Lemma Cmod_diff (x y z : C) e f : Cmod (x - y)%C <= e -> Cmod (y - z)%C <= f -> Cmod (x - z)%C <= e + f.
Proof. intros H1 H2. replace (x - z)%C with ((x - y) + (y - z))%C by ring. eapply Rle_trans; [apply Cmod_triangle|]. lra. Qed.
(** The computed powers. *)
Lemma power_error x c rho i : separation x c <= rho -> 0 < rho -> (forall j, (j <= S i)%nat -> eta <= u * rho ^ j) -> INR (S i) <= 1048576 ->
  fin (powers (csub (cplxF x) (cplxF c)) (csub (cplxF x) (cplxF c)) i) ->
  Cmod (creal (powers (csub (cplxF x) (cplxF c)) (csub (cplxF x) (cplxF c)) i) - Cpow (point_of x - point_of c) (S i))%C <= 24 * INR (S i) * u * rho ^ S i.
Proof.
  intros SEP R0 HE. set (w := csub (cplxF x) (cplxF c)). set (d := (point_of x - point_of c)%C).
  assert (D : Cmod d <= rho) by exact SEP. assert (DP : forall j, Cmod (Cpow d j) <= rho ^ j) by (intros j; rewrite Cmod_pow; apply pow_incr; split; [apply Cmod_ge_0|exact D]).
  assert (W : fin w -> Cmod (creal w - d)%C <= 4 * u * rho).
  { intros FW. destruct (csub_error (cplxF x) (cplxF c) rho FW) as (_ & _ & K); [exact D|replace rho with (rho ^ 1) by ring; apply HE; lia|exact K]. }
  revert HE. induction i as [|i IH]; intros HE I F.
  - cbn [Nat.iter] in *. specialize (W F). rewrite Cpow_1. change (INR 1) with 1. rewrite pow_1. eapply Rle_trans; [exact W|]. assert (0 < u * rho) by (apply Rmult_lt_0_compat; lra). lra.
  - cbn [Nat.iter] in *. change (Nat.iter i (fun p => m p w) w) with (powers w w i) in *. set (P := powers w w i) in *. assert (FP : fin P) by (apply (fin_from (m P w)); [intros B; apply ruined_bad, mul_bad_l; assumption|exact F]).
    assert (FW : fin w) by (apply (fin_from (m P w)); [intros B; apply ruined_bad, mul_bad_r; assumption|exact F]). specialize (W FW). assert (SI := S_INR (S i)). specialize (IH ltac:(intros j J; apply HE; lia) ltac:(lra) FP).
    assert (CI : 1 <= INR (S i) <= 1048576) by (split; [change 1 with (INR 1); apply le_INR; lia|lra]).
    rewrite SI. clear SI I. set (n := INR (S i)) in *. set (r := rho ^ S i) in *. assert (RP : 0 < r) by (apply pow_lt, R0).
    assert (MP : Cmod (creal P) <= r + 24 * n * u * r) by (exact (Cmod_from _ _ _ _ IH (DP (S i)))). assert (MW : Cmod (creal w) <= rho + 4 * u * rho) by (exact (Cmod_from _ _ _ _ W D)).
    assert (NU : 24 * n * u <= / 100000) by lra. assert (MP' : Cmod (creal P) <= (1 + / 100000) * r) by nra. assert (MW' : Cmod (creal w) <= (1 + / 100000) * rho) by nra.
    change (rho ^ S (S i)) with (rho * r). assert (RR : 0 < rho * r) by (apply Rmult_lt_0_compat; lra). assert (ER : eta <= u * (rho * r)) by (apply (HE (S (S i))); lia).
    assert (MM : Cmod (creal P) * Cmod (creal w) <= 11 / 10 * (rho * r)).
    { apply Rle_trans with ((1 + / 100000) * r * ((1 + / 100000) * rho)); [apply Rmult_le_compat; try apply Cmod_ge_0; assumption|]. nra. }
    destruct (cmul_error P w (11 / 10 * (rho * r)) F MM) as (_ & _ & K); [lra|].
    replace (Cpow d (S (S i))) with (Cpow d (S i) * d)%C by (rewrite (Cpow_S d (S i)); ring).
    assert (Q : Cmod (creal P * creal w - Cpow d (S i) * d)%C <= 24 * n * u * r * (rho + 4 * u * rho) + r * (4 * u * rho)).
    { apply Cmod_diff with (Cpow d (S i) * creal w)%C.
      - replace (creal P * creal w - Cpow d (S i) * creal w)%C with ((creal P - Cpow d (S i)) * creal w)%C by ring. rewrite Cmod_mult. apply Rmult_le_compat; try apply Cmod_ge_0; assumption.
      - replace (Cpow d (S i) * creal w - Cpow d (S i) * d)%C with (Cpow d (S i) * (creal w - d))%C by ring. rewrite Cmod_mult. apply Rmult_le_compat; try apply Cmod_ge_0; [apply DP|exact W]. }
    eapply Rle_trans; [exact (Cmod_diff _ _ _ _ _ K Q)|]. set (t := u * (rho * r)). assert (T0 : 0 < t) by (apply Rmult_lt_0_compat; lra).
    replace (16 * u * (11 / 10 * (rho * r))) with (88 / 5 * t) by (unfold t; field). replace (24 * n * u * r * (rho + 4 * u * rho) + r * (4 * u * rho)) with (24 * n * (1 + 4 * u) * t + 4 * t) by (unfold t; ring).
    replace (24 * (n + 1) * u * (rho * r)) with (24 * (n + 1) * t) by (unfold t; ring). assert (NT : n * t <= 1048576 * t) by (apply Rmult_le_compat_r; lra). assert (N4 : 24 * n * (1 + 4 * u) * t = 24 * (n * t) + 96 * u * (n * t)) by ring. rewrite N4. assert (96 * u * (n * t) <= 96 * u * (1048576 * t)) by (apply Rmult_le_compat_l; lra). lra.
Qed.
End Powers.

(** *** The coefficients *)
Section Coefficients.
Variable A : cfarith.
Hypothesis HM : usual_product (f_mul A).
Notation m := (f_mul A).
Notation powers z w i := (Nat.iter i (fun p => m p w) z).
Variable c : list float.
(** The loop over the sources for one coefficient. *)
Definition step0 (z : CF) (s : psrc float) : CF := ((fst z + ps_q s)%float, snd z).
Definition stepk (k : nat) (z : CF) (s : psrc float) : CF :=
  csub z (cscale (ps_q s) (powers (csub (cplxF (ps_pos s)) (cplxF c)) (csub (cplxF (ps_pos s)) (cplxF c)) k)).
Lemma fold_nth0 srcs : forall cs z, nth_error cs 0 = Some z -> nth_error (fold_left (me2_add_sourceF A (cplxF c)) srcs cs) 0 = Some (fold_left step0 srcs z).
Proof.
  induction srcs as [|s srcs IH]; intros cs z H; cbn [fold_left]; [exact H|]. apply IH. destruct cs as [|a cs]; [discriminate|]. injection H as ->. reflexivity.
Qed.
Lemma fold_nthk k srcs : forall cs z, nth_error cs (S k) = Some z -> nth_error (fold_left (me2_add_sourceF A (cplxF c)) srcs cs) (S k) = Some (fold_left (stepk k) srcs z).
Proof.
  induction srcs as [|s srcs IH]; intros cs z H; cbn [fold_left]; [exact H|]. apply IH. destruct cs as [|a cs]; [discriminate|]. cbn [nth_error me2_add_sourceF] in *. apply acc_nth, H.
Qed.
Lemma fold_fin k srcs : forall z, fin (fold_left (stepk k) srcs z) -> fin z.
Proof. induction srcs as [|s srcs IH]; intros z F; cbn [fold_left] in F; [exact F|]. apply IH in F. apply (fin_from (stepk k z s)); [apply bad_sub_l|exact F]. Qed.
Lemma fold_fin0 srcs : forall z, fin (fold_left step0 srcs z) -> fin z.
Proof. induction srcs as [|s srcs IH]; intros z F; cbn [fold_left] in F; [exact F|]. apply IH in F. apply (fin_from (step0 z s)); [|exact F]. intros [B|B]; [left; apply nf_add_l, B|right; exact B]. Qed.
Variables (q rho : R).
Hypothesis Q0 : 0 < q.
Hypothesis R0 : 0 < rho.
Definition within (s : psrc float) : Prop := Rabs (real_of (ps_q s)) <= q /\ separation (ps_pos s) c <= rho.
Notation dz s := (point_of (ps_pos s) - point_of c)%C.
Section Index.
Variables (k : nat) (N : R).
Hypothesis K1 : INR (S k) <= 1048576.
Hypothesis N1 : 1 <= N <= 1048576.
Hypothesis HE : forall j, (j <= S k)%nat -> eta <= u * rho ^ j.
Notation T := (q * rho ^ S k).
Hypothesis HT : eta <= u * T.
Notation L := ((5 * N + 24 * INR (S k) + 6) * u).
Lemma loop_error srcs : (forall s, In s srcs -> within s) -> forall z S0 i, 0 <= i -> i + INR (length srcs) <= N ->
  Cmod S0 <= i * T -> Cmod (creal z - S0)%C <= i * L * T -> fin (fold_left (stepk k) srcs z) ->
  Cmod (creal (fold_left (stepk k) srcs z) - (S0 - moment c (S k) srcs))%C <= (i + INR (length srcs)) * L * T /\
  Cmod (S0 - moment c (S k) srcs)%C <= (i + INR (length srcs)) * T.
Proof.
  assert (RP : 0 < rho ^ S k) by (apply pow_lt, R0). assert (T0 : 0 < T) by (apply Rmult_lt_0_compat; assumption). assert (K0 : 1 <= INR (S k)) by (change 1 with (INR 1); apply le_INR; lia).
  assert (LB : 0 < L /\ N * L <= / 200) by (split; [apply Rmult_lt_0_compat; lra|nra]). destruct LB as [LB0 LB].
  intros HS. induction srcs as [|s srcs IH]; intros z S0 i I0 IN HS0 HZ F.
  - cbn [fold_left moment fold_right length] in *. change (INR 0) with 0. rewrite Rplus_0_r. replace (S0 - RtoC 0)%C with S0 by ring. split; assumption.
  - cbn [fold_left moment fold_right] in *. fold (moment c (S k) srcs). set (mo := moment c (S k) srcs) in *. set (t := (RtoC (real_of (ps_q s)) * Cpow (dz s) (S k))%C) in *.
    change (length (s :: srcs)) with (S (length srcs)) in *. rewrite (S_INR (length srcs)) in *. assert (LN := pos_INR (length srcs)).
    assert (FS := fold_fin k srcs _ F). unfold stepk in FS. set (w := csub (cplxF (ps_pos s)) (cplxF c)) in *. set (P := powers w w k) in *.
    assert (FC : fin (cscale (ps_q s) P)) by (apply (fin_from (csub z (cscale (ps_q s) P))); [apply bad_sub_r|exact FS]). assert (FP : fin P) by (apply (fin_from (cscale (ps_q s) P)); [apply bad_scale|exact FC]).
    destruct (HS s (or_introl eq_refl)) as [HQ HD]. assert (PE := power_error m HM (ps_pos s) c rho k HD R0 HE K1 FP). fold w in PE. change (Nat.iter k (fun p => m p w) w) with P in PE.
    assert (DP : Cmod (Cpow (dz s) (S k)) <= rho ^ S k) by (rewrite Cmod_pow; apply pow_incr; split; [apply Cmod_ge_0|exact HD]).
    assert (PM := Cmod_from _ _ _ _ PE DP). assert (KU : 24 * INR (S k) * u <= / 10000) by lra.
    assert (PM' : Cmod (creal P) <= 101 / 100 * rho ^ S k) by nra.
    assert (QA := Rabs_pos (real_of (ps_q s))). assert (QM : Rabs (real_of (ps_q s)) * Cmod (creal P) <= 101 / 100 * T).
    { apply Rle_trans with (q * (101 / 100 * rho ^ S k)); [apply Rmult_le_compat; try apply Cmod_ge_0; assumption|right; ring]. }
    destruct (cscale_error _ _ _ FC QM ltac:(lra)) as [_ CE].
    assert (TE : Cmod (creal (cscale (ps_q s) P) - t)%C <= (24 * INR (S k) + 5) * u * T).
    { apply Rle_trans with (4 * u * (101 / 100 * T) + q * (24 * INR (S k) * u * rho ^ S k)); [|assert (0 < u * T) by (apply Rmult_lt_0_compat; lra); replace (q * (24 * INR (S k) * u * rho ^ S k)) with (24 * INR (S k) * (u * T)) by ring; lra].
      apply (Cmod_diff _ _ _ _ _ CE). unfold t. replace (RtoC (real_of (ps_q s)) * creal P - RtoC (real_of (ps_q s)) * Cpow (dz s) (S k))%C with (RtoC (real_of (ps_q s)) * (creal P - Cpow (dz s) (S k)))%C by ring.
      rewrite Cmod_mult, Cmod_R. apply Rmult_le_compat; try apply Cmod_ge_0; try apply Rabs_pos; assumption. }
    assert (TM : Cmod t <= T) by (unfold t; rewrite Cmod_mult, Cmod_R; apply Rmult_le_compat; try apply Cmod_ge_0; assumption).
    set (v := (creal z - creal (cscale (ps_q s) P))%C).
    assert (VE : Cmod (v - (S0 - t))%C <= i * L * T + (24 * INR (S k) + 5) * u * T).
    { unfold v. replace (creal z - creal (cscale (ps_q s) P) - (S0 - t))%C with ((creal z - S0) + - (creal (cscale (ps_q s) P) - t))%C by ring. eapply Rle_trans; [apply Cmod_triangle|]. rewrite Cmod_opp. lra. }
    assert (SM : Cmod (S0 - t)%C <= (i + 1) * T) by (eapply Rle_trans; [apply Cmod_triangle|]; rewrite Cmod_opp; lra).
    assert (VM := Cmod_from _ _ _ _ VE SM). assert (IL : i * L <= / 200) by nra.
    assert (ILT : i * L * T <= / 200 * T) by (apply Rmult_le_compat_r; lra). assert (KT : (24 * INR (S k) + 5) * u * T <= / 1000 * T) by (apply Rmult_le_compat_r; lra).
    assert (NT : (i + 1) * T <= N * T) by (apply Rmult_le_compat_r; lra). assert (NT1 : 1 * T <= N * T) by (apply Rmult_le_compat_r; lra).
    assert (VM' : Cmod v <= 101 / 100 * (N * T)) by lra.
    destruct (csub_error z (cscale (ps_q s) P) (101 / 100 * (N * T)) FS VM' ltac:(apply Rle_trans with (u * T); [exact HT|apply Rmult_le_compat_l; lra])) as (_ & _ & SE). fold v in SE.
    destruct (IH ltac:(intros s' J; apply HS; right; exact J) (csub z (cscale (ps_q s) P)) (S0 - t)%C (i + 1)) as [H1 H2]; [lra|lra|exact SM| |exact F|].
    + eapply Rle_trans; [exact (Cmod_diff _ _ _ _ _ SE VE)|]. set (y := u * T). assert (Y0 : 0 < y) by (apply Rmult_lt_0_compat; lra). assert (NY : 1 * y <= N * y) by (apply Rmult_le_compat_r; lra).
      replace (4 * u * (101 / 100 * (N * T))) with (101 / 25 * (N * y)) by (unfold y; field). replace ((24 * INR (S k) + 5) * u * T) with ((24 * INR (S k) + 5) * y) by (unfold y; ring).
      replace ((i + 1) * L * T) with (i * L * T + (5 * (N * y) + (24 * INR (S k) + 6) * y)) by (unfold y; ring). lra.
    + replace (S0 - t - mo)%C with (S0 - (t + mo))%C in H1, H2 by ring. replace (i + (INR (length srcs) + 1)) with (i + 1 + INR (length srcs)) by ring. split; assumption.
Qed.
End Index.
Lemma loop_error0 N srcs : 1 <= N <= 1048576 -> eta <= u * q -> (forall s, In s srcs -> within s) -> forall z S0 i, 0 <= i -> i + INR (length srcs) <= N -> snd z = 0%float ->
  Cmod S0 <= i * q -> Cmod (creal z - S0)%C <= i * (5 * N * u) * q -> fin (fold_left step0 srcs z) ->
  Cmod (creal (fold_left step0 srcs z) - (S0 + moment c 0 srcs))%C <= (i + INR (length srcs)) * (5 * N * u) * q.
Proof.
  intros N1 HT HS. induction srcs as [|s srcs IH]; intros z S0 i I0 IN SZ HS0 HZ F.
  - cbn [fold_left moment fold_right length] in *. change (INR 0) with 0. rewrite Rplus_0_r. replace (S0 + RtoC 0)%C with S0 by ring. exact HZ.
  - cbn [fold_left moment fold_right] in *. fold (moment c 0 srcs). set (mo := moment c 0 srcs) in *. cbn [Cpow].
    change (length (s :: srcs)) with (S (length srcs)) in *. rewrite (S_INR (length srcs)) in *. assert (LN := pos_INR (length srcs)). assert (FS := fold_fin0 srcs _ F). destruct FS as [F1 _]. unfold step0 in F1. cbn [fst] in F1.
    apply add_finite in F1. destruct F1 as (_ & _ & E1). destruct (HS s (or_introl eq_refl)) as [HQ _]. set (t := real_of (ps_q s)) in *.
    assert (IL : i * (5 * N * u) <= / 200). { apply Rle_trans with (N * (5 * N * u)); [apply Rmult_le_compat_r; [apply Rmult_le_pos; lra|lra]|nra]. } assert (ILQ : i * (5 * N * u) * q <= / 200 * q) by (apply Rmult_le_compat_r; lra).
    assert (NT : (i + 1) * q <= N * q) by (apply Rmult_le_compat_r; lra). assert (NT1 : 1 * q <= N * q) by (apply Rmult_le_compat_r; lra).
    assert (CZ := Cmod_from _ _ _ _ HZ HS0). assert (PZ := proj1 (part_mod (creal z))). cbn [creal fst] in PZ. assert (SB : Rabs (real_of (fst z) + t) <= 101 / 100 * (N * q)) by (eapply Rle_trans; [apply Rabs_triang|]; lra).
    assert (RE := rnd_within _ _ SB ltac:(apply Rle_trans with (u * q); [exact HT|apply Rmult_le_compat_l; lra])). rewrite <- E1 in RE.
    assert (SE : Cmod (creal (step0 z s) - (creal z + RtoC t))%C <= 2 * (2 * u * (101 / 100 * (N * q)))).
    { apply parts_mod; unfold step0, creal, Cplus, RtoC; cbn [fst snd]; [exact RE|]. rewrite SZ, (proj2 zero_real), Rplus_0_r, Rminus_0_r, Rabs_R0. eapply Rle_trans; [apply Rabs_pos|exact RE]. }
    replace (S0 + (RtoC t * 1 + mo))%C with (S0 + RtoC t + mo)%C by ring. replace (i + (INR (length srcs) + 1)) with (i + 1 + INR (length srcs)) by ring.
    apply IH; [intros s' J; apply HS; right; exact J|lra|lra|exact SZ| | |exact F].
    + eapply Rle_trans; [apply Cmod_triangle|]. rewrite Cmod_R. lra.
    + apply Rle_trans with (2 * (2 * u * (101 / 100 * (N * q))) + i * (5 * N * u) * q).
      * apply (Cmod_diff _ (creal z + RtoC t)%C); [exact SE|]. replace (creal z + RtoC t - (S0 + RtoC t))%C with (creal z - S0)%C by ring. exact HZ.
      * replace ((i + 1) * (5 * N * u) * q) with (i * (5 * N * u) * q + 5 * u * (N * q)) by ring. assert (0 < u * (N * q)) by (apply Rmult_lt_0_compat; [lra|apply Rmult_lt_0_compat; lra]). lra.
Qed.
Lemma creal_zero : creal zeroC = RtoC 0.
Proof. unfold creal, zeroC, RtoC. cbn [fst snd]. rewrite (proj2 zero_real). reflexivity. Qed.
Lemma nth_repeat {X} (x : X) n i : (i < n)%nat -> nth_error (repeat x n) i = Some x.
Proof. revert i. induction n as [|n IH]; intros i I; [lia|]. destruct i as [|i]; [reflexivity|]. apply IH. lia. Qed.
Theorem coefficient_error p k srcs z : (k <= p)%nat -> INR k <= 1048576 -> INR (length srcs) + 1 <= 1048576 -> (forall s, In s srcs -> within s) ->
  (forall j, (j <= k)%nat -> eta <= u * rho ^ j) -> eta <= u * (q * rho ^ k) ->
  nth_error (sf_co (me2_sourcesF A c p srcs)) k = Some z -> fin z ->
  Cmod (creal z - coefficient c k srcs)%C <= (INR (length srcs) + 1) * (5 * (INR (length srcs) + 1) + 24 * INR k + 12) * u * (q * rho ^ k).
Proof.
  intros KP KB NB HS HE HT E F. set (n := INR (length srcs)) in *. assert (N0 : 0 <= n) by apply pos_INR. unfold me2_sourcesF in E. cbn [sf_co] in E.
  set (cs := fold_left (me2_add_sourceF A (cplxF c)) srcs (repeat zeroC (S p))) in *.
  assert (C0 : nth_error cs 0 = Some (fold_left step0 srcs zeroC)) by (apply fold_nth0; reflexivity).
  destruct k as [|k].
  - destruct cs as [|c0 cs']; [discriminate|]. cbn [div_tailF nth_error] in E, C0. injection E as ->. injection C0 as C0. subst z. cbn [pow coefficient] in *. rewrite Rmult_1_r in *.
    assert (H := loop_error0 (n + 1) srcs ltac:(lra) HT HS zeroC (RtoC 0) 0 ltac:(lra) ltac:(fold n; lra) eq_refl).
    replace (RtoC 0 + moment c 0 srcs)%C with (moment c 0 srcs) in H by ring. eapply Rle_trans; [apply H; [rewrite Cmod_0; lra| |exact F]|].
    + rewrite creal_zero. replace (RtoC 0 - RtoC 0)%C with (RtoC 0) by ring. rewrite Cmod_0. lra.
    + fold n. change (INR 0) with 0. rewrite Rplus_0_l. assert (UQ : 0 < u * q) by (apply Rmult_lt_0_compat; lra).
      replace (n * (5 * (n + 1) * u) * q) with (n * (5 * (n + 1)) * (u * q)) by ring. replace ((n + 1) * (5 * (n + 1) + 24 * 0 + 12) * u * q) with ((n + 1) * (5 * (n + 1) + 24 * 0 + 12) * (u * q)) by ring. apply Rmult_le_compat_r; [lra|]. nra.
  - assert (CK : nth_error cs (S k) = Some (fold_left (stepk k) srcs zeroC)) by (apply fold_nthk, nth_repeat; lia). set (Z := fold_left (stepk k) srcs zeroC) in *.
    destruct cs as [|c0 cs']; [discriminate|]. cbn [div_tailF nth_error] in E, CK. assert (DN := div_from_nth cs' 1 k Z CK). change (1 + k)%nat with (S k) in DN. rewrite DN in E. injection E as E. subst z.
    assert (KZ : (Z.of_nat (S k) <= 9007199254740992)%Z). { rewrite INR_IZR_INZ in KB. apply le_IZR in KB. lia. }
    assert (FZ : fin Z) by (apply (fin_from (cdivr Z (nat_float (S k)))); [apply bad_divr|exact F]).
    assert (RP : 0 < rho ^ S k) by (apply pow_lt, R0). set (T := q * rho ^ S k) in *. assert (T0 : 0 < T) by (apply Rmult_lt_0_compat; assumption). assert (K0 : 1 <= INR (S k)) by (change 1 with (INR 1); apply le_INR; lia).
    destruct (loop_error k (n + 1) KB ltac:(lra) HE HT srcs HS zeroC (RtoC 0) 0 ltac:(lra) ltac:(fold n; lra)) as [H1 H2]; [rewrite Cmod_0; lra| |exact FZ|].
    { rewrite creal_zero. replace (RtoC 0 - RtoC 0)%C with (RtoC 0) by ring. rewrite Cmod_0. lra. }
    fold Z n T in H1, H2. rewrite Rplus_0_l in H1, H2. replace (RtoC 0 - moment c (S k) srcs)%C with (- moment c (S k) srcs)%C in H1, H2 by ring.
    set (L := (5 * (n + 1) + 24 * INR (S k) + 6) * u) in *. assert (LB : 0 < L /\ n * L <= / 200) by (unfold L; split; [apply Rmult_lt_0_compat; lra|nra]). destruct LB as [LB0 LB].
    assert (NL : n * L * T <= / 200 * T) by (apply Rmult_le_compat_r; lra). assert (ZM := Cmod_from _ _ _ _ H1 H2). assert (ZM' : Cmod (creal Z) <= 101 / 100 * ((n + 1) * T)) by (assert (0 <= n * T) by (apply Rmult_le_pos; lra); lra).
    assert (NT1 : 1 * T <= (n + 1) * T) by (apply Rmult_le_compat_r; lra).
    destruct (cdivr_error Z (S k) (101 / 100 * ((n + 1) * T)) ltac:(lia) KZ F ZM' ltac:(apply Rle_trans with (u * T); [exact HT|apply Rmult_le_compat_l; lra])) as [_ DE].
    unfold coefficient. set (mo := moment c (S k) srcs) in *. set (J := INR (S k)) in *.
    assert (JE : Cmod (creal Z / RtoC J - - mo / RtoC J)%C <= n * L * T).
    { assert (JN : RtoC J <> RtoC 0) by (intros H; injection H as H; lra). replace (creal Z / RtoC J - - mo / RtoC J)%C with ((creal Z - - mo) / RtoC J)%C by (field; exact JN). rewrite Cmod_div by exact JN. rewrite Cmod_R, (Rabs_pos_eq J) by lra.
      apply Rmult_le_reg_r with J; [lra|]. unfold Rdiv. rewrite Rmult_assoc, Rinv_l, Rmult_1_r by lra. eapply Rle_trans; [exact H1|]. assert (0 <= n * L * T) by (apply Rmult_le_pos; [apply Rmult_le_pos; lra|lra]). nra. }
    eapply Rle_trans; [exact (Cmod_diff _ _ _ _ _ DE JE)|]. set (y := u * T). assert (Y0 : 0 < y) by (apply Rmult_lt_0_compat; lra). replace (4 * u * (101 / 100 * ((n + 1) * T))) with (101 / 25 * (n + 1) * y) by (unfold y; field).
    replace (n * L * T) with (n * (5 * (n + 1) + 24 * J + 6) * y) by (unfold L, y; ring). replace ((n + 1) * (5 * (n + 1) + 24 * J + 12) * u * T) with ((n + 1) * (5 * (n + 1) + 24 * J + 12) * y) by (unfold y; ring).
    rewrite <- Rmult_plus_distr_r. apply Rmult_le_compat_r; [lra|]. nra.
Qed.
End Coefficients.
