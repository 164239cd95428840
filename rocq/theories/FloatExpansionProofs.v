(** Overflow of the powers ruins the two-dimensional expansions. *)
From Coq Require Import Reals List Bool ZArith Arith Lia Lra.
From Coquelicot Require Import Complex.
From Flocq Require Import Core Relative Plus_error BinarySingleNaN PrimFloat.
From Verif Require Import Num Outcome Vec Tables TableProofs CAux FloatCases FloatFit FloatExpansion2D FloatExpansionSpec FloatOverflow.
From Coq Require Import Floats.
Import ListNotations.
Local Open Scope R_scope.
Local Open Scope outcome_scope.

Definition bad (z : CF) : Prop := nf (fst z) \/ nf (snd z).
Definition ruined (z : CF) : Prop := nf (fst z) /\ nf (snd z).
Lemma ruined_bad z : ruined z -> bad z. Proof. intros [H _]. left. exact H. Qed.
Lemma bad_cases z : bad z \/ PrimFloat.is_finite (fst z) = true /\ PrimFloat.is_finite (snd z) = true.
Proof. unfold bad. destruct (PrimFloat.is_finite (fst z)), (PrimFloat.is_finite (snd z)); auto. Qed.
Lemma bad_add_l a b : bad a -> bad (cadd a b). Proof. intros [H|H]; [left|right]; apply nf_add_l, H. Qed.
Lemma bad_add_r a b : bad b -> bad (cadd a b). Proof. intros [H|H]; [left|right]; apply nf_add_r, H. Qed.
Lemma bad_sub_l a b : bad a -> bad (csub a b). Proof. intros [H|H]; [left|right]; apply nf_sub_l, H. Qed.
Lemma bad_sub_r a b : bad b -> bad (csub a b). Proof. intros [H|H]; [left|right]; apply nf_sub_r, H. Qed.
Lemma bad_scale q a : bad a -> bad (cscale q a). Proof. intros [H|H]; [left|right]; apply nf_mul_r, H. Qed.
Lemma bad_divr q a : bad a -> bad (cdivr a q). Proof. intros [H|H]; [left|right]; apply nf_div_l, H. Qed.
Lemma ruined_add_l a b : ruined a -> ruined (cadd a b). Proof. intros [H G]. split; apply nf_add_l; assumption. Qed.
Lemma ruined_add_r a b : ruined b -> ruined (cadd a b). Proof. intros [H G]. split; apply nf_add_r; assumption. Qed.
Lemma ruined_sub_l a b : ruined a -> ruined (csub a b). Proof. intros [H G]. split; apply nf_sub_l; assumption. Qed.
Lemma ruined_sub_r a b : ruined b -> ruined (csub a b). Proof. intros [H G]. split; apply nf_sub_r; assumption. Qed.
Lemma ruined_scale q a : ruined a -> ruined (cscale q a). Proof. intros [H G]. split; apply nf_mul_r; assumption. Qed.

Section Product.
Variable m : CF -> CF -> CF.
Hypothesis HM : usual_product m.
Lemma mul_bad_l a b : bad a -> ruined (m a b).
Proof.
  intros H. specialize (HM a b). cbv zeta in HM. destruct (_ && _)%bool in HM; [exact HM|]. rewrite HM. split; cbn [fst snd].
  - destruct H as [H|H]; [apply nf_sub_l, nf_mul_l, H|apply nf_sub_r, nf_mul_l, H].
  - destruct H as [H|H]; [apply nf_add_l, nf_mul_l, H|apply nf_add_r, nf_mul_l, H].
Qed.
Lemma mul_bad_r a b : bad b -> ruined (m a b).
Proof.
  intros H. specialize (HM a b). cbv zeta in HM. destruct (_ && _)%bool in HM; [exact HM|]. rewrite HM. split; cbn [fst snd].
  - destruct H as [H|H]; [apply nf_sub_l, nf_mul_r, H|apply nf_sub_r, nf_mul_r, H].
  - destruct H as [H|H]; [apply nf_add_r, nf_mul_r, H|apply nf_add_l, nf_mul_r, H].
Qed.

(** *** The magnitude of finite powers *)
Notation u := (/ 9007199254740992).
Definition creal (z : CF) : C := (real_of (fst z), real_of (snd z)).
Lemma eta_small M : 1 <= M -> eta <= u * M.
Proof.
  intros H. apply Rle_trans with u; [|lra]. unfold eta. replace u with (bpow radix2 (-53)) by (cbn; reflexivity). apply bpow_le. lia.
Qed.
Lemma close_mod (z w : C) e : Rabs (Re z - Re w) <= e -> Rabs (Im z - Im w) <= e -> Cmod w - 2 * e <= Cmod z.
Proof.
  intros H1 H2. assert (E : 0 <= e) by (eapply Rle_trans; [apply Rabs_pos|exact H1]).
  assert (T := Cmod_triangle z (w - z)%C). replace (z + (w - z))%C with w in T by (destruct z, w; unfold Cplus, Cminus, Copp; cbn; f_equal; ring).
  assert (B : Cmod (w - z) <= 2 * e).
  { eapply Rle_trans; [apply Cmod_2Rmax|]. apply Rle_trans with (R_sqrt.sqrt 2 * e).
    - apply Rmult_le_compat_l; [apply sqrt_pos|]. apply Rmax_lub; cbn; rewrite <- Rabs_Ropp; [eapply Rle_trans; [|exact H1]|eapply Rle_trans; [|exact H2]]; right; f_equal; unfold Re, Im; ring.
    - apply Rmult_le_compat_r; [exact E|]. rewrite <- (sqrt_square 2) at 2 by lra. apply sqrt_le_1_alt. lra. }
  lra.
Qed.
Lemma part_le (a b c d : R) : Rabs (a * c) <= Cmod (a, b) * Cmod (c, d) /\ Rabs (b * d) <= Cmod (a, b) * Cmod (c, d) /\
  Rabs (a * d) <= Cmod (a, b) * Cmod (c, d) /\ Rabs (b * c) <= Cmod (a, b) * Cmod (c, d).
Proof.
  assert (A := Rmax_Cmod (a, b)). assert (B := Rmax_Cmod (c, d)). cbn [fst snd] in A, B.
  assert (A1 := Rle_trans _ _ _ (Rmax_l _ _) A). assert (A2 := Rle_trans _ _ _ (Rmax_r _ _) A).
  assert (B1 := Rle_trans _ _ _ (Rmax_l _ _) B). assert (B2 := Rle_trans _ _ _ (Rmax_r _ _) B).
  rewrite !Rabs_mult. repeat split; apply Rmult_le_compat; try apply Rabs_pos; assumption.
Qed.
Lemma two_products (p q : R) M : 0 <= M -> eta <= u * M -> Rabs p <= M -> Rabs q <= M -> forall s, (s = 1 \/ s = -1) ->
  Rabs (rndF (rndF p + s * rndF q) - (p + s * q)) <= 8 * u * M.
Proof.
  intros M0 E P Q s S. assert (EP := rndF_error p). assert (EQ := rndF_error q). set (x := rndF p) in *. set (y := rndF q) in *.
  assert (ES := rndF_error (x + s * y)). set (t := rndF (x + s * y)) in *.
  assert (Bp : Rabs (x - p) <= 2 * u * M) by (eapply Rle_trans; [exact EP|]; nra). assert (Bq : Rabs (y - q) <= 2 * u * M) by (eapply Rle_trans; [exact EQ|]; nra).
  apply Rabs_le_inv in Bp, Bq, P, Q. assert (B : Rabs (x + s * y) <= 3 * M). { apply Rabs_le. destruct S as [->| ->]; split; lra. }
  assert (Bt : Rabs (t - (x + s * y)) <= 4 * u * M) by (eapply Rle_trans; [exact ES|]; nra). apply Rabs_le_inv in Bt.
  apply Rabs_le. destruct S as [->| ->]; split; lra.
Qed.
Lemma mul_modulus a b : 1 <= Cmod (creal a) * Cmod (creal b) -> bad (m a b) \/ (1 - 16 * u) * (Cmod (creal a) * Cmod (creal b)) <= Cmod (creal (m a b)).
Proof.
  intros L. destruct (bad_cases (m a b)) as [H|[F1 F2]]; [left; exact H|right]. specialize (HM a b). cbv zeta in HM. destruct (_ && _)%bool in HM.
  - destruct HM as [H _]. rewrite H in F1. discriminate.
  - rewrite HM in F1, F2 |- *. cbn [fst snd] in F1, F2. apply sub_finite in F1. destruct F1 as (A1 & A2 & E1). apply add_finite in F2. destruct F2 as (A3 & A4 & E2).
    apply mul_finite in A1, A2, A3, A4. destruct A1 as (_ & _ & R1), A2 as (_ & _ & R2), A3 as (_ & _ & R3), A4 as (_ & _ & R4).
    destruct a as [a1 a2], b as [b1 b2]. unfold creal in *. cbn [fst snd] in *. destruct (part_le (real_of a1) (real_of a2) (real_of b1) (real_of b2)) as (P1 & P2 & P3 & P4).
    set (M := Cmod (real_of a1, real_of a2) * Cmod (real_of b1, real_of b2)) in *.
    assert (L0 : 0 <= M) by lra. assert (LE := eta_small M L). assert (T1 := two_products _ _ M L0 LE P1 P2 (-1) (or_intror eq_refl)). assert (T2 := two_products _ _ M L0 LE P3 P4 1 (or_introl eq_refl)).
    replace ((1 - 16 * u) * M) with (M - 2 * (8 * u * M)) by ring. unfold M at 1. rewrite <- Cmod_mult. apply close_mod; cbn [Re Im Cmult fst snd].
    + rewrite E1, R1, R2. replace (rndF (real_of a1 * real_of b1) - rndF (real_of a2 * real_of b2)) with (rndF (real_of a1 * real_of b1) + -1 * rndF (real_of a2 * real_of b2)) by ring.
      replace (real_of a1 * real_of b1 - real_of a2 * real_of b2) with (real_of a1 * real_of b1 + -1 * (real_of a2 * real_of b2)) by ring. exact T1.
    + rewrite E2, R3, R4. replace (rndF (real_of a1 * real_of b2) + rndF (real_of a2 * real_of b1)) with (rndF (real_of a1 * real_of b2) + 1 * rndF (real_of a2 * real_of b1)) by ring.
      replace (real_of a1 * real_of b2 + real_of a2 * real_of b1) with (real_of a1 * real_of b2 + 1 * (real_of a2 * real_of b1)) by ring. exact T2.
Qed.
(** The powers of the loops of multipole_expansion.hpp 51-54 and fmm_tables.hpp 24-28. *)
Notation powers z w i := (Nat.iter i (fun p => m p w) z).
Notation rho := (1 - / 281474976710656).
Lemma difference_modulus x c : 1 <= separation x c -> bad (csub (cplxF x) (cplxF c)) \/ (1 - 4 * u) * separation x c <= Cmod (creal (csub (cplxF x) (cplxF c))).
Proof.
  intros L. destruct (bad_cases (csub (cplxF x) (cplxF c))) as [H|[F1 F2]]; [left; exact H|right]. unfold csub, cplxF, creal in *. cbn [fst snd] in *.
  apply sub_finite in F1, F2. destruct F1 as (_ & _ & E1), F2 as (_ & _ & E2). rewrite E1, E2.
  set (p := real_of (nth 0 x 0%float) - real_of (nth 0 c 0%float)) in *. set (q := real_of (nth 1 x 0%float) - real_of (nth 1 c 0%float)) in *.
  change (separation x c) with (Cmod (p, q)) in *. assert (B := Rmax_Cmod (p, q)). cbn [fst snd] in B.
  assert (B1 := Rle_trans _ _ _ (Rmax_l _ _) B). assert (B2 := Rle_trans _ _ _ (Rmax_r _ _) B). assert (E := eta_small _ L).
  replace ((1 - 4 * u) * Cmod (p, q)) with (Cmod (p, q) - 2 * (2 * u * Cmod (p, q))) by ring.
  apply close_mod; cbn [Re Im fst snd]; (eapply Rle_trans; [apply rndF_error|]; lra).
Qed.
Lemma powers_bad z w i : bad z -> bad (powers z w i).
Proof. intros Z. induction i as [|i IH]; [exact Z|apply ruined_bad, mul_bad_l, IH]. Qed.
Lemma powers_bad_base z w i : bad w -> (1 <= i)%nat -> bad (powers z w i).
Proof. intros W H. destruct i as [|i]; [lia|]. apply ruined_bad, mul_bad_r, W. Qed.
Lemma power_modulus z w s n : 1 <= rho * s -> (1 - 12 * u) * s <= Cmod (creal w) -> (rho * s) ^ n <= Cmod (creal z) ->
  forall i, bad (powers z w i) \/ (rho * s) ^ (n + i) <= Cmod (creal (powers z w i)).
Proof.
  intros L W Z. assert (S1 : 1 <= s) by lra. assert (W1 : 1 <= Cmod (creal w)) by (eapply Rle_trans; [|exact W]; lra).
  induction i as [|i [IH|IH]].
  - right. rewrite Nat.add_0_r. exact Z.
  - left. apply ruined_bad, mul_bad_l, IH.
  - assert (P1 : 1 <= Cmod (creal (powers z w i))) by (eapply Rle_trans; [|exact IH]; apply pow_R1_Rle, L).
    assert (PW : 1 <= Cmod (creal (powers z w i)) * Cmod (creal w)) by nra.
    destruct (mul_modulus (powers z w i) w PW) as [B|B]; [left; exact B|right]. eapply Rle_trans; [|exact B].
    rewrite Nat.add_succ_r. cbn [pow]. assert (Q : 0 <= (rho * s) ^ (n + i)) by (apply pow_le; lra).
    apply Rle_trans with ((1 - 16 * u) * ((rho * s) ^ (n + i) * ((1 - 12 * u) * s))).
    + replace ((1 - 16 * u) * ((rho * s) ^ (n + i) * ((1 - 12 * u) * s))) with ((1 - 16 * u) * (1 - 12 * u) * s * (rho * s) ^ (n + i)) by ring.
      apply Rmult_le_compat_r; [exact Q|]. apply Rmult_le_compat_r; lra.
    + apply Rmult_le_compat_l; [lra|]. apply Rmult_le_compat; [exact Q|apply Rmult_le_pos; lra|exact IH|exact W].
Qed.
Lemma pw_pow n : pw (Z.of_nat n) = 2 ^ n.
Proof. induction n as [|n IH]; [reflexivity|]. rewrite Nat2Z.inj_succ, <- Z.add_1_l, bpow_plus, IH. reflexivity. Qed.
Lemma huge_bad z : 2 ^ 1025 <= Cmod (creal z) -> bad z.
Proof.
  intros B. destruct (bad_cases z) as [G|[F1 F2]]; [exact G|exfalso].
  assert (C2 := Cmod_2Rmax (creal z)). unfold creal in C2. cbn [fst snd] in C2. apply finite_bound in F1, F2.
  assert (MX : Rmax (Rabs (real_of (fst z))) (Rabs (real_of (snd z))) < pw 1024) by (apply Rmax_lub_lt; assumption).
  assert (T2 : R_sqrt.sqrt 2 <= 2) by (rewrite <- (sqrt_square 2) at 2 by lra; apply sqrt_le_1_alt; lra).
  assert (PW : 2 ^ 1025 = 2 * pw 1024) by (change 1025%nat with (S 1024); rewrite <- tech_pow_Rmult, <- pw_pow; reflexivity).
  assert (N : 0 <= Rmax (Rabs (real_of (fst z))) (Rabs (real_of (snd z)))) by (eapply Rle_trans; [apply Rabs_pos|apply Rmax_l]).
  change (creal z) with (real_of (fst z), real_of (snd z)) in B. nra.
Qed.
Lemma big_base k s : 0 <= s -> 2 ^ 1025 <= (rho * s) ^ k -> 1 <= rho * s /\ (1 <= k)%nat.
Proof.
  intros S0 H. assert (B : 1 < 2 ^ 1025) by (apply Rlt_pow_R1; [lra|lia]). split.
  - destruct (Rle_lt_dec 1 (rho * s)) as [G|G]; [exact G|exfalso].
    assert (Q : (rho * s) ^ k <= 1 ^ k) by (apply pow_incr; lra). rewrite pow1 in Q. lra.
  - destruct k as [|k]; [|lia]. cbn [pow] in H. lra.
Qed.
Lemma power_overflows x c k : overflows k x c -> (1 <= k)%nat /\ bad (powers (csub (cplxF x) (cplxF c)) (csub (cplxF x) (cplxF c)) (k - 1)).
Proof.
  unfold overflows. intros H. destruct (big_base k _ (sqrt_pos _ : 0 <= separation x c) H) as [L K]. split; [exact K|]. set (w := csub (cplxF x) (cplxF c)).
  destruct (difference_modulus x c ltac:(lra)) as [W|W]; fold w in W; [apply powers_bad, W|].
  destruct (power_modulus w w (separation x c) 1 L) with (i := (k - 1)%nat) as [B|B].
  - eapply Rle_trans; [|exact W]. apply Rmult_le_compat_r; lra.
  - rewrite pow_1. eapply Rle_trans; [|exact W]. apply Rmult_le_compat_r; lra.
  - exact B.
  - apply huge_bad. eapply Rle_trans; [exact H|]. replace (1 + (k - 1))%nat with k in B by lia. exact B.
Qed.
Lemma Cmod_sq a b : Cmod (a, b) = R_sqrt.sqrt (a ^ 2 + b ^ 2). Proof. reflexivity. Qed.
Lemma creal_one : Cmod (creal oneC) = 1.
Proof. unfold creal, oneC. cbn [fst snd]. rewrite (proj2 FloatFit.one_real), (proj2 zero_real), Cmod_sq. replace (1 ^ 2 + 0 ^ 2) with 1 by ring. apply sqrt_1. Qed.
(** A difference of doubles has no error from underflow. *)
Lemma sub_small x y : PrimFloat.is_finite x = true -> PrimFloat.is_finite y = true -> Rabs (real_of x - real_of y) <= pw 970 ->
  PrimFloat.is_finite (x - y)%float = true /\ Rabs (real_of (x - y)%float) <= (1 + u) * Rabs (real_of x - real_of y) /\
  (1 - u) * Rabs (real_of x - real_of y) <= Rabs (real_of (x - y)%float).
Proof.
  intros X Y S. rewrite is_finite_equiv in X, Y. unfold real_of in *. rewrite is_finite_equiv, sub_equiv.
  assert (H := Bminus_correct _ _ Hprec Hmax mode_NE (Prim2B x) (Prim2B y) X Y). cbn [round_mode] in H.
  assert (P53 : Prec_gt_0 53) by reflexivity.
  destruct (FLT_plus_error_N_ex radix2 (-1074) 53 (fun z => negb (Z.even z)) (B2R (Prim2B x)) (- B2R (Prim2B y))) as (e & E1 & E2).
  { apply (generic_format_B2R prec emax). } { apply generic_format_opp, (generic_format_B2R prec emax). }
  change (Znearest (fun z => negb (Z.even z))) with ZnearestE in E2. change (FLT_exp (-1074) 53) with (SpecFloat.fexp prec emax) in E2.
  change (B2R (Prim2B x) + - B2R (Prim2B y)) with (B2R (Prim2B x) - B2R (Prim2B y)) in E2. rewrite E2 in H.
  assert (E : Rabs e <= u).
  { eapply Rle_trans; [exact E1|]. unfold Relative.u_ro. replace (bpow radix2 (- (53) + 1)) with (/ 4503599627370496) by (cbn; reflexivity). lra. }
  assert (B : Rabs ((B2R (Prim2B x) - B2R (Prim2B y)) * (1 + e)) <= (1 + u) * Rabs (B2R (Prim2B x) - B2R (Prim2B y))).
  { rewrite Rabs_mult, Rmult_comm. apply Rmult_le_compat_r; [apply Rabs_pos|]. eapply Rle_trans; [apply Rabs_triang|]. rewrite Rabs_R1. lra. }
  rewrite Rlt_bool_true in H.
  - destruct H as (H1 & H2 & _). split; [exact H2|]. rewrite H1. split; [exact B|]. rewrite Rabs_mult, Rmult_comm. apply Rmult_le_compat_l; [apply Rabs_pos|].
    apply Rabs_le_inv in E. rewrite Rabs_pos_eq by lra. lra.
  - eapply Rle_lt_trans; [exact B|]. apply Rle_lt_trans with (pw 971); [change 971%Z with (1 + 970)%Z; rewrite bpow_plus; change (bpow radix2 1) with 2; assert (G := Rabs_pos (B2R (Prim2B x) - B2R (Prim2B y))); nra|apply bpow_lt; reflexivity].
Qed.
Lemma scaled_mod (a b p q l : R) : 0 <= l -> Rabs a <= l * Rabs p -> Rabs b <= l * Rabs q -> Cmod (a, b) <= l * Cmod (p, q).
Proof.
  intros L A B. rewrite !Cmod_sq. rewrite <- (sqrt_pow2 l L), <- sqrt_mult_alt by apply pow2_ge_0. apply sqrt_le_1_alt.
  rewrite <- (pow2_abs a), <- (pow2_abs b), <- (pow2_abs p), <- (pow2_abs q).
  assert (Rabs a ^ 2 <= (l * Rabs p) ^ 2) by (apply pow_incr; split; [apply Rabs_pos|exact A]).
  assert (Rabs b ^ 2 <= (l * Rabs q) ^ 2) by (apply pow_incr; split; [apply Rabs_pos|exact B]). nra.
Qed.
Lemma scaled_mod_ge (a b p q l : R) : 0 <= l -> l * Rabs p <= Rabs a -> l * Rabs q <= Rabs b -> l * Cmod (p, q) <= Cmod (a, b).
Proof.
  intros L A B. rewrite !Cmod_sq. rewrite <- (sqrt_pow2 l L), <- sqrt_mult_alt by apply pow2_ge_0. apply sqrt_le_1_alt.
  rewrite <- (pow2_abs a), <- (pow2_abs b), <- (pow2_abs p), <- (pow2_abs q).
  assert ((l * Rabs p) ^ 2 <= Rabs a ^ 2) by (apply pow_incr; split; [apply Rmult_le_pos; [exact L|apply Rabs_pos]|exact A]).
  assert ((l * Rabs q) ^ 2 <= Rabs b ^ 2) by (apply pow_incr; split; [apply Rmult_le_pos; [exact L|apply Rabs_pos]|exact B]). nra.
Qed.
Lemma csq (v : CF) : real_of (fst v) ^ 2 + real_of (snd v) ^ 2 = Cmod (creal v) ^ 2.
Proof. unfold creal. rewrite Cmod_sq, pow2_sqrt; [reflexivity|]. assert (P1 := pow2_ge_0 (real_of (fst v))). assert (P2 := pow2_ge_0 (real_of (snd v))). lra. Qed.
(** The computed difference of two close points. *)
Lemma close_difference x c k : Forall (fun y => PrimFloat.is_finite y = true) (x ++ c) -> reciprocal_overflows k x c ->
  let s := separation x c in let z := csub (cplxF x) (cplxF c) in
  0 < s /\ 1 <= rho * / s /\ (1 <= k)%nat /\ PrimFloat.is_finite (fst z) = true /\ PrimFloat.is_finite (snd z) = true /\
  Cmod (creal z) <= (1 + u) * s /\ real_of (fst z) ^ 2 + real_of (snd z) ^ 2 <= 1 /\ / 2 ^ 800 <= real_of (fst z) ^ 2 + real_of (snd z) ^ 2.
Proof.
  intros F [ST H]. assert (T0 : 0 < / 2 ^ 399) by (apply Rinv_0_lt_compat, pow_lt; lra). intros s z. fold s in ST, H. assert (S0 : 0 < s) by lra. unfold Rdiv in H.
  assert (I0 : 0 < / s) by (apply Rinv_0_lt_compat, S0). split; [exact S0|].
  destruct (big_base k (/ s) ltac:(lra) H) as [L K]. split; [exact L|]. split; [exact K|].
  assert (SI : s * / s = 1) by (apply Rinv_r; lra). assert (S1 : s <= rho) by nra.
  assert (FN : forall i v, (v = x \/ v = c) -> PrimFloat.is_finite (nth i v 0%float) = true).
  { intros i v V. destruct (nth_in_or_default i v 0%float) as [G|G]; [|rewrite G; apply zero_real]. rewrite Forall_forall in F. apply F, in_or_app. destruct V as [<-|<-]; auto. }
  set (p := real_of (nth 0 x 0%float) - real_of (nth 0 c 0%float)). set (q := real_of (nth 1 x 0%float) - real_of (nth 1 c 0%float)).
  assert (SC : s = Cmod (p, q)) by reflexivity. assert (B := Rmax_Cmod (p, q)). cbn [fst snd] in B. rewrite <- SC in B.
  assert (B1 := Rle_trans _ _ _ (Rmax_l _ _) B). assert (B2 := Rle_trans _ _ _ (Rmax_r _ _) B).
  destruct (sub_small (nth 0 x 0%float) (nth 0 c 0%float)) as (F1 & E1 & D1); [apply FN; auto|apply FN; auto|fold p; assert (PW : pw 0 <= pw 970) by (apply bpow_le; lia); change (pw 0) with 1 in PW; lra|]. fold p in E1, D1.
  destruct (sub_small (nth 1 x 0%float) (nth 1 c 0%float)) as (F2 & E2 & D2); [apply FN; auto|apply FN; auto|fold q; assert (PW : pw 0 <= pw 970) by (apply bpow_le; lia); change (pw 0) with 1 in PW; lra|]. fold q in E2, D2.
  assert (Z := scaled_mod _ _ p q (1 + u) ltac:(lra) E1 E2). assert (ZL := scaled_mod_ge _ _ p q (1 - u) ltac:(lra) D1 D2). rewrite <- SC in Z, ZL.
  change ((1 - u) * s <= Cmod (creal z)) in ZL. change (Cmod (creal z) <= (1 + u) * s) in Z. assert (Z0 := Cmod_ge_0 (creal z)).
  split; [exact F1|]. split; [exact F2|]. split; [exact Z|]. rewrite !csq. split; [nra|].
  replace (/ 2 ^ 800) with ((/ 2 * / 2 ^ 399) ^ 2) by (rewrite Rpow_mult_distr, !pow_inv, <- pow_mult, <- Rinv_mult, <- pow_add; reflexivity).
  apply pow_incr; nra.
Qed.
Lemma reciprocal_powers_overflow dv x c k : usual_reciprocal dv -> Forall (fun y => PrimFloat.is_finite y = true) (x ++ c) ->
  reciprocal_overflows k x c -> (1 <= k)%nat /\ bad (powers oneC (dv oneC (csub (cplxF x) (cplxF c))) k).
Proof.
  intros HD F H. destruct (close_difference x c k F H) as (S0 & L & K & F1 & F2 & Z & Z1 & Z2). destruct H as [_ H]. unfold Rdiv in H.
  set (s := separation x c) in *. set (z := csub (cplxF x) (cplxF c)) in *. split; [exact K|]. set (w := dv oneC z).
  assert (I0 : 0 < / s) by (apply Rinv_0_lt_compat, S0). assert (SI : s * / s = 1) by (apply Rinv_r; lra). assert (Z0 := Cmod_ge_0 (creal z)).
  specialize (HD z F1 F2). cbv zeta in HD. fold w in HD.
  destruct (HD Z1 Z2) as [G|[G|G]]; [apply powers_bad_base; [left; exact G|exact K]|apply powers_bad_base; [right; exact G|exact K]|].
  rewrite !csq in G. rewrite <- Rpow_mult_distr in G. assert (W0 := Cmod_ge_0 (creal w)).
  assert (G' : 1 - 8 * u <= Cmod (creal w) * Cmod (creal z)).
  { replace (1 - 8 * u) with (1 - / 1125899906842624) by lra. apply Rsqr_incr_0; [rewrite !Rsqr_pow2; exact G|lra|apply Rmult_le_pos; assumption]. }
  destruct (power_modulus oneC w (/ s) 0 L) with (i := k) as [C|C].
  - apply Rmult_le_reg_r with ((1 + u) * s); [nra|]. apply Rle_trans with (Cmod (creal w) * Cmod (creal z)); [|apply Rmult_le_compat_l; assumption].
    replace ((1 - 12 * u) * / s * ((1 + u) * s)) with ((1 - 12 * u) * (1 + u) * (s * / s)) by ring. rewrite SI. lra.
  - cbn [pow]. rewrite creal_one. lra.
  - exact C.
  - apply huge_bad. eapply Rle_trans; [exact H|exact C].
Qed.
(** The same for repeated division, local_expansion.hpp 63-66. *)
Lemma quotients_overflow dv x c k : usual_quotient dv -> Forall (fun y => PrimFloat.is_finite y = true) (x ++ c) ->
  reciprocal_overflows k x c -> (1 <= k)%nat /\ bad (Nat.iter k (fun p => dv p (csub (cplxF x) (cplxF c))) oneC).
Proof.
  intros HD F H. destruct (close_difference x c k F H) as (S0 & L & K & F1 & F2 & Z & Z1 & Z2). destruct H as [_ H]. unfold Rdiv in H.
  set (s := separation x c) in *. set (z := csub (cplxF x) (cplxF c)) in *. split; [exact K|].
  assert (I0 : 0 < / s) by (apply Rinv_0_lt_compat, S0). assert (SI : s * / s = 1) by (apply Rinv_r; lra). assert (Z0 := Cmod_ge_0 (creal z)).
  assert (A : forall i, bad (Nat.iter i (fun p => dv p z) oneC) \/ (rho * / s) ^ i <= Cmod (creal (Nat.iter i (fun p => dv p z) oneC))).
  { induction i as [|i IH]; [right; cbn [Nat.iter nat_rect pow]; rewrite creal_one; lra|]. change (Nat.iter (S i) (fun p => dv p z) oneC) with (dv (Nat.iter i (fun p => dv p z) oneC) z).
    set (p := Nat.iter i (fun p => dv p z) oneC) in *. specialize (HD p z F1 F2). cbv zeta in HD. set (v := dv p z) in *.
    destruct (HD Z1 Z2) as [G|[G|(G1 & G2 & G3)]]; [left; left; exact G|left; right; exact G|]. destruct IH as [[IH|IH]|IH]; [congruence|congruence|right].
    assert (P1 : 1 <= Cmod (creal p)) by (eapply Rle_trans; [|exact IH]; apply pow_R1_Rle, L). rewrite !csq in G3. assert (G := G3 ltac:(nra)). rewrite <- !Rpow_mult_distr in G.
    assert (V0 := Cmod_ge_0 (creal v)).
    assert (G' : (1 - 24 * u) * Cmod (creal p) <= Cmod (creal v) * Cmod (creal z)).
    { replace (1 - 24 * u) with (1 - 3 * / 1125899906842624) by lra. apply Rsqr_incr_0; [rewrite !Rsqr_pow2; exact G|apply Rmult_le_pos; lra|apply Rmult_le_pos; assumption]. }
    cbn [pow]. apply Rle_trans with (rho * / s * Cmod (creal p)); [apply Rmult_le_compat_l; [lra|exact IH]|].
    apply Rmult_le_reg_r with ((1 + u) * s); [nra|]. apply Rle_trans with (Cmod (creal v) * Cmod (creal z)); [|apply Rmult_le_compat_l; assumption].
    eapply Rle_trans; [|exact G']. replace (rho * / s * Cmod (creal p) * ((1 + u) * s)) with (rho * (1 + u) * Cmod (creal p) * (s * / s)) by ring. rewrite SI, Rmult_1_r.
    apply Rmult_le_compat_r; lra. }
  destruct (A k) as [C|C]; [exact C|]. apply huge_bad. eapply Rle_trans; [exact H|exact C].
Qed.
End Product.

(** *** Loops *)
Lemma ofold_mark {A S} (f : S -> A -> outcome S) (I B : S -> Prop) x :
  (forall s a s', I s -> f s a = Ok s' -> I s' /\ (B s -> B s')) -> (forall s s', I s -> f s x = Ok s' -> B s') ->
  forall l s r, I s -> ofold f l s = Ok r -> B s \/ In x l -> B r.
Proof.
  intros H1 H2. induction l as [|a l IH]; intros s r HI E HB; cbn [ofold] in E.
  - injection E as <-. destruct HB as [HB|[]]. exact HB.
  - destruct (f s a) as [s'| | | | |] eqn:F; try discriminate. cbn [bind] in E. destruct (H1 s a s' HI F) as [I' B']. apply (IH s' r I' E).
    destruct HB as [HB|[->|HB]]; [left; apply B', HB|left; exact (H2 s s' HI F)|right; exact HB].
Qed.
Lemma omapM_nth {A B} (f : A -> outcome B) l : forall r i a, omapM f l = Ok r -> nth_error l i = Some a -> exists b, f a = Ok b /\ nth_error r i = Some b.
Proof.
  induction l as [|x l IH]; intros r i a E N; [destruct i; discriminate|]. cbn [omapM] in E.
  destruct (f x) as [y| | | | |] eqn:F; try discriminate. cbn [bind] in E. destruct (omapM f l) as [ys| | | | |] eqn:G; try discriminate. cbn [bind] in E. injection E as <-.
  destruct i as [|i]; cbn [nth_error] in *; [injection N as <-; exists y; auto|apply (IH ys); auto].
Qed.
Lemma nth_map2 {A} (f : A -> A -> A) a : forall b i x y, nth_error a i = Some x -> nth_error b i = Some y -> nth_error (map2 f a b) i = Some (f x y).
Proof.
  unfold map2. induction a as [|z a IH]; intros b i x y X Y; [destruct i; discriminate|]. destruct b as [|w b]; [destruct i; discriminate|].
  destruct i as [|i]; cbn in *; [injection X as <-; injection Y as <-; reflexivity|]. apply IH; assumption.
Qed.
Lemma nth_lset {A} (l : list A) : forall k i x z, nth_error l i = Some z -> nth_error (lset l k x) i = Some (if (i =? k)%nat then x else z).
Proof. induction l as [|y l IH]; intros [|k] [|i] x z H; cbn in *; try discriminate; auto. Qed.
Lemma nth_exists {A} (l : list A) i : (i < length l)%nat -> exists z, nth_error l i = Some z.
Proof. intros H. destruct (nth_error l i) as [z|] eqn:E; [eauto|]. apply nth_error_None in E. lia. Qed.
Lemma nth_seq a n i : (i < n)%nat -> nth_error (seq a n) i = Some (a + i)%nat.
Proof. revert a i. induction n as [|n IH]; intros a i H; [lia|]. destruct i as [|i]; cbn [seq nth_error]; [f_equal; lia|rewrite IH by lia; f_equal; lia]. Qed.

Lemma iter_r {A} (f : A -> A) x n : Nat.iter (S n) f x = Nat.iter n f (f x).
Proof. induction n as [|n IH]; [reflexivity|]. change (Nat.iter (S (S n)) f x) with (f (Nat.iter (S n) f x)). rewrite IH. reflexivity. Qed.

Definition bad_at (k : nat) (cs : list CF) : Prop := exists z, nth_error cs k = Some z /\ bad z.
Definition ruined_at (k : nat) (cs : list CF) : Prop := exists z, nth_error cs k = Some z /\ ruined z.

Section Expansions.
Variable A : cfarith.
Hypothesis HM : usual_product (f_mul A).
Notation m := (f_mul A).
Notation powers z w i := (Nat.iter i (fun p => m p w) z).

(** *** Sources *)
Lemma acc_nth q w cs : forall pw i a, nth_error cs i = Some a -> nth_error (me2_accF A q w pw cs) i = Some (csub a (cscale q (powers pw w i))).
Proof.
  induction cs as [|b cs IH]; intros pw i a H; [destruct i; discriminate|]. destruct i as [|i]; cbn [me2_accF nth_error] in *; [injection H as <-; reflexivity|].
  rewrite (IH _ _ _ H). rewrite iter_r. reflexivity.
Qed.
Lemma acc_length q w cs : forall pw, length (me2_accF A q w pw cs) = length cs.
Proof. induction cs as [|b cs IH]; intros pw; cbn; [reflexivity|rewrite IH; reflexivity]. Qed.
Lemma add_source_length c cs s : length (me2_add_sourceF A c cs s) = length cs.
Proof. destruct cs as [|a r]; cbn; [reflexivity|rewrite acc_length; reflexivity]. Qed.
Lemma add_source_keeps c cs s k : (1 <= k)%nat -> bad_at k cs -> bad_at k (me2_add_sourceF A c cs s).
Proof.
  intros K (z & N & Z). destruct cs as [|a r]; [destruct k; discriminate|]. destruct k as [|k]; [lia|]. cbn [nth_error] in N.
  eexists. split; [cbn [me2_add_sourceF nth_error]; apply acc_nth, N|apply bad_sub_l, Z].
Qed.
Lemma add_source_breaks c cs s k : (1 <= k)%nat -> (k < length cs)%nat -> bad (powers (csub (cplxF (ps_pos s)) c) (csub (cplxF (ps_pos s)) c) (k - 1)) ->
  bad_at k (me2_add_sourceF A c cs s).
Proof.
  intros K L B. destruct cs as [|a r]; [cbn in L; lia|]. destruct k as [|k]; [lia|]. rewrite Nat.sub_succ, Nat.sub_0_r in B. cbn [length] in L.
  destruct (nth_exists r k ltac:(lia)) as [z N]. eexists. split; [cbn [me2_add_sourceF nth_error]; apply acc_nth, N|apply bad_sub_r, bad_scale, B].
Qed.
Lemma sources_bad c srcs s k : (1 <= k)%nat -> bad (powers (csub (cplxF (ps_pos s)) c) (csub (cplxF (ps_pos s)) c) (k - 1)) ->
  forall cs, (k < length cs)%nat -> bad_at k cs \/ In s srcs -> bad_at k (fold_left (me2_add_sourceF A c) srcs cs).
Proof.
  intros K B. induction srcs as [|t srcs IH]; intros cs L H; cbn [fold_left]; [destruct H as [H|[]]; exact H|].
  apply IH; [rewrite add_source_length; exact L|]. destruct H as [H|[->|H]]; [left; apply add_source_keeps; assumption|left; apply add_source_breaks; assumption|right; exact H].
Qed.
Lemma div_from_nth cs : forall j i a, nth_error cs i = Some a -> nth_error (div_fromF j cs) i = Some (cdivr a (nat_float (j + i))).
Proof.
  induction cs as [|b cs IH]; intros j i a H; [destruct i; discriminate|]. destruct i as [|i]; cbn [div_fromF nth_error] in *; [injection H as <-; rewrite Nat.add_0_r; reflexivity|].
  rewrite (IH _ _ _ H). rewrite Nat.add_succ_r. reflexivity.
Qed.
Lemma p2m_bad c p srcs s k : (k <= p)%nat -> In s srcs -> overflows k (ps_pos s) c -> (1 <= k)%nat /\ bad_at k (sf_co (me2_sourcesF A c p srcs)).
Proof.
  intros K IS O. destruct (power_overflows m HM (ps_pos s) c k O) as [K1 B]. split; [exact K1|].
  destruct (sources_bad (cplxF c) srcs s k K1 B (repeat zeroC (S p))) as (z & N & Z); [rewrite repeat_length; lia|right; exact IS|].
  unfold me2_sourcesF. cbn [sf_co]. destruct (fold_left _ _ _) as [|a r]; [destruct k; discriminate|]. destruct k as [|k]; [lia|]. cbn [nth_error] in N.
  eexists. split; [cbn [div_tailF nth_error]; apply div_from_nth, N|apply bad_divr, Z].
Qed.

(** *** Local expansions of sources *)
Lemma lacc_nth q w cs : forall pw i a, nth_error cs i = Some a -> nth_error (le2_accF A q w pw cs) i = Some (csub a (cscale q (Nat.iter i (fun p => f_div A p w) pw))).
Proof.
  induction cs as [|b cs IH]; intros pw i a H; [destruct i; discriminate|]. destruct i as [|i]; cbn [le2_accF nth_error] in *; [injection H as <-; reflexivity|].
  rewrite (IH _ _ _ H). rewrite iter_r. reflexivity.
Qed.
Lemma lacc_length q w cs : forall pw, length (le2_accF A q w pw cs) = length cs.
Proof. induction cs as [|b cs IH]; intros pw; cbn; [reflexivity|rewrite IH; reflexivity]. Qed.
Lemma ladd_length c cs s : length (le2_add_sourceF A c cs s) = length cs.
Proof. destruct cs as [|a r]; cbn; [reflexivity|rewrite lacc_length; reflexivity]. Qed.
Lemma points_bad c srcs s k : (1 <= k)%nat -> bad (Nat.iter k (fun p => f_div A p (csub (cplxF (ps_pos s)) c)) oneC) ->
  forall cs, (k < length cs)%nat -> bad_at k cs \/ In s srcs -> bad_at k (fold_left (le2_add_sourceF A c) srcs cs).
Proof.
  intros K B. induction srcs as [|t srcs IH]; intros cs L H; cbn [fold_left]; [destruct H as [H|[]]; exact H|].
  apply IH; [rewrite ladd_length; exact L|]. destruct k as [|k]; [lia|]. destruct cs as [|a r]; [cbn in L; lia|]. cbn [length] in L.
  destruct H as [(z & N & Z)|[->|H]]; [left|left|right; exact H].
  - cbn [nth_error] in N. eexists. split; [cbn [le2_add_sourceF nth_error]; apply lacc_nth, N|apply bad_sub_l, Z].
  - destruct (nth_exists r k ltac:(lia)) as [z N]. eexists. split; [cbn [le2_add_sourceF nth_error]; apply lacc_nth, N|].
    apply bad_sub_r, bad_scale. rewrite iter_r in B. exact B.
Qed.
Lemma p2l_bad c p srcs s k : usual_quotient (f_div A) -> (k <= p)%nat -> In s srcs -> Forall (fun y => PrimFloat.is_finite y = true) (ps_pos s ++ c) ->
  reciprocal_overflows k (ps_pos s) c -> (1 <= k)%nat /\ bad_at k (sf_co (le2_sourcesF A c p srcs)).
Proof.
  intros HD K IS F O. destruct (quotients_overflow (f_div A) (ps_pos s) c k HD F O) as [K1 B]. split; [exact K1|].
  destruct (points_bad (cplxF c) srcs s k K1 B (repeat zeroC (S p))) as (z & N & Z); [rewrite repeat_length; lia|right; exact IS|].
  unfold le2_sourcesF. cbn [sf_co]. destruct (fold_left _ _ _) as [|a r]; [destruct k; discriminate|]. destruct k as [|k]; [lia|]. cbn [nth_error] in N.
  eexists. split; [cbn [div_tailF nth_error]; apply div_from_nth, N|apply bad_divr, Z].
Qed.

(** *** Shifts of multipole expansions *)
Lemma shift_bad tb e w k sh : (1 <= k)%nat -> (k <= sf_ord e)%nat -> bad_at k (sf_co e) -> me2_shiftF A tb e w = Ok sh -> bad_at k sh.
Proof.
  intros K1 K (z & N & Z) E. unfold me2_shiftF in E. destruct (sf_get e 0) as [a0| | | | |]; try discriminate. cbn [bind] in E.
  destruct (omapM _ _) as [tl| | | | |] eqn:T in E; try discriminate. cbn [bind] in E. injection E as <-.
  destruct (omapM_nth _ _ tl (k - 1) k T) as (b & F & G). { rewrite nth_seq by lia. f_equal. lia. }
  exists b. split; [destruct k as [|k]; [lia|]; cbn [nth_error]; rewrite Nat.sub_succ, Nat.sub_0_r in G; exact G|].
  destruct (pow_get _ k) as [sl| | | | |] in F; try discriminate. cbn [bind] in F.
  refine (ofold_mark _ (fun _ => True) bad k _ _ _ _ _ I F (or_intror _)); [| |apply in_seq; lia].
  - intros s a s' _ G'. split; [exact I|]. intros BS. destruct (sf_get e a) as [aa| | | | |]; try discriminate. cbn [bind] in G'.
    destruct (pow_get _ _) as [sp| | | | |] in G'; try discriminate. cbn [bind] in G'. destruct (bf_get _ _ _) as [bb| | | | |] in G'; try discriminate. cbn [bind] in G'.
    injection G' as <-. apply bad_add_l, BS.
  - intros s s' _ G'. unfold sf_get in G'. rewrite N in G'. cbn [of_option bind] in G'.
    destruct (pow_get _ _) as [sp| | | | |] in G'; try discriminate. cbn [bind] in G'. destruct (bf_get _ _ _) as [bb| | | | |] in G'; try discriminate. cbn [bind] in G'.
    injection G' as <-. apply bad_add_r, bad_scale, ruined_bad, (mul_bad_l m HM), Z.
Qed.
Lemma merge_bad tb c es e r tb' p k : (1 <= k)%nat -> (k <= p)%nat -> In e es -> bad_at k (sf_co e) -> (forall e', In e' es -> sf_ord e' = p) ->
  me2_mergeF A tb c es = Ok (r, tb') -> sf_ord r = p /\ bad_at k (sf_co r).
Proof.
  intros K1 K IE BE OE E. destruct es as [|e0 es]; [destruct IE|]. unfold me2_mergeF in E. rewrite (OE e0 (or_introl eq_refl)) in E.
  destruct (ofold _ _ _) as [cs| | | | |] eqn:F in E; try discriminate. cbn [bind] in E. injection E as <- _. split; [reflexivity|]. cbn [sf_co].
  refine (ofold_mark _ (fun cs => (k < length cs)%nat) (bad_at k) e _ _ _ _ _ _ F (or_intror IE)); [| |rewrite repeat_length; lia].
  - intros s a s' LS G. destruct (me2_shiftF _ _ a _) as [sh| | | | |] in G; try discriminate. cbn [bind] in G.
    destruct (length sh <? length s)%nat eqn:L; [discriminate|]. apply Nat.ltb_ge in L. injection G as <-. split.
    + unfold map2. rewrite map_length, combine_length. lia.
    + intros (z & N & Z). destruct (nth_exists sh k ltac:(lia)) as [y Y]. eexists. split; [apply (nth_map2 cadd _ _ _ _ _ N Y)|apply bad_add_l, Z].
  - intros s s' LS G. destruct (me2_shiftF A _ e _) as [sh| | | | |] eqn:SH in G; try discriminate. cbn [bind] in G.
    destruct (length sh <? length s)%nat eqn:L; [discriminate|]. injection G as <-.
    destruct (shift_bad _ e _ k sh K1 ltac:(rewrite (OE e IE); exact K) BE SH) as (y & Y & B). destruct (nth_exists s k LS) as [z N].
    eexists. split; [apply (nth_map2 cadd _ _ _ _ _ N Y)|apply bad_add_r, B].
Qed.
Lemma touched_bad p k e : (k <= p)%nat -> touched A p k e -> (1 <= k)%nat /\ sf_ord e = p /\ bad_at k (sf_co e).
Proof.
  intros K. induction 1 as [c srcs s IS _ O|tb c es e r tb' IE _ (K1 & O & B) OE E].
  - destruct (p2m_bad c p srcs s k K IS O) as [K1 B]. split; [exact K1|]. split; [reflexivity|exact B].
  - split; [exact K1|]. exact (merge_bad tb c es e r tb' p k K1 K IE B OE E).
Qed.

(** *** Conversion *)
Lemma pow_fill_nth w n : forall z i, (i < n)%nat -> nth_error (pow_fill m w z n) i = Some (powers z w i).
Proof.
  induction n as [|n IH]; intros z i H; [lia|]. destruct i as [|i]; cbn [pow_fill nth_error]; [reflexivity|]. rewrite IH by lia. rewrite iter_r. reflexivity.
Qed.
Lemma m2l_bad tb c inc r tb' k : (1 <= k)%nat -> (k <= sf_ord inc)%nat ->
  bad_at k (sf_co inc) \/ bad (powers oneC (f_div A oneC (csub (sf_ctr inc) (cplxF c))) k) ->
  le2_m2lF A tb c inc = Ok (r, tb') -> ruined_at 0 (sf_co r) /\ ((k < sf_ord inc)%nat -> ruined_at 1 (sf_co r)).
Proof.
  intros K1 K B E. unfold le2_m2lF in E. destruct (sf_ord inc =? 0)%nat; [discriminate|].
  destruct (le2_m2l_coeffsF _ _ _ _) as [cs| | | | |] eqn:F in E; try discriminate. cbn [bind] in E. injection E as <- _. cbn [sf_co].
  unfold le2_m2l_coeffsF in F. destruct (sf_get inc 0) as [a0| | | | |]; try discriminate. cbn [bind] in F.
  destruct (ofold _ (seq 1 (sf_ord inc)) _) as [b0| | | | |] eqn:F0 in F; try discriminate. cbn [bind] in F.
  destruct (omapM _ _) as [bs| | | | |] eqn:FB in F; try discriminate. cbn [bind] in F. injection F as <-.
  assert (T : forall a zp, sf_get inc k = Ok a -> pow_get (pow_table oneC m (f_div A oneC (csub (sf_ctr inc) (cplxF c))) (sf_ord inc)) k = Ok zp ->
    ruined (m (cscale (signF k) a) zp)).
  { intros a zp EA EZ. destruct B as [(z & N & Z)|B].
    - unfold sf_get in EA. rewrite N in EA. injection EA as <-. apply (mul_bad_l m HM), bad_scale, Z.
    - unfold pow_get, pow_table in EZ. rewrite pow_fill_nth in EZ by lia. injection EZ as <-. apply (mul_bad_r m HM), B. }
  split.
  - exists b0. split; [reflexivity|].
    refine (ofold_mark _ (fun _ => True) ruined k _ _ _ _ _ I F0 (or_intror _)); [| |apply in_seq; lia].
    + intros s a s' _ G. split; [exact I|]. intros BS. destruct (sf_get inc a) as [aa| | | | |]; try discriminate. cbn [bind] in G.
      destruct (pow_get _ _) as [sp| | | | |] in G; try discriminate. cbn [bind] in G. injection G as <-. apply ruined_add_l, BS.
    + intros s s' _ G. destruct (sf_get inc k) as [aa| | | | |] eqn:EA; try discriminate. cbn [bind] in G.
      destruct (pow_get _ _) as [sp| | | | |] eqn:EZ in G; try discriminate. cbn [bind] in G. injection G as <-. apply ruined_add_r, T; [reflexivity|exact EZ].
  - intros KP. destruct (omapM_nth _ _ bs 0 1%nat FB) as (b & G1 & G2). { rewrite nth_seq by lia. reflexivity. }
    exists b. split; [exact G2|]. destruct (ofold _ _ _) as [bl| | | | |] eqn:FL in G1; try discriminate. cbn [bind] in G1.
    destruct (pow_get _ _) as [zl| | | | |] in G1; try discriminate. cbn [bind] in G1. injection G1 as <-. apply (mul_bad_l m HM).
    refine (ofold_mark _ (fun _ => True) bad k _ _ _ _ _ I FL (or_intror _)); [| |apply in_seq; lia].
    + intros s a s' _ G. split; [exact I|]. intros BS. destruct (sf_get inc a) as [aa| | | | |]; try discriminate. cbn [bind] in G.
      destruct (pow_get _ _) as [sp| | | | |] in G; try discriminate. cbn [bind] in G. destruct (bf_get _ _ _) as [bb| | | | |] in G; try discriminate. cbn [bind] in G.
      injection G as <-. apply bad_add_l, BS.
    + intros s s' _ G. destruct (sf_get inc k) as [aa| | | | |] eqn:EA; try discriminate. cbn [bind] in G.
      destruct (pow_get _ _) as [sp| | | | |] eqn:EZ in G; try discriminate. cbn [bind] in G. destruct (bf_get _ _ _) as [bb| | | | |] in G; try discriminate. cbn [bind] in G.
      injection G as <-. apply bad_add_r, bad_scale, ruined_bad, T; [reflexivity|exact EZ].
Qed.
Lemma add_ruined a b r i : ruined_at i (sf_co a) \/ ruined_at i (sf_co b) -> sf_add a b = Ok r -> ruined_at i (sf_co r).
Proof.
  intros H E. unfold sf_add in E. destruct (length (sf_co a) =? length (sf_co b))%nat eqn:L; [|discriminate]. cbn [negb] in E. apply Nat.eqb_eq in L.
  destruct (same_center _ _); [|discriminate]. injection E as <-. cbn [sf_co].
  destruct H as [(z & N & Z)|(z & N & Z)]; assert (LN : (i < length (sf_co a))%nat) by (first [apply nth_error_Some; congruence|rewrite L; apply nth_error_Some; congruence]).
  - destruct (nth_exists (sf_co b) i ltac:(lia)) as [y Y]. eexists. split; [apply (nth_map2 cadd _ _ _ _ _ N Y)|apply ruined_add_l, Z].
  - destruct (nth_exists (sf_co a) i LN) as [y Y]. eexists. split; [apply (nth_map2 cadd _ _ _ _ _ Y N)|apply ruined_add_r, Z].
Qed.
Lemma m2l_many_ruined tb c es e r tb' i : In e es ->
  (forall tb1 r1 tb2, le2_m2lF A tb1 c e = Ok (r1, tb2) -> ruined_at i (sf_co r1)) -> le2_m2l_manyF A tb c es = Ok (r, tb') -> ruined_at i (sf_co r).
Proof.
  intros IE HR E. destruct es as [|e0 es]; [destruct IE|]. unfold le2_m2l_manyF in E.
  refine (ofold_mark _ (fun _ => True) (fun st : seF * btabF => ruined_at i (sf_co (fst st))) e _ _ _ _ _ I E (or_intror IE)).
  - intros s a s' _ G. split; [exact I|]. intros BS. destruct (le2_m2lF A _ c a) as [r1| | | | |]; try discriminate. cbn [bind] in G.
    destruct (sf_add _ _) as [s1| | | | |] eqn:AD in G; try discriminate. cbn [bind] in G. injection G as <-. cbn [fst]. exact (add_ruined _ _ _ i (or_introl BS) AD).
  - intros s s' _ G. destruct (le2_m2lF A _ c e) as [r1| | | | |] eqn:ML; try discriminate. cbn [bind] in G.
    destruct (sf_add _ _) as [s1| | | | |] eqn:AD in G; try discriminate. cbn [bind] in G. injection G as <-. cbn [fst]. destruct r1 as [r1 tb1].
    exact (add_ruined _ _ _ i (or_intror (HR _ _ _ ML)) AD).
Qed.
(** *** Shifts of local expansions *)
Lemma l2l_bad tb c inc r tb' i : bad_at i (sf_co inc) -> le2_l2lF A tb c inc = Ok (r, tb') -> bad_at i (sf_co r).
Proof.
  intros H E. unfold le2_l2lF in E. destruct (sf_ord inc =? 0)%nat; [discriminate|].
  destruct (le2_shiftF _ _ _) as [cs| | | | |] eqn:F in E; try discriminate. cbn [bind] in E. injection E as <- _. cbn [sf_co]. unfold le2_shiftF in F.
  assert (KEEP : forall {X S} (f : S -> X -> outcome S) (B : S -> Prop), (forall s a s', B s -> f s a = Ok s' -> B s') -> forall l s r, B s -> ofold f l s = Ok r -> B r).
  { intros X S f B HB l. induction l as [|a l IH]; intros s r0 BS G; cbn [ofold] in G; [injection G as <-; exact BS|].
    destruct (f s a) as [s'| | | | |] eqn:FA; try discriminate. cbn [bind] in G. exact (IH s' r0 (HB s a s' BS FA) G). }
  refine (KEEP _ _ _ (bad_at i) _ _ _ _ H F). intros s j s' BS G. refine (KEEP _ _ _ (bad_at i) _ _ _ _ BS G).
  intros t k t' (z & N & Z) Q. destruct (nth_error t k) as [a|] eqn:EA; [|discriminate]. destruct (nth_error t (k + 1)) as [b|]; [|discriminate]. cbn [of_option bind] in Q. injection Q as <-.
  eexists. split; [apply nth_lset, N|]. destruct (i =? k)%nat eqn:IK; [|exact Z]. apply Nat.eqb_eq in IK. subst k. rewrite N in EA. injection EA as <-. apply bad_sub_l, Z.
Qed.
Lemma add_bad a b r i : bad_at i (sf_co a) \/ bad_at i (sf_co b) -> sf_add a b = Ok r -> bad_at i (sf_co r).
Proof.
  intros H E. unfold sf_add in E. destruct (length (sf_co a) =? length (sf_co b))%nat eqn:L; [|discriminate]. cbn [negb] in E. apply Nat.eqb_eq in L.
  destruct (same_center _ _); [|discriminate]. injection E as <-. cbn [sf_co].
  destruct H as [(z & N & Z)|(z & N & Z)]; assert (LN : (i < length (sf_co a))%nat) by (first [apply nth_error_Some; congruence|rewrite L; apply nth_error_Some; congruence]).
  - destruct (nth_exists (sf_co b) i ltac:(lia)) as [y Y]. eexists. split; [apply (nth_map2 cadd _ _ _ _ _ N Y)|apply bad_add_l, Z].
  - destruct (nth_exists (sf_co a) i LN) as [y Y]. eexists. split; [apply (nth_map2 cadd _ _ _ _ _ Y N)|apply bad_add_r, Z].
Qed.
Lemma ruined_bad_at i cs : ruined_at i cs -> bad_at i cs.
Proof. intros (z & N & Z). exists z. split; [exact N|apply ruined_bad, Z]. Qed.
Lemma local_bad p k e : (k <= p)%nat -> touched_local A p k e -> exists i, bad_at i (sf_co e) /\ ((k < p)%nat -> exists j, bad_at (S j) (sf_co e)).
Proof.
  intros K. induction 1 as [tb c es e r tb' IE T E|tb c es e r tb' HD IE O FN RO E|c srcs s HD IS FN RO|tb c e r tb' _ (i & IH0 & IH1) E|a b r _ (i & IH0 & IH1) E|a b r _ (i & IH0 & IH1) E].
  - destruct (touched_bad p k e K T) as (K1 & O & B).
    assert (M : forall tb1 r1 tb2, le2_m2lF A tb1 c e = Ok (r1, tb2) -> ruined_at 0 (sf_co r1) /\ ((k < p)%nat -> ruined_at 1 (sf_co r1))).
    { intros tb1 r1 tb2 F. rewrite <- O. apply (m2l_bad tb1 c e r1 tb2 k K1 ltac:(lia) (or_introl B) F). }
    exists 0%nat. split; [|intros KP; exists 0%nat]; apply ruined_bad_at; eapply (m2l_many_ruined tb c es e r tb'); try eassumption; intros tb1 r1 tb2 F; apply (M tb1 r1 tb2 F); assumption.
  - destruct (reciprocal_powers_overflow m HM (f_div A) _ c k HD FN RO) as [K1 B].
    change (cplxF [fst (sf_ctr e); snd (sf_ctr e)]) with (fst (sf_ctr e), snd (sf_ctr e)) in B. rewrite <- surjective_pairing in B.
    assert (M : forall tb1 r1 tb2, le2_m2lF A tb1 c e = Ok (r1, tb2) -> ruined_at 0 (sf_co r1) /\ ((k < p)%nat -> ruined_at 1 (sf_co r1))).
    { intros tb1 r1 tb2 F. rewrite <- O. apply (m2l_bad tb1 c e r1 tb2 k K1 ltac:(lia) (or_intror B) F). }
    exists 0%nat. split; [|intros KP; exists 0%nat]; apply ruined_bad_at; eapply (m2l_many_ruined tb c es e r tb'); try eassumption; intros tb1 r1 tb2 F; apply (M tb1 r1 tb2 F); assumption.
  - destruct (p2l_bad c p srcs s k HD K IS FN RO) as [K1 B]. exists k. split; [exact B|]. intros _. exists (k - 1)%nat. replace (S (k - 1)) with k by lia. exact B.
  - exists i. split; [exact (l2l_bad tb c e r tb' i IH0 E)|]. intros KP. destruct (IH1 KP) as [j J]. exists j. exact (l2l_bad tb c e r tb' _ J E).
  - exists i. split; [exact (add_bad a b r i (or_introl IH0) E)|]. intros KP. destruct (IH1 KP) as [j J]. exists j. exact (add_bad a b r _ (or_introl J) E).
  - exists i. split; [exact (add_bad a b r i (or_intror IH0) E)|]. intros KP. destruct (IH1 KP) as [j J]. exists j. exact (add_bad a b r _ (or_intror J) E).
Qed.

(** *** Evaluation *)
Lemma me2_pot_ruined z cs : forall ip res, ruined res \/ (exists a, In a cs /\ bad a) -> ruined (me2_pot_loopF A z ip res cs).
Proof.
  induction cs as [|b cs IH]; intros ip res H; cbn [me2_pot_loopF]; [destruct H as [H|(a & [] & _)]; exact H|]. apply IH.
  destruct H as [H|(a & [->|H] & B)]; [left; apply ruined_add_l, H|left; apply ruined_add_r, (mul_bad_l m HM), B|right; eauto].
Qed.
Lemma me2_force_ruined z cs : forall ip res j, ruined res \/ (exists a, In a cs /\ bad a) -> ruined (me2_force_loopF A z ip res j cs).
Proof.
  induction cs as [|b cs IH]; intros ip res j H; cbn [me2_force_loopF]; [destruct H as [H|(a & [] & _)]; exact H|]. apply IH.
  destruct H as [H|(a & [->|H] & B)]; [left; apply ruined_sub_l, H|left; apply ruined_sub_r, (mul_bad_l m HM), bad_scale, B|right; eauto].
Qed.
Lemma le2_pot_ruined z cs : forall pw res, ruined res \/ (exists a, In a cs /\ bad a) -> ruined (le2_pot_loopF A z pw res cs).
Proof.
  induction cs as [|b cs IH]; intros pw res H; cbn [le2_pot_loopF]; [destruct H as [H|(a & [] & _)]; exact H|]. apply IH.
  destruct H as [H|(a & [->|H] & B)]; [left; apply ruined_add_l, H|left; apply ruined_add_r, (mul_bad_l m HM), B|right; eauto].
Qed.
Lemma le2_force_ruined z cs : forall pw res j, ruined res \/ (exists a, In a cs /\ bad a) -> ruined (le2_force_loopF A z pw res j cs).
Proof.
  induction cs as [|b cs IH]; intros pw res j H; cbn [le2_force_loopF]; [destruct H as [H|(a & [] & _)]; exact H|]. apply IH.
  destruct H as [H|(a & [->|H] & B)]; [left; apply ruined_add_l, H|left; apply ruined_add_r, (mul_bad_l m HM), bad_scale, B|right; eauto].
Qed.
Lemma tail_in {X} (l : list X) k z : (1 <= k)%nat -> nth_error l k = Some z -> In z (tl l).
Proof. intros K N. destruct l as [|a l]; [destruct k; discriminate|]. destruct k as [|k]; [lia|]. apply (nth_error_In l k), N. Qed.
Theorem multipole_overflow p k e x : (k <= p)%nat -> touched A p k e ->
  (exists v, me2_potF A e x = Ok v /\ nf v) /\ (exists f, me2_forceF A e x = Ok f /\ length f = 2%nat /\ forall y, In y f -> nf y).
Proof.
  intros K T. destruct (touched_bad p k e K T) as (K1 & O & z & N & Z). assert (L : (k < length (sf_co e))%nat) by (apply nth_error_Some; congruence).
  destruct (nth_exists (sf_co e) 0 ltac:(lia)) as [a0 A0]. assert (IN := tail_in _ k z K1 N). split.
  - unfold me2_potF, sf_get. rewrite A0. cbn [of_option bind]. eexists. split; [reflexivity|]. apply me2_pot_ruined. right. exists z. auto.
  - unfold me2_forceF, sf_get. rewrite A0. cbn [of_option bind]. eexists. split; [reflexivity|]. split; [reflexivity|].
    assert (R : forall z0 ip res j, ruined (me2_force_loopF A z0 ip res j (tl (sf_co e)))) by (intros; apply me2_force_ruined; right; exists z; auto).
    intros y [<-|[<-|[]]]; [apply nf_opp, R|apply R].
Qed.
Theorem local_overflow p k e x : (k <= p)%nat -> touched_local A p k e ->
  nf (le2_potF A e x) /\ ((k < p)%nat -> length (le2_forceF A e x) = 2%nat /\ forall y, In y (le2_forceF A e x) -> nf y).
Proof.
  intros K T. destruct (local_bad p k e K T) as (i & (z & N & Z) & R1). split.
  - unfold le2_potF. apply le2_pot_ruined. right. exists z. split; [apply (nth_error_In _ i), N|exact Z].
  - intros KP. destruct (R1 KP) as (j & y & M & Y). split; [reflexivity|]. unfold le2_forceF.
    assert (R : forall z0 pw res j, ruined (le2_force_loopF A z0 pw res j (tl (sf_co e)))).
    { intros. apply le2_force_ruined. right. exists y. split; [apply (tail_in _ (S j) y ltac:(lia) M)|exact Y]. }
    intros v [<-|[<-|[]]]; [apply nf_opp, R|apply R].
Qed.
End Expansions.
