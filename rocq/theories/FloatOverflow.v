(** Values that are not finite stay so; finite results are rounded. *)
From Coq Require Import Reals List Bool ZArith Arith Lia Lra.
From Coquelicot Require Import Complex.
From Flocq Require Import Core Relative BinarySingleNaN PrimFloat.
From Verif Require Import Num Outcome Vec FloatCases FloatFit FloatExpansion2D FloatExpansionSpec.
From Coq Require Import Floats.
Import ListNotations.
Local Open Scope R_scope.
Notation nf x := (PrimFloat.is_finite x = false).

Lemma nf_opp x : nf x -> nf (- x)%float.
Proof. rewrite !is_finite_equiv, opp_equiv, is_finite_Bopp. auto. Qed.
Lemma nf_add_l x y : nf x -> nf (x + y)%float.
Proof. rewrite !is_finite_equiv, add_equiv. destruct (Prim2B x) as [|sx| |], (Prim2B y) as [|sy| |]; try discriminate; intros _; cbn; try reflexivity. destruct (Bool.eqb sx sy); reflexivity. Qed.
Lemma nf_add_r x y : nf y -> nf (x + y)%float.
Proof. rewrite !is_finite_equiv, add_equiv. destruct (Prim2B x) as [|sx| |], (Prim2B y) as [|sy| |]; try discriminate; intros _; cbn; try reflexivity. destruct (Bool.eqb sx sy); reflexivity. Qed.
Lemma nf_sub_l x y : nf x -> nf (x - y)%float.
Proof. rewrite !is_finite_equiv, sub_equiv. destruct (Prim2B x) as [|sx| |], (Prim2B y) as [|sy| |]; try discriminate; intros _; cbn; try reflexivity. destruct (Bool.eqb sx (negb sy)); reflexivity. Qed.
Lemma nf_sub_r x y : nf y -> nf (x - y)%float.
Proof. rewrite !is_finite_equiv, sub_equiv. destruct (Prim2B x) as [|sx| |], (Prim2B y) as [|sy| |]; try discriminate; intros _; cbn; try reflexivity. destruct (Bool.eqb sx (negb sy)); reflexivity. Qed.
Lemma nf_mul_l x y : nf x -> nf (x * y)%float.
Proof. rewrite !is_finite_equiv, mul_equiv. destruct (Prim2B x) as [|sx| |], (Prim2B y) as [|sy| |]; try discriminate; intros _; reflexivity. Qed.
Lemma nf_mul_r x y : nf y -> nf (x * y)%float.
Proof. rewrite !is_finite_equiv, mul_equiv. destruct (Prim2B x) as [|sx| |], (Prim2B y) as [|sy| |]; try discriminate; intros _; reflexivity. Qed.
Lemma nf_div_l x y : nf x -> nf (x / y)%float.
Proof. rewrite !is_finite_equiv, div_equiv. destruct (Prim2B x) as [|sx| |], (Prim2B y) as [|sy| |]; try discriminate; intros _; reflexivity. Qed.
Lemma fin_cases x : PrimFloat.is_finite x = true \/ nf x.
Proof. destruct (PrimFloat.is_finite x); auto. Qed.

(** *** Finite results *)
Notation rndF := (round radix2 (SpecFloat.fexp prec emax) ZnearestE).
Definition eta : R := pw (-1075).
Lemma rndF_error r : Rabs (rndF r - r) <= / 9007199254740992 * Rabs r + eta.
Proof.
  change (SpecFloat.fexp prec emax) with (FLT_exp (-1074) 53).
  destruct (error_N_FLT radix2 (-1074) 53 ltac:(lia) (fun x => negb (Z.even x)) r) as (e & n & E1 & E2 & _ & E3).
  change (Znearest (fun x => negb (Z.even x))) with ZnearestE in E3. rewrite E3.
  replace (r * (1 + e) + n - r) with (r * e + n) by ring. eapply Rle_trans; [apply Rabs_triang|]. rewrite Rabs_mult. apply Rplus_le_compat.
  - rewrite Rmult_comm. apply Rmult_le_compat_r; [apply Rabs_pos|]. eapply Rle_trans; [exact E1|].
    replace (bpow radix2 (-(53) + 1)) with (/ 4503599627370496) by (cbn; reflexivity). lra.
  - eapply Rle_trans; [exact E2|]. unfold eta. change (-1075)%Z with (-1 + -1074)%Z. rewrite bpow_plus. change (bpow radix2 (-1)) with (/ 2). lra.
Qed.
Lemma add_finite x y : PrimFloat.is_finite (x + y)%float = true ->
  PrimFloat.is_finite x = true /\ PrimFloat.is_finite y = true /\ real_of (x + y)%float = rndF (real_of x + real_of y).
Proof.
  intros F. destruct (fin_cases x) as [X|X]; [|rewrite (nf_add_l x y X) in F; discriminate]. destruct (fin_cases y) as [Y|Y]; [|rewrite (nf_add_r x y Y) in F; discriminate].
  split; [exact X|]. split; [exact Y|]. rewrite is_finite_equiv in X, Y, F. rewrite add_equiv in F. unfold real_of. rewrite add_equiv.
  assert (H := Bplus_correct _ _ Hprec Hmax mode_NE (Prim2B x) (Prim2B y) X Y). cbn [round_mode] in H. destruct (Rlt_bool _ _) in H; [apply H|].
  destruct H as [H _]. rewrite <- is_finite_SF_B2SF, H in F. discriminate F.
Qed.
Lemma sub_finite x y : PrimFloat.is_finite (x - y)%float = true ->
  PrimFloat.is_finite x = true /\ PrimFloat.is_finite y = true /\ real_of (x - y)%float = rndF (real_of x - real_of y).
Proof.
  intros F. destruct (fin_cases x) as [X|X]; [|rewrite (nf_sub_l x y X) in F; discriminate]. destruct (fin_cases y) as [Y|Y]; [|rewrite (nf_sub_r x y Y) in F; discriminate].
  split; [exact X|]. split; [exact Y|]. rewrite is_finite_equiv in X, Y, F. rewrite sub_equiv in F. unfold real_of. rewrite sub_equiv.
  assert (H := Bminus_correct _ _ Hprec Hmax mode_NE (Prim2B x) (Prim2B y) X Y). cbn [round_mode] in H. destruct (Rlt_bool _ _) in H; [apply H|].
  destruct H as [H _]. rewrite <- is_finite_SF_B2SF, H in F. discriminate F.
Qed.
Lemma mul_finite x y : PrimFloat.is_finite (x * y)%float = true ->
  PrimFloat.is_finite x = true /\ PrimFloat.is_finite y = true /\ real_of (x * y)%float = rndF (real_of x * real_of y).
Proof.
  intros F. destruct (fin_cases x) as [X|X]; [|rewrite (nf_mul_l x y X) in F; discriminate]. destruct (fin_cases y) as [Y|Y]; [|rewrite (nf_mul_r x y Y) in F; discriminate].
  split; [exact X|]. split; [exact Y|]. rewrite is_finite_equiv in F. rewrite mul_equiv in F. unfold real_of. rewrite mul_equiv.
  assert (H := Bmult_correct _ _ Hprec Hmax mode_NE (Prim2B x) (Prim2B y)). cbn [round_mode] in H. destruct (Rlt_bool _ _) in H; [apply H|].
  rewrite <- is_finite_SF_B2SF, H in F. discriminate F.
Qed.
Lemma finite_bound x : PrimFloat.is_finite x = true -> Rabs (real_of x) < pw 1024.
Proof. intros _. unfold real_of. apply (abs_B2R_lt_emax prec emax). Qed.
