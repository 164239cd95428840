(** IEEE double arithmetic: halving keeps the sign and the kind of a number, so [std::min] of two box lengths of one tree
    does not depend on the order of its arguments. *)
From Coq Require Import Reals ZArith Bool Lia Lra.
From Flocq Require Import Core IEEE754.BinarySingleNaN IEEE754.PrimFloat.
From Coq Require Import Floats.
From Verif Require Import Num.

Lemma two_R : B2R (Prim2B (nlit 2 1)) = 2%R.
Proof.
  replace (nlit 2 1) with two by reflexivity. rewrite <- SF2R_B2SF, B2SF_Prim2B.
  change (Prim2SF two) with (S754_finite false 4503599627370496 (-51)). unfold SF2R, F2R; simpl. lra.
Qed.
Lemma two_sign : Bsign (Prim2B (nlit 2 1)) = false.
Proof. rewrite <- get_sign_equiv. reflexivity. Qed.

(** [y] is [x], or both are finite and have the same sign. *)
Definition akin (x y : float) : Prop :=
  y = x \/ BinarySingleNaN.is_finite (Prim2B x) = true /\ BinarySingleNaN.is_finite (Prim2B y) = true /\ Bsign (Prim2B y) = Bsign (Prim2B x).

Lemma akin_half x : akin x (nhalf x).
Proof.
  unfold nhalf; cbn -[nlit]. set (two' := nlit 2 1 : float).
  assert (E2 := two_R). assert (S2 := two_sign). fold two' in E2, S2.
  assert (E := div_equiv x two').
  assert (C := @Bdiv_correct _ _ Hprec Hmax mode_NE (Prim2B x) (Prim2B two') ltac:(rewrite E2; lra)).
  rewrite <- E in C.
  destruct (BinarySingleNaN.is_finite (Prim2B x)) eqn:F.
  - right. split; [exact F|].
    rewrite Rlt_bool_true in C.
    + destruct C as (C1 & C2 & C3). split; [exact C2|]. rewrite C3, S2, xorb_false_r; [reflexivity|].
      destruct (Prim2B (x / two')); try reflexivity. discriminate.
    + apply Rle_lt_trans with (Rabs (B2R (Prim2B x))).
      * apply abs_round_le_generic; [apply fexp_correct; reflexivity|apply valid_rnd_round_mode| |].
        { apply generic_format_abs. apply generic_format_B2R. }
        rewrite E2. unfold Rdiv. rewrite Rabs_mult, (Rabs_pos_eq (/ 2)) by lra. assert (P := Rabs_pos (B2R (Prim2B x))). lra.
      * apply abs_B2R_lt_emax.
  - left. apply Prim2B_inj. rewrite E. destruct (Prim2B x) as [s|s| |s m e b] eqn:X; try discriminate.
    + unfold Bdiv. destruct (Prim2B two') as [s'|s'| |s' m' e' b'] eqn:Y; simpl in E2, S2; try lra.
      subst s'. rewrite xorb_false_r. reflexivity.
    + reflexivity.
Qed.

Lemma akin_trans x y z : akin x y -> akin y z -> akin x z.
Proof. unfold akin. intros [->|(A & B & C)] [->|(A' & B' & C')]; auto. right. split; [assumption|]. split; congruence. Qed.
Lemma akin_sym x y : akin x y -> akin y x.
Proof. unfold akin. intros [->|(A & B & C)]; auto. Qed.

Lemma akin_min x y : akin x y -> nmin x y = nmin y x.
Proof.
  intros [->|(Fx & Fy & S)]; [reflexivity|].
  unfold nmin; cbn. rewrite !ltb_equiv, !Bltb_correct by assumption.
  destruct (Rlt_bool_spec (B2R (Prim2B y)) (B2R (Prim2B x))), (Rlt_bool_spec (B2R (Prim2B x)) (B2R (Prim2B y))); try reflexivity; try lra.
  apply Prim2B_inj. apply B2R_Bsign_inj; auto. lra.
Qed.
