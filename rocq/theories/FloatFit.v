(** IEEE double arithmetic without overflow and underflow: the operations of the kernel's binary64 numbers are the exact
    operations followed by a rounding to 53 bits.  [fits e E x]: [x] is a multiple of [2^e] and at most [2^E]. *)
From Coq Require Import Reals List ZArith Lia Lra.
From Flocq Require Import Core IEEE754.BinarySingleNaN IEEE754.PrimFloat.
From Verif Require Import Num Vec RoundedCases RoundedTree FloatCases.
From Coq Require Import Floats.
Import ListNotations.
Local Open Scope R_scope.

Notation pw := (bpow radix2).
Definition multiple (e : Z) (r : R) : Prop := exists z, r = IZR z * pw e.
Definition fits (e E : Z) (x : float) : Prop := PrimFloat.is_finite x = true /\ multiple e (real_of x) /\ Rabs (real_of x) <= pw E.

Lemma fits_finite e E x : fits e E x -> BinarySingleNaN.is_finite (Prim2B x) = true.
Proof. intros [H _]. rewrite <- is_finite_equiv. exact H. Qed.

Lemma multiple_le e e' r : (e' <= e)%Z -> multiple e r -> multiple e' r.
Proof.
  intros L [z ->]. exists (z * 2 ^ (e - e'))%Z. rewrite mult_IZR. change 2%Z with (radix_val radix2). rewrite IZR_Zpower by lia. rewrite Rmult_assoc, <- bpow_plus. f_equal. f_equal. lia.
Qed.
Lemma multiple_big e r : multiple e r -> r = 0 \/ pw e <= Rabs r.
Proof.
  intros [z ->]. destruct (Z.eq_dec z 0) as [->|N]; [left; apply Rmult_0_l|right]. rewrite Rabs_mult, (Rabs_pos_eq (pw e)) by apply bpow_ge_0.
  rewrite <- (Rmult_1_l (pw e)) at 1. apply Rmult_le_compat_r; [apply bpow_ge_0|]. rewrite <- abs_IZR. apply IZR_le. lia.
Qed.
Lemma multiple_add e a b : multiple e a -> multiple e b -> multiple e (a + b).
Proof. intros [z ->] [w ->]. exists (z + w)%Z. rewrite plus_IZR. ring. Qed.
Lemma multiple_mul e f a b : multiple e a -> multiple f b -> multiple (e + f) (a * b).
Proof. intros [z ->] [w ->]. exists (z * w)%Z. rewrite mult_IZR, bpow_plus. ring. Qed.

Lemma format_pow k : generic_format radix2 (FLX_exp 53) (pw k).
Proof. apply generic_format_bpow. unfold FLX_exp. lia. Qed.

(** Rounding keeps multiples. *)
Lemma round_multiple e r : multiple e r -> multiple e (double_round r).
Proof.
  intros [z ->]. set (r := IZR z * pw e). destruct (Z_le_gt_dec e (cexp radix2 (FLX_exp 53) r)) as [L|G].
  - apply (multiple_le (cexp radix2 (FLX_exp 53) r)); [exact L|]. unfold double_round, round, F2R. cbn [Fnum Fexp]. eexists. reflexivity.
  - unfold double_round. rewrite round_generic; [exists z; reflexivity|typeclasses eauto|]. unfold r.
    change (IZR z * pw e) with (F2R (Float radix2 z e)). apply generic_format_F2R. intros _. unfold F2R. cbn [Fnum Fexp]. fold r. lia.
Qed.
Lemma round_le E r : Rabs r <= pw E -> Rabs (double_round r) <= pw E.
Proof.
  intros H. unfold double_round. apply abs_round_le_generic; [apply FLX_exp_valid; reflexivity|typeclasses eauto| |exact H].
  apply format_pow.
Qed.
Lemma round_ge E r : pw E <= Rabs r -> pw E <= Rabs (double_round r).
Proof.
  intros H. unfold double_round. apply abs_round_ge_generic; [apply FLX_exp_valid; reflexivity|typeclasses eauto| |exact H].
  apply format_pow.
Qed.
Lemma round_zero : double_round 0 = 0.
Proof. unfold double_round. apply round_0. typeclasses eauto. Qed.
(** A machine number that is not small is a multiple of a power of two that is not small. *)
Lemma round_fine a r : pw a <= Rabs r -> multiple (a - 52) (double_round r).
Proof.
  intros H. apply (multiple_le (cexp radix2 (FLX_exp 53) r)).
  - unfold cexp, FLX_exp. assert (a + 1 <= mag radix2 r)%Z; [|lia]. apply mag_ge_bpow. replace (a + 1 - 1)%Z with a by lia. exact H.
  - unfold double_round, round, F2R. cbn [Fnum Fexp]. eexists. reflexivity.
Qed.

(** Above the smallest normal number the two formats round alike. *)
Lemma normal_round q : q = 0 \/ pw (-1022) <= Rabs q -> round radix2 (SpecFloat.fexp prec emax) ZnearestE q = double_round q.
Proof.
  intros [->|H]; [rewrite round_zero; apply round_0; typeclasses eauto|].
  unfold double_round. change (SpecFloat.fexp prec emax) with (FLT_exp (-1074) 53). apply round_FLT_FLX. exact H.
Qed.
Lemma small_enough q : Rabs q <= pw 1020 -> Rabs (double_round q) < pw emax.
Proof. intros H. eapply Rle_lt_trans; [apply round_le, H|]. apply bpow_lt. reflexivity. Qed.

(** *** The operations *)
Lemma finite_of x : BinarySingleNaN.is_finite (Prim2B x) = true -> PrimFloat.is_finite x = true.
Proof. intros H. rewrite is_finite_equiv. exact H. Qed.

Lemma add_real x y : PrimFloat.is_finite x = true -> PrimFloat.is_finite y = true ->
  real_of x + real_of y = 0 \/ pw (-1022) <= Rabs (real_of x + real_of y) -> Rabs (real_of x + real_of y) <= pw 1020 ->
  PrimFloat.is_finite (x + y)%float = true /\ real_of (x + y)%float = double_round (real_of x + real_of y).
Proof.
  intros FX FY N S. rewrite is_finite_equiv in FX, FY. assert (H := Bplus_correct _ _ Hprec Hmax mode_NE (Prim2B x) (Prim2B y) FX FY).
  cbn [round_mode] in H. unfold real_of in *. rewrite normal_round in H by exact N. rewrite Rlt_bool_true in H by (apply small_enough, S).
  destruct H as (H1 & H2 & _). rewrite is_finite_equiv, add_equiv. split; [exact H2|exact H1].
Qed.
Lemma mul_real x y : PrimFloat.is_finite x = true -> PrimFloat.is_finite y = true ->
  real_of x * real_of y = 0 \/ pw (-1022) <= Rabs (real_of x * real_of y) -> Rabs (real_of x * real_of y) <= pw 1020 ->
  PrimFloat.is_finite (x * y)%float = true /\ real_of (x * y)%float = double_round (real_of x * real_of y).
Proof.
  intros FX FY N S. rewrite is_finite_equiv in FX, FY. assert (H := Bmult_correct _ _ Hprec Hmax mode_NE (Prim2B x) (Prim2B y)).
  cbn [round_mode] in H. unfold real_of in *. rewrite normal_round in H by exact N. rewrite Rlt_bool_true in H by (apply small_enough, S).
  destruct H as (H1 & H2 & _). rewrite is_finite_equiv, mul_equiv. rewrite FX, FY in H2. split; [exact H2|exact H1].
Qed.
Lemma div_real x y : PrimFloat.is_finite x = true -> real_of y <> 0 ->
  real_of x / real_of y = 0 \/ pw (-1022) <= Rabs (real_of x / real_of y) -> Rabs (real_of x / real_of y) <= pw 1020 ->
  PrimFloat.is_finite (x / y)%float = true /\ real_of (x / y)%float = double_round (real_of x / real_of y).
Proof.
  intros FX Y N S. rewrite is_finite_equiv in FX. assert (H := Bdiv_correct _ _ Hprec Hmax mode_NE (Prim2B x) (Prim2B y) Y).
  cbn [round_mode] in H. unfold real_of in *. rewrite normal_round in H by exact N. rewrite Rlt_bool_true in H by (apply small_enough, S).
  destruct H as (H1 & H2 & _). rewrite is_finite_equiv, div_equiv. rewrite FX in H2. split; [exact H2|exact H1].
Qed.
Lemma sqrt_real x : PrimFloat.is_finite x = true -> real_of x = 0 \/ pw (-1000) <= real_of x ->
  PrimFloat.is_finite (PrimFloat.sqrt x) = true /\ real_of (PrimFloat.sqrt x) = double_round (R_sqrt.sqrt (real_of x)).
Proof.
  intros FX N. rewrite is_finite_equiv in FX. assert (H := Bsqrt_correct _ _ Hprec Hmax mode_NE (Prim2B x)).
  cbn [round_mode] in H. destruct H as (H1 & H2 & _). unfold real_of in *. rewrite normal_round in H1.
  - rewrite is_finite_equiv, sqrt_equiv. split; [|exact H1]. rewrite H2. destruct (Prim2B x) as [s|s| |s m e B]; try easy. destruct s; [|reflexivity].
    exfalso. cbn [B2R] in N. assert (F2R (Float radix2 (cond_Zopp true (Z.pos m)) e) < 0) by (apply F2R_lt_0; reflexivity).
    assert (P := bpow_ge_0 radix2 (-1000)). lra.
  - destruct N as [->|N]; [left; apply sqrt_0|right]. rewrite Rabs_pos_eq by apply sqrt_pos.
    apply Rle_trans with (R_sqrt.sqrt (pw (-1000))); [|apply sqrt_le_1_alt, N].
    replace (pw (-1000)) with (pw (-500) * pw (-500)) by (rewrite <- bpow_plus; reflexivity). rewrite sqrt_square by apply bpow_ge_0. apply bpow_le. discriminate.
Qed.
Lemma ltb_real x y : PrimFloat.is_finite x = true -> PrimFloat.is_finite y = true -> PrimFloat.ltb x y = Rltb (real_of x) (real_of y).
Proof.
  intros FX FY. rewrite is_finite_equiv in FX, FY. rewrite ltb_equiv, Bltb_correct by assumption. unfold real_of, Rltb.
  destruct (Rlt_bool_spec (B2R (Prim2B x)) (B2R (Prim2B y))); destruct (Rlt_dec _ _); try reflexivity; lra.
Qed.
Lemma leb_real x y : PrimFloat.is_finite x = true -> PrimFloat.is_finite y = true -> PrimFloat.leb x y = Rleb (real_of x) (real_of y).
Proof.
  intros FX FY. rewrite is_finite_equiv in FX, FY. rewrite leb_equiv, Bleb_correct by assumption. unfold real_of, Rleb.
  destruct (Rle_bool_spec (B2R (Prim2B x)) (B2R (Prim2B y))); destruct (Rle_dec _ _); try reflexivity; lra.
Qed.

Lemma int_part_floor r : Int_part r = Zfloor r.
Proof.
  symmetry. apply Zfloor_imp. destruct (base_Int_part r). rewrite plus_IZR. simpl. lra.
Qed.
Lemma floor_real x : PrimFloat.is_finite x = true -> float_floor x = Some (Int_part (real_of x)).
Proof.
  intros F. rewrite is_finite_equiv in F. unfold float_floor. rewrite int_part_floor, real_of_SF. rewrite <- B2SF_Prim2B.
  destruct (Prim2B x) as [s|s| |s m e B]; try easy; cbn [B2SF SF2R].
  - f_equal. symmetry. apply (Zfloor_IZR 0).
  - f_equal. unfold F2R. cbn [Fnum Fexp]. replace (cond_Zopp s (Z.pos m)) with (if s then Z.neg m else Z.pos m) by (destruct s; reflexivity).
    set (v := if s then Z.neg m else Z.pos m). destruct (Z.leb_spec 0 e) as [L|L].
    + rewrite <- IZR_Zpower by exact L. rewrite <- mult_IZR. symmetry. apply Zfloor_IZR.
    + rewrite <- (Zfloor_div v (2 ^ (- e))) by (assert (0 < 2 ^ (- e))%Z by (apply Z.pow_pos_nonneg; lia); lia). f_equal. unfold Rdiv. f_equal.
      change 2%Z with (radix_val radix2). rewrite IZR_Zpower by lia. rewrite <- bpow_opp. f_equal. lia.
Qed.

(** *** The literals *)
Lemma pw53 : pw 53 = IZR 9007199254740992.
Proof. reflexivity. Qed.
Lemma to_Z_of_pos p : (Z.pos p <= 9007199254740992)%Z -> Uint63.to_Z (Uint63.of_Z (Z.pos p)) = Z.pos p.
Proof.
  intros L. rewrite Uint63.of_Z_spec. apply Z.mod_small. split; [discriminate|]. apply (Z.le_lt_trans _ 9007199254740992); [exact L|]. vm_compute. reflexivity.
Qed.
Lemma exact_pos p : (Z.pos p <= 9007199254740992)%Z -> double_round (IZR (Z.pos p)) = IZR (Z.pos p).
Proof.
  intros L. assert (B : IZR (Z.pos p) <= pw 53) by (rewrite pw53; apply IZR_le; exact L).
  assert (A : 1 <= IZR (Z.pos p)) by (apply IZR_le; lia).
  destruct (Req_dec (IZR (Z.pos p)) (pw 53)) as [Q|Q].
  - rewrite Q. apply round_generic; [typeclasses eauto|]. apply format_pow.
  - apply round_generic; [typeclasses eauto|]. apply generic_format_FLX. exists (Float radix2 (Z.pos p) 0).
    + unfold F2R. cbn [Fnum Fexp]. rewrite Rmult_1_r. reflexivity.
    + cbn [Fnum]. apply lt_IZR. replace (IZR (radix2 ^ 53)) with (pw 53) by (symmetry; apply IZR_Zpower; discriminate). rewrite abs_IZR, Rabs_pos_eq by lra. lra.
Qed.
Lemma of_pos_real p : (Z.pos p <= 9007199254740992)%Z ->
  PrimFloat.is_finite (PrimFloat.of_uint63 (Uint63.of_Z (Z.pos p))) = true /\ real_of (PrimFloat.of_uint63 (Uint63.of_Z (Z.pos p))) = IZR (Z.pos p).
Proof.
  intros L. assert (H := binary_normalize_correct _ _ Hprec Hmax mode_NE (Z.pos p) 0 false). cbv zeta in H. cbn [round_mode] in H.
  assert (E : F2R (Float radix2 (Z.pos p) 0) = IZR (Z.pos p)) by (unfold F2R; cbn [Fnum Fexp]; rewrite Rmult_1_r; reflexivity).
  rewrite E in H. assert (B : IZR (Z.pos p) <= pw 53) by (rewrite pw53; apply IZR_le; exact L).
  assert (A : 1 <= IZR (Z.pos p)) by (apply IZR_le; lia).
  rewrite normal_round in H.
  - rewrite (exact_pos p L) in H. rewrite Rlt_bool_true in H.
    + destruct H as (H1 & H2 & _). unfold real_of. rewrite is_finite_equiv, of_int63_equiv, (to_Z_of_pos p L). split; assumption.
    + rewrite Rabs_pos_eq by lra. eapply Rle_lt_trans; [exact B|apply bpow_lt; reflexivity].
  - right. rewrite Rabs_pos_eq by lra. apply Rle_trans with (pw 0); [apply bpow_le; discriminate|exact A].
Qed.
Lemma zero_real : PrimFloat.is_finite 0%float = true /\ real_of 0%float = 0.
Proof.
  split; [vm_compute; reflexivity|]. rewrite real_of_SF. replace (Prim2SF 0) with (S754_zero false) by (vm_compute; reflexivity). reflexivity.
Qed.
Lemma of_neg_real p : (Z.pos p <= 9007199254740992)%Z ->
  PrimFloat.is_finite (PrimFloat.opp (PrimFloat.of_uint63 (Uint63.of_Z (Z.pos p)))) = true /\
  real_of (PrimFloat.opp (PrimFloat.of_uint63 (Uint63.of_Z (Z.pos p)))) = IZR (Z.neg p).
Proof.
  intros L. destruct (of_pos_real p L) as [F R]. revert F R. generalize (PrimFloat.of_uint63 (Uint63.of_Z (Z.pos p))). intros x F R. split.
  - rewrite is_finite_equiv in *. rewrite opp_equiv, is_finite_Bopp. exact F.
  - unfold real_of in *. rewrite opp_equiv, B2R_Bopp, R. symmetry. apply (opp_IZR (Z.pos p)).
Qed.
Lemma of_Z_real z : (Z.abs z <= 9007199254740992)%Z -> PrimFloat.is_finite (float_of_Z z) = true /\ real_of (float_of_Z z) = IZR z.
Proof. destruct z as [|p|p]; [intros _; exact zero_real|exact (of_pos_real p)|exact (of_neg_real p)]. Qed.
Lemma lit_real z p : (Z.abs z <= 9007199254740992)%Z -> (Z.pos p <= 9007199254740992)%Z ->
  PrimFloat.is_finite (nlit (Num := NumF) z p) = true /\ real_of (nlit (Num := NumF) z p) = nlit (Num := NumRnd double_round) z p.
Proof.
  intros HZ HP. destruct (of_Z_real z HZ) as [F1 R1]. destruct (of_Z_real (Z.pos p) HP) as [F2 R2]. cbn [nlit NumF NumRnd].
  assert (PP : 1 <= IZR (Z.pos p) <= pw 53).
  { split; [apply IZR_le; lia|]. rewrite pw53. apply IZR_le. exact HP. }
  assert (ZZ : Rabs (IZR z) <= pw 53).
  { rewrite <- abs_IZR, pw53. apply IZR_le. exact HZ. }
  assert (A := bpow_ge_0 radix2 (-53)).
  assert (I : pw (-53) <= / IZR (Z.pos p) <= 1).
  { split; [change (-53)%Z with (- (53))%Z; rewrite bpow_opp; apply Rinv_le_contravar; lra|]. rewrite <- Rinv_1. apply Rinv_le_contravar; lra. }
  rewrite <- R1, <- R2. apply div_real; [exact F1|rewrite R2; lra| |]; rewrite R1, R2; unfold Rdiv.
  - destruct (Z.eq_dec z 0) as [->|N]; [left; ring|right]. rewrite Rabs_mult, (Rabs_pos_eq (/ _)) by lra.
    apply Rle_trans with (1 * pw (-53)); [rewrite Rmult_1_l; apply bpow_le; discriminate|]. 
    apply Rmult_le_compat; [lra|lra| |lra]. rewrite <- abs_IZR. apply IZR_le. lia.
  - rewrite Rabs_mult, (Rabs_pos_eq (/ _)) by lra. apply Rle_trans with (pw 53 * 1); [|rewrite Rmult_1_r; apply bpow_le; discriminate].
    apply Rmult_le_compat; try lra. apply Rabs_pos.
Qed.

(** *** Magnitudes *)
Lemma fits_weaken e E e' E' x : (e' <= e)%Z -> (E <= E')%Z -> fits e E x -> fits e' E' x.
Proof.
  intros L1 L2 (F & M & B). split; [exact F|]. split; [apply (multiple_le e); assumption|]. eapply Rle_trans; [exact B|]. apply bpow_le. exact L2.
Qed.
Lemma fits_big e E x : fits e E x -> (-1022 <= e)%Z -> forall r, multiple e r -> r = 0 \/ pw (-1022) <= Rabs r.
Proof.
  intros _ L r M. destruct (multiple_big e r M) as [Z|B]; [left; exact Z|right]. eapply Rle_trans; [|exact B]. apply bpow_le. exact L.
Qed.
Lemma fits_add e E x y : (-1022 <= e)%Z -> (E <= 1019)%Z -> fits e E x -> fits e E y ->
  fits e (E + 1) (x + y)%float /\ real_of (x + y)%float = double_round (real_of x + real_of y).
Proof.
  intros L1 L2 (FX & MX & BX) (FY & MY & BY). assert (M := multiple_add e _ _ MX MY).
  assert (B : Rabs (real_of x + real_of y) <= pw (E + 1)).
  { rewrite bpow_plus. simpl (pw 1). eapply Rle_trans; [apply Rabs_triang|]. lra. }
  destruct (add_real x y FX FY) as [F R].
  - destruct (multiple_big e _ M) as [Z|G]; [left; exact Z|right]. eapply Rle_trans; [|exact G]. apply bpow_le. exact L1.
  - eapply Rle_trans; [exact B|]. apply bpow_le. lia.
  - split; [|exact R]. split; [exact F|]. rewrite R. split; [apply round_multiple, M|apply round_le, B].
Qed.
Lemma fits_mul e E f F x y : (-1022 <= e + f)%Z -> (E + F <= 1020)%Z -> fits e E x -> fits f F y ->
  fits (e + f) (E + F) (x * y)%float /\ real_of (x * y)%float = double_round (real_of x * real_of y).
Proof.
  intros L1 L2 (FX & MX & BX) (FY & MY & BY). assert (M := multiple_mul e f _ _ MX MY).
  assert (B : Rabs (real_of x * real_of y) <= pw (E + F)).
  { rewrite bpow_plus, Rabs_mult. apply Rmult_le_compat; try apply Rabs_pos; assumption. }
  destruct (mul_real x y FX FY) as [G R].
  - destruct (multiple_big _ _ M) as [Z|G]; [left; exact Z|right]. eapply Rle_trans; [|exact G]. apply bpow_le. exact L1.
  - eapply Rle_trans; [exact B|]. apply bpow_le. lia.
  - split; [|exact R]. split; [exact G|]. rewrite R. split; [apply round_multiple, M|apply round_le, B].
Qed.
Lemma exact_pow k : double_round (pw k) = pw k.
Proof. unfold double_round. apply round_generic; [typeclasses eauto|]. apply format_pow. Qed.
Lemma lit_two : real_of (nlit (Num := NumF) 2 1) = 2.
Proof. destruct (lit_real 2 1 ltac:(lia) ltac:(lia)) as [_ ->]. cbn [nlit NumRnd]. replace (2 / 1) with (pw 1) by (simpl; lra). apply (exact_pow 1). Qed.
Lemma fits_half e E x : (-1021 <= e)%Z -> (E <= 1000)%Z -> fits e E x ->
  fits (e - 1) E (nhalf (H := NumF) x) /\ real_of (nhalf (H := NumF) x) = nhalf (H := NumRnd double_round) (real_of x).
Proof.
  intros L1 L2 (FX & MX & BX). unfold nhalf. cbn [ndiv NumF NumRnd]. assert (T := lit_two).
  assert (T' : double_round (2 / 1) = 2) by (replace (2 / 1) with (pw 1) by (simpl; lra); apply exact_pow).
  assert (M : multiple (e - 1) (real_of x / 2)).
  { destruct MX as [z ->]. exists z. unfold Zminus. rewrite bpow_plus. simpl (pw (- (1))). lra. }
  assert (B : Rabs (real_of x / 2) <= pw E).
  { unfold Rdiv. rewrite Rabs_mult, (Rabs_pos_eq (/ 2)) by lra. assert (P := Rabs_pos (real_of x)). lra. }
  destruct (div_real x (nlit (Num := NumF) 2 1) FX) as [F R]; rewrite ?T.
  - lra.
  - destruct (multiple_big _ _ M) as [Z|G]; [left; exact Z|right]. eapply Rle_trans; [|exact G]. apply bpow_le. lia.
  - eapply Rle_trans; [exact B|]. apply bpow_le. lia.
  - rewrite T in R. cbn [nlit NumRnd]. rewrite T'. split; [|exact R]. split; [exact F|].
    rewrite R. split; [apply round_multiple, M|apply round_le, B].
Qed.
Lemma one_real : PrimFloat.is_finite 1%float = true /\ real_of 1%float = 1.
Proof. split; [reflexivity|]. exact (real_of_pow 1%float (-52) ltac:(vm_compute; reflexivity)). Qed.
Lemma fits_one : fits 0 0 1%float.
Proof. destruct one_real as [F R]. split; [exact F|]. rewrite R. split; [exists 1%Z; simpl; ring|]. rewrite Rabs_R1. simpl. lra. Qed.
Lemma fits_recip e E x : (-1000 <= e)%Z -> (E <= 1022)%Z -> fits e E x -> real_of x <> 0 ->
  fits (- E - 52) (- e) (1 / x)%float /\ real_of (1 / x)%float = double_round (1 / real_of x).
Proof.
  intros L1 L2 (FX & MX & BX) N. destruct one_real as [F1 R1]. destruct (multiple_big e _ MX) as [Z|G]; [easy|].
  assert (P : 0 < Rabs (real_of x)) by (apply Rabs_pos_lt; exact N).
  assert (B : pw (- E) <= Rabs (1 / real_of x) <= pw (- e)).
  { unfold Rdiv. rewrite Rmult_1_l, Rabs_inv, !bpow_opp. split; apply Rinv_le_contravar; try assumption. apply bpow_gt_0. }
  destruct (div_real 1%float x F1 N) as [F R]; rewrite ?R1.
  - right. eapply Rle_trans; [|apply B]. apply bpow_le. lia.
  - eapply Rle_trans; [apply B|]. apply bpow_le. lia.
  - rewrite R1 in R. split; [|exact R]. split; [exact F|]. rewrite R. split; [apply round_fine, B|apply round_le, B].
Qed.
Lemma fits_lit z p a E : (Z.abs z <= 9007199254740992)%Z -> (Z.pos p <= 9007199254740992)%Z -> pw a <= Rabs (IZR z / IZR (Z.pos p)) <= pw E ->
  fits (a - 52) E (nlit (Num := NumF) z p) /\ real_of (nlit (Num := NumF) z p) = nlit (Num := NumRnd double_round) z p.
Proof.
  intros HZ HP B. destruct (lit_real z p HZ HP) as [F R]. split; [|exact R]. split; [exact F|]. rewrite R. cbn [nlit NumRnd].
  split; [apply round_fine, B|apply round_le, B].
Qed.
Lemma neg_one_real : real_of (nneg1 (H := NumF)) = -1.
Proof.
  unfold nneg1. destruct (lit_real (-1) 1 ltac:(lia) ltac:(lia)) as [_ ->]. cbn [nlit NumRnd]. replace (-1 / 1) with (- pw 0) by (simpl; lra).
  unfold double_round. rewrite round_NE_opp. fold (double_round (pw 0)). rewrite exact_pow. simpl. reflexivity.
Qed.
Lemma fits_neg_one : fits 0 0 (nneg1 (H := NumF)).
Proof.
  split; [apply (lit_real (-1) 1); lia|]. rewrite neg_one_real. split; [exists (-1)%Z; simpl; ring|]. rewrite Rabs_left by lra. simpl. lra.
Qed.
