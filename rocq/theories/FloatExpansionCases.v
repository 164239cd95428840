(** Sizes of the coefficients of two-dimensional expansions in doubles, and cases for the overflow. *)
From Coq Require Import Reals List Bool ZArith Arith Lia Lra.
From Coquelicot Require Import Complex.
From Flocq Require Import Core BinarySingleNaN PrimFloat.
From Verif Require Import Num Outcome Vec Tables TableProofs FloatCases FloatFit FloatSpec CAux Fields FieldSpec RoundedFields RoundedSpec RoundedCases FloatFields FloatFieldsSpec FloatFieldsProofs FloatFieldsTheorems FloatExpansion2D FloatExpansionSpec FloatOverflow FloatExpansionProofs.
From Coq Require Import Floats.
Import ListNotations.
Local Open Scope R_scope.

(** *** Bounds *)
Definition upto (k E : Z) (x : float) : Prop := PrimFloat.is_finite x = true /\ Rabs (real_of x) <= IZR k * pw E.
Lemma rndF_upto k E r : (0 <= k < 9007199254740992)%Z -> (-1000 <= E <= 970)%Z -> Rabs r <= IZR k * pw E -> Rabs (rndF r) <= IZR k * pw E /\ Rabs (rndF r) < pw 1024.
Proof.
  intros K HE H. assert (B : Rabs (rndF r) <= IZR k * pw E).
  { apply abs_round_le_generic; [apply fexp_correct; reflexivity|typeclasses eauto| |exact H].
    change (SpecFloat.fexp prec emax) with (FLT_exp (-1074) 53). apply generic_format_FLT. exists (Float radix2 k E); cbn; [reflexivity|rewrite Z.abs_eq; lia|lia]. }
  split; [exact B|]. eapply Rle_lt_trans; [exact B|]. apply Rlt_le_trans with (pw 53 * pw 971); [|rewrite <- bpow_plus; apply bpow_le; lia].
  assert (P := bpow_gt_0 radix2 E). assert (Q : pw E < pw 971) by (apply bpow_lt; lia).
  assert (IZR k < pw 53) by (rewrite pw53; apply IZR_lt; lia). assert (0 <= IZR k) by (apply IZR_le; lia). nra.
Qed.
Lemma upto_add k l E x y : (0 <= k)%Z -> (0 <= l)%Z -> (k + l < 9007199254740992)%Z -> (-1000 <= E <= 970)%Z -> upto k E x -> upto l E y -> upto (k + l) E (x + y)%float.
Proof.
  intros K L KL HE [FX BX] [FY BY]. unfold upto. rewrite is_finite_equiv in *. unfold real_of in *. rewrite add_equiv.
  assert (H := Bplus_correct _ _ Hprec Hmax mode_NE (Prim2B x) (Prim2B y) FX FY). cbn [round_mode] in H.
  destruct (rndF_upto (k + l) E (B2R (Prim2B x) + B2R (Prim2B y))) as [R1 R2]; [lia|exact HE|rewrite plus_IZR; eapply Rle_trans; [apply Rabs_triang|lra]|].
  rewrite Rlt_bool_true in H by exact R2. destruct H as (H1 & H2 & _). split; [exact H2|]. rewrite H1. exact R1.
Qed.
Lemma sub_upto k E x y : (0 <= k < 9007199254740992)%Z -> (-1000 <= E <= 970)%Z -> PrimFloat.is_finite x = true -> PrimFloat.is_finite y = true ->
  Rabs (real_of x - real_of y) <= IZR k * pw E -> upto k E (x - y)%float.
Proof.
  intros K HE FX FY B. unfold upto. rewrite is_finite_equiv in *. unfold real_of in *. rewrite sub_equiv.
  assert (H := Bminus_correct _ _ Hprec Hmax mode_NE (Prim2B x) (Prim2B y) FX FY). cbn [round_mode] in H.
  destruct (rndF_upto k E _ K HE B) as [R1 R2]. rewrite Rlt_bool_true in H by exact R2. destruct H as (H1 & H2 & _). split; [exact H2|]. rewrite H1. exact R1.
Qed.
Lemma upto_sub k l E x y : (0 <= k)%Z -> (0 <= l)%Z -> (k + l < 9007199254740992)%Z -> (-1000 <= E <= 970)%Z -> upto k E x -> upto l E y -> upto (k + l) E (x - y)%float.
Proof.
  intros K L KL HE [FX BX] [FY BY]. apply sub_upto; try assumption; [lia|]. rewrite plus_IZR. unfold Rminus. eapply Rle_trans; [apply Rabs_triang|]. rewrite Rabs_Ropp. lra.
Qed.
Lemma upto_mul E F x y : (-1000 <= E + F <= 970)%Z -> upto 1 E x -> upto 1 F y -> upto 1 (E + F) (x * y)%float.
Proof.
  intros HE [FX BX] [FY BY]. unfold upto. rewrite is_finite_equiv in *. unfold real_of in *. rewrite mul_equiv.
  assert (H := Bmult_correct _ _ Hprec Hmax mode_NE (Prim2B x) (Prim2B y)). cbn [round_mode] in H.
  destruct (rndF_upto 1 (E + F) (B2R (Prim2B x) * B2R (Prim2B y))) as [R1 R2]; [lia|exact HE| |].
  { rewrite Rabs_mult, bpow_plus, Rmult_1_l. rewrite Rmult_1_l in BX, BY. apply Rmult_le_compat; try apply Rabs_pos; assumption. }
  rewrite Rlt_bool_true in H by exact R2. destruct H as (H1 & H2 & _). rewrite H2, FX, FY. split; [reflexivity|]. rewrite H1. exact R1.
Qed.
Lemma div_upto k E x y : (0 <= k < 9007199254740992)%Z -> (-1000 <= E <= 970)%Z -> upto k E x -> 1 <= real_of y -> upto k E (x / y)%float.
Proof.
  intros K HE [FX BX] Y. unfold upto. rewrite is_finite_equiv in *. unfold real_of in *. rewrite div_equiv.
  assert (H := Bdiv_correct _ _ Hprec Hmax mode_NE (Prim2B x) (Prim2B y) ltac:(lra)). cbn [round_mode] in H.
  destruct (rndF_upto k E (B2R (Prim2B x) / B2R (Prim2B y))) as [R1 R2]; [exact K|exact HE| |].
  { unfold Rdiv. rewrite Rabs_mult. apply Rle_trans with (Rabs (B2R (Prim2B x)) * 1); [|lra]. apply Rmult_le_compat_l; [apply Rabs_pos|].
    rewrite Rabs_pos_eq by (apply Rlt_le, Rinv_0_lt_compat; lra). rewrite <- Rinv_1. apply Rinv_le_contravar; lra. }
  rewrite Rlt_bool_true in H by exact R2. destruct H as (H1 & H2 & _). rewrite H2, FX. split; [reflexivity|]. rewrite H1. exact R1.
Qed.
Lemma upto_weaken k E l F x : (0 <= k)%Z -> (k <= l)%Z -> (E <= F)%Z -> upto k E x -> upto l F x.
Proof.
  intros K L HE [FX BX]. split; [exact FX|]. eapply Rle_trans; [exact BX|]. apply Rmult_le_compat; [apply IZR_le, K|apply bpow_ge_0|apply IZR_le, L|apply bpow_le, HE].
Qed.

Definition cupto (k E : Z) (z : CF) : Prop := upto k E (fst z) /\ upto k E (snd z).
Section Sizes.
Variable A : cfarith.
Hypothesis HM : usual_product (f_mul A).
Lemma product_upto E F a b : (-1000 <= E + F <= 969)%Z -> cupto 1 E a -> cupto 1 F b -> cupto 1 (E + F + 1) (f_mul A a b).
Proof.
  intros HE [A1 A2] [B1 B2].
  assert (T : forall x, upto (1 + 1) (E + F) x -> upto 1 (E + F + 1) x).
  { intros x [FX BX]. split; [exact FX|]. eapply Rle_trans; [exact BX|]. rewrite (bpow_plus _ (E + F) 1). change (IZR (1 + 1)) with 2. change (bpow radix2 1) with 2. rewrite Rmult_1_l, Rmult_comm. apply Rle_refl. }
  assert (HE' : (-1000 <= E + F <= 970)%Z) by lia. assert (M := fun x y => upto_mul E F x y HE').
  assert (R1 : upto 1 (E + F + 1) (fst a * fst b - snd a * snd b)%float) by (apply T, upto_sub; try lia; apply M; assumption).
  assert (R2 : upto 1 (E + F + 1) (fst a * snd b + snd a * fst b)%float) by (apply T, upto_add; try lia; apply M; assumption).
  specialize (HM a b). cbv zeta in HM.
  assert (N : PrimFloat.is_nan (fst a * fst b - snd a * snd b)%float = false).
  { destruct R1 as [R1 _]. rewrite is_finite_equiv in R1. rewrite is_nan_equiv. destruct (Prim2B (fst a * fst b - snd a * snd b)%float); try reflexivity; discriminate. }
  rewrite N in HM. cbn [andb] in HM. rewrite HM. split; assumption.
Qed.
Lemma scale_upto E F q a : (-1000 <= E + F <= 970)%Z -> upto 1 E q -> cupto 1 F a -> cupto 1 (E + F) (cscale q a).
Proof. intros HE Q [A1 A2]. split; apply upto_mul; assumption. Qed.
Lemma csub_upto k E a b : (0 <= k)%Z -> (k + 1 < 9007199254740992)%Z -> (-1000 <= E <= 970)%Z -> cupto k E a -> cupto 1 E b -> cupto (k + 1) E (csub a b).
Proof. intros K L HE [A1 A2] [B1 B2]. split; apply upto_sub; try assumption; lia. Qed.

Variables (a b : Z) (p : nat).
Hypothesis HA : (0 <= a)%Z.
Hypothesis HB : (0 <= b)%Z.
Hypothesis HP : (a + Z.of_nat p * (b + 1) <= 960)%Z.
Notation top := (a + Z.of_nat p * (b + 1))%Z.
Lemma steps j : (j < p)%nat -> (0 <= Z.of_nat j * (b + 1) /\ Z.of_nat j * (b + 1) + b + 1 <= Z.of_nat p * (b + 1))%Z.
Proof.
  intros J. split; [apply Z.mul_nonneg_nonneg; lia|]. replace (Z.of_nat j * (b + 1) + b + 1)%Z with ((Z.of_nat j + 1) * (b + 1))%Z by ring.
  apply Z.mul_le_mono_nonneg_r; lia.
Qed.
Lemma top_range : (0 <= Z.of_nat p * (b + 1) /\ Z.of_nat p <= Z.of_nat p * (b + 1))%Z.
Proof. split; [apply Z.mul_nonneg_nonneg; lia|]. nia. Qed.
Lemma acc_upto q w k cs : upto 1 a q -> cupto 1 b w -> (0 <= k)%Z -> (k + 1 < 9007199254740992)%Z -> forall pw_ j, (j + length cs <= p)%nat -> cupto 1 (b + Z.of_nat j * (b + 1)) pw_ ->
  Forall (cupto k top) cs -> Forall (cupto (k + 1) top) (me2_accF A q w pw_ cs).
Proof.
  intros Q W K L. induction cs as [|c cs IH]; intros pw_ j J P F; cbn [me2_accF]; [constructor|]. cbn [length] in J. inversion F as [|? ? F1 F2]; subst. constructor.
  - assert (G := steps j ltac:(lia)). assert (G' := top_range). apply csub_upto; [lia|lia|lia|exact F1|]. assert (S1 := scale_upto a (b + Z.of_nat j * (b + 1)) q pw_ ltac:(lia) Q P).
    destruct S1 as [S1 S2]. split; (eapply upto_weaken; [| | |eassumption]; lia).
  - destruct cs as [|c' cs]; [constructor|]. apply (IH _ (S j)); [lia| |exact F2].
    assert (G := steps (S j) ltac:(cbn [length] in J; lia)). assert (R := product_upto (b + Z.of_nat j * (b + 1)) b pw_ w ltac:(lia) P W). replace (b + Z.of_nat (S j) * (b + 1))%Z with (b + Z.of_nat j * (b + 1) + b + 1)%Z by lia. exact R.
Qed.
(** A source relative to the center. *)
Definition source_upto (c : list float) (s : psrc float) : Prop :=
  upto 1 a (ps_q s) /\ forall i, (i < 2)%nat -> upto 1 b (nth i (ps_pos s) 0%float - nth i c 0%float)%float.
Lemma source_step c s k cs : source_upto c s -> (0 <= k)%Z -> (k + 1 < 9007199254740992)%Z -> length cs = S p -> Forall (cupto k top) cs ->
  Forall (cupto (k + 1) top) (me2_add_sourceF A (cplxF c) cs s).
Proof.
  intros [Q W] K L LN F. assert (G' := top_range). destruct cs as [|c0 cs]; [discriminate|]. cbn [me2_add_sourceF]. injection LN as LN. apply Forall_cons_iff in F. destruct F as [[F3 F4] F2].
  assert (W' : cupto 1 b (csub (cplxF (ps_pos s)) (cplxF c))) by (split; [apply (W 0%nat); lia|apply (W 1%nat); lia]).
  constructor; [|apply (acc_upto _ _ k cs Q W' K L _ 0%nat); [lia| |exact F2]].
  - split; cbn [fst snd]; [apply upto_add; [lia|lia|lia|lia|exact F3|apply (upto_weaken 1 a); [lia|lia|lia|exact Q]]|apply (upto_weaken k top); [lia|lia|lia|exact F4]].
  - replace (b + Z.of_nat 0 * (b + 1))%Z with b by lia. exact W'.
Qed.
Lemma sources_upto c srcs : (forall s, In s srcs -> source_upto c s) -> forall k cs, (0 <= k)%Z -> (k + Z.of_nat (length srcs) < 9007199254740992)%Z -> length cs = S p ->
  Forall (cupto k top) cs -> Forall (cupto (k + Z.of_nat (length srcs)) top) (fold_left (me2_add_sourceF A (cplxF c)) srcs cs).
Proof.
  intros HS. induction srcs as [|s srcs IH]; intros k cs K L LN F; cbn [fold_left length]; [replace (k + Z.of_nat 0)%Z with k by lia; exact F|].
  cbn [length] in L. replace (k + Z.of_nat (S (length srcs)))%Z with (k + 1 + Z.of_nat (length srcs))%Z by lia. apply IH.
  - intros s' I. apply HS. right. exact I.
  - lia.
  - lia.
  - rewrite add_source_length. exact LN.
  - apply source_step; [apply HS; left; reflexivity|lia|lia|exact LN|exact F].
Qed.
Lemma div_from_upto k cs : (0 <= k < 9007199254740992)%Z -> forall j, (1 <= j)%nat -> (Z.of_nat j + Z.of_nat (length cs) <= 9007199254740992)%Z -> Forall (cupto k top) cs ->
  Forall (cupto k top) (div_fromF j cs).
Proof.
  intros K. assert (G' := top_range). induction cs as [|c cs IH]; intros j J L F; cbn [div_fromF]; [constructor|]. cbn [length] in L. inversion F as [|? ? [F1 F2] F3]; subst.
  assert (D : 1 <= real_of (nat_float j)). { unfold nat_float. rewrite (proj2 (of_Z_real (Z.of_nat j) ltac:(lia))). apply IZR_le. lia. }
  constructor; [|apply IH; try lia; exact F3]. split; apply div_upto; try assumption; lia.
Qed.
Lemma fold_length c srcs : forall cs, length (fold_left (me2_add_sourceF A c) srcs cs) = length cs.
Proof. induction srcs as [|s srcs IH]; intros cs; cbn [fold_left]; [reflexivity|]. rewrite IH. apply add_source_length. Qed.
Theorem coefficients_finite c srcs : (Z.of_nat (length srcs) < 9007199254740992)%Z -> (forall s, In s srcs -> source_upto c s) ->
  Forall (fun z => PrimFloat.is_finite (fst z) = true /\ PrimFloat.is_finite (snd z) = true) (sf_co (me2_sourcesF A c p srcs)).
Proof.
  intros L HS. unfold me2_sourcesF. cbn [sf_co].
  assert (F : Forall (cupto (0 + Z.of_nat (length srcs)) top) (fold_left (me2_add_sourceF A (cplxF c)) srcs (repeat zeroC (S p)))).
  { apply sources_upto; [exact HS|lia|lia|apply repeat_length|]. apply Forall_forall. intros z Z. apply repeat_spec in Z. subst z.
    destruct zero_real as [Z1 Z2]. split; (split; [exact Z1|]); cbn [fst snd zeroC]; rewrite Z2, Rabs_R0; lra. }
  assert (LN : length (fold_left (me2_add_sourceF A (cplxF c)) srcs (repeat zeroC (S p))) = S p).
  { rewrite fold_length. apply repeat_length. }
  destruct (fold_left _ _ _) as [|c0 cs]; [constructor|]. cbn [div_tailF]. apply Forall_cons_iff in F. destruct F as [[F1 F2] F3]. constructor; [split; [apply F1|apply F2]|].
  injection LN as LN. eapply Forall_impl; [|apply (div_from_upto (0 + Z.of_nat (length srcs)) cs); [lia|lia|assert (G' := top_range); lia|exact F3]].
  intros z [[Z1 _] [Z2 _]]. split; assumption.
Qed.
End Sizes.

Theorem coefficients_in_range A a b p c srcs : usual_product (f_mul A) -> (1 <= p)%nat -> (a + p * (b + 1) <= 960)%nat -> (Z.of_nat (length srcs) < 9007199254740992)%Z ->
  (forall y, In y c -> PrimFloat.is_finite y = true) -> (forall s y, In s srcs -> In y (ps_pos s) -> PrimFloat.is_finite y = true) ->
  (forall s, In s srcs -> PrimFloat.is_finite (ps_q s) = true /\ Rabs (real_of (ps_q s)) <= 2 ^ a /\ separation (ps_pos s) c <= 2 ^ b) ->
  Forall (fun z => PrimFloat.is_finite (fst z) = true /\ PrimFloat.is_finite (snd z) = true) (sf_co (me2_sourcesF A c p srcs)).
Proof.
  intros HM P1 HP L FC FS HS. apply (coefficients_finite A HM (Z.of_nat a) (Z.of_nat b) p); try lia.
  assert (P : forall n, 2 ^ n = pw (Z.of_nat n)) by (intros n; rewrite <- IZR_Zpower, <- pow_IZR by lia; reflexivity).
  assert (PB : (b <= 960)%nat) by nia.
  intros s I. destruct (HS s I) as (F & Q & S). split; [split; [exact F|rewrite Rmult_1_l, <- P; exact Q]|].
  assert (FN : forall i v, (forall y, In y v -> PrimFloat.is_finite y = true) -> PrimFloat.is_finite (nth i v 0%float) = true).
  { intros i v V. destruct (nth_in_or_default i v 0%float) as [G|G]; [apply V, G|rewrite G; apply zero_real]. }
  assert (PX : forall y, In y (ps_pos s) -> PrimFloat.is_finite y = true) by (intros y Y; exact (FS s y I Y)).
  rewrite P in S. unfold separation in S. set (u := real_of (nth 0 (ps_pos s) 0%float) - real_of (nth 0 c 0%float)) in *.
  set (v := real_of (nth 1 (ps_pos s) 0%float) - real_of (nth 1 c 0%float)) in *. assert (U := pow2_ge_0 u). assert (V := pow2_ge_0 v).
  intros i HI. apply sub_upto; [lia|lia|apply FN, PX|apply FN, FC|]. rewrite Rmult_1_l. eapply Rle_trans; [|exact S]. destruct i as [|[|i]]; [fold u|fold v|lia].
  - rewrite <- sqrt_Rsqr_abs, Rsqr_pow2. apply sqrt_le_1_alt. lra.
  - rewrite <- sqrt_Rsqr_abs, Rsqr_pow2. apply sqrt_le_1_alt. lra.
Qed.

(** *** Cases *)
(** The product and the quotient by the textbook formulas. *)
Definition plain_mul (a b : CF) : CF := (fst a * fst b - snd a * snd b, fst a * snd b + snd a * fst b)%float.
Definition plain_div (a b : CF) : CF :=
  let d := (fst b * fst b + snd b * snd b)%float in ((fst a * fst b + snd a * snd b) / d, (snd a * fst b - fst a * snd b) / d)%float.
Definition plain : cfarith := mkcf plain_mul plain_div (fun z => z) (fun n k => fold_left (fun c i => c * nat_float (n - k + i) / nat_float i)%float (seq 1 k) 1%float).
Lemma plain_usual : usual_product plain_mul.
Proof.
  intros a b re im. destruct (PrimFloat.is_nan re && PrimFloat.is_nan im)%bool eqn:E; [|reflexivity]. apply andb_prop in E. destruct E as [E1 E2].
  assert (N : forall x, PrimFloat.is_nan x = true -> nf x). { intros x. rewrite is_nan_equiv, is_finite_equiv. destruct (Prim2B x); try discriminate; reflexivity. }
  split; apply N; assumption.
Qed.
Definition far_source : psrc float := PSrc [0x1p53; 0]%float 1%float.
Definition origin2 : list float := [0; 0]%float.
Lemma far_separation : separation [0x1p53; 0]%float origin2 = 9007199254740992.
Proof.
  unfold separation, origin2. cbn [nth]. rewrite (proj2 zero_real). replace (real_of 0x1p53%float) with 9007199254740992.
  - replace ((9007199254740992 - 0) ^ 2 + (0 - 0) ^ 2) with (9007199254740992 ^ 2) by ring. apply sqrt_pow2. lra.
  - symmetry. exact (real_of_pow 0x1p53%float 1 ltac:(vm_compute; reflexivity)).
Qed.
Lemma far_overflows : overflows 20 [0x1p53; 0]%float origin2.
Proof.
  unfold overflows. rewrite far_separation. apply Rle_trans with ((2 ^ 52) ^ 20).
  - rewrite <- pow_mult. apply Rle_pow; [lra|lia].
  - apply pow_incr. split; [apply pow_le; lra|]. replace (2 ^ 52) with 4503599627370496 by (simpl; lra). lra.
Qed.
Lemma far_touched A : touched A 20 20 (me2_sourcesF A origin2 20 [far_source]).
Proof.
  apply touched_sources with (s := far_source); [left; reflexivity| |exact far_overflows]. repeat constructor; vm_compute; reflexivity.
Qed.

(** The reciprocal by the textbook formula. *)
Notation u := (/ 9007199254740992).
Lemma rndF_id x : rndF (real_of x) = real_of x.
Proof. apply round_generic; [typeclasses eauto|]. apply (generic_format_B2R prec emax). Qed.
Lemma upto_one x : PrimFloat.is_finite x = true -> Rabs (real_of x) <= 1 -> upto 1 0 x.
Proof. intros F B. split; [exact F|]. change (pw 0) with 1. lra. Qed.
Lemma times_one x : upto 1 0 x -> upto 1 0 (1 * x)%float /\ real_of (1 * x)%float = real_of x.
Proof.
  intros X. destruct one_real as [F1 R1]. assert (U := upto_mul 0 0 1%float x ltac:(lia) (upto_one 1%float F1 ltac:(rewrite R1, Rabs_R1; lra)) X).
  split; [exact U|]. rewrite (proj2 (proj2 (mul_finite _ _ (proj1 U)))), R1, Rmult_1_l. apply rndF_id.
Qed.
Lemma times_zero x : upto 1 0 x -> upto 1 0 (0 * x)%float /\ real_of (0 * x)%float = 0.
Proof.
  intros X. destruct zero_real as [F1 R1]. assert (U := upto_mul 0 0 0%float x ltac:(lia) (upto_one 0%float F1 ltac:(rewrite R1, Rabs_R0; lra)) X).
  split; [exact U|]. rewrite (proj2 (proj2 (mul_finite _ _ (proj1 U)))), R1, Rmult_0_l. apply round_0. typeclasses eauto.
Qed.
Lemma plain_reciprocal : usual_reciprocal plain_div.
Proof.
  intros z FX FY v S1 S0. set (x := fst z) in *. set (y := snd z) in *. set (s := real_of x ^ 2 + real_of y ^ 2) in *.
  assert (PX := pow2_ge_0 (real_of x)). assert (PY := pow2_ge_0 (real_of y)).
  assert (UX : upto 1 0 x). { apply upto_one; [exact FX|]. apply Rabs_le. split; unfold s in S1; nra. }
  assert (UY : upto 1 0 y). { apply upto_one; [exact FY|]. apply Rabs_le. split; unfold s in S1; nra. }
  assert (UXX := upto_mul 0 0 x x ltac:(lia) UX UX). assert (UYY := upto_mul 0 0 y y ltac:(lia) UY UY). change (0 + 0)%Z with 0%Z in UXX, UYY.
  assert (UD := upto_add 1 1 0 _ _ ltac:(lia) ltac:(lia) ltac:(lia) ltac:(lia) UXX UYY). set (d := (x * x + y * y)%float) in *.
  assert (RD := proj2 (proj2 (add_finite _ _ (proj1 UD)))). rewrite (proj2 (proj2 (mul_finite _ _ (proj1 UXX)))), (proj2 (proj2 (mul_finite _ _ (proj1 UYY)))) in RD. fold d in RD.
  assert (T0 : 0 < / 2 ^ 800) by (apply Rinv_0_lt_compat, pow_lt; lra).
  assert (ET : 0 < eta /\ eta <= u * u * s /\ eta <= u * u).
  { assert (P : pw (-1075) = u * u * / 2 ^ 800 * / 2 ^ 169).
    { change (pw (-1075)) with (/ IZR (2 ^ 1075)). rewrite <- !Rinv_mult. f_equal. rewrite !pow_IZR, <- !mult_IZR. f_equal. }
    assert (Q : 0 < / 2 ^ 169 <= 1). { split; [apply Rinv_0_lt_compat, pow_lt; lra|]. rewrite <- Rinv_1. apply Rinv_le_contravar; [lra|]. apply pow_R1_Rle. lra. }
    unfold eta. split; [apply bpow_gt_0|]. rewrite P. assert (0 < u * u * / 2 ^ 800) by (apply Rmult_lt_0_compat; [lra|exact T0]). split; nra. }
  destruct ET as (E0 & E1 & E2). assert (S0' : 0 < s) by lra.
  assert (DB : (1 - 3 * u) * s <= real_of d <= (1 + 3 * u) * s).
  { assert (G1 := rndF_error (real_of x * real_of x)). assert (G2 := rndF_error (real_of y * real_of y)).
    set (r1 := rndF (real_of x * real_of x)) in *. set (r2 := rndF (real_of y * real_of y)) in *. assert (G3 := rndF_error (r1 + r2)). rewrite <- RD in G3.
    rewrite (Rabs_pos_eq (real_of x * real_of x)) in G1 by nra. rewrite (Rabs_pos_eq (real_of y * real_of y)) in G2 by nra.
    apply Rabs_le_inv in G1, G2. assert (SS : s = real_of x * real_of x + real_of y * real_of y) by (unfold s; ring).
    assert (B12 : (1 - u - 2 * u * u) * s <= r1 + r2 <= (1 + u + 2 * u * u) * s) by (split; lra).
    assert (A12 : Rabs (r1 + r2) = r1 + r2) by (apply Rabs_pos_eq; apply Rle_trans with ((1 - u - 2 * u * u) * s); [apply Rmult_le_pos; lra|apply B12]).
    rewrite A12 in G3. apply Rabs_le_inv in G3. split; lra. }
  assert (D0 : 0 < real_of d) by (apply Rlt_le_trans with ((1 - 3 * u) * s); [apply Rmult_lt_0_compat; lra|apply DB]).
  destruct (times_one x UX) as [O1 O1r]. destruct (times_one y UY) as [O2 O2r]. destruct (times_zero x UX) as [O3 O3r]. destruct (times_zero y UY) as [O4 O4r].
  assert (N1 := upto_add 1 1 0 _ _ ltac:(lia) ltac:(lia) ltac:(lia) ltac:(lia) O1 O4). assert (N2 := upto_sub 1 1 0 _ _ ltac:(lia) ltac:(lia) ltac:(lia) ltac:(lia) O3 O2).
  assert (N1r := proj2 (proj2 (add_finite _ _ (proj1 N1)))). rewrite O1r, O4r, Rplus_0_r, rndF_id in N1r.
  assert (N2r := proj2 (proj2 (sub_finite _ _ (proj1 N2)))). rewrite O2r, O3r, Rminus_0_l, round_NE_opp, rndF_id in N2r.
  set (n1 := (1 * x + 0 * y)%float) in *. set (n2 := (0 * x - 1 * y)%float) in *.
  assert (DIV : forall n, PrimFloat.is_finite n = true -> nf (n / d)%float \/ real_of (n / d)%float = rndF (real_of n / real_of d)).
  { intros n FN. destruct (fin_cases (n / d)%float) as [F|F]; [right|left; exact F]. rewrite is_finite_equiv in F, FN. unfold real_of in *. rewrite div_equiv in *.
    assert (H := Bdiv_correct _ _ Hprec Hmax mode_NE (Prim2B n) (Prim2B d) ltac:(lra)). cbn [round_mode] in H. destruct (Rlt_bool _ _) in H; [apply H|].
    rewrite <- is_finite_SF_B2SF, H in F. discriminate F. }
  change (fst v) with (n1 / d)%float. change (snd v) with (n2 / d)%float.
  destruct (DIV n1 (proj1 N1)) as [V1|V1]; [left; exact V1|]. destruct (DIV n2 (proj1 N2)) as [V2|V2]; [right; left; exact V2|]. right. right.
  rewrite N1r in V1. rewrite N2r in V2.
  set (a := real_of x / real_of d) in *. assert (V2' : - real_of y / real_of d = - (real_of y / real_of d)) by (unfold Rdiv; ring). rewrite V2', round_NE_opp in V2.
  set (b := real_of y / real_of d) in *.
  assert (G1 := rndF_error a). assert (G2 := rndF_error b). rewrite V1, V2. set (r1 := rndF a) in *. set (r2 := rndF b) in *.
  assert (AB : a ^ 2 + b ^ 2 = s / (real_of d) ^ 2) by (unfold a, b, s; field; lra).
  assert (L : forall r t, Rabs (r - t) <= u * Rabs t + eta -> r ^ 2 >= (1 - 2 * u) * t ^ 2 - 4 * eta * (1 + t ^ 2)).
  { intros r t H. assert (R0 := Rabs_pos t). assert (H2 : (1 - u) * Rabs t - eta <= Rabs r).
    { assert (Rabs t <= Rabs r + Rabs (r - t)). { rewrite (Rabs_minus_sym r t). replace t with (r + (t - r)) at 1 by ring. apply Rabs_triang. } lra. }
    rewrite <- (pow2_abs r), <- (pow2_abs t). set (q := Rabs t) in *. set (w := Rabs r) in *. assert (W := Rabs_pos r). fold w in W.
    destruct (Rle_lt_dec 0 ((1 - u) * q - eta)) as [C|C].
    - assert (((1 - u) * q - eta) ^ 2 <= w ^ 2) by (apply pow_incr; lra). assert (2 * q <= 1 + q ^ 2) by (assert (K := pow2_ge_0 (1 - q)); lra).
      assert (eta * (2 * q) <= eta * (1 + q ^ 2)) by (apply Rmult_le_compat_l; lra). assert (K := pow2_ge_0 q). assert (0 <= u * q) by (apply Rmult_le_pos; lra). nra.
    - assert (q < 2 * eta) by nra. assert (0 <= w ^ 2) by apply pow2_ge_0. assert (q ^ 2 <= 4 * eta ^ 2) by nra. nra. }
  assert (L1 := L _ _ G1). assert (L2 := L _ _ G2).
  replace ((- r2) ^ 2) with (r2 ^ 2) by ring.
  assert (SUM : (1 - 2 * u) * (a ^ 2 + b ^ 2) - 4 * eta * (2 + (a ^ 2 + b ^ 2)) <= r1 ^ 2 + r2 ^ 2) by lra. rewrite AB in SUM.
  assert (SD : / (1 + 3 * u) ^ 2 <= s / real_of d ^ 2 * s).
  { apply Rmult_le_reg_r with ((1 + 3 * u) ^ 2 * real_of d ^ 2); [apply Rmult_lt_0_compat; [apply pow_lt; lra|apply pow_lt; exact D0]|].
    replace (/ (1 + 3 * u) ^ 2 * ((1 + 3 * u) ^ 2 * real_of d ^ 2)) with (real_of d ^ 2) by (field; lra).
    replace (s / real_of d ^ 2 * s * ((1 + 3 * u) ^ 2 * real_of d ^ 2)) with (((1 + 3 * u) * s) ^ 2) by (field; lra). apply pow_incr. lra. }
  assert (FIN : ((1 - 2 * u) * (s / real_of d ^ 2) - 4 * eta * (2 + s / real_of d ^ 2)) * s <= (r1 ^ 2 + r2 ^ 2) * s) by (apply Rmult_le_compat_r; lra).
  eapply Rle_trans; [|exact FIN]. set (t := s / real_of d ^ 2 * s) in *.
  replace (((1 - 2 * u) * (s / real_of d ^ 2) - 4 * eta * (2 + s / real_of d ^ 2)) * s) with ((1 - 2 * u) * t - 8 * eta * s - 4 * eta * t) by (unfold t; ring).
  assert (TL : 1 - 7 * u <= t). { eapply Rle_trans; [|exact SD]. apply Rmult_le_reg_r with ((1 + 3 * u) ^ 2); [apply pow_lt; lra|]. rewrite Rinv_l by (apply Rgt_not_eq, pow_lt; lra). lra. }
  assert (eta * s <= u * u) by nra. assert (0 <= t) by lra. assert (eta * t <= u * u * t) by (apply Rmult_le_compat_r; lra).
  lra.
Qed.

(** The computed square of the absolute value. *)
Lemma square_bounds x y : PrimFloat.is_finite x = true -> PrimFloat.is_finite y = true -> let s := real_of x ^ 2 + real_of y ^ 2 in let d := (x * x + y * y)%float in
  s <= 2 ^ 800 -> / 2 ^ 800 <= s -> 0 < eta /\ eta <= u * u * s /\ (1 - 3 * u) * s <= real_of d <= (1 + 3 * u) * s.
Proof.
  intros FX FY s d S1 S0. assert (PX := pow2_ge_0 (real_of x)). assert (PY := pow2_ge_0 (real_of y)).
  assert (SQ : forall t, t ^ 2 <= 2 ^ 800 -> Rabs t <= IZR 1 * pw 400).
  { intros t T. replace (pw 400) with (2 ^ 400) by (rewrite <- pw_pow; reflexivity). rewrite Rmult_1_l. apply Rsqr_incr_0; [|apply Rabs_pos|apply pow_le; lra].
    rewrite <- Rsqr_abs, !Rsqr_pow2, <- pow_mult. exact T. }
  assert (UX : upto 1 400 x) by (split; [exact FX|apply SQ; unfold s in S1; lra]). assert (UY : upto 1 400 y) by (split; [exact FY|apply SQ; unfold s in S1; lra]).
  assert (UXX := upto_mul 400 400 x x ltac:(lia) UX UX). assert (UYY := upto_mul 400 400 y y ltac:(lia) UY UY). change (400 + 400)%Z with 800%Z in UXX, UYY.
  assert (UD := upto_add 1 1 800 _ _ ltac:(lia) ltac:(lia) ltac:(lia) ltac:(lia) UXX UYY). fold d in UD.
  assert (RD := proj2 (proj2 (add_finite _ _ (proj1 UD)))). rewrite (proj2 (proj2 (mul_finite _ _ (proj1 UXX)))), (proj2 (proj2 (mul_finite _ _ (proj1 UYY)))) in RD. fold d in RD.
  assert (T0 : 0 < / 2 ^ 800) by (apply Rinv_0_lt_compat, pow_lt; lra).
  assert (ET : 0 < eta /\ eta <= u * u * s).
  { assert (P : pw (-1075) = u * u * / 2 ^ 800 * / 2 ^ 169).
    { change (pw (-1075)) with (/ IZR (2 ^ 1075)). rewrite <- !Rinv_mult. f_equal. rewrite !pow_IZR, <- !mult_IZR. f_equal. }
    assert (Q : 0 < / 2 ^ 169 <= 1). { split; [apply Rinv_0_lt_compat, pow_lt; lra|]. rewrite <- Rinv_1. apply Rinv_le_contravar; [lra|]. apply pow_R1_Rle. lra. }
    unfold eta. split; [apply bpow_gt_0|]. rewrite P. assert (0 < u * u * / 2 ^ 800) by (apply Rmult_lt_0_compat; [lra|exact T0]). nra. }
  destruct ET as (E0 & E1). split; [exact E0|]. split; [exact E1|].
  assert (G1 := rndF_error (real_of x * real_of x)). assert (G2 := rndF_error (real_of y * real_of y)).
  set (r1 := rndF (real_of x * real_of x)) in *. set (r2 := rndF (real_of y * real_of y)) in *. assert (G3 := rndF_error (r1 + r2)). rewrite <- RD in G3.
  rewrite (Rabs_pos_eq (real_of x * real_of x)) in G1 by nra. rewrite (Rabs_pos_eq (real_of y * real_of y)) in G2 by nra.
  apply Rabs_le_inv in G1, G2. assert (SS : s = real_of x * real_of x + real_of y * real_of y) by (unfold s; ring).
  assert (B12 : (1 - u - 2 * u * u) * s <= r1 + r2 <= (1 + u + 2 * u * u) * s) by (split; lra).
  assert (A12 : Rabs (r1 + r2) = r1 + r2) by (apply Rabs_pos_eq; apply Rle_trans with ((1 - u - 2 * u * u) * s); [apply Rmult_le_pos; lra|apply B12]).
  rewrite A12 in G3. apply Rabs_le_inv in G3. split; lra.
Qed.
Lemma quotient_real n d : PrimFloat.is_finite (n / d)%float = true -> 0 < real_of d -> real_of (n / d)%float = rndF (real_of n / real_of d).
Proof.
  intros F D. rewrite is_finite_equiv in F. unfold real_of in *. rewrite div_equiv in *.
  assert (H := Bdiv_correct _ _ Hprec Hmax mode_NE (Prim2B n) (Prim2B d) ltac:(lra)). cbn [round_mode] in H. destruct (Rlt_bool _ _) in H; [apply H|].
  rewrite <- is_finite_SF_B2SF, H in F. discriminate F.
Qed.
Lemma plain_quotient : usual_quotient plain_div.
Proof.
  intros a z FX FY v S1 S0. destruct a as [a1 a2], z as [x y]. cbn [fst snd] in *. set (d := (x * x + y * y)%float) in *.
  change v with ((a1 * x + a2 * y) / d, (a2 * x - a1 * y) / d)%float. cbn [fst snd]. set (n1 := (a1 * x + a2 * y)%float). set (n2 := (a2 * x - a1 * y)%float).
  destruct (fin_cases (n1 / d)%float) as [V1|V1]; [|left; exact V1]. destruct (fin_cases (n2 / d)%float) as [V2|V2]; [|right; left; exact V2]. right. right.
  assert (FIN : forall n, PrimFloat.is_finite (n / d)%float = true -> PrimFloat.is_finite n = true).
  { intros n V. destruct (fin_cases n) as [G|G]; [exact G|]. assert (G' := nf_div_l n d G). congruence. }
  assert (N1 := FIN _ V1). assert (N2 := FIN _ V2). apply add_finite in N1. apply sub_finite in N2. destruct N1 as (P1 & P2 & R12), N2 as (P3 & P4 & R34).
  apply mul_finite in P1, P2, P3, P4. destruct P1 as (FA1 & _ & R1), P2 as (FA2 & _ & R2), P3 as (_ & _ & R3), P4 as (_ & _ & R4).
  split; [exact FA1|]. split; [exact FA2|]. intros A1.
  destruct (square_bounds x y FX FY ltac:(eapply Rle_trans; [exact S1|apply pow_R1_Rle; lra]) S0) as (E0 & E1 & DB). fold d in DB. set (s := real_of x ^ 2 + real_of y ^ 2) in *.
  assert (T0 : 0 < / 2 ^ 800) by (apply Rinv_0_lt_compat, pow_lt; lra). assert (S0' : 0 < s) by lra.
  assert (D0 : 0 < real_of d) by (apply Rlt_le_trans with ((1 - 3 * u) * s); [apply Rmult_lt_0_compat; lra|apply DB]).
  apply quotient_real in V1, V2; [|exact D0|exact D0]. fold n1 in R12. fold n2 in R34. rewrite R1, R2 in R12. rewrite R3, R4 in R34.
  assert (CQ := fun w => csq w). assert (CA := CQ (a1, a2)). assert (CZ := CQ (x, y)). assert (CV := CQ (n1 / d, n2 / d)%float). cbn [fst snd] in CA, CZ, CV. fold s in CZ.
  rewrite CA in A1 |- *. rewrite CV. rewrite CZ in *. clear CA CV CZ CQ.
  set (aa := Cmod (creal (a1, a2))) in *. set (zz := Cmod (creal (x, y))) in *. set (vv := Cmod (creal (n1 / d, n2 / d)%float)) in *.
  assert (AA0 : 0 <= aa) by apply Cmod_ge_0. assert (ZZ0 : 0 <= zz) by apply Cmod_ge_0. assert (VV0 : 0 <= vv) by apply Cmod_ge_0.
  assert (AA : 1 <= aa) by nra. assert (ZZ : 0 < zz <= 1) by nra.
  set (M := aa * zz). assert (M0 : zz <= M) by (unfold M; nra). assert (EM : eta <= u * M).
  { eapply Rle_trans; [exact E1|]. apply Rle_trans with (u * zz); [nra|apply Rmult_le_compat_l; lra]. }
  destruct (part_le (real_of a1) (real_of a2) (real_of x) (real_of y)) as (B1 & B2 & B3 & B4).
  change (Cmod (real_of a1, real_of a2)) with aa in B1, B2, B3, B4. change (Cmod (real_of x, real_of y)) with zz in B1, B2, B3, B4. fold M in B1, B2, B3, B4.
  assert (T1 := two_products _ _ M ltac:(lra) EM B1 B2 1 (or_introl eq_refl)). assert (T2 := two_products _ _ M ltac:(lra) EM B4 B3 (-1) (or_intror eq_refl)).
  assert (NM : (1 - 16 * u) * M <= Cmod (creal (n1, n2))).
  { assert (W : Cmod (real_of a1 * real_of x + real_of a2 * real_of y, real_of a2 * real_of x - real_of a1 * real_of y) = M).
    { unfold M, aa, zz, creal. cbn [fst snd]. rewrite !Cmod_sq, <- sqrt_mult_alt by (assert (U1 := pow2_ge_0 (real_of a1)); assert (U2 := pow2_ge_0 (real_of a2)); lra). f_equal. ring. }
    replace ((1 - 16 * u) * M) with (M - 2 * (8 * u * M)) by ring. rewrite <- W at 1. apply close_mod; unfold creal; cbn [Re Im fst snd].
    - rewrite R12. rewrite !Rmult_1_l in T1. exact T1.
    - rewrite R34. replace (rndF (real_of a2 * real_of x) - rndF (real_of a1 * real_of y)) with (rndF (real_of a2 * real_of x) + -1 * rndF (real_of a1 * real_of y)) by ring.
      replace (real_of a2 * real_of x - real_of a1 * real_of y) with (real_of a2 * real_of x + -1 * (real_of a1 * real_of y)) by ring. exact T2. }
  set (nn := Cmod (creal (n1, n2))) in *. assert (NN0 : 0 <= nn) by apply Cmod_ge_0. set (dd := real_of d) in *. assert (I0 : 0 < / dd) by (apply Rinv_0_lt_compat, D0).
  assert (CB := Rmax_Cmod (creal (n1, n2))). unfold creal in CB. cbn [fst snd] in CB. change (Cmod (real_of n1, real_of n2)) with nn in CB.
  assert (CB1 := Rle_trans _ _ _ (Rmax_l _ _) CB). assert (CB2 := Rle_trans _ _ _ (Rmax_r _ _) CB).
  assert (VM : nn * / dd - 2 * (u * (nn * / dd) + eta) <= vv).
  { assert (W : Cmod (real_of n1 / dd, real_of n2 / dd) = nn * / dd).
    { unfold nn, creal. cbn [fst snd]. rewrite !Cmod_sq. replace ((real_of n1 / dd) ^ 2 + (real_of n2 / dd) ^ 2) with ((real_of n1 ^ 2 + real_of n2 ^ 2) * (/ dd) ^ 2) by (unfold Rdiv; ring).
      rewrite sqrt_mult_alt by (assert (U1 := pow2_ge_0 (real_of n1)); assert (U2 := pow2_ge_0 (real_of n2)); lra). rewrite sqrt_pow2 by lra. reflexivity. }
    rewrite <- W at 1. apply close_mod; unfold creal; cbn [Re Im fst snd].
    - rewrite V1. eapply Rle_trans; [apply rndF_error|]. unfold Rdiv. rewrite Rabs_mult, (Rabs_pos_eq (/ dd)) by lra. assert (Rabs (real_of n1) * / dd <= nn * / dd) by (apply Rmult_le_compat_r; lra). lra.
    - rewrite V2. eapply Rle_trans; [apply rndF_error|]. unfold Rdiv. rewrite Rabs_mult, (Rabs_pos_eq (/ dd)) by lra. assert (Rabs (real_of n2) * / dd <= nn * / dd) by (apply Rmult_le_compat_r; lra). lra. }
  (* the quotient times the divisor *)
  assert (Q : (1 - 3 * u) * aa <= M * / dd * zz).
  { apply Rmult_le_reg_r with dd; [exact D0|]. replace (M * / dd * zz * dd) with (aa * zz ^ 2 * (dd * / dd)) by (unfold M; ring). rewrite Rinv_r, Rmult_1_r by lra.
    apply Rle_trans with ((1 - 3 * u) * aa * ((1 + 3 * u) * zz ^ 2)); [apply Rmult_le_compat_l; [apply Rmult_le_pos; lra|apply DB]|].
    replace ((1 - 3 * u) * aa * ((1 + 3 * u) * zz ^ 2)) with ((1 - 9 * u * u) * (aa * zz ^ 2)) by ring. assert (0 <= aa * zz ^ 2) by (apply Rmult_le_pos; lra). lra. }
  assert (Q2 : (1 - 16 * u) * (M * / dd * zz) <= nn * / dd * zz).
  { replace ((1 - 16 * u) * (M * / dd * zz)) with ((1 - 16 * u) * M * (/ dd * zz)) by ring. replace (nn * / dd * zz) with (nn * (/ dd * zz)) by ring. apply Rmult_le_compat_r; [apply Rmult_le_pos; lra|exact NM]. }
  assert (EZ : eta * zz <= u * u * aa). { assert (eta <= u * u) by nra. nra. }
  assert (FINAL : (1 - 3 * / 1125899906842624) * aa <= vv * zz).
  { apply Rle_trans with ((nn * / dd - 2 * (u * (nn * / dd) + eta)) * zz); [|apply Rmult_le_compat_r; lra].
    replace ((nn * / dd - 2 * (u * (nn * / dd) + eta)) * zz) with ((1 - 2 * u) * (nn * / dd * zz) - 2 * (eta * zz)) by ring. lra. }
  rewrite <- !Rpow_mult_distr. apply pow_incr. split; [apply Rmult_le_pos; lra|exact FINAL].
Qed.

(** *** Large and small units *)
Lemma far_moderate : moderate_sources 2 [far_source].
Proof.
  intros s [<-|[]]. cbn [far_source ps_pos ps_q]. assert (M0 : magnitude 150 0%float) by (split; [reflexivity|left; apply zero_real]).
  assert (M1 : forall f e, PrimFloat.is_finite f = true -> Prim2SF f = S754_finite false 4503599627370496 e -> (-150 <= e + 52 <= 150)%Z -> magnitude 150 f).
  { intros f e F E B. split; [exact F|right]. rewrite (real_of_pow f e E). rewrite Rabs_pos_eq by apply bpow_ge_0. split; apply bpow_le; lia. }
  split; [|apply (M1 1%float (-52)%Z); [reflexivity|vm_compute; reflexivity|lia]].
  split; [reflexivity|]. intros y [<-|[<-|[]]]; [apply (M1 0x1p53%float 1%Z); [reflexivity|vm_compute; reflexivity|lia]|exact M0].
Qed.
Theorem far_refuted : exists srcs center p, moderate_sources 2 srcs /\ moderate 2 center /\
  (forall hypF hyp lgF lg e grav x, 0 <= e <= / 1000 -> norm_of 2 hypF hyp -> accurate_norm e hyp -> log_of lgF lg -> accurate_log e lg ->
    moderate 2 x -> evaluable true (map real_of x) (map real_src srcs) -> PrimFloat.is_finite (potential_sumF hypF lgF 2 grav true srcs x) = true) /\
  (forall A x, usual_product (f_mul A) -> exists v f, me2_potF A (me2_sourcesF A center p srcs) x = Ok v /\ me2_forceF A (me2_sourcesF A center p srcs) x = Ok f /\
    length f = 2%nat /\ forall y, In y (v :: f) -> PrimFloat.is_finite y = false).
Proof.
  exists [far_source], origin2, 20%nat. split; [exact far_moderate|]. split.
  { split; [reflexivity|]. intros y [<-|[<-|[]]]; (split; [reflexivity|left; apply zero_real]). }
  split.
  - intros hypF hyp lgF lg e grav x HE HN HA HL HAL HX HV.
    apply (plane_potential_doubles hypF hyp lgF lg e grav true [far_source] x HE HN HA HL HAL HX far_moderate HV). cbn. lia.
  - intros A x HM. destruct (multipole_overflow A HM 20 20 _ x (le_n 20) (far_touched A)) as [(v & V1 & V2) (f & F1 & F2 & F3)].
    exists v, f. split; [exact V1|]. split; [exact F1|]. split; [exact F2|]. intros y [<-|Y]; [exact V2|exact (F3 y Y)].
Qed.
Definition near_source2 : psrc float := PSrc [0x1p-35; 0x1p-40]%float 1%float.
Definition near_center : list float := [0x1p-35; 0]%float.
Definition near_multipole : seF := me2_sourcesF plain near_center 32 [near_source2].
Lemma near_overflows : reciprocal_overflows 31 near_center origin2.
Proof.
  assert (S : separation near_center origin2 = / 34359738368).
  { unfold separation, near_center, origin2. cbn [nth]. rewrite (proj2 zero_real). replace (real_of 0x1p-35%float) with (/ 34359738368).
    - replace ((/ 34359738368 - 0) ^ 2 + (0 - 0) ^ 2) with ((/ 34359738368) ^ 2) by ring. apply sqrt_pow2. lra.
    - symmetry. exact (real_of_pow 0x1p-35%float (-87) ltac:(vm_compute; reflexivity)). }
  unfold reciprocal_overflows. rewrite S. split.
  - replace 34359738368 with (2 ^ 35) by (simpl; lra). apply Rinv_le_contravar; [apply pow_lt; lra|apply Rle_pow; [lra|lia]].
  - apply Rle_trans with ((2 ^ 34) ^ 31).
    + rewrite <- pow_mult. apply Rle_pow; [lra|lia].
    + apply pow_incr. split; [apply pow_le; lra|]. replace (2 ^ 34) with 17179869184 by (simpl; lra). lra.
Qed.
Definition is_ok {X} (o : outcome X) : bool := match o with Ok _ => true | _ => false end.
Lemma near_ok : is_ok (le2_m2l_manyF plain (mkbtF 0 []) origin2 [near_multipole]) = true.
Proof. vm_compute. reflexivity. Qed.
Theorem near_local : exists r tb, le2_m2l_manyF plain (mkbtF 0 []) origin2 [near_multipole] = Ok (r, tb) /\ touched_local plain 32 31 r.
Proof.
  assert (K := near_ok). destruct (le2_m2l_manyF plain (mkbtF 0 []) origin2 [near_multipole]) as [[r tb]| | | | |] eqn:E; try discriminate K.
  exists r, tb. split; [reflexivity|]. apply (touched_close plain 32 31 (mkbtF 0 []) origin2 [near_multipole] near_multipole r tb plain_reciprocal (or_introl eq_refl) eq_refl).
  - repeat constructor; vm_compute; reflexivity.
  - exact near_overflows.
  - exact E.
Qed.
(** A local expansion of a source close to its center. *)
Lemma near_points : touched_local plain 32 31 (le2_sourcesF plain origin2 32 [PSrc near_center 1%float]).
Proof.
  apply (touched_points plain 32 31 origin2 [PSrc near_center 1%float] (PSrc near_center 1%float) plain_quotient (or_introl eq_refl)); [|exact near_overflows]. repeat constructor; vm_compute; reflexivity.
Qed.
Theorem near_refuted : exists srcs c1 c2 p r tb, (forall s y, In s srcs -> In y (ps_q s :: ps_pos s) -> PrimFloat.is_finite y = true) /\
  (forall y, In y (c1 ++ c2) -> PrimFloat.is_finite y = true) /\
  Forall (fun z => PrimFloat.is_finite (fst z) = true /\ PrimFloat.is_finite (snd z) = true) (sf_co (me2_sourcesF plain c1 p srcs)) /\
  le2_m2l_manyF plain (mkbtF 0 []) c2 [me2_sourcesF plain c1 p srcs] = Ok (r, tb) /\
  forall x, PrimFloat.is_finite (le2_potF plain r x) = false /\ length (le2_forceF plain r x) = 2%nat /\ forall y, In y (le2_forceF plain r x) -> PrimFloat.is_finite y = false.
Proof.
  destruct near_local as (r & tb & E & T). exists [near_source2], near_center, origin2, 32%nat, r, tb. split.
  { intros s y [<-|[]] [<-|[<-|[<-|[]]]]; vm_compute; reflexivity. } split.
  { intros y [<-|[<-|[<-|[<-|[]]]]]; vm_compute; reflexivity. } split.
  { apply Forall_forall. assert (K : forallb (fun z : CF => PrimFloat.is_finite (fst z) && PrimFloat.is_finite (snd z))%bool (sf_co (me2_sourcesF plain near_center 32 [near_source2])) = true)
      by (vm_compute; reflexivity). rewrite forallb_forall in K. intros z Z. apply andb_prop. exact (K z Z). }
  split; [exact E|]. intros x. destruct (local_overflow plain plain_usual 32 31 r x ltac:(lia) T) as [H1 H2]. split; [exact H1|]. apply H2. lia.
Qed.
(** Sources in range. *)
Definition unit_sources : list (psrc float) := [PSrc [0x1p0; 0x1p-1]%float 0x1p0%float; PSrc [0; 0x1p0]%float 0x1p1%float].
Lemma unit_case : (2 + 30 * (1 + 1) <= 960)%nat /\ (forall y, In y origin2 -> PrimFloat.is_finite y = true) /\
  (forall s y, In s unit_sources -> In y (ps_pos s) -> PrimFloat.is_finite y = true) /\
  (forall s, In s unit_sources -> PrimFloat.is_finite (ps_q s) = true /\ Rabs (real_of (ps_q s)) <= 2 ^ 2 /\ separation (ps_pos s) origin2 <= 2 ^ 1).
Proof.
  split; [lia|]. split; [intros y [<-|[<-|[]]]; reflexivity|]. split; [intros s y [<-|[<-|[]]] [<-|[<-|[]]]; reflexivity|].
  assert (R1 : real_of 0x1p0%float = 1) by apply one_real. assert (R2 := real_of_pow 0x1p-1%float (-53) ltac:(vm_compute; reflexivity)).
  assert (R4 := real_of_pow 0x1p1%float (-51) ltac:(vm_compute; reflexivity)). change (bpow radix2 (-51 + 52)) with 2 in R4.
  change (bpow radix2 (-53 + 52)) with (/ 2) in R2.
  assert (SQ : forall t, t <= 4 -> R_sqrt.sqrt t <= 2). { intros t T. rewrite <- (sqrt_pow2 2) by lra. apply sqrt_le_1_alt. lra. }
  intros s [<-|[<-|[]]]; (split; [reflexivity|]); cbn [ps_q ps_pos]; unfold separation, origin2; cbn [nth]; rewrite ?R1, ?R2, ?R4, ?(proj2 zero_real), pow_1.
  - rewrite Rabs_R1. split; [lra|]. apply SQ. lra.
  - rewrite Rabs_pos_eq by lra. split; [lra|]. apply SQ. lra.
Qed.
