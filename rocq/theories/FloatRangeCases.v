(** Cases for the finiteness of the two-dimensional expansions. *)
From Coq Require Import Reals List Bool ZArith Arith Lia Lra.
From Coquelicot Require Import Complex.
From Flocq Require Import Core BinarySingleNaN PrimFloat.
From Verif Require Import Num Outcome Vec Tables TableProofs CAux FloatCases FloatFit FloatExpansion2D FloatExpansionSpec FloatOverflow FloatExpansionProofs FloatExpansionCases FloatRangeSpec FloatRange.
From Coq Require Import Floats.
Import ListNotations.
Local Open Scope R_scope.
Local Open Scope outcome_scope.
Notation u := (/ 9007199254740992).

Lemma div_bounded k E x y : (0 <= k < 9007199254740992)%Z -> (-1000 <= E <= 970)%Z -> PrimFloat.is_finite x = true -> 0 < real_of y -> Rabs (real_of x / real_of y) <= IZR k * pw E -> upto k E (x / y)%float.
Proof.
  intros K HE FX Y B. unfold upto. rewrite is_finite_equiv in *. unfold real_of in *. rewrite div_equiv.
  assert (H := Bdiv_correct _ _ Hprec Hmax mode_NE (Prim2B x) (Prim2B y) ltac:(lra)). cbn [round_mode] in H.
  destruct (rndF_upto k E (B2R (Prim2B x) / B2R (Prim2B y))) as [R1 R2]; [exact K|exact HE|exact B|].
  rewrite Rlt_bool_true in H by exact R2. destruct H as (H1 & H2 & _). rewrite H2, FX. split; [reflexivity|]. rewrite H1. exact R1.
Qed.
(** The quotient by the textbook formula. *)
Lemma plain_bounded : bounded_quotient plain_div.
Proof.
  intros E r [a1 a2] [x y] ER R PA (FX & FY & L & H). apply parts_upto in PA. apply parts_upto. cbn [fst snd] in *. destruct PA as [UA1 UA2]. cbn [fst snd] in UA1, UA2.
  set (t := R_sqrt.sqrt (real_of x ^ 2 + real_of y ^ 2)) in *. assert (T1 : t = Cmod (creal (x, y))) by reflexivity. assert (CQ := csq (x, y)). cbn [fst snd] in CQ. rewrite <- T1 in CQ.
  assert (PR0 : 0 < / 2 ^ r) by (apply Rinv_0_lt_compat, pow_lt; lra). assert (T0 : 0 < t) by lra.
  assert (P8 : (2 ^ r) ^ 2 <= 2 ^ 800) by (rewrite <- pow_mult; apply Rle_pow; [lra|lia]).
  assert (S1 : t ^ 2 <= 2 ^ 800) by (eapply Rle_trans; [|exact P8]; apply pow_incr; lra).
  assert (S2 : / 2 ^ 800 <= t ^ 2). { apply Rle_trans with ((/ 2 ^ r) ^ 2); [|apply pow_incr; lra]. rewrite pow_inv. apply Rinv_le_contravar; [apply pow_lt, pow_lt; lra|exact P8]. }
  destruct (square_bounds x y FX FY) as (E0 & E1 & DB); [rewrite CQ; exact S1|rewrite CQ; exact S2|]. rewrite CQ in E1, DB. set (d := (x * x + y * y)%float) in *.
  assert (TT : 0 < t ^ 2) by (apply pow_lt, T0). assert (D0 : 0 < real_of d) by (apply Rlt_le_trans with ((1 - 3 * u) * t ^ 2); [apply Rmult_lt_0_compat; lra|apply DB]).
  assert (BM := Rmax_Cmod (creal (x, y))). cbn [creal fst snd] in BM. rewrite <- T1 in BM.
  assert (B1 := Rle_trans _ _ _ (Rmax_l _ _) BM). assert (B2 := Rle_trans _ _ _ (Rmax_r _ _) BM).
  assert (UX : upto 1 (Z.of_nat r) x) by (split; [exact FX|rewrite pw_pow, Rmult_1_l; lra]). assert (UY : upto 1 (Z.of_nat r) y) by (split; [exact FY|rewrite pw_pow, Rmult_1_l; lra]).
  assert (MU : forall v w, upto 1 (Z.of_nat E) v -> upto 1 (Z.of_nat r) w -> upto 1 (Z.of_nat E + Z.of_nat r) (v * w)%float) by (intros v w HV HW; apply upto_mul; [lia|exact HV|exact HW]).
  assert (W1 := MU a1 x UA1 UX). assert (W2 := MU a2 y UA2 UY). assert (W3 := MU a2 x UA2 UX). assert (W4 := MU a1 y UA1 UY).
  assert (KK : (0 <= 1 + 1 < 9007199254740992)%Z) by lia. assert (KE : (-1000 <= Z.of_nat E + Z.of_nat r <= 970)%Z) by lia.
  assert (N1 : upto (1 + 1) (Z.of_nat E + Z.of_nat r) (a1 * x + a2 * y)%float) by (apply upto_add; first [assumption|lia]). assert (N2 : upto (1 + 1) (Z.of_nat E + Z.of_nat r) (a2 * x - a1 * y)%float) by (apply upto_sub; first [assumption|lia]).
  destruct N1 as [N1 _], N2 as [N2 _]. assert (R1 := proj2 (proj2 (add_finite _ _ N1))). assert (R2 := proj2 (proj2 (sub_finite _ _ N2))).
  rewrite (proj2 (proj2 (mul_finite _ _ (proj1 W1)))), (proj2 (proj2 (mul_finite _ _ (proj1 W2)))) in R1. rewrite (proj2 (proj2 (mul_finite _ _ (proj1 W3)))), (proj2 (proj2 (mul_finite _ _ (proj1 W4)))) in R2.
  destruct UA1 as [_ A1], UA2 as [_ A2]. rewrite pw_pow, Rmult_1_l in A1, A2. set (e := 2 ^ E) in *. assert (EE : 1 <= e) by (apply pow_R1_Rle; lra). set (M := e * t).
  assert (M0 : 0 < M) by (apply Rmult_lt_0_compat; lra).
  assert (EM : eta <= u * M). { destruct (Rle_lt_dec 1 t) as [G|G]; [apply eta_small; unfold M; nra|]. eapply Rle_trans; [exact E1|]. assert (t ^ 2 <= M) by (unfold M; nra). nra. }
  assert (PM : forall v w, Rabs v <= e -> Rabs w <= t -> Rabs (v * w) <= M) by (intros v w HV HW; rewrite Rabs_mult; apply Rmult_le_compat; [apply Rabs_pos|apply Rabs_pos|exact HV|exact HW]).
  assert (Q1 := two_products _ _ M ltac:(lra) EM (PM _ _ A1 B1) (PM _ _ A2 B2) 1 (or_introl eq_refl)). assert (Q2 := two_products _ _ M ltac:(lra) EM (PM _ _ A2 B1) (PM _ _ A1 B2) (-1) (or_intror eq_refl)).
  assert (XY : Rabs (real_of x) + Rabs (real_of y) <= 3 / 2 * t).
  { apply Rsqr_incr_0; [|assert (H1 := Rabs_pos (real_of x)); assert (H2 := Rabs_pos (real_of y)); lra|lra]. rewrite !Rsqr_pow2. rewrite Rpow_mult_distr, <- CQ.
    rewrite <- (pow2_abs (real_of x)), <- (pow2_abs (real_of y)). assert (K := pow2_ge_0 (Rabs (real_of x) - Rabs (real_of y))). assert (K1 := pow2_ge_0 (Rabs (real_of x))). assert (K2 := pow2_ge_0 (Rabs (real_of y))). nra. }
  assert (LIN : forall v w v' w', Rabs v <= e -> Rabs w <= e -> Rabs v' + Rabs w' <= 3 / 2 * t -> forall s, s = 1 \/ s = -1 -> Rabs (v * v' + s * (w * w')) <= 3 / 2 * M).
  { intros v w v' w' HV HW HS s SS. eapply Rle_trans; [apply Rabs_triang|]. rewrite !Rabs_mult. replace (Rabs s) with 1 by (destruct SS as [-> | ->]; [rewrite Rabs_R1; reflexivity|rewrite Rabs_left by lra; lra]). rewrite Rmult_1_l.
    apply Rle_trans with (e * Rabs v' + e * Rabs w'); [apply Rplus_le_compat; apply Rmult_le_compat_r; try apply Rabs_pos; assumption|]. unfold M. nra. }
  assert (L1 := LIN _ _ _ _ A1 A2 XY 1 (or_introl eq_refl)). assert (L2 := LIN _ _ _ _ A2 A1 XY (-1) (or_intror eq_refl)).
  assert (NB : forall nn q, Rabs (nn - q) <= 8 * u * M -> Rabs q <= 3 / 2 * M -> Rabs (nn / real_of d) <= IZR 1 * pw (Z.of_nat (E + r + 1))).
  { intros nn q HQ1 HQ2. assert (NM : Rabs nn <= 8 / 5 * M). { replace nn with (nn - q + q) by ring. eapply Rle_trans; [apply Rabs_triang|]. lra. }
    rewrite pw_pow, Rmult_1_l, !pow_add, pow_1. fold e. unfold Rdiv. rewrite Rabs_mult, (Rabs_pos_eq (/ real_of d)) by (apply Rlt_le, Rinv_0_lt_compat, D0).
    apply Rmult_le_reg_r with (real_of d); [exact D0|]. rewrite Rmult_assoc, Rinv_l, Rmult_1_r by lra. eapply Rle_trans; [exact NM|].
    apply Rle_trans with (e * 2 ^ r * 2 * ((1 - 3 * u) * t ^ 2)); [|apply Rmult_le_compat_l; [apply Rmult_le_pos; [apply Rmult_le_pos; [lra|apply pow_le; lra]|lra]|apply DB]].
    assert (RT : 1 <= 2 ^ r * t). { apply Rmult_le_reg_l with (/ 2 ^ r); [exact PR0|]. rewrite Rmult_1_r, <- Rmult_assoc, Rinv_l, Rmult_1_l by (apply Rgt_not_eq, pow_lt; lra). exact L. }
    replace (e * 2 ^ r * 2 * ((1 - 3 * u) * t ^ 2)) with (2 * (1 - 3 * u) * (M * (2 ^ r * t))) by (unfold M; ring). assert (M * 1 <= M * (2 ^ r * t)) by (apply Rmult_le_compat_l; lra). lra. }
  split; cbn [plain_div fst snd]; fold d.
  - apply div_bounded; [lia|lia|exact N1|exact D0|]. rewrite R1. apply (NB _ (real_of a1 * real_of x + 1 * (real_of a2 * real_of y))); [|exact L1]. rewrite Rmult_1_l in Q1. rewrite Rmult_1_l in Q1. rewrite Rmult_1_l. exact Q1.
  - apply div_bounded; [lia|lia|exact N2|exact D0|]. rewrite R2. apply (NB _ (real_of a2 * real_of x + -1 * (real_of a1 * real_of y))); [|exact L2].
    replace (rndF (real_of a2 * real_of x) - rndF (real_of a1 * real_of y)) with (rndF (real_of a2 * real_of x) + -1 * rndF (real_of a1 * real_of y)) by ring. exact Q2.
Qed.
(** A function in the place of the logarithm. *)
Lemma plain_log b : bounded_log (S b) (S b) (f_log plain).
Proof.
  intros z (FX & FY & L & H). cbn [plain f_log]. assert (T1 : R_sqrt.sqrt (real_of (fst z) ^ 2 + real_of (snd z) ^ 2) = Cmod (creal z)) by reflexivity. rewrite T1 in H.
  assert (BM := Rmax_Cmod (creal z)). cbn [creal fst snd] in BM. assert (B1 := Rle_trans _ _ _ (Rmax_l _ _) BM). assert (B2 := Rle_trans _ _ _ (Rmax_r _ _) BM).
  split; (split; [assumption|lra]).
Qed.
(** A test of the entries of a table. *)
Definition fits (i : nat) (y : float) : bool := (PrimFloat.is_finite y && PrimFloat.leb (PrimFloat.abs y) (float_of_Z (2 ^ Z.of_nat i)))%bool.
Definition rows_fit (rows : nat) (tb : btabF) : bool :=
  (forallb (fun i => forallb (fun k => match nth_error (bf_tab tb) (bt_index i k) with Some y => fits i y | None => true end) (seq 0 (S i))) (seq 0 rows) && (length (bf_tab tb) <=? bt_index rows 0)%nat)%bool.
Lemma fits_part i y : (i <= 53)%nat -> fits i y = true -> part i y.
Proof.
  intros I H. unfold fits in H. apply andb_prop in H. destruct H as [F L]. split; [exact F|].
  assert (P : (0 < 2 ^ Z.of_nat i <= 2 ^ 53)%Z) by (split; [apply Z.pow_pos_nonneg; lia|apply Z.pow_le_mono_r; lia]).
  destruct (of_Z_real (2 ^ Z.of_nat i)) as [F2 R2]; [lia|]. rewrite leb_equiv in L. rewrite abs_equiv in L. rewrite is_finite_equiv in F, F2.
  unfold real_of in *. rewrite Bleb_correct in L; [|rewrite is_finite_Babs; exact F|exact F2]. rewrite B2R_Babs in L. destruct (Rle_bool_spec (Rabs (B2R (Prim2B y))) (B2R (Prim2B (float_of_Z (2 ^ Z.of_nat i))))) as [G|G]; [|discriminate].
  rewrite R2 in G. rewrite <- (pow_IZR 2 i) in G. exact G.
Qed.
Lemma index_mono i j : (i <= j)%nat -> (bt_index i 0 <= bt_index j 0)%nat.
Proof. intros H. unfold bt_index. rewrite !Nat.add_0_r. apply Nat.div_le_mono; [lia|]. apply Nat.mul_le_mono; lia. Qed.
Lemma rows_bounded rows tb : (rows <= 54)%nat -> rows_fit rows tb = true -> bounded_binomials tb.
Proof.
  intros RL H i k y K G. unfold rows_fit in H. apply andb_prop in H. destruct H as [H L]. apply Nat.leb_le in L. unfold bf_get in G. destruct (nth_error (bf_tab tb) (bt_index i k)) as [y'|] eqn:E; [|discriminate]. injection G as ->.
  assert (I : (i < rows)%nat). { destruct (le_lt_dec rows i) as [C|C]; [|exact C]. assert (Q : (bt_index i k < length (bf_tab tb))%nat) by (apply nth_error_Some; rewrite E; discriminate). assert (M := index_mono rows i C). unfold bt_index in *. lia. }
  rewrite forallb_forall in H. specialize (H i ltac:(apply in_seq; lia)). rewrite forallb_forall in H. specialize (H k ltac:(apply in_seq; lia)). rewrite E in H. apply fits_part; [lia|exact H].
Qed.
(** Two expansions of order 18 about the points (1,0) and (-1,0), merged about the origin, converted to the point (4,0) and shifted to (4,1). *)
Definition right2 : list float := [1; 0]%float.
Definition left2 : list float := [-1; 0]%float.
Definition far2 : list float := [4; 0]%float.
Definition above2 : list float := [4; 1]%float.
Definition right_part : seF := me2_sourcesF plain right2 18 [PSrc [1; 1]%float 2%float; PSrc [2; 0]%float (-1)%float].
Definition left_part : seF := me2_sourcesF plain left2 18 [PSrc [-1; 0]%float 1%float; PSrc [-1; 1]%float 1%float].
Notation both := (me2_mergeF plain (mkbtF 0 []) origin2 [right_part; left_part]).
Notation other := (bind both (fun r => le2_m2l_manyF plain (snd r) far2 [fst r])).
Lemma moved_ok : is_ok (bind other (fun r => le2_l2lF plain (snd r) above2 (fst r))) = true.
Proof. vm_compute. reflexivity. Qed.
Lemma table_fits : rows_fit 37 (sf_table plain (mkbtF 0 []) 18) = true.
Proof. vm_compute. reflexivity. Qed.
Lemma reals : real_of 0%float = 0 /\ real_of 1%float = 1 /\ real_of 2%float = 2 /\ real_of 4%float = 4 /\ real_of (-1)%float = -1.
Proof.
  refine (conj _ (conj _ (conj _ (conj _ _)))).
  - exact (proj2 (of_Z_real 0 ltac:(lia))).
  - exact (proj2 (of_Z_real 1 ltac:(lia))).
  - exact (proj2 (of_Z_real 2 ltac:(lia))).
  - exact (proj2 (of_Z_real 4 ltac:(lia))).
  - exact (proj2 (of_Z_real (-1) ltac:(lia))).
Qed.
Lemma sqrt_upto t : t <= 16 -> R_sqrt.sqrt t <= 2 ^ 2.
Proof. intros H. rewrite <- (sqrt_pow2 (2 ^ 2)) by lra. apply sqrt_le_1_alt. lra. Qed.
Lemma sqrt_from t : 1 <= t -> / 2 ^ 2 <= R_sqrt.sqrt t.
Proof. intros H. apply Rle_trans with 1; [lra|]. rewrite <- sqrt_1. apply sqrt_le_1_alt. exact H. Qed.
Ltac points := destruct reals as (E0 & E1 & E2 & E4 & EM);
  unfold apart, near, part, separation, center_of; cbn [ps_q ps_pos nth right2 left2 far2 above2 origin2 sf_ctr fst snd cplxF right_part left_part me2_sourcesF];
  rewrite ?E0, ?E1, ?E2, ?E4, ?EM; repeat split; try (apply sqrt_upto; lra); try (apply sqrt_from; lra); try reflexivity; try (apply Rabs_le; lra); repeat constructor.
Lemma right_range : multipole_range plain 18 1 2 2 2 0 right_part.
Proof. apply range_sources; [cbn; lia|]. intros s [<-|[<-|[]]]; points. Qed.
Lemma left_range : multipole_range plain 18 1 2 2 2 0 left_part.
Proof. apply range_sources; [cbn; lia|]. intros s [<-|[<-|[]]]; points. Qed.
Lemma ok_inv {X} (o : outcome X) : is_ok o = true -> exists x, o = Ok x.
Proof. destruct o; intros H; try discriminate H. eauto. Qed.
Lemma bind_ok {X Y} (o : outcome X) (f : X -> outcome Y) : is_ok (bind o f) = true -> exists x, o = Ok x /\ is_ok (f x) = true.
Proof. destruct o; intros H; try discriminate H. eauto. Qed.
Lemma bind_inv {X Y Z} (o : outcome (X * Y)) (f : Y -> X -> outcome Z) z : bind o (fun r => f (snd r) (fst r)) = Ok z -> exists x y, o = Ok (x, y) /\ f y x = Ok z.
Proof. destruct o as [[x y]| | | | |]; intros H; try discriminate H. eauto. Qed.
Lemma merge_center A tb c e0 es r tb' : me2_mergeF A tb c (e0 :: es) = Ok (r, tb') -> sf_ctr r = cplxF c /\ tb' = sf_table A tb (sf_ord e0).
Proof. unfold me2_mergeF. set (q := ofold _ _ _). destruct q as [cs| | | | |]; intros B; try discriminate B. cbn [bind] in B. injection B as <- <-. split; reflexivity. Qed.
Lemma convert_center A tb c e r tb' : le2_m2l_manyF A tb c [e] = Ok (r, tb') -> sf_ctr r = cplxF c.
Proof.
  unfold le2_m2l_manyF. cbn [ofold]. set (q := le2_m2lF _ _ _ _). destruct q as [[q1 q2]| | | | |]; intros O; try discriminate O. cbn [bind fst snd] in O.
  unfold sf_add in O. destruct (negb _); [discriminate O|]. destruct (same_center _ _); [|discriminate O]. cbn [bind] in O. injection O as <- _. reflexivity.
Qed.
Lemma shift_center A tb c e r tb' : le2_l2lF A tb c e = Ok (r, tb') -> sf_ctr r = cplxF c.
Proof. unfold le2_l2lF. destruct (sf_ord e =? 0)%nat; [discriminate|]. set (q := le2_shiftF _ _ _). destruct q; intros M; try discriminate M. cbn [bind] in M. injection M as <- _. reflexivity. Qed.
Lemma same_table : sf_table plain (sf_table plain (mkbtF 0 []) 18) 18 = sf_table plain (mkbtF 0 []) 18.
Proof. vm_compute. reflexivity. Qed.
Lemma table_bounded : bounded_binomials (sf_table plain (mkbtF 0 []) 18).
Proof. exact (rows_bounded 37 _ ltac:(lia) table_fits). Qed.
Lemma both_range e t : both = Ok (e, t) -> multipole_range plain 18 1 2 2 2 1 e.
Proof.
  intros B. apply (range_merge plain 18 1 2 2 2 0 (mkbtF 0 []) origin2 [right_part; left_part] e t); [cbn; lia| |exact table_bounded|exact B]. intros e0 [<-|[<-|[]]]; (split; [first [exact right_range|exact left_range]|points]).
Qed.
Lemma other_range e r t : multipole_range plain 18 1 2 2 2 1 e -> sf_ctr e = (0, 0)%float -> le2_m2l_manyF plain (sf_table plain (mkbtF 0 []) 18) far2 [e] = Ok (r, t) -> local_range plain 18 1 2 2 2 1 0 r.
Proof.
  intros ME C1 O. apply (range_convert plain 18 1 2 2 2 1 (sf_table plain (mkbtF 0 []) 18) far2 [e] r t); [cbn; lia| |rewrite same_table; exact table_bounded|exact O].
  intros e0 [<-|[]]. split; [exact ME|]. clear O ME. destruct e as [oe ce le]. cbn [sf_ctr] in C1. subst ce. points.
Qed.
Lemma shift_range r s t t' : local_range plain 18 1 2 2 2 1 0 r -> sf_ctr r = (4, 0)%float -> le2_l2lF plain t above2 r = Ok (s, t') -> local_range plain 18 1 2 2 2 1 1 s.
Proof. intros LR CR M. apply (range_shift plain 18 1 2 2 2 1 0 t above2 r s t' LR); [|exact M]. clear M LR. destruct r as [or cr lr]. cbn [sf_ctr] in CR. subst cr. points. Qed.
Lemma both_made e t : both = Ok (e, t) -> sf_ctr e = (0, 0)%float /\ t = sf_table plain (mkbtF 0 []) 18.
Proof. intros B. apply merge_center in B. destruct B as [-> ->]. split; reflexivity. Qed.
Lemma moved_range : exists e r s t1 t2 t3, me2_mergeF plain (mkbtF 0 []) origin2 [right_part; left_part] = Ok (e, t1) /\ multipole_range plain 18 1 2 2 2 1 e /\ sf_ctr e = (0, 0)%float /\
  le2_m2l_manyF plain t1 far2 [e] = Ok (r, t2) /\ local_range plain 18 1 2 2 2 1 0 r /\
  le2_l2lF plain t2 above2 r = Ok (s, t3) /\ local_range plain 18 1 2 2 2 1 1 s /\ sf_ctr s = (4, 1)%float.
Proof.
  destruct (bind_ok _ _ moved_ok) as ([r t2] & K2 & K3). cbn [fst snd] in K3. destruct (ok_inv _ K3) as ([s t3] & M).
  assert (K4 : exists e t1, both = Ok (e, t1) /\ le2_m2l_manyF plain t1 far2 [e] = Ok (r, t2)) by exact (bind_inv both (fun t e => le2_m2l_manyF plain t far2 [e]) (r, t2) K2). clear K2. destruct K4 as (e & t1 & B & K2).
  destruct (both_made e t1 B) as [C1 T1]. assert (ME := both_range e t1 B). assert (LR : local_range plain 18 1 2 2 2 1 0 r) by (rewrite T1 in K2; exact (other_range e r t2 ME C1 K2)).
  assert (CR := convert_center _ _ _ _ _ _ K2). assert (CS := shift_center _ _ _ _ _ _ M).
  exact (ex_intro _ e (ex_intro _ r (ex_intro _ s (ex_intro _ t1 (ex_intro _ t2 (ex_intro _ t3 (conj B (conj ME (conj C1 (conj K2 (conj LR (conj M (conj (shift_range r s t2 t3 LR CR M) CS))))))))))))).
Qed.
(** A point for the evaluation of each, and the conditions. *)
Lemma evaluation_case e s : sf_ctr e = (0, 0)%float -> sf_ctr s = (4, 1)%float -> apart 2 far2 (center_of e) /\ near 2 far2 (center_of s).
Proof. intros H1 H2. destruct e as [a1 b1 c1], s as [a2 b2 c2]. cbn [sf_ctr] in *. subst. points. Qed.
