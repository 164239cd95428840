(** The force of two-dimensional multipole expansions in doubles against the exact force of the expansion and the direct sum. *)
From Coq Require Import Reals List Bool ZArith Arith Lia Lra Psatz.
From Coquelicot Require Import Complex.
From Flocq Require Import Core BinarySingleNaN PrimFloat.
From Verif Require Import Num Outcome Vec CAux Exp2Errors FloatCases FloatFit FloatExpansion2D FloatExpansionSpec FloatOverflow FloatExpansionProofs FloatExpansionCases FloatRangeSpec FloatRange FloatCoefficientSpec FloatCoefficients FloatMultipole FloatAccuracy FloatForceSpec FloatForceAccuracy.
From Verif Require FloatFieldsProofs.
From Coq Require Import Floats.
Import ListNotations.
Local Open Scope R_scope.

Lemma force_tail_last zeta al l : forall k, force_tail zeta al k (S l) = (force_tail zeta al k l + RtoC (INR (k + l)) * al (k + l)%nat / Cpow zeta (S (k + l)))%C.
Proof.
  induction l as [|l IH]; intros k; [cbn [force_tail]; rewrite Nat.add_0_r; ring|]. change (force_tail zeta al k (S (S l))) with (RtoC (INR k) * al k / Cpow zeta (S k) + force_tail zeta al (S k) (S l))%C. rewrite IH.
  change (force_tail zeta al k (S l)) with (RtoC (INR k) * al k / Cpow zeta (S k) + force_tail zeta al (S k) l)%C. replace (S k + l)%nat with (k + S l)%nat by lia. ring.
Qed.
Lemma force_series c srcs zeta p : (coefficient c 0 srcs / zeta - force_tail zeta (fun k => coefficient c k srcs) 1 p)%C = derivative_series c srcs zeta p.
Proof.
  induction p as [|p IH]; [cbn [force_tail derivative_series]; ring|]. rewrite force_tail_last. change (1 + p)%nat with (S p).
  change (derivative_series c srcs zeta (S p)) with (derivative_series c srcs zeta p - RtoC (INR (S p)) * coefficient c (S p) srcs / Cpow zeta (S (S p)))%C. rewrite <- IH. ring.
Qed.
Lemma scaled_bound c q rho k srcs : 0 < q -> 0 < rho -> (forall s, In s srcs -> within c q rho s) -> (1 <= k)%nat -> Cmod (RtoC (INR k) * coefficient c k srcs)%C <= (INR (length srcs) + 1) * (q * rho ^ k).
Proof.
  intros Q0 R0 HS K. assert (T0 : 0 < q * rho ^ k) by (apply Rmult_lt_0_compat; [exact Q0|apply pow_lt, R0]). assert (M := moment_bound c q rho k srcs HS). destruct k as [|k]; [lia|]. cbn [coefficient].
  assert (JN : RtoC (INR (S k)) <> RtoC 0) by (apply CINR_nz; lia). replace (RtoC (INR (S k)) * (- moment c (S k) srcs / RtoC (INR (S k))))%C with (- moment c (S k) srcs)%C by (field; exact JN). rewrite Cmod_opp. lra.
Qed.
Lemma opp_finite x : PrimFloat.is_finite (- x)%float = true -> PrimFloat.is_finite x = true.
Proof. rewrite !is_finite_equiv, opp_equiv, is_finite_Bopp. auto. Qed.
Lemma conj_mod z : Cmod (Cconj z) = Cmod z.
Proof. unfold Cmod, Cconj. cbn [fst snd]. f_equal. ring. Qed.
Theorem force_error A a b p c srcs x rho q f : usual_product (f_mul A) -> accurate_quotient (f_div A) -> (1 <= b <= 198)%nat -> (a + 2 * b * (p + 2) <= 1000)%nat -> INR (length srcs) + 1 <= 1048576 ->
  PrimFloat.is_finite (nth 0 x 0%float) = true -> PrimFloat.is_finite (nth 1 x 0%float) = true -> PrimFloat.is_finite (nth 0 c 0%float) = true -> PrimFloat.is_finite (nth 1 c 0%float) = true ->
  / 2 ^ a <= q -> / 2 ^ b <= rho -> rho <= separation x c -> separation x c <= 2 ^ b -> (forall s, In s srcs -> within c q rho s) ->
  me2_forceF A (me2_sourcesF A c p srcs) x = Ok f -> Forall (fun y => PrimFloat.is_finite y = true) f ->
  Cmod (point_of f - expansion_force c p srcs x)%C <= (INR (length srcs) + 1) * q * u * (INR p + 1) ^ 2 * (6 * (INR (length srcs) + 1) + 25 * INR p + 75) / separation x c.
Proof.
  intros HM HD Hb Hab NB FX0 FX1 FC0 FC1 HQ HR RD DU HS E F. set (n := INR (length srcs)) in *. assert (N0 : 0 <= n) by apply pos_INR. set (N := n + 1) in *. set (D := separation x c) in *.
  assert (PP : forall k, 0 < / 2 ^ k) by (intros k; apply Rinv_0_lt_compat, pow_lt; lra). assert (Q0 : 0 < q) by (assert (G := PP a); lra). assert (R0 : 0 < rho) by (assert (G := PP b); lra). assert (D0 : 0 < D) by lra.
  assert (P500 : (p <= 500)%nat) by nia. assert (PI : INR p <= 1000) by (apply le_INR in P500; rewrite (INR_IZR_INZ 500) in P500; simpl in P500; lra). assert (P0 := pos_INR p).
  assert (RP : forall j, / 2 ^ (b * j) <= rho ^ j). { intros j. rewrite pow_mult, <- pow_inv. apply pow_incr. split; [apply Rlt_le, PP|exact HR]. }
  assert (DP : forall j, D ^ j <= 2 ^ (b * j)). { intros j. rewrite pow_mult. apply pow_incr. split; lra. }
  assert (DI : forall j, / 2 ^ (b * j) <= / D ^ j). { intros j. apply Rinv_le_contravar; [apply pow_lt, D0|apply DP]. }
  assert (M2 : forall i j s t, / 2 ^ i <= s -> / 2 ^ j <= t -> / 2 ^ (i + j) <= s * t). { intros i j s t HS' HT. rewrite pow_add, Rinv_mult. apply Rmult_le_compat; first [apply Rlt_le, PP|assumption]. }
  assert (E1 : forall j, (j <= p)%nat -> eta <= u * rho ^ j). { intros j J. apply eta_of. eapply Rle_trans; [|apply RP]. apply inv_pow_le. nia. }
  assert (HRQ : forall k, (k <= p)%nat -> / 2 ^ 1000 <= q * rho ^ k). { intros k K. eapply Rle_trans; [|apply M2; [exact HQ|apply RP]]. apply inv_pow_le. nia. }
  assert (E2 : forall k, (k <= p)%nat -> eta <= u * (q * rho ^ k)). { intros k K. apply eta_of. eapply Rle_trans; [|apply M2; [exact HQ|apply RP]]. apply inv_pow_le. nia. }
  assert (HI : forall j, (j <= p + 1)%nat -> / 2 ^ 1000 <= / D ^ j). { intros j J. eapply Rle_trans; [|apply DI]. apply inv_pow_le. nia. }
  assert (HX : forall j, (j <= p)%nat -> / 2 ^ 1000 <= q * (rho ^ j * / D ^ S j)). { intros j J. eapply Rle_trans; [|apply M2; [exact HQ|apply M2; [apply RP|apply DI]]]. apply inv_pow_le. nia. }
  assert (DL : / 2 ^ b <= D) by lra. assert (HD2 : / 2 ^ 1000 <= D ^ 2). { apply Rle_trans with (/ 2 ^ (b * 2)); [apply inv_pow_le; lia|]. rewrite pow_mult, <- pow_inv. apply pow_incr. split; [apply Rlt_le, PP|exact DL]. }
  assert (DR : 2 * / 2 ^ 400 <= D <= / 2 * 2 ^ 400).
  { split.
    - replace (2 * / 2 ^ 400) with (/ 2 ^ 399) by (change 400%nat with (S 399); cbn [pow]; field; apply pow_nonzero; lra). eapply Rle_trans; [|exact DL]. apply inv_pow_le. lia.
    - replace (/ 2 * 2 ^ 400) with (2 ^ 399) by (change 400%nat with (S 399); cbn [pow]; field). eapply Rle_trans; [exact DU|]. apply Rle_pow; [lra|lia]. }
  set (zeta := (point_of x - point_of c)%C). assert (ZD : Cmod zeta = D) by reflexivity. set (z := csub (cplxF x) (cplxF c)).
  assert (FZ : fin z).
  { assert (B0 := part_mod zeta). rewrite ZD in B0. destruct B0 as [B0 B1]. assert (PW : D <= pw 970). { eapply Rle_trans; [exact DU|]. rewrite <- pw_pow. apply bpow_le. lia. }
    split; cbn [z csub cplxF fst snd]; apply sub_small; try assumption; (eapply Rle_trans; [|exact PW]); assumption. }
  assert (ZE : Cmod (creal z - zeta)%C <= 4 * u * D).
  { destruct (csub_error (cplxF x) (cplxF c) D FZ) as (_ & _ & K); [right; exact ZD| |exact K]. apply eta_of. eapply Rle_trans; [|exact DL]. apply inv_pow_le. lia. }
  assert (ZM := z_mod z zeta D ZD ZE). assert (ZR := z_range z zeta D ZD ZE DR).
  assert (BZ : between (S b) z).
  { split; [exact (proj1 FZ)|]. split; [exact (proj2 FZ)|]. change (/ 2 ^ S b <= Cmod (creal z) <= 2 ^ S b). assert (G := PP b). rewrite inv_half. cbn [pow]. lra. }
  destruct (square_between A HM 1 b 0 0 ltac:(lia) ltac:(lia) ltac:(lia) ltac:(lia) z BZ) as (FQ1 & FQ2 & SQ). change (R_sqrt.sqrt (real_of (fst (f_mul A z z)) ^ 2 + real_of (snd (f_mul A z z)) ^ 2)) with (Cmod (value_of (f_mul A z z))) in SQ.
  assert (SR : / 2 ^ 400 <= Cmod (value_of (f_mul A z z)) <= 2 ^ 400). { split; [eapply Rle_trans; [|exact (proj1 SQ)]; apply inv_pow_le; lia|eapply Rle_trans; [exact (proj2 SQ)|]; apply Rle_pow; [lra|lia]]. }
  set (al := fun k => coefficient c k srcs). assert (AL : forall k, (1 <= k <= p)%nat -> Cmod (RtoC (INR k) * al k)%C <= N * (q * rho ^ k)) by (intros k [K _]; apply scaled_bound; assumption).
  set (e := me2_sourcesF A c p srcs) in *. assert (CE : forall k w, (k <= p)%nat -> nth_error (sf_co e) k = Some w -> fin w -> Cmod (creal w - al k)%C <= N * (5 * N + 24 * INR k + 12) * u * (q * rho ^ k)).
  { intros k w K EW FW. apply (coefficient_error A HM c q rho Q0 R0 p k srcs w K); try assumption; [apply le_INR in K; lra|intros j J; apply E1; lia|apply E2, K]. }
  unfold me2_forceF in E. assert (EC : sf_ctr e = cplxF c) by reflexivity. rewrite EC in E. fold z in E.
  assert (C0 : exists a0 cs, sf_co e = a0 :: cs /\ length cs = p /\ snd a0 = 0%float).
  { unfold e, me2_sourcesF. cbn [sf_co]. set (cs := fold_left (me2_add_sourceF A (cplxF c)) srcs (repeat zeroC (S p))). assert (C0 : nth_error cs 0 = Some (fold_left step0 srcs zeroC)) by (apply fold_nth0; reflexivity).
    assert (LC : length cs = S p) by (unfold cs; rewrite fold_length, repeat_length; reflexivity). destruct cs as [|c0 cs']; [discriminate|]. cbn [div_tailF]. injection C0 as C0. injection LC as LC.
    eexists c0, _. split; [reflexivity|]. split; [rewrite div_from_length; exact LC|]. rewrite C0, step0_snd. reflexivity. }
  destruct C0 as (a0 & cs & EQ & LC & S0). unfold sf_get in E. rewrite EQ in E. cbn [nth_error of_option bind tl] in E. set (res := me2_force_loopF A z _ _ 1 cs) in E. injection E as E.
  assert (FR : fin res). { rewrite <- E in F. inversion F as [|? ? F1 F2]. inversion F2 as [|? ? F3 _]. split; [apply opp_finite; exact F1|exact F3]. }
  assert (N1 : 1 <= N <= 1048576) by (split; [unfold N; lra|exact NB]). assert (NQ : 0 < N * q) by (apply Rmult_lt_0_compat; lra). assert (ID : 0 < / D) by (apply Rinv_0_lt_compat, D0). set (V := N * q * / D). assert (V0 : 0 < V) by (apply Rmult_lt_0_compat; lra).
  assert (FS := force_loop_fin A z cs _ _ _ FR). assert (QN : q <= N * q) by (assert (1 * q <= N * q) by (apply Rmult_le_compat_r; lra); lra).
  assert (A0M : Cmod (al 0%nat) <= N * q). { assert (G := coefficient_bound c q rho 0 srcs Q0 R0 HS). rewrite pow_O, Rmult_1_r in G. exact G. }
  destruct (quotient_error A HD (fst a0, 0%float) z (al 0%nat) zeta (N * q) (5 * N + 12) 4 D FZ ZR D0 ZD ZE ltac:(lra) NQ ltac:(lra) ltac:(lra) FS) as [_ SE].
  { intros [FA _]. split; [exact A0M|]. assert (FA' : fin a0) by (split; [exact FA|rewrite S0; reflexivity]). assert (G := CE 0%nat a0 ltac:(lia) ltac:(rewrite EQ; reflexivity) FA'). replace (fst a0, 0%float) with a0 by (rewrite <- S0; apply surjective_pairing).
    rewrite pow_O in G. change (INR 0) with 0 in G. eapply Rle_trans; [exact G|]. right. ring. }
  { assert (G := HX 0%nat ltac:(lia)). rewrite pow_O, pow_1, Rmult_1_l in G. eapply Rle_trans; [exact G|]. apply Rmult_le_compat_r; lra. }
  { apply Rle_trans with (/ 2 ^ (a + b)); [apply inv_pow_le; nia|]. apply M2; [lra|exact DL]. }
  set (W := (INR p + 1) * V). assert (W1 : V <= W) by (unfold W; assert (0 <= INR p * V) by (apply Rmult_le_pos; lra); lra).
  fold V in SE. set (EE := (INR p + 1) * (6 * N + 25 * INR p + 70) * u * V).
  assert (SM : Cmod (al 0%nat / zeta)%C <= V). { unfold Cdiv. rewrite Cmod_mult, Cmod_inv by (apply nonzero_mod; lra). rewrite ZD. apply Rmult_le_compat_r; lra. }
  assert (TOT : (5 * N + 12 + 4 + 35) * u * V + INR p * (5 * u * W + EE) <= (INR p + 1) ^ 2 * (6 * N + 25 * INR p + 75) * u * V).
  { unfold W, EE. replace ((5 * N + 12 + 4 + 35) * u * V + INR p * (5 * u * ((INR p + 1) * V) + (INR p + 1) * (6 * N + 25 * INR p + 70) * u * V)) with ((5 * N + 51 + INR p * (INR p + 1) * (6 * N + 25 * INR p + 75)) * u * V) by ring.
    apply Rmult_le_compat_r; [lra|]. apply Rmult_le_compat_r; [lra|]. replace ((INR p + 1) ^ 2 * (6 * N + 25 * INR p + 75)) with ((INR p + 1) * (6 * N + 25 * INR p + 75) + INR p * (INR p + 1) * (6 * N + 25 * INR p + 75)) by ring. apply Rplus_le_compat_r. nra. }
  assert (SMALL : (INR p + 1) ^ 2 * (6 * N + 25 * INR p + 75) * u * V <= / 100 * W).
  { unfold W. replace ((INR p + 1) ^ 2 * (6 * N + 25 * INR p + 75) * u * V) with ((INR p + 1) * (6 * N + 25 * INR p + 75) * u * ((INR p + 1) * V)) by ring. apply Rmult_le_compat_r; [apply Rmult_le_pos; lra|].
    apply Rle_trans with (1001 * (6 * N + 25 * INR p + 75) * u); [|lra]. apply Rmult_le_compat_r; [lra|]. apply Rmult_le_compat_r; lra. }
  assert (K := force_loop A HM HD z zeta D FZ D0 ZD ZE DR p PI HI al N q rho N1 Q0 R0 RD HRQ HX AL W cs W1 1 (f_div A oneC (f_mul A z z)) (f_div A (fst a0, 0%float) z) (al 0%nat / zeta)%C ((5 * N + 12 + 4 + 35) * u * V) V).
  fold res V in K. rewrite LC in K. fold EE in K. 
  assert (K' : Cmod (creal res - (al 0%nat / zeta - force_tail zeta al 1 p))%C <= (5 * N + 12 + 4 + 35) * u * V + INR p * (5 * u * W + EE)).
  { apply K.
    - lia.
    - lia.
    - intros j w J FW. apply (CE (1 + j)%nat w); [|rewrite EQ; exact J|exact FW]. assert (j < length cs)%nat by (apply nth_error_Some; congruence). lia.
    - intros NE FI. apply (inverse_start A HM HD z zeta D D0 ZD ZE p HI HD2 (conj FQ1 FQ2) SR FI). destruct cs; [congruence|]. cbn [length] in LC. lia.
    - exact SE.
    - exact SM.
    - unfold W. lra.
    - lra.
    - exact FR. }
  unfold al in K'. rewrite force_series in K'. unfold expansion_force. fold zeta. assert (PF : point_of f = (- Cconj (creal res))%C).
  { rewrite <- E. unfold point_of. cbn [nth]. rewrite (proj2 (FloatFieldsProofs.opp_real _ (proj1 FR))). unfold Cconj, Copp, creal. cbn [fst snd]. f_equal. ring. }
  rewrite PF. set (ds := derivative_series c srcs zeta p) in *. replace (- Cconj (creal res) - - Cconj ds)%C with (- Cconj (creal res - ds))%C by (unfold Cconj, Cminus, Cplus, Copp; cbn [fst snd]; apply injective_projections; cbn [fst snd]; ring).
  rewrite Cmod_opp, conj_mod. eapply Rle_trans; [exact K'|]. eapply Rle_trans; [exact TOT|]. unfold V, Rdiv. right. ring.
Qed.
(** Truncation. *)
Lemma derivative_cons c s srcs z p : derivative_series c (s :: srcs) z p = (derivative_series c [s] z p + derivative_series c srcs z p)%C.
Proof. induction p as [|p IH]; cbn [derivative_series]; [rewrite (coefficient_cons c 0 s srcs); unfold Cdiv; ring|]. rewrite IH, (coefficient_cons c (S p) s srcs). unfold Cdiv. ring. Qed.
Lemma derivative_one c s z p : z <> RtoC 0 -> (z - (point_of (ps_pos s) - point_of c))%C <> RtoC 0 ->
  derivative_series c [s] z p = (RtoC (real_of (ps_q s)) * (RtoC 1 - Cpow ((point_of (ps_pos s) - point_of c) / z) (S p)) / (z - (point_of (ps_pos s) - point_of c)))%C.
Proof.
  intros Z. set (w := (point_of (ps_pos s) - point_of c)%C). intros ZW. induction p as [|p IH].
  - cbn [derivative_series coefficient moment fold_right Cpow]. fold w. field. split; assumption.
  - change (derivative_series c [s] z (S p)) with (derivative_series c [s] z p - RtoC (INR (S p)) * coefficient c (S p) [s] / Cpow z (S (S p)))%C. rewrite IH. cbn [coefficient moment fold_right]. fold w.
    assert (JN : RtoC (INR (S p)) <> RtoC 0) by (apply CINR_nz; lia). assert (PN : Cpow z (S p) <> RtoC 0) by (apply Cpow_nz, Z). rewrite (Cpow_S z (S p)), (Cpow_S (w / z)%C (S p)).
    assert (PW : Cpow (w / z)%C (S p) = (Cpow w (S p) / Cpow z (S p))%C) by (unfold Cdiv; rewrite Cpow_mult, (Cpow_inv z (S p) Z); reflexivity). rewrite PW.
    set (zp := Cpow z (S p)) in *. set (wp := Cpow w (S p)). set (j := RtoC (INR (S p))) in *. set (qs := RtoC (real_of (ps_q s))). field. repeat split; assumption.
Qed.
Lemma force_truncation c p srcs x q rho : 0 < rho -> rho < separation x c -> (forall s, In s srcs -> within c q rho s) ->
  Cmod (expansion_force c p srcs x - direct_force_value srcs x)%C <= INR (length srcs) * q * ((rho / separation x c) ^ (p + 1) / (separation x c - rho)).
Proof.
  intros R0 RD HS. set (D := separation x c) in *. assert (D0 : 0 < D) by lra. unfold expansion_force. set (zeta := (point_of x - point_of c)%C). assert (ZD : Cmod zeta = D) by reflexivity. assert (ZN : zeta <> RtoC 0) by (apply nonzero_mod; lra).
  set (t := rho / D). assert (T0 : 0 <= t) by (apply Rmult_le_pos; [lra|left; apply Rinv_0_lt_compat, D0]). set (B := t ^ (p + 1) / (D - rho)).
  induction srcs as [|s srcs IH].
  - assert (Z : forall k, derivative_series c [] zeta k = RtoC 0). { induction k as [|k IH]; cbn [derivative_series coefficient moment fold_right]; [unfold Cdiv; ring|]. rewrite IH. unfold Cdiv. ring. }
    rewrite Z. cbn [direct_force_value fold_right length]. replace (- Cconj (RtoC 0) - RtoC 0)%C with (RtoC 0) by (unfold Cconj, RtoC, Cminus, Cplus, Copp; cbn [fst snd]; f_equal; ring). rewrite Cmod_0. change (INR 0) with 0. lra.
  - specialize (IH (fun s' J => HS s' (or_intror J))). destruct (HS s (or_introl eq_refl)) as [HQ HR]. rewrite derivative_cons. cbn [direct_force_value fold_right length]. fold (direct_force_value srcs x). rewrite S_INR.
    set (w := (point_of (ps_pos s) - point_of c)%C). assert (HW : Cmod w <= rho) by exact HR. replace (point_of x - point_of (ps_pos s))%C with (zeta - w)%C by (unfold zeta, w; ring).
    assert (ZL : D - rho <= Cmod (zeta - w)%C). { assert (T := Cmod_triangle (zeta - w)%C w). replace (zeta - w + w)%C with zeta in T by ring. lra. }
    assert (ZW : (zeta - w)%C <> RtoC 0) by (apply nonzero_mod; lra). rewrite (derivative_one c s zeta p ZN ZW). fold w. set (g := Cpow (w / zeta)%C (S p)). set (qs := real_of (ps_q s)) in *. set (rest := derivative_series c srcs zeta p) in *. set (dr := direct_force_value srcs x) in *. set (v := (zeta - w)%C) in *.
    assert (CI : (RtoC (- qs / Cmod v ^ 2) * v)%C = (- Cconj (RtoC qs / v))%C).
    { unfold Cmod. rewrite pow2_sqrt by (apply Rplus_le_le_0_compat; apply pow2_ge_0). assert (NZ : fst v ^ 2 + snd v ^ 2 <> 0). { intros K. assert (G : Cmod v = 0) by (unfold Cmod; rewrite K; apply sqrt_0). lra. }
      unfold Cconj, Cdiv, Cinv, RtoC, Cmult, Copp. cbn [fst snd]. apply injective_projections; cbn [fst snd]; field; exact NZ. }
    rewrite CI. replace (- Cconj (RtoC qs * (RtoC 1 - g) / v + rest) - (- Cconj (RtoC qs / v) + dr))%C with (Cconj (RtoC qs * g / v) + (- Cconj rest - dr))%C.
    + eapply Rle_trans; [apply Cmod_triangle|]. rewrite conj_mod. assert (K : Cmod (RtoC qs * g / v)%C <= q * B).
      { unfold Cdiv. rewrite !Cmod_mult, Cmod_R, Cmod_inv by exact ZW. unfold B, Rdiv. rewrite <- Rmult_assoc. assert (G : Cmod g <= t ^ (p + 1)). { unfold g. rewrite Cmod_pow, Nat.add_1_r. apply pow_incr. split; [apply Cmod_ge_0|]. exact (Cmod_ratio w zeta rho D D0 HW (Req_le _ _ (eq_sym ZD))). }
        apply Rmult_le_compat; [apply Rmult_le_pos; [apply Rabs_pos|apply Cmod_ge_0]|left; apply Rinv_0_lt_compat; lra|apply Rmult_le_compat; [apply Rabs_pos|apply Cmod_ge_0|exact HQ|exact G]|apply Rinv_le_contravar; lra]. }
      lra.
    + replace (RtoC qs * (RtoC 1 - g) / v)%C with (RtoC qs / v - RtoC qs * g / v)%C by (unfold Cdiv; ring). unfold Cconj, Cminus, Cplus, Copp. cbn [fst snd]. apply injective_projections; cbn [fst snd]; ring.
Qed.
