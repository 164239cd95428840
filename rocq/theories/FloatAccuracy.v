(** The potential of two-dimensional multipole expansions in doubles against the direct sum. *)
From Coq Require Import Reals List Bool ZArith Arith Lia Lra Psatz.
From Coquelicot Require Import Complex.
From Verif Require Import Num Outcome Vec CAux Exp2Errors FloatCases FloatFit FloatExpansion2D FloatExpansionSpec FloatOverflow FloatExpansionProofs FloatExpansionCases FloatCoefficientSpec FloatCoefficients FloatMultipole.
From Coq Require Import Floats.
Import ListNotations.
Local Open Scope R_scope.

Lemma coefficient_cons c k s srcs : coefficient c k (s :: srcs) = (coefficient c k [s] + coefficient c k srcs)%C.
Proof.
  destruct k as [|k]; cbn [coefficient moment fold_right].
  - fold (moment c 0 srcs). ring.
  - fold (moment c (S k) srcs). unfold Cdiv. ring.
Qed.
Lemma inverse_series_cons c s srcs z p : inverse_series c (s :: srcs) z p = (inverse_series c [s] z p + inverse_series c srcs z p)%C.
Proof. induction p as [|p IH]; cbn [inverse_series]; [ring|]. rewrite IH, (coefficient_cons c (S p) s srcs). unfold Cdiv. ring. Qed.
Lemma expansion_value_cons c p s srcs x : expansion_value c p (s :: srcs) x = expansion_value c p [s] x + expansion_value c p srcs x.
Proof.
  unfold expansion_value. rewrite inverse_series_cons, (coefficient_cons c 0 s srcs). unfold Re. cbn [Cplus fst]. ring.
Qed.
Lemma log_poly_last w p : log_poly w (S p) = (log_poly w p + Cpow w (S p) / RtoC (INR (S p)))%C.
Proof. unfold log_poly. rewrite seq_S, lsum_app, lsum_cons, lsum_nil. cbn [Nat.add]. ring. Qed.
Lemma series_one c s z p : z <> RtoC 0 -> inverse_series c [s] z p = (- (RtoC (real_of (ps_q s)) * log_poly ((point_of (ps_pos s) - point_of c) / z) p))%C.
Proof.
  intros Z. induction p as [|p IH]; [cbn [inverse_series]; unfold log_poly; cbn [seq]; rewrite lsum_nil; ring|]. cbn [inverse_series]. rewrite IH, log_poly_last. cbn [coefficient moment fold_right].
  set (w := (point_of (ps_pos s) - point_of c)%C). assert (JN : RtoC (INR (S p)) <> RtoC 0) by (apply CINR_nz; lia). assert (PN : Cpow z (S p) <> RtoC 0) by (apply Cpow_nz, Z).
  assert (PW : Cpow (w / z)%C (S p) = (Cpow w (S p) / Cpow z (S p))%C) by (unfold Cdiv; rewrite Cpow_mult, (Cpow_inv z (S p) Z); reflexivity). rewrite PW. field. split; assumption.
Qed.
Lemma value_one c p s x : (point_of x - point_of c)%C <> RtoC 0 ->
  expansion_value c p [s] x = real_of (ps_q s) * (ln (Cmod (point_of x - point_of c)%C) - Re (log_poly ((point_of (ps_pos s) - point_of c) / (point_of x - point_of c))%C p)).
Proof.
  intros Z. unfold expansion_value. rewrite (series_one c s _ p Z). cbn [coefficient moment fold_right Cpow]. set (L := log_poly _ p). unfold Re, RtoC, Cplus, Cmult, Copp. cbn [fst snd]. ring.
Qed.
Lemma truncation_error c p srcs x q rho : 0 < rho -> rho < separation x c -> (forall s, In s srcs -> within c q rho s) -> 
  Rabs (expansion_value c p srcs x - direct_value srcs x) <= INR (length srcs) * q * ((rho / separation x c) ^ (p + 1) / (INR (p + 1) * (1 - rho / separation x c))).
Proof.
  intros R0 RD HS. set (D := separation x c) in *. assert (D0 : 0 < D) by lra. set (zeta := (point_of x - point_of c)%C). assert (ZD : Cmod zeta = D) by reflexivity. assert (ZN : zeta <> RtoC 0) by (apply nonzero_mod; lra).
  set (t := rho / D). assert (T0 : 0 <= t < 1). { split; [apply Rmult_le_pos; [lra|left; apply Rinv_0_lt_compat, D0]|]. unfold t. apply (Rmult_lt_reg_r D); [exact D0|]. unfold Rdiv. rewrite Rmult_assoc, Rinv_l by lra. lra. }
  replace (t ^ (p + 1) / (INR (p + 1) * (1 - t))) with (trunc_bound t p) by (unfold trunc_bound; rewrite Nat.add_1_r; reflexivity). assert (TB := trunc_bound_nonneg t p T0).
  induction srcs as [|s srcs IH].
  - unfold expansion_value. cbn [direct_value fold_right coefficient moment length]. replace (Re (RtoC 0)) with 0 by reflexivity. assert (Z : forall k, inverse_series c [] zeta k = RtoC 0).
    { induction k as [|k IH]; [reflexivity|]. cbn [inverse_series coefficient moment fold_right]. rewrite IH. unfold Cdiv. ring. }
    fold zeta. rewrite Z. replace (Re (RtoC 0)) with 0 by reflexivity. rewrite Rmult_0_l, Rplus_0_r, Rminus_0_r, Rabs_R0. change (INR 0) with 0. lra.
  - specialize (IH (fun s' J => HS s' (or_intror J))). destruct (HS s (or_introl eq_refl)) as [HQ HR]. rewrite expansion_value_cons, (value_one c p s x ZN). cbn [direct_value fold_right length]. fold (direct_value srcs x) zeta. rewrite S_INR.
    set (w := (point_of (ps_pos s) - point_of c)%C). assert (HW : Cmod w <= rho) by exact HR. replace (point_of x - point_of (ps_pos s))%C with (zeta - w)%C by (unfold zeta, w; ring).
    rewrite ln_Cmod_minus; [|exact ZN|intros K; rewrite K in HW; lra].
    assert (H := log_remainder (w / zeta)%C t p (proj1 T0) (proj2 T0) (Cmod_ratio w zeta rho D D0 HW (Req_le _ _ (eq_sym ZD)))). fold (trunc_bound t p) in H.
    set (l := ln (Cmod zeta)) in *. set (g := ln (Cmod (RtoC 1 - w / zeta)%C)) in *. set (h := Re (log_poly (w / zeta)%C p)) in *. set (qs := real_of (ps_q s)) in *.
    replace (qs * (l - h) + expansion_value c p srcs x - (qs * (l + g) + direct_value srcs x)) with (- (qs * (g + h)) + (expansion_value c p srcs x - direct_value srcs x)) by ring.
    eapply Rle_trans; [apply Rabs_triang|]. rewrite Rabs_Ropp, Rabs_mult. assert (K : Rabs qs * Rabs (g + h) <= q * trunc_bound t p) by (apply Rmult_le_compat; try apply Rabs_pos; assumption). lra.
Qed.
Theorem direct_error A a b p c srcs x rho q v : usual_product (f_mul A) -> accurate_quotient (f_div A) -> accurate_logarithm (f_log A) ->
  (1 <= b <= 398)%nat -> (a + 2 * b * (p + 1) <= 1000)%nat -> INR (length srcs) + 1 <= 1048576 ->
  PrimFloat.is_finite (nth 0 x 0%float) = true -> PrimFloat.is_finite (nth 1 x 0%float) = true -> PrimFloat.is_finite (nth 0 c 0%float) = true -> PrimFloat.is_finite (nth 1 c 0%float) = true ->
  / 2 ^ a <= q -> / 2 ^ b <= rho -> rho < separation x c -> separation x c <= 2 ^ b -> (forall s, In s srcs -> within c q rho s) ->
  me2_potF A (me2_sourcesF A c p srcs) x = Ok v -> PrimFloat.is_finite v = true ->
  Rabs (real_of v - direct_value srcs x) <= INR (length srcs) * q * ((rho / separation x c) ^ (p + 1) / (INR (p + 1) * (1 - rho / separation x c))) +
    (INR (length srcs) + 1) * q * u * (INR b + INR p + 1) * (12 * (INR (length srcs) + 1) + 83 * INR p + 62).
Proof.
  intros HM HD HL Hb Hab NB FX0 FX1 FC0 FC1 HQ HR RD DU HS E F. assert (R0 : 0 < rho) by (assert (0 < / 2 ^ b) by (apply Rinv_0_lt_compat, pow_lt; lra); lra).
  assert (T := truncation_error c p srcs x q rho R0 RD HS). assert (P := potential_error A HM HD HL a b p c srcs x rho q v Hb Hab NB FX0 FX1 FC0 FC1 HQ HR ltac:(lra) DU HS E F).
  replace (real_of v - direct_value srcs x) with (expansion_value c p srcs x - direct_value srcs x + (real_of v - expansion_value c p srcs x)) by ring. eapply Rle_trans; [apply Rabs_triang|]. apply Rplus_le_compat; assumption.
Qed.
Theorem coefficient_accuracy A a b p k c srcs rho q z : usual_product (f_mul A) -> (k <= p)%nat -> (1 <= b)%nat -> (a + b * k <= 1000)%nat -> INR (length srcs) + 1 <= 1048576 -> / 2 ^ a <= q -> / 2 ^ b <= rho ->
  (forall s, In s srcs -> within c q rho s) -> nth_error (sf_co (me2_sourcesF A c p srcs)) k = Some z -> fin z ->
  Cmod (creal z - coefficient c k srcs)%C <= (INR (length srcs) + 1) * (5 * (INR (length srcs) + 1) + 24 * INR k + 12) * u * (q * rho ^ k).
Proof.
  intros HM KP B1 T NB HQ HR HS E F. assert (PP : forall j, 0 < / 2 ^ j) by (intros j; apply Rinv_0_lt_compat, pow_lt; lra). assert (Q0 : 0 < q) by (assert (G := PP a); lra). assert (R0 : 0 < rho) by (assert (G := PP b); lra).
  assert (RP : forall j, / 2 ^ (b * j) <= rho ^ j). { intros j. rewrite pow_mult, <- pow_inv. apply pow_incr. split; [apply Rlt_le, PP|exact HR]. }
  assert (K3 : (k <= 1000)%nat) by nia. assert (KI : INR k <= 1048576) by (apply le_INR in K3; rewrite (INR_IZR_INZ 1000) in K3; simpl in K3; lra).
  apply (coefficient_error A HM c q rho Q0 R0 p k srcs z KP KI NB HS); [| |exact E|exact F].
  - intros j J. apply eta_of. eapply Rle_trans; [|apply RP]. apply inv_pow_le. nia.
  - apply eta_of. apply Rle_trans with (/ 2 ^ (a + b * k)); [apply inv_pow_le; lia|]. rewrite pow_add, Rinv_mult. apply Rmult_le_compat; first [apply Rlt_le, PP|exact HQ|apply RP].
Qed.
