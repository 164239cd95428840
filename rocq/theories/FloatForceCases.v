(** Cases for the accuracy of the forces of two-dimensional multipole expansions in doubles. *)
From Coq Require Import Reals List Bool ZArith Arith Lia Lra Psatz.
From Coquelicot Require Import Complex.
From Verif Require Import Num Outcome Vec CAux FloatCases FloatFit FloatExpansion2D FloatExpansionSpec FloatOverflow FloatExpansionProofs FloatExpansionCases FloatRangeSpec FloatRange FloatRangeCases FloatCoefficientSpec FloatCoefficients FloatMultipole FloatAccuracy FloatAccuracyCases FloatForceSpec FloatForceAccuracy FloatForceError.
From Coq Require Import Floats.
Import ListNotations.
Local Open Scope R_scope.
Local Open Scope outcome_scope.

(** In the range of C115 the force is finite. *)
Theorem force_range A a b g N p c srcs x rho q : usual_product (f_mul A) -> accurate_quotient (f_div A) -> bounded_quotient (f_div A) -> bounded_log g (S b) (f_log A) ->
  (1 <= p)%nat -> (1 <= b <= 198)%nat -> (N <= 19)%nat -> (a + N + g + p * (2 * b + 5) + 4 * b + 4 <= 960)%nat -> (length srcs <= 2 ^ N)%nat ->
  (forall s, In s srcs -> part a (ps_q s) /\ near b (ps_pos s) c) -> apart b x c -> length c = 2%nat ->
  / 2 ^ a <= q -> / 2 ^ b <= rho -> rho < separation x c -> (forall s, In s srcs -> within c q rho s) ->
  exists f, me2_forceF A (me2_sourcesF A c p srcs) x = Ok f /\ length f = 2%nat /\ Forall (fun y => PrimFloat.is_finite y = true) f /\
  Cmod (point_of f - direct_force_value srcs x)%C <= INR (length srcs) * q * ((rho / separation x c) ^ (p + 1) / (separation x c - rho)) +
    (INR (length srcs) + 1) * q * u * (INR p + 1) ^ 2 * (6 * (INR (length srcs) + 1) + 25 * INR p + 75) / separation x c.
Proof.
  intros HM HD HB HG P1 Hb HN T LS PS AP LC HQ HR RD HS.
  assert (CC : center_of (me2_sourcesF A c p srcs) = c) by (destruct c as [|c0 [|c1 [|]]]; try discriminate LC; reflexivity).
  destruct (multipole_values A HM HB p a b g 0 N HG P1 ltac:(lia) ltac:(lia) ltac:(lia) 0 (me2_sourcesF A c p srcs) x) as (_ & v & f & _ & EF & LF & FV); [apply range_sources; assumption|lia|rewrite CC; exact AP|].
  assert (F : Forall (fun y => PrimFloat.is_finite y = true) f) by (apply Forall_forall; intros y Y; exact (FV y (or_intror Y))).
  exists f. split; [exact EF|]. split; [exact LF|]. split; [exact F|]. destruct AP as [[FC DU] DL]. apply Forall_app in FC. destruct FC as [FC1 FC2].
  assert (FN : forall l i, Forall (fun y => PrimFloat.is_finite y = true) l -> PrimFloat.is_finite (nth i l 0%float) = true).
  { intros l i H. destruct (nth_in_or_default i l 0%float) as [K|K]; [exact (proj1 (Forall_forall _ _) H _ K)|rewrite K; reflexivity]. }
  assert (L2 : (length srcs <= 2 ^ 19)%nat) by (etransitivity; [exact LS|apply Nat.pow_le_mono_r; lia]). apply le_INR in L2. rewrite pow_INR in L2. simpl in L2.
  assert (R0 : 0 < rho) by (assert (0 < / 2 ^ b) by (apply Rinv_0_lt_compat, pow_lt; lra); lra). assert (TR := force_truncation c p srcs x q rho R0 RD HS).
  assert (FE := force_error A a b p c srcs x rho q f HM HD Hb ltac:(lia) ltac:(lra) (FN x 0%nat FC1) (FN x 1%nat FC1) (FN c 0%nat FC2) (FN c 1%nat FC2) HQ HR ltac:(lra) DU HS EF F).
  replace (point_of f - direct_force_value srcs x)%C with (expansion_force c p srcs x - direct_force_value srcs x + (point_of f - expansion_force c p srcs x))%C by ring. eapply Rle_trans; [apply Cmod_triangle|]. apply Rplus_le_compat; assumption.
Qed.
(** The two sources: [- 2 (3, -1) / 10 + (2, 0) / 4 = (-1/10, 1/5)]. *)
Lemma two_direct_force : direct_force_value two_sources far2 = (- / 10, / 5).
Proof.
  destruct reals as (E0 & E1 & E2 & E4 & EM). unfold direct_force_value, two_sources, point_of. cbn [fold_right ps_q ps_pos nth far2]. rewrite E0, E1, E2, E4, EM. unfold Cminus, Cplus, Copp, Cmod, Cmult, RtoC. cbn [fst snd].
  rewrite !pow2_sqrt by (apply Rplus_le_le_0_compat; apply pow2_ge_0). apply injective_projections; cbn [fst snd]; field.
Qed.
Lemma two_force_case : exists f, me2_forceF plain2 (me2_sourcesF plain2 origin2 18 two_sources) far2 = Ok f /\ length f = 2%nat /\ Forall (fun y => PrimFloat.is_finite y = true) f /\ Cmod (point_of f - ((- / 10)%R, (/ 5)%R))%C <= / 100000.
Proof.
  assert (PS : forall s, In s two_sources -> part 1 (ps_q s) /\ near 2 (ps_pos s) origin2) by (intros s [<-|[<-|[]]]; points). assert (AP : apart 2 far2 origin2) by points.
  destruct (force_range plain2 1 2 3 1 18 origin2 two_sources far2 2 2 plain_usual plain_accurate plain_bounded rounded_log_bounded
    ltac:(lia) ltac:(lia) ltac:(lia) ltac:(lia) ltac:(apply Nat.leb_le; reflexivity) PS AP eq_refl ltac:(cbn [pow]; lra) ltac:(cbn [pow]; lra) ltac:(rewrite far2_separation; lra) two_within) as (f & E & L & F & B).
  exists f. split; [exact E|]. split; [exact L|]. split; [exact F|]. rewrite two_direct_force, far2_separation in B. eapply Rle_trans; [exact B|]. cbn [length two_sources]. replace (2 / 4) with (/ 2) by lra. rewrite pow_inv, !INR_IZR_INZ. simpl. lra.
Qed.
