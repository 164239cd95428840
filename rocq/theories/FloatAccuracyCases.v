(** Cases for the accuracy of the two-dimensional multipole expansions in doubles. *)
From Coq Require Import Reals List Bool ZArith Arith Lia Lra Psatz.
From Coquelicot Require Import Complex.
From Flocq Require Import Core BinarySingleNaN PrimFloat.
From Verif Require Import Num Outcome Vec CAux FloatCases FloatFit FloatExpansion2D FloatExpansionSpec FloatOverflow FloatExpansionProofs FloatExpansionCases FloatRangeSpec FloatRange FloatRangeCases FloatCoefficientSpec FloatCoefficients FloatMultipole FloatAccuracy.
From Verif Require FloatFieldsTheorems RoundedCases.
From Coq Require Import Floats.
Import ListNotations.
Local Open Scope R_scope.
Local Open Scope outcome_scope.

(** The quotient by the textbook formula. *)
Lemma div_dividend x y : PrimFloat.is_finite (x / y)%float = true -> PrimFloat.is_finite x = true.
Proof. intros F. destruct (fin_cases x) as [H|H]; [exact H|]. apply (nf_div_l x y) in H. congruence. Qed.
Lemma plain_accurate : accurate_quotient plain_div.
Proof.
  intros [a1 a2] [x y] [FX FY] [L H] [F1 F2]. cbn [plain_div fst snd] in *. assert (G1 := F1). assert (G2 := F2). apply div_dividend in F1, F2. assert (K1 := F1). assert (K2 := F2). apply add_finite in F1. apply sub_finite in F2.
  destruct F1 as (A1 & A2 & R1), F2 as (A3 & A4 & R2). apply mul_finite in A1, A2, A3, A4. destruct A1 as (FA1 & _ & E1), A2 as (FA2 & _ & E2), A3 as (_ & _ & E3), A4 as (_ & _ & E4). rewrite E1, E2 in R1. rewrite E3, E4 in R2.
  split; [split; assumption|]. intros M MA M1 M2. change (value_of (x, y)) with (creal (x, y)) in *. change (value_of (a1, a2)) with (creal (a1, a2)) in *.
  set (t := Cmod (creal (x, y))) in *. assert (CQ := csq (x, y)). cbn [fst snd] in CQ. fold t in CQ. assert (P4 : 0 < / 2 ^ 400) by (apply Rinv_0_lt_compat, pow_lt; lra). assert (T0 : 0 < t) by lra.
  assert (S1 : t ^ 2 <= 2 ^ 800) by (change 800%nat with (400 * 2)%nat; rewrite pow_mult; apply pow_incr; lra).
  assert (S2 : / 2 ^ 800 <= t ^ 2) by (change 800%nat with (400 * 2)%nat; rewrite pow_mult, <- pow_inv; apply pow_incr; lra).
  destruct (square_bounds x y FX FY) as (E0 & ES & DB); [rewrite CQ; exact S1|rewrite CQ; exact S2|]. rewrite CQ in ES, DB. set (d := (x * x + y * y)%float) in *. set (s := t ^ 2) in *. assert (TT : 0 < s) by (apply pow_lt, T0).
  assert (D0 : 0 < real_of d) by (apply Rlt_le_trans with ((1 - 3 * u) * s); [apply Rmult_lt_0_compat; lra|apply DB]). set (dd := real_of d) in *.
  apply quotient_real in G1, G2; [|exact D0|exact D0]. rewrite R1 in G1. rewrite R2 in G2. fold dd in G1, G2.
  assert (M0 : 0 < M) by (assert (0 < / 2 ^ 1020) by (apply Rinv_0_lt_compat, pow_lt; lra); lra). set (V := M * s). assert (V0 : 0 < V) by (apply Rmult_lt_0_compat; lra). assert (EV : eta <= u * V) by (apply eta_of; exact M2). assert (EM : eta <= u * M) by (apply eta_of; exact M1).
  assert (PM : Cmod (creal (a1, a2)) * t <= V). { replace V with (M * t * t) by (unfold V, s; ring). apply Rmult_le_compat_r; lra. }
  assert (BA := part_mod (creal (a1, a2))). assert (BZ := part_mod (creal (x, y))). fold t in BZ. cbn [creal fst snd] in BA, BZ. destruct BA as [BA1 BA2], BZ as [BZ1 BZ2]. set (m := Cmod (creal (a1, a2))) in *. 
  set (r1 := real_of a1) in *. set (r2 := real_of a2) in *. set (rx := real_of x) in *. set (ry := real_of y) in *.
  assert (PR : forall v w, Rabs v <= m -> Rabs w <= t -> Rabs (v * w) <= V) by (intros v w HV HW; rewrite Rabs_mult; eapply Rle_trans; [|exact PM]; apply Rmult_le_compat; try apply Rabs_pos; assumption).
  assert (Q1 := two_products _ _ V ltac:(lra) EV (PR _ _ BA1 BZ1) (PR _ _ BA2 BZ2) 1 (or_introl eq_refl)). assert (Q2 := two_products _ _ V ltac:(lra) EV (PR _ _ BA2 BZ1) (PR _ _ BA1 BZ2) (-1) (or_intror eq_refl)).
  rewrite !Rmult_1_l in Q1. replace (rndF (r2 * rx) + -1 * rndF (r1 * ry)) with (rndF (r2 * rx) - rndF (r1 * ry)) in Q2 by ring. replace (r2 * rx + -1 * (r1 * ry)) with (r2 * rx - r1 * ry) in Q2 by ring.
  assert (ZN : creal (x, y) <> RtoC 0) by (apply nonzero_mod; exact T0). assert (EQ : (creal (a1, a2) / creal (x, y))%C = ((r1 * rx + r2 * ry) / s, (r2 * rx - r1 * ry) / s)).
  { unfold Cdiv, Cinv, Cmult, creal. cbn [fst snd]. fold r1 r2 rx ry. assert (SN : s <> 0) by lra. rewrite CQ. apply injective_projections; cbn [fst snd]; field; exact SN. }
  assert (QM : Cmod (creal (a1, a2) / creal (x, y))%C <= M). { unfold Cdiv. rewrite Cmod_mult, (Cmod_inv _ ZN). fold m t. apply Rmult_le_reg_r with t; [exact T0|]. rewrite Rmult_assoc, Rinv_l by lra. lra. }
  rewrite EQ in QM |- *. destruct (part_mod ((r1 * rx + r2 * ry) / s, (r2 * rx - r1 * ry) / s)) as [QM1 QM2]. cbn [fst snd] in QM1, QM2. assert (QM3 := Rle_trans _ _ _ QM1 QM). assert (QM4 := Rle_trans _ _ _ QM2 QM).
  assert (ONE : forall n w, Rabs (n - w) <= 8 * u * V -> Rabs (w / s) <= M -> Rabs (rndF (n / dd) - w / s) <= 15 * u * M).
  { intros n w HN HW. assert (ND : Rabs (n / dd - w / s) <= 12 * u * M).
    { replace (n / dd - w / s) with ((n - w) * / dd + w / s * ((s - dd) * / dd)) by (field; lra). assert (ID : 0 < / dd) by (apply Rinv_0_lt_compat, D0).
      assert (SD : s * / dd <= 101 / 100). { apply Rmult_le_reg_r with dd; [exact D0|]. rewrite Rmult_assoc, Rinv_l by lra. lra. }
      eapply Rle_trans; [apply Rabs_triang|]. rewrite !Rabs_mult, (Rabs_pos_eq (/ dd)) by lra. fold (Rabs (w / s)).
      assert (T1 : Rabs (n - w) * / dd <= 8 * u * V * / dd) by (apply Rmult_le_compat_r; lra). replace (8 * u * V * / dd) with (8 * u * M * (s * / dd)) in T1 by (unfold V; ring). assert (T2 : 8 * u * M * (s * / dd) <= 8 * u * M * (101 / 100)) by (apply Rmult_le_compat_l; [apply Rmult_le_pos; lra|exact SD]).
      assert (T3 : Rabs (s - dd) * / dd <= 3 * u * (101 / 100)). { apply Rle_trans with (3 * u * s * / dd); [apply Rmult_le_compat_r; [lra|apply Rabs_le; lra]|]. rewrite Rmult_assoc. apply Rmult_le_compat_l; lra. }
      assert (T4 : Rabs (w / s) * (Rabs (s - dd) * / dd) <= M * (3 * u * (101 / 100))) by (apply Rmult_le_compat; [apply Rabs_pos|apply Rmult_le_pos; [apply Rabs_pos|lra]|exact HW|exact T3]). 
      lra. }
    assert (NM : Rabs (n / dd) <= 101 / 100 * M) by (replace (n / dd) with (n / dd - w / s + w / s) by ring; eapply Rle_trans; [apply Rabs_triang|]; lra).
    assert (RE := rnd_within _ (101 / 100 * M) NM ltac:(lra)). replace (rndF (n / dd) - w / s) with (rndF (n / dd) - n / dd + (n / dd - w / s)) by ring. eapply Rle_trans; [apply Rabs_triang|]. lra. }
  apply Rle_trans with (2 * (15 * u * M)); [|assert (0 < u * M) by (apply Rmult_lt_0_compat; lra); lra]. apply parts_mod; unfold value_of, plain_div; cbn [fst snd]; fold d; [rewrite G1|rewrite G2]; apply ONE; assumption.
Qed.
(** A logarithm that is rounded once. *)
Definition rounded_log (z : CF) : CF :=
  let l := ln (Cmod (value_of z)) in ((if Rlt_dec (Rabs l) u then 0%float else FloatFieldsTheorems.float_round l), 0%float).
Lemma rounded_log_accurate : accurate_logarithm rounded_log.
Proof.
  intros z F R. unfold rounded_log. cbn [fst]. assert (LB := ln_range 400 _ R). set (l := ln (Cmod (value_of z))) in *. assert (A0 := Rabs_pos l).
  destruct (Rlt_dec (Rabs l) u) as [S|S].
  - rewrite (proj2 zero_real), Rminus_0_l, Rabs_Ropp. lra.
  - assert (L4 : Rabs l <= 400) by (eapply Rle_trans; [exact LB|]; rewrite INR_IZR_INZ; simpl; lra).
    destruct (FloatFieldsTheorems.float_round_real l) as [_ E].
    + right. apply Rle_trans with u; [|lra]. replace u with (bpow radix2 (-53)) by (cbn; lra). apply bpow_le. lia.
    + eapply Rle_trans; [exact L4|]. apply Rle_trans with (bpow radix2 9); [cbn; lra|apply bpow_le; lia].
    + rewrite E. assert (G := RoundedCases.double_accurate l). lra.
Qed.
(** The textbook formulas with this logarithm. *)
Definition plain2 : cfarith := mkcf plain_mul plain_div rounded_log (f_choose plain).
Lemma rounded_log_bounded : bounded_log 3 3 rounded_log.
Proof.
  intros z (FX & FY & L & H). change (R_sqrt.sqrt (real_of (fst z) ^ 2 + real_of (snd z) ^ 2)) with (Cmod (value_of z)) in *.
  assert (LB := ln_range 3 _ (conj L H)). unfold rounded_log, parts. cbn [fst snd]. set (l := ln (Cmod (value_of z))) in *. assert (L3 : Rabs l <= 3) by (simpl in LB; lra). split.
  - destruct (Rlt_dec (Rabs l) u) as [S|S].
    + split; [reflexivity|]. change (Rabs (real_of 0%float) <= 2 ^ 3). rewrite (proj2 zero_real), Rabs_R0. apply pow_le. lra.
    + destruct (FloatFieldsTheorems.float_round_real l) as [F E].
      * right. apply Rle_trans with u; [|lra]. replace u with (bpow radix2 (-53)) by (cbn; lra). apply bpow_le. lia.
      * eapply Rle_trans; [exact L3|]. apply Rle_trans with (bpow radix2 9); [cbn; lra|apply bpow_le; lia].
      * split; [exact F|]. rewrite E. assert (G := RoundedCases.double_accurate l). replace (RoundedCases.double_round l) with (RoundedCases.double_round l - l + l) by ring. eapply Rle_trans; [apply Rabs_triang|]. simpl. lra.
  - split; [reflexivity|]. change (Rabs (real_of 0%float) <= 2 ^ 3). rewrite (proj2 zero_real), Rabs_R0. apply pow_le. lra.
Qed.
(** In the range of C115 the potential is finite. *)
Theorem direct_range A a b g N p c srcs x rho q : usual_product (f_mul A) -> accurate_quotient (f_div A) -> accurate_logarithm (f_log A) -> bounded_quotient (f_div A) -> bounded_log g (S b) (f_log A) ->
  (1 <= p)%nat -> (1 <= b <= 198)%nat -> (N <= 19)%nat -> (a + N + g + p * (2 * b + 5) + 2 * b + 4 <= 960)%nat -> (length srcs <= 2 ^ N)%nat ->
  (forall s, In s srcs -> part a (ps_q s) /\ near b (ps_pos s) c) -> apart b x c -> length c = 2%nat ->
  / 2 ^ a <= q -> / 2 ^ b <= rho -> rho < separation x c -> (forall s, In s srcs -> within c q rho s) ->
  exists v, me2_potF A (me2_sourcesF A c p srcs) x = Ok v /\ PrimFloat.is_finite v = true /\
  Rabs (real_of v - direct_value srcs x) <= INR (length srcs) * q * ((rho / separation x c) ^ (p + 1) / (INR (p + 1) * (1 - rho / separation x c))) +
    (INR (length srcs) + 1) * q * u * (INR b + INR p + 1) * (12 * (INR (length srcs) + 1) + 83 * INR p + 62).
Proof.
  intros HM HD HL HB HG P1 Hb HN T LS PS AP LC HQ HR RD HS.
  assert (CC : center_of (me2_sourcesF A c p srcs) = c) by (destruct c as [|c0 [|c1 [|]]]; try discriminate LC; reflexivity).
  destruct (multipole_values A HM HB p a b g 0 N HG P1 ltac:(lia) ltac:(lia) ltac:(lia) 0 (me2_sourcesF A c p srcs) x) as (_ & v & f & EV & _ & _ & FV); [apply range_sources; assumption|lia|rewrite CC; exact AP|].
  exists v. assert (F := FV v (or_introl eq_refl)). split; [exact EV|]. split; [exact F|]. destruct AP as [[FC DU] DL]. apply Forall_app in FC. destruct FC as [FC1 FC2].
  assert (FN : forall l i, Forall (fun y => PrimFloat.is_finite y = true) l -> PrimFloat.is_finite (nth i l 0%float) = true).
  { intros l i H. destruct (nth_in_or_default i l 0%float) as [K|K]; [exact (proj1 (Forall_forall _ _) H _ K)|rewrite K; reflexivity]. }
  apply (direct_error A a b p c srcs x rho q v HM HD HL); try assumption; try lia; try (apply FN; assumption).
  - assert (L2 : (length srcs <= 2 ^ 19)%nat) by (etransitivity; [exact LS|apply Nat.pow_le_mono_r; lia]). apply le_INR in L2. rewrite pow_INR in L2. simpl in L2. lra.
Qed.
(** Two sources about the origin: [2 ln |(4, 0) - (1, 1)| - ln |(4, 0) - (2, 0)| = ln 5]. *)
Definition two_sources : list (psrc float) := [PSrc [1; 1]%float 2%float; PSrc [2; 0]%float (-1)%float].
Lemma two_within s : In s two_sources -> Rabs (real_of (ps_q s)) <= 2 /\ separation (ps_pos s) origin2 <= 2.
Proof.
  destruct reals as (E0 & E1 & E2 & E4 & EM). unfold separation. intros [<-|[<-|[]]]; cbn [ps_q ps_pos nth origin2]; rewrite ?E0, ?E1, ?E2, ?EM; (split; [apply Rabs_le; lra|]).
  - apply Rle_trans with (R_sqrt.sqrt (2 ^ 2)); [apply sqrt_le_1_alt; lra|rewrite sqrt_pow2; lra].
  - apply Rle_trans with (R_sqrt.sqrt (2 ^ 2)); [apply sqrt_le_1_alt; lra|rewrite sqrt_pow2; lra].
Qed.
Lemma far2_separation : separation far2 origin2 = 4.
Proof. destruct reals as (E0 & E1 & E2 & E4 & EM). unfold separation. cbn [nth far2 origin2]. rewrite E0, E4. replace ((4 - 0) ^ 2 + (0 - 0) ^ 2) with (4 ^ 2) by ring. apply sqrt_pow2. lra. Qed.
Lemma two_direct : direct_value two_sources far2 = ln 5.
Proof.
  destruct reals as (E0 & E1 & E2 & E4 & EM). unfold direct_value, two_sources, point_of. cbn [fold_right ps_q ps_pos nth far2]. rewrite E0, E1, E2, E4, EM. unfold Cminus, Cplus, Copp, Cmod. cbn [fst snd].
  replace ((4 + - (2)) ^ 2 + (0 + - 0) ^ 2) with (2 ^ 2) by ring. rewrite sqrt_pow2 by lra. replace ((4 + - (1)) ^ 2 + (0 + - (1)) ^ 2) with 10 by ring.
  assert (L : ln (R_sqrt.sqrt 10) + ln (R_sqrt.sqrt 10) = ln 10) by (rewrite <- ln_mult by (apply sqrt_lt_R0; lra); rewrite sqrt_sqrt by lra; reflexivity).
  assert (M : ln 10 = ln 2 + ln 5) by (rewrite <- ln_mult by lra; f_equal; ring). lra.
Qed.
Lemma two_case : exists v, me2_potF plain2 (me2_sourcesF plain2 origin2 18 two_sources) far2 = Ok v /\ PrimFloat.is_finite v = true /\ Rabs (real_of v - ln 5) <= / 1000000.
Proof.
  assert (PS : forall s, In s two_sources -> part 1 (ps_q s) /\ near 2 (ps_pos s) origin2) by (intros s [<-|[<-|[]]]; points). assert (AP : apart 2 far2 origin2) by points.
  destruct (direct_range plain2 1 2 3 1 18 origin2 two_sources far2 2 2 plain_usual plain_accurate rounded_log_accurate plain_bounded rounded_log_bounded
    ltac:(lia) ltac:(lia) ltac:(lia) ltac:(lia) ltac:(apply Nat.leb_le; reflexivity) PS AP eq_refl ltac:(cbn [pow]; lra) ltac:(cbn [pow]; lra) ltac:(rewrite far2_separation; lra) two_within) as (v & E & F & B).
  exists v. split; [exact E|]. split; [exact F|]. rewrite two_direct, far2_separation in B. eapply Rle_trans; [exact B|]. cbn [length two_sources]. replace (2 / 4) with (/ 2) by lra. rewrite pow_inv, !INR_IZR_INZ. simpl. lra.
Qed.
