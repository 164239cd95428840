(** The force fields of the three-dimensional expansions in rounded arithmetic: the force computed away from the vertical line through the
    centre is, up to rounding errors, the exact force at a point nearby. *)
From Coq Require Import Reals List Arith ZArith Lia Lra Psatz.
From Coquelicot Require Import Rcomplements Complex.
From Verif Require Import Num Outcome Vec VecProofs Tables TableProofs Tables3D Table3DProofs CAux SolidHarmonics Zonal HarmonicBounds Kernel3 Expansion2D Spherical SphericalProofs Harmonics3D Fields Expansion3D Exp3Loops Exp3Proofs Exp3Forces Gradient3
  GradientBounds3 CoefNorms RoundedExpansion2D RoundedExpansion3D RoundedComplexSpec ApproxC RoundedHarmonicSpec RoundedHarmonics RoundedLoops3 RoundedHarmonicTable RoundedTableSpec RoundedTable
  RoundedForce3D RoundedForceSpec3 RoundedForceTable3 RoundedForceProofs3.
Import ListNotations.
Local Open Scope R_scope.
Arguments Cmod x%C.
Arguments ap w n%nat x'%C x%C X%R.

Lemma sin_move a b : Rabs (sin a - sin b) <= Rabs (a - b).
Proof. eapply Rle_trans; [|apply chord]. eapply Rle_trans; [|apply Im_le_Cmod]. apply Req_le. reflexivity. Qed.
(** The horizontal component. *)
Definition hor (v : P3) : R := sqrt (c1 v * c1 v + c2 v * c2 v).
Lemma hor_polar r th ph : 0 <= r -> 0 <= sin th -> hor (polar r th ph) = r * sin th.
Proof.
  intros Hr Hs. unfold hor, polar, c1, c2; cbn [fst snd]. transitivity (sqrt (r * sin th * (r * sin th))); [|apply sqrt_square, Rmult_le_pos; assumption]. f_equal.
  assert (Q := sin2_cos2 ph). unfold Rsqr in Q. transitivity (r * sin th * (r * sin th) * (sin ph * sin ph + cos ph * cos ph)); [ring|]. rewrite Q. ring.
Qed.
Lemma hor_le v : hor v <= pn v.
Proof. unfold hor, pn, nrm. apply sqrt_le_1_alt. nra. Qed.
Lemma hor_close v v' w : 0 <= w <= 1 -> Rabs (c1 v' - c1 v) <= w * Rabs (c1 v) -> Rabs (c2 v' - c2 v) <= w * Rabs (c2 v) -> (1 - w) * hor v <= hor v'.
Proof.
  intros Hw H1 H2. assert (G : forall a b, Rabs (a - b) <= w * Rabs b -> (1 - w) * (1 - w) * (b * b) <= a * a).
  { intros a b H. assert (T := Rabs_triang_inv b a). rewrite Rabs_minus_sym in T. assert (P : (1 - w) * Rabs b <= Rabs a) by lra.
    assert (P0 := Rabs_pos b). assert (Q : (1 - w) * Rabs b * ((1 - w) * Rabs b) <= Rabs a * Rabs a) by (apply Rmult_le_compat; nra).
    rewrite <- (Rabs_pos_eq (a * a)), <- (Rabs_pos_eq (b * b)) by apply Rle_0_sqr. rewrite !Rabs_mult. lra. }
  apply G in H1, H2. unfold hor. rewrite <- (sqrt_square (1 - w)) at 1 by lra. rewrite <- sqrt_mult by nra. apply sqrt_le_1_alt. lra.
Qed.

Section Force.
Variable w : R.
Variables ky kl : nat.
Variable G : garith.
Hypothesis HG : accurate_gradient w ky kl G.
Variable s : R.
Variable K : nat.
Hypothesis Hw0 : 0 <= w.
Hypothesis Hs0 : 0 < s.
Hypothesis Hws : 100 * w <= s * s.
Hypothesis HK : 10 <= INR K * (s * s).
Notation ap := (ap w).
Notation rap := (rap w).
Notation H := (g_h G).
Notation Y := (g_y G).
Notation B := (h_c H).
Notation rnd := (h_rnd H).
Let HH : accurate_harmonics w ky H := ag_h _ _ _ _ HG.
Let HY : accurate_table w kl Y := ag_y _ _ _ _ HG.

Section Point.
Variables (x c : list R).
Hypothesis Hx : length x = 3%nat.
Hypothesis Hc : length c = 3%nat.
Notation X := (p3 (vsub x c)).
Notation r := (pn X).
Hypothesis Hr : 0 < r.
Hypothesis Hh : s * r <= hor X.
Notation v := (vdif_r H x c).
Notation th' := (fst (angles_r Y v)).
Notation ph' := (snd (angles_r Y v)).
Notation t := (acos (y_cos Y th')).

Lemma s_le_1 : s <= 1.
Proof. assert (Q := hor_le X). nra. Qed.
Lemma w_small : w <= 1 / 100.
Proof. assert (Q := s_le_1). nra. Qed.
Lemma w_half : 0 <= w <= 1 / 2.
Proof. assert (Q := w_small). lra. Qed.
Lemma w_s : 100 * w <= s.
Proof. assert (Q := s_le_1). nra. Qed.
Theorem point_facts : 4 / 5 * s <= sin t /\ Rabs (g_sin G th' - sin t) <= 5 * w / (s * s) * sin t /\ pn (psub (polar r t ph') X) <= 28 * w / s * r.
Proof.
  assert (S1 := s_le_1). assert (W1 := w_small). assert (WH := w_half). assert (WS := w_s).
  assert (HX : exists a0 b0 z0 a b z, X = (a0, b0, z0) /\ v = [a; b; z] /\ Rabs (a - a0) <= w * Rabs a0 /\ Rabs (b - b0) <= w * Rabs b0 /\ Rabs (z - z0) <= w * Rabs z0).
  { destruct x as [|x1 [|x2 [|x3 [|]]]]; try discriminate. destruct c as [|y1 [|y2 [|y3 [|]]]]; try discriminate.
    exists (x1 - y1), (x2 - y2), (x3 - y3), (h_dif H x1 y1), (h_dif H x2 y2), (h_dif H x3 y3). split; [rewrite p3_sub by reflexivity; reflexivity|]. split; [reflexivity|].
    split; [|split]; apply (ah_dif _ _ _ HH). }
  destruct HX as (a0 & b0 & z0 & a & b & z & E0 & E1 & Da & Db & Dz).
  assert (VC := vdif_close w WH ky H HH x c Hx Hc). assert (PD := pn_diff X (p3 v)).
  assert (HC := hor_close X (p3 v) w ltac:(lra)). rewrite E0, E1 in HC. specialize (HC Da Db). rewrite <- E0, <- E1 in HC.
  set (rho := pn (p3 v)) in *. assert (RR : (1 - w) * r <= rho <= (1 + w) * r) by (assert (Q := Rle_trans _ _ _ PD VC); apply Rabs_le_between in Q; lra).
  set (h := sqrt (a * a + b * b)). set (th := atan2 h z). set (ph := atan2 b a).
  destruct (spherical_ok v ltac:(rewrite E1; reflexivity)) as (rr & th1 & ph1 & T1 & P1 & R1 & R0 & Sn). rewrite E1 in T1. unfold to_spherical in T1. cbn [vget nth] in T1.
  injection T1 as _ Eth Eph. fold h in Eth. fold th in Eth. fold ph in Eph. subst th1 ph1. fold rho in R1. subst rr.
  assert (Hv : hor (p3 v) = rho * sin th) by (rewrite P1; apply hor_polar; assumption).
  assert (Pr : 0 < rho) by nra.
  assert (ST : 98 / 100 * s <= sin th).
  { apply (Rmult_le_reg_l rho); [exact Pr|]. rewrite <- Hv. eapply Rle_trans; [|exact HC]. apply Rle_trans with ((1 - w) * (s * r)); [|apply Rmult_le_compat_l; lra].
    assert (Q : 98 / 100 * (1 + w) <= 1 - w) by lra. assert (PSR : 0 < s * r) by nra. nra. }
  destruct (seen_angle w kl Y HY v) as [CT ST0]. assert (CE := cos_error w WH kl Y HY a b z). fold h th in CE. rewrite <- E1, <- CT in CE.
  destruct (sin_by_cos th t Sn ST0) as [_ SB]. specialize (SB ltac:(lra)).
  assert (IS : / sin th <= / (98 / 100 * s)) by (apply Rinv_le_contravar; lra).
  assert (IW : w * / sin th <= 103 / 100 * w / s).
  { apply Rle_trans with (w * / (98 / 100 * s)); [apply Rmult_le_compat_l; [exact Hw0|exact IS]|]. replace (w * / (98 / 100 * s)) with (100 / 98 * (w / s)) by (field; lra).
    assert (Q : 0 <= w / s) by (apply Rmult_le_pos; [exact Hw0|left; apply Rinv_0_lt_compat; exact Hs0]). unfold Rdiv at 3. rewrite (Rmult_assoc (103 / 100)). fold (w / s). lra. }
  assert (WSS : w / s <= s / 100). { apply (Rmult_le_reg_r s); [exact Hs0|]. unfold Rdiv at 1. rewrite Rmult_assoc, Rinv_l, Rmult_1_r by lra. lra. }
  assert (D1 : Rabs (sin t - sin th) <= 145 / 1000 * s).
  { eapply Rle_trans; [exact SB|]. apply Rle_trans with (14 * (w * / sin th)).
    - unfold Rdiv. rewrite <- Rmult_assoc. apply Rmult_le_compat_r; [left; apply Rinv_0_lt_compat; lra|]. lra.
    - assert (103 / 100 * w / s = 103 / 100 * (w / s)) by (field; lra). lra. }
  assert (STT : 83 / 100 * s <= sin t) by (apply Rabs_le_between in D1; lra).
  split; [lra|]. split.
  - (* the sine *)
    assert (SP : 0 <= sin th').
    { rewrite E1. unfold angles_r. cbn [vget nth fst]. set (h' := y_hyp Y a b). assert (Ph : 0 <= h) by apply sqrt_pos.
      assert (Hh' : Rabs (h' - h) <= w * h). { assert (Q := at_hyp _ _ _ HY a b). unfold close in Q. fold h h' in Q. rewrite (Rabs_pos_eq h) in Q by exact Ph. exact Q. }
      apply Rabs_le_between in Hh'. assert (Q1 := proj2 (atan2_polar h' z)). assert (Q0 := proj2 (atan2_polar h z)). fold th in Q0.
      set (N' := sqrt (z * z + h' * h')) in *. set (N := sqrt (z * z + h * h)) in *. assert (PN : 0 <= N) by apply sqrt_pos. assert (PN' : 0 <= N') by apply sqrt_pos.
      assert (SN : N * N = z * z + h * h) by (apply sqrt_sqrt; nra). assert (SN' : N' * N' = z * z + h' * h') by (apply sqrt_sqrt; nra).
      assert (Phh : 0 < h). { assert (Q : h = rho * sin th). { rewrite <- Hv, E1. reflexivity. } rewrite Q. apply Rmult_lt_0_compat; lra. }
      assert (Ph' : 0 < h') by nra. assert (PPN : 0 < N) by nra. assert (PPN' : 0 < N') by nra.
      assert (LN : N' <= (1 + w) * N). { apply Rsqr_incr_0_var; [|nra]. unfold Rsqr. replace ((1 + w) * N * ((1 + w) * N)) with ((1 + w) * (1 + w) * (N * N)) by ring. rewrite SN, SN'.
        assert (h' * h' <= (1 + w) * h * ((1 + w) * h)) by (apply Rmult_le_compat; lra). assert (0 <= z * z) by apply Rle_0_sqr. nra. }
      set (sa := sin (atan2 h' z)) in *. set (sb := sin th) in *.
      assert (SA : 9 / 10 * s <= sa).
      { apply (Rmult_le_reg_l N'); [exact PPN'|]. rewrite Q1. assert (A1 : (1 - w) * (N * sb) <= h') by (rewrite Q0; lra). assert (A2 : N' * (9 / 10 * s) <= (1 + w) * N * (9 / 10 * s)) by (apply Rmult_le_compat_r; lra).
        assert (A3 : (1 + w) * (9 / 10 * s) <= (1 - w) * sb) by nra. nra. }
      assert (TT := at_atan2 _ _ _ HY h' z). unfold close in TT. assert (RG := atan2_range h' z). assert (P4 := PI_4). assert (TB : Rabs (atan2 h' z) <= 4) by (apply Rabs_le; lra).
      assert (TT2 : Rabs (y_atan2 Y h' z - atan2 h' z) <= 4 * w) by (assert (w * Rabs (atan2 h' z) <= w * 4) by (apply Rmult_le_compat_l; lra); lra).
      assert (SM := Rle_trans _ _ _ (sin_move (y_atan2 Y h' z) (atan2 h' z)) TT2). fold sa in SM. apply Rabs_le_between in SM. lra. }
    assert (CC := proj1 (at_cos _ _ _ HY th')). unfold close in CC. assert (CB : Rabs (cos th') <= 1) by (apply Rabs_le; apply COS_bound).
    assert (CC2 : Rabs (cos th' - cos t) <= w). { rewrite CT, Rabs_minus_sym. eapply Rle_trans; [exact CC|]. rewrite <- (Rmult_1_r w) at 2. apply Rmult_le_compat_l; assumption. }
    destruct (sin_by_cos t th' ST0 SP) as [_ SB2]. specialize (SB2 ltac:(lra)).
    set (st := sin t) in *. set (sq := sin th') in *.
    assert (IT : / st <= 3 / 2 * / (s * s) * st).
    { apply (Rmult_le_reg_r (s * s * st)); [apply Rmult_lt_0_compat; nra|]. replace (/ st * (s * s * st)) with (s * s) by (field; lra).
      replace (3 / 2 * / (s * s) * st * (s * s * st)) with (3 / 2 * (st * st)) by (field; lra). nra. }
    assert (A1 : Rabs (sq - st) <= 3 * w * / (s * s) * st).
    { eapply Rle_trans; [exact SB2|]. apply Rle_trans with (2 * w * / st); [unfold Rdiv; apply Rmult_le_compat_r; [left; apply Rinv_0_lt_compat; lra|lra]|].
      apply Rle_trans with (2 * w * (3 / 2 * / (s * s) * st)); [apply Rmult_le_compat_l; lra|]. right. field. lra. }
    assert (GS := ag_sin _ _ _ _ HG th'). unfold close in GS. fold sq in GS. rewrite (Rabs_pos_eq sq) in GS by exact SP.
    assert (PI2 : 1 <= / (s * s)). { rewrite <- Rinv_1. apply Rinv_le_contravar; nra. }
    replace (g_sin G th' - st) with ((g_sin G th' - sq) + (sq - st)) by ring. eapply Rle_trans; [apply Rabs_triang|].
    set (I := / (s * s)) in *. assert (WI : w * I <= 1 / 100). { unfold I. apply (Rmult_le_reg_r (s * s)); [nra|]. rewrite Rmult_assoc, Rinv_l by nra. lra. }
    assert (PWI : w <= w * I) by nra. apply Rabs_le_between in A1 as A2.
    assert (A3 : w * sq <= w * (st + 3 * (w * I) * st)). { apply Rmult_le_compat_l; lra. }
    assert (A4 : w * (st + 3 * (w * I) * st) <= 2 * (w * I) * st). { replace (w * (st + 3 * (w * I) * st)) with (w * st * (1 + 3 * (w * I))) by ring.
      assert (Q1 : w * st <= w * I * st) by (apply Rmult_le_compat_r; lra). assert (Q2 : 0 <= w * st) by (apply Rmult_le_pos; lra). nra. }
    unfold Rdiv. fold I. lra.
  - (* the direction *)
    destruct (seen_close w WH kl Y HY a b z) as [_ SC]. fold h th ph in SC. specialize (SC ltac:(lra)). rewrite <- E1 in SC. unfold seen in SC.
    set (D := polar 1 t ph') in *. set (V1 := polar 1 th ph) in *.
    assert (EV : p3 v = pscal rho V1) by (rewrite P1; apply polar_scal). assert (N1 : pn V1 = 1) by (apply polar_pn; lra).
    assert (EQ : psub (polar r t ph') X = padd (pscal r (psub D V1)) (padd (pscal (r - rho) V1) (psub (p3 v) X))).
    { rewrite polar_scal. fold D. rewrite EV. destruct D as [[d1 d2] d3], V1 as [[e1 e2] e3], X as [[f1 f2] f3]. unfold psub, padd, pscal, c1, c2, c3. cbn [fst snd]. f_equal; [f_equal|]; ring. }
    rewrite EQ. eapply Rle_trans; [apply pn_add|]. eapply Rle_trans; [apply Rplus_le_compat_l, pn_add|]. rewrite !pn_scal, N1, (Rabs_pos_eq r), Rmult_1_r by lra.
    assert (DR : Rabs (r - rho) <= w * r) by (apply Rabs_le; lra).
    assert (A1 : 25 * w / sin th <= 25 * (103 / 100 * w / s)). { unfold Rdiv at 1. rewrite Rmult_assoc. lra. }
    assert (A2 : w <= w / s). { unfold Rdiv. rewrite <- (Rmult_1_r w) at 1. apply Rmult_le_compat_l; [exact Hw0|]. rewrite <- Rinv_1. apply Rinv_le_contravar; lra. }
    assert (A3 : r * pn (psub D V1) <= r * (25 * (103 / 100 * w / s))) by (apply Rmult_le_compat_l; lra).
    replace (28 * w / s * r) with (r * (28 * (w / s))) by (field; lra). replace (r * (25 * (103 / 100 * w / s))) with (r * (2575 / 100 * (w / s))) in A3 by (field; lra).
    assert (A4 : w * r <= w / s * r) by (apply Rmult_le_compat_r; lra). nra.
Qed.

Lemma pow_count a n : a <= INR n * w -> a <= (1 + w) ^ n - 1.
Proof. intros Q. assert (P := poly_bern w n Hw0). lra. Qed.
Lemma sine_facts : 0 < sin t /\ rap K (g_sin G th') (sin t) 1 /\ g_sin G th' <> 0 /\ rap K (/ g_sin G th') (/ sin t) (/ sin t).
Proof.
  destruct point_facts as (P1 & P2 & _). assert (S1 := s_le_1). assert (Ps : 0 < sin t) by nra. set (st := sin t) in *. set (a := g_sin G th') in *.
  assert (SB : st <= 1) by apply SIN_bound. assert (PSS : 0 < s * s) by nra.
  assert (W1 : 5 * w / (s * s) <= 1 / 20). { apply (Rmult_le_reg_r (s * s)); [exact PSS|]. unfold Rdiv at 1. rewrite Rmult_assoc, Rinv_l by lra. lra. }
  assert (W2 : 2 * (5 * w / (s * s)) <= (1 + w) ^ K - 1).
  { apply pow_count. apply (Rmult_le_reg_r (s * s)); [exact PSS|]. replace (2 * (5 * w / (s * s)) * (s * s)) with (10 * w) by (field; lra). nra. }
  assert (W0 : 0 <= 5 * w / (s * s)) by (apply Rmult_le_pos; [lra|left; apply Rinv_0_lt_compat; exact PSS]). set (W := 5 * w / (s * s)) in *.
  split; [exact Ps|]. split.
  - split; [rewrite Cmod_R, Rabs_pos_eq; lra|]. rewrite <- RtoC_minus, Cmod_R. nra.
  - apply Rabs_le_between in P2 as P3. assert (Pa : 19 / 20 * st <= a) by nra. split; [lra|]. split; [rewrite Cmod_R, Rabs_pos_eq; [lra|left; apply Rinv_0_lt_compat; exact Ps]|].
    rewrite <- RtoC_minus, Cmod_R. replace (/ a - / st) with ((st - a) * (/ a * / st)) by (field; lra). rewrite Rabs_mult, (Rabs_minus_sym st).
    assert (IA : / a <= 20 / 19 * / st). { replace (20 / 19 * / st) with (/ (19 / 20 * st)) by (field; lra). apply Rinv_le_contravar; lra. }
    assert (PA : 0 < / a) by (apply Rinv_0_lt_compat; lra). assert (PT : 0 < / st) by (apply Rinv_0_lt_compat; lra).
    rewrite (Rabs_pos_eq (/ a * / st)) by (apply Rmult_le_pos; lra). apply Rle_trans with (W * st * (20 / 19 * / st * / st)).
    + apply Rmult_le_compat; [apply Rabs_pos|apply Rmult_le_pos; lra|exact P2|]. apply Rmult_le_compat_r; lra.
    + replace (W * st * (20 / 19 * / st * / st)) with (20 / 19 * W * / st) by (field; lra). apply Rmult_le_compat_r; lra.
Qed.
Lemma unit_rap y' y : close w y' y -> Rabs y <= 1 -> rap 1 y' y 1.
Proof. intros C1 C2. eapply (rap_weaken w w_half); [apply (rap_close0 w); exact C1|lia|exact C2]. Qed.
Lemma cart_ok F1 F2 F3 x1 x2 x3 S1 S2 S3 M : rap M F1 x1 S1 -> rap M F2 x2 S2 -> rap M F3 x3 S3 -> forall k, (k < 3)%nat ->
  rap (M + K + 5) (nth k (cartesian_basis_r G (F1, F2, F3) th' ph') 0) (x1 * cp k (e_r t ph') + x2 * cp k (e_th t ph') + x3 * cp k (e_ph ph')) (S1 + S2 + S3).
Proof.
  intros A1 A2 A3 k Hk. destruct sine_facts as (_ & ST & _ & _). destruct (seen_angle w kl Y HY v) as [CT _].
  assert (WH := w_half). assert (CTr : rap 0 (y_cos Y th') (cos t) 1). { rewrite CT. apply (rap_exact w WH). apply Rabs_le. apply (at_cos _ _ _ HY). }
  assert (SP := unit_rap _ _ (ag_sin _ _ _ _ HG ph') ltac:(apply Rabs_le; apply SIN_bound)).
  assert (CP := unit_rap _ _ (proj1 (at_cos _ _ _ HY ph')) ltac:(apply Rabs_le; apply COS_bound)).
  assert (Z1 : 0 <= S1) by exact (ap_nonneg w _ _ _ _ A1). assert (Z2 : 0 <= S2) by exact (ap_nonneg w _ _ _ _ A2). assert (Z3 : 0 <= S3) by exact (ap_nonneg w _ _ _ _ A3).
  assert (PR := rap_prod w WH ky kl G HG). assert (SU := rap_sum w WH ky kl G HG). assert (DI := rap_difference w WH ky kl G HG).
  assert (Q1 := PR _ _ (M + K + 1)%nat _ _ _ _ _ _ ST A1 ltac:(lia)). assert (Q2 := PR _ _ (M + K + 1)%nat _ _ _ _ _ _ CTr A2 ltac:(lia)).
  assert (Qa := SU _ _ _ _ _ _ _ Q1 Q2).
  assert (Q3 := PR _ _ (M + K + 4)%nat _ _ _ _ _ _ CP Qa ltac:(lia)). assert (Q4 := PR _ _ (M + K + 4)%nat _ _ _ _ _ _ SP A3 ltac:(lia)).
  assert (Q5 := PR _ _ (M + K + 4)%nat _ _ _ _ _ _ SP Qa ltac:(lia)). assert (Q6 := PR _ _ (M + K + 4)%nat _ _ _ _ _ _ CP A3 ltac:(lia)).
  assert (Q7 := PR _ _ (M + K + 4)%nat _ _ _ _ _ _ CTr A1 ltac:(lia)). assert (Q8 := PR _ _ (M + K + 4)%nat _ _ _ _ _ _ ST A2 ltac:(lia)).
  unfold cartesian_basis_r. cbn [fst snd]. unfold e_r, e_th, e_ph, polar. destruct k as [|[|[|]]]; [| | |lia]; cbn [nth cp]; unfold c1, c2, c3; cbn [fst snd].
  - match goal with |- RoundedHarmonics.rap _ _ _ ?z _ => replace z with (cos ph' * (sin t * x1 + cos t * x2) - sin ph' * x3) by ring end.
    eapply (rap_weaken w WH); [exact (DI _ _ _ _ _ _ _ Q3 Q4)|lia|lra].
  - match goal with |- RoundedHarmonics.rap _ _ _ ?z _ => replace z with (sin ph' * (sin t * x1 + cos t * x2) + cos ph' * x3) by ring end.
    eapply (rap_weaken w WH); [exact (SU _ _ _ _ _ _ _ Q5 Q6)|lia|lra].
  - match goal with |- RoundedHarmonics.rap _ _ _ ?z _ => replace z with (cos t * x1 - sin t * x2) by ring end.
    eapply (rap_weaken w WH); [exact (DI _ _ _ _ _ _ _ Q7 Q8)|lia|lra].
Qed.

(** The point seen by the code. *)
Notation D := (polar r t ph').
Notation D1 := (polar 1 t ph').
Section Core.
Variables (p : Z) (f : Z -> Z -> C) (n0 : Z) (acc : R -> R -> R) (sg : R) (wt om : Z -> R) (next : R -> outcome R) (Rf g : nat -> R) (cc : nat).
Hypothesis Hacc : forall y z, acc y z = y + sg * z.
Hypothesis Hsg : sg = 1 \/ sg = -1.
Hypothesis Hn : forall n, next (Rf n) = Ok (Rf (S n)).
Hypothesis Hg0 : forall n, 0 <= g n.
Hypothesis Hg : forall n, (n <= Z.to_nat p)%nat -> rap cc (Rf n) (g n) (g n).
Hypothesis Hwt : forall n, (n0 <= n)%Z -> 0 <= wt n <= om n /\ IZR n <= om n.
Hypothesis Hp : (0 <= n0 <= p + 1)%Z.
Hypothesis Hp0 : (0 <= p)%Z.
Definition gradient_term (k : nat) (n m : Z) : C :=
  (f n m * (RtoC (g (Z.to_nat (n - n0))) * (RtoC (cp k (e_r t ph')) * (RtoC (sg * wt n) * Yr D1 n m) + RtoC (cp k (e_th t ph')) * dYr (e_th t ph') D1 n m +
     RtoC (cp k (e_ph ph')) * (Ci * RtoC (IZR m) * Yr D1 n m * RtoC (/ sin t)))))%C.
Lemma force_core : exists ty td F, ylm_deriv_table_r G p th' ph' = Ok (ty, td) /\ force_sum_r G (s3_of p c f) (ty, td) th' n0 acc wt (Rf 0%nat) next = Ok F /\
  forall k, (k < 3)%nat -> Rabs (nth k (cartesian_basis_r G F th' ph') 0 - Re (lsum (fun n => lsum (fun m => gradient_term k n m) (zrange (- n) n)) (zrange n0 p))) <=
    ((1 + w) ^ (cc + (kl + 6) * (Z.to_nat p + 1) + K + 6 + Z.to_nat ((p + 1) * (p + 1)) + K + 5) - 1) *
      (5 / s * rsum (fun n => rsum (fun m => Cmod (f n m) * (g (Z.to_nat (n - n0)) * om n)) (zrange (- n) n)) (zrange n0 p)).
Proof.
  assert (WH := w_half). destruct sine_facts as (Ps & _ & NZ & IR). destruct (seen_angle w kl Y HY v) as [CT _]. destruct point_facts as (SL & _ & _). assert (S1 := s_le_1).
  assert (CN : Rabs (y_cos Y th') <> 1).
  { rewrite <- CT. intros E. assert (Q := sin2_cos2 t). unfold Rsqr in Q. assert (Q2 : cos t * cos t = 1). { rewrite <- (Rabs_pos_eq (cos t * cos t)) by apply Rle_0_sqr. rewrite Rabs_mult, E. ring. } nra. }
  destruct (deriv_table_r_ok G p th' ph' CN Hp0) as (ty & td & ET & HY1 & HY2). exists ty, td.
  set (a := ((kl + 6) * (Z.to_nat p + 1))%nat).
  assert (AY : forall n m, (Z.abs m <= n)%Z -> (n <= p)%Z -> ap a (gentry G (fun l m => y_leg Y l m (y_cos Y th')) ph' n m) (Yr D1 n m) 1).
  { intros n m Hm Hl. eapply ap_weaken; [exact WH|apply (Y_entry w WH ky kl G HG th' ph' t); [exact Ps|exact CT|exact Hm]| |apply Rle_refl]. apply Nat.mul_le_mono_l. lia. }
  assert (AD : forall n m, (Z.abs m <= n)%Z -> (n <= p)%Z -> ap a (gentry G (fun l m => g_dleg G l m (y_cos Y th')) ph' n m) (dYr (e_th t ph') D1 n m) (2 * IZR n)).
  { intros n m Hm Hl. eapply ap_weaken; [exact WH|apply (dY_entry w WH ky kl G HG th' ph' t); [exact Ps|apply acos_bound|exact CT|exact Hm]| |apply Rle_refl]. apply Nat.mul_le_mono_l. lia. }
  destruct (force_sum_r_ok w WH ky kl G HG p c f ty td _ _ _ _ a cc K th' t n0 acc sg wt next Rf g HY1 HY2 AY AD NZ IR Hacc Hsg Hn Hg (fun n Q => proj1 (proj1 (Hwt n Q))) Hp)
    as (F1 & F2 & F3 & EF & B1 & B2 & B3). cbv beta in B1, B2, B3.
  exists (F1, F2, F3). split; [exact ET|]. split; [exact EF|]. intros k Hk. assert (CK := cart_ok _ _ _ _ _ _ _ _ _ _ B1 B2 B3 k Hk). destruct CK as [_ CK]. rewrite <- RtoC_minus, Cmod_R in CK.
  match type of CK with Rabs (_ - ?u) <= _ * ?S0 => assert (EU : u = Re (lsum (fun n => lsum (fun m => gradient_term k n m) (zrange (- n) n)) (zrange n0 p))); [|assert (ES : S0 <= 5 / s * rsum (fun n => rsum (fun m => Cmod (f n m) * (g (Z.to_nat (n - n0)) * om n)) (zrange (- n) n)) (zrange n0 p))] end.
  - rewrite !(Rmult_comm (Re _)), <- !Exp3Forces.Re_scal, <- !Exp3Forces.Re_plus. f_equal.
    rewrite <- !lsum_scal, <- !lsum_plus. apply lsum_ext. intros n Hin. rewrite <- !lsum_scal, <- !lsum_plus. apply lsum_ext. intros m Hm. unfold gradient_term. ring.
  - rewrite <- rsum_scal, <- !rsum_plus. apply rsum_le. intros n Hin. apply in_zrange in Hin. rewrite <- rsum_scal, <- !rsum_plus. apply rsum_le. intros m Hm. apply in_zrange in Hm.
    destruct (Hwt n ltac:(lia)) as [O1 O2]. assert (G0 := Hg0 (Z.to_nat (n - n0))). set (gg := g (Z.to_nat (n - n0))) in *. assert (C0 := Cmod_ge_0 (f n m)). set (cf := Cmod (f n m)) in *.
    assert (I1 : / sin t <= 5 / 4 * / s). { replace (5 / 4 * / s) with (/ (4 / 5 * s)) by (field; lra). apply Rinv_le_contravar; lra. }
    assert (I2 : 1 <= / s). { rewrite <- Rinv_1. apply Rinv_le_contravar; lra. } assert (I3 : 0 < / sin t) by (apply Rinv_0_lt_compat; exact Ps).
    assert (N0 : 0 <= IZR n) by (apply IZR_le; lia). assert (PG : 0 <= gg * cf) by (apply Rmult_le_pos; assumption).
    assert (T1 : gg * (wt n * cf) <= gg * cf * om n) by nra. assert (T2 : gg * (2 * IZR n * cf) <= 2 * (gg * cf * om n)) by nra.
    assert (T3 : gg * (IZR n * cf) * / sin t <= gg * cf * om n * (5 / 4 * / s)). { apply Rmult_le_compat; [|lra| |exact I1]; [apply Rmult_le_pos; [exact G0|apply Rmult_le_pos; assumption]|nra]. }
    assert (T4 : 0 <= gg * cf * om n) by (apply Rmult_le_pos; lra). unfold Rdiv. replace (5 * / s * (cf * (gg * om n))) with (gg * cf * om n * (5 * / s)) by ring.
    set (u := gg * cf * om n) in *. assert (T5 : u <= u * / s) by nra. lra.
  - rewrite EU in CK. eapply Rle_trans; [exact CK|]. apply Rmult_le_compat; [|exact (ap_nonneg w _ _ _ _ (cart_ok _ _ _ _ _ _ _ _ _ _ B1 B2 B3 k Hk))| |exact ES].
    + assert (Q := pw_ge1 w WH (cc + a + K + 6 + Z.to_nat ((p + 1) * (p + 1)) + K + 5)). lra.
    + fold a. apply Rle_refl.
Qed.
End Core.

Definition moved : list R := [vget c 0 + c1 D; vget c 1 + c2 D; vget c 2 + c3 D].
Lemma moved_p3 : p3 (vsub moved c) = D.
Proof.
  rewrite p3_sub by (try reflexivity; exact Hc). unfold moved. generalize D. intros [[d1 d2] d3]. unfold psub, p3, c1, c2, c3. cbn [fst snd vget nth]. apply f_equal2; [apply f_equal2; ring|ring].
Qed.
Lemma moved_off : Exp3Forces.off_axis (p3 (vsub moved c)).
Proof.
  rewrite moved_p3. destruct sine_facts as (Ps & _). unfold Exp3Forces.off_axis, polar, c1, c2. cbn [fst snd].
  assert (Q := sin2_cos2 ph'). unfold Rsqr in Q. assert (RS : 0 < r * sin t) by (apply Rmult_lt_0_compat; assumption).
  destruct (Req_dec (cos ph') 0) as [E|N]; [right|left]; [|apply Rmult_integral_contrapositive_currified; lra].
  apply Rmult_integral_contrapositive_currified; [lra|]. intros E2. rewrite E, E2 in Q. lra.
Qed.
Section Expansion.
Variables (p : Z) (f : Z -> Z -> C).
Hypothesis Hp0 : (0 <= p)%Z.
Notation e := (s3_of p c f).
Lemma weighted_of g : weighted e g = rsum (fun n => rsum (fun m => Cmod (f n m) * g n) (zrange (- n) n)) (zrange 0 p).
Proof.
  unfold weighted. cbn [s3_ord s3_of]. apply rsum_ext. intros n Hin. apply in_zrange in Hin. apply rsum_ext. intros m Hm. apply in_zrange in Hm. unfold coef. fold e. rewrite s3_of_get by lia. reflexivity.
Qed.
Lemma count_ok cc : (cc <= 5 * Z.to_nat p + 8)%nat -> forall W, 0 <= W ->
  ((1 + w) ^ (cc + (kl + 6) * (Z.to_nat p + 1) + K + 6 + Z.to_nat ((p + 1) * (p + 1)) + K + 5) - 1) * W <= ((1 + w) ^ force_roundings kl K (Z.to_nat p) - 1) * W.
Proof.
  intros Hcc W HW. apply Rmult_le_compat_r; [exact HW|]. assert (Q := pw_mono w w_half (cc + (kl + 6) * (Z.to_nat p + 1) + K + 6 + Z.to_nat ((p + 1) * (p + 1)) + K + 5) (force_roundings kl K (Z.to_nat p))).
  assert (E : Z.to_nat ((p + 1) * (p + 1)) = ((Z.to_nat p + 1) * (Z.to_nat p + 1))%nat) by (rewrite Z2Nat.inj_mul, Z2Nat.inj_add by lia; reflexivity).
  apply Rplus_le_compat_r. apply Q. unfold force_roundings. rewrite E. nia.
Qed.
Theorem le3_force_r_ok : exists F' F, le3_force_r G e x = Ok F' /\ le3_force e moved = Ok F /\
  forall k, (k < 3)%nat -> Rabs (nth k F' 0 - nth k F 0) <= ((1 + w) ^ force_roundings kl K (Z.to_nat p) - 1) * (5 / s * weighted e (local_weight r)).
Proof.
  assert (WH := w_half). destruct sine_facts as (Ps & _). set (h := h_norm H v).
  assert (NR : rap 2 h r r) by (apply (norm_rap w WH ky H HH x c Hx Hc)).
  destruct (force_core p f 1 Rplus 1 IZR IZR (fun y => Ok (rnd (y * h))) (gpow 1 (fun a b => rnd (a * b)) h) (fun n => r ^ n) (3 * Z.to_nat p)) as (ty & td & F & ET & EF & BF).
  - intros y z. ring.
  - left. reflexivity.
  - reflexivity.
  - intros n. apply pow_le. lra.
  - intros n Hn. eapply (rap_weaken w WH); [apply (gpow_rap w WH ky H HH p); [lra|exact NR]|lia|apply Rle_refl].
  - intros n Hn. assert (0 <= IZR n) by (apply IZR_le; lia). lra.
  - lia.
  - exact Hp0.
  - exists (cartesian_basis_r G F th' ph'), (map (fun k => Re (lgrad3 p f (bv k) (p3 (vsub moved c)))) (seq 0 3)). split; [|split].
    + unfold le3_force_r. cbn [s3_ctr s3_ord s3_of]. rewrite (surjective_pairing (angles_r Y v)). rewrite ET. cbn [bind]. fold h. fold e. cbn [gpow] in EF. rewrite EF. reflexivity.
    + apply le3_force_ok; [exact Hp0|exact Hc|reflexivity|apply moved_off].
    + intros k Hk. specialize (BF k Hk).
      replace (nth k (map (fun k => Re (lgrad3 p f (bv k) (p3 (vsub moved c)))) (seq 0 3)) 0) with (Re (lgrad3 p f (bv k) D)).
      2:{ rewrite moved_p3. destruct k as [|[|[|]]]; [reflexivity|reflexivity|reflexivity|lia]. }
      replace (lgrad3 p f (bv k) D) with (lsum (fun n => lsum (fun m => gradient_term f 1 1 IZR (fun n => r ^ n) k n m) (zrange (- n) n)) (zrange 1 p)).
      2:{ unfold lgrad3, lsum2. rewrite (zrange_cons 0 p) by lia. rewrite lsum_cons.
          replace (lsum (fun m => f 0%Z m * dYr (bv k) D 0 m)%C (zrange (- 0) 0)) with (RtoC 0).
          2:{ symmetry. apply lsum_all_zero. intros m _. rewrite dYr_zero. ring. }
          rewrite Cplus_0_l. change (0 + 1)%Z with 1%Z. apply lsum_ext. intros n Hn. apply in_zrange in Hn. apply lsum_ext. intros m Hm. rewrite dYr_frame by (try assumption; lia).
          unfold gradient_term. replace (Z.to_nat (n - 1)) with (Z.to_nat n - 1)%nat by lia. rewrite Rmult_1_l. ring. }
      eapply Rle_trans; [exact BF|].
      replace (rsum (fun n => rsum (fun m => Cmod (f n m) * (r ^ Z.to_nat (n - 1) * IZR n)) (zrange (- n) n)) (zrange 1 p)) with (weighted e (local_weight r)).
      2:{ rewrite weighted_of. rewrite (zrange_cons 0 p) by lia. rewrite rsum_cons. change (0 + 1)%Z with 1%Z.
          replace (rsum (fun m => Cmod (f 0%Z m) * local_weight r 0) (zrange (- 0) 0)) with 0 by (symmetry; change (zrange (- 0) 0) with [0%Z]; unfold local_weight; cbn [rsum fold_right map]; ring). rewrite Rplus_0_l.
          apply rsum_ext. intros n _. apply rsum_ext. intros m _. unfold local_weight. ring. }
      apply count_ok; [lia|]. apply Rmult_le_pos; [left; apply Rdiv_lt_0_compat; lra|]. rewrite weighted_of. apply rsum_nonneg. intros n Hn. apply in_zrange in Hn. apply rsum_nonneg. intros m _.
      apply Rmult_le_pos; [apply Cmod_ge_0|]. apply Rmult_le_pos; [apply IZR_le; lia|apply pow_le; lra].
Qed.
Theorem me3_force_r_ok : exists F' F, me3_force_r G e x = Ok F' /\ me3_force e moved = Ok F /\
  forall k, (k < 3)%nat -> Rabs (nth k F' 0 - nth k F 0) <= ((1 + w) ^ force_roundings kl K (Z.to_nat p) - 1) * (5 / s * weighted e (multipole_weight r)).
Proof.
  assert (WH := w_half). assert (W1 := w_small). destruct sine_facts as (Ps & _). set (h := h_norm H v).
  assert (NR : rap 2 h r r) by (apply (norm_rap w WH ky H HH x c Hx Hc)).
  assert (RG := norm_range w WH ky H HH x c Hx Hc). cbv zeta in RG. fold h in RG. destruct (inv_rap w WH h r Hr RG) as [NZ IV].
  assert (Q5 := rap_prod w WH ky kl G HG 2 2 5 _ _ _ _ _ _ NR NR ltac:(lia)). set (q := rnd (h * h)) in *.
  assert (R2 : 0 < r * r) by nra.
  assert (QC : Rabs (q - r * r) <= 6 * w * (r * r)).
  { destruct Q5 as [_ Q5]. rewrite <- RtoC_minus, Cmod_R in Q5. eapply Rle_trans; [exact Q5|]. apply Rmult_le_compat_r; [lra|]. replace ((1 + w) ^ 5 - 1) with (w * (5 + 10 * w + 10 * (w * w) + 5 * (w * w * w) + w * w * w * w)) by ring.
    assert (A1 : w * w <= 1 / 100 * w) by nra. assert (A0 : 0 <= w * w) by nra. assert (A2 : w * w * w <= 1 / 100 * w) by nra. assert (A3 : 0 <= w * w * w) by nra. assert (A4 : w * w * w * w <= 1 / 100 * w) by nra. nra. }
  apply Rabs_le_between in QC as QB. assert (Pq : 94 / 100 * (r * r) <= q) by nra.
  assert (QI : rap 7 (/ q) (/ (r * r)) (/ (r * r))).
  { assert (PI : 0 < / (r * r)) by (apply Rinv_0_lt_compat; exact R2). split; [rewrite Cmod_R, Rabs_pos_eq; lra|]. rewrite <- RtoC_minus, Cmod_R.
    replace (/ q - / (r * r)) with ((r * r - q) * (/ q * / (r * r))) by (field; lra). rewrite Rabs_mult, (Rabs_minus_sym (r * r)).
    assert (IA : / q <= 100 / 94 * / (r * r)). { replace (100 / 94 * / (r * r)) with (/ (94 / 100 * (r * r))) by (field; lra). apply Rinv_le_contravar; lra. }
    assert (PA : 0 < / q) by (apply Rinv_0_lt_compat; lra). rewrite (Rabs_pos_eq (/ q * / (r * r))) by (apply Rmult_le_pos; lra).
    apply Rle_trans with (6 * w * (r * r) * (100 / 94 * / (r * r) * / (r * r))).
    - apply Rmult_le_compat; [apply Rabs_pos|apply Rmult_le_pos; lra|exact QC|]. apply Rmult_le_compat_r; lra.
    - replace (6 * w * (r * r) * (100 / 94 * / (r * r) * / (r * r))) with (600 / 94 * w * / (r * r)) by (field; lra). apply Rmult_le_compat_r; [lra|].
      assert (PB := poly_bern w 7 Hw0). cbn [INR] in PB. lra. }
  assert (RI : rap 8 (rnd (1 / q)) (/ r * / r) (/ r * / r)).
  { replace (/ r * / r) with (/ (r * r)) by (field; lra). apply (rnd_rap w WH ky H HH). unfold Rdiv. rewrite Rmult_1_l. exact QI. }
  set (Rf := fun n => Nat.iter n (fun y => rnd (y / h)) (rnd (1 / q))).
  assert (PI : 0 < / r) by (apply Rinv_0_lt_compat; exact Hr).
  destruct (force_core p f 0 Rminus (-1) (fun n => IZR (n + 1)) (fun n => IZR (n + 1)) (fun y => rquot_r H y h) Rf (fun n => / r * / r * (/ r) ^ n) (5 * Z.to_nat p + 8)) as (ty & td & F & ET & EF & BF).
  - intros y z. ring.
  - right. reflexivity.
  - intros n. unfold rquot_r. destruct (Req_EM_T h 0); [contradiction|]. reflexivity.
  - intros n. apply Rmult_le_pos; [apply Rmult_le_pos; lra|apply pow_le; lra].
  - assert (GN : forall n, rap (5 * n + 8) (Rf n) (/ r * / r * (/ r) ^ n) (/ r * / r * (/ r) ^ n)).
    { induction n as [|n IH]; [cbn [Nat.mul Nat.add pow]; rewrite Rmult_1_r; exact RI|]. unfold Rf. cbn [Nat.iter]. replace (/ r * / r * (/ r) ^ S n) with (/ r * / r * (/ r) ^ n * / r) by (cbn; ring).
      eapply (rap_prod w WH ky kl G HG); [exact IH|exact IV|lia]. }
    intros n Hn. eapply (rap_weaken w WH); [apply GN|lia|apply Rle_refl].
  - intros n Hn. assert (0 <= IZR (n + 1)) by (apply IZR_le; lia). assert (IZR n <= IZR (n + 1)) by (apply IZR_le; lia). lra.
  - lia.
  - exact Hp0.
  - exists (cartesian_basis_r G F th' ph'), (map (fun k => Re (mgrad3 p f (bv k) (p3 (vsub moved c)))) (seq 0 3)). split; [|split].
    + unfold me3_force_r. cbn [s3_ctr s3_ord s3_of]. rewrite (surjective_pairing (angles_r Y v)). rewrite ET. cbn [bind]. fold h q. unfold rquot_r at 1. destruct (Req_EM_T q 0); [lra|]. cbn [bind].
      change (Rf 0%nat) with (rnd (1 / q)) in EF. rewrite EF. reflexivity.
    + apply me3_force_ok; [exact Hp0|exact Hc|reflexivity|apply moved_off].
    + intros k Hk. specialize (BF k Hk).
      replace (nth k (map (fun k => Re (mgrad3 p f (bv k) (p3 (vsub moved c)))) (seq 0 3)) 0) with (Re (mgrad3 p f (bv k) D)).
      2:{ rewrite moved_p3. destruct k as [|[|[|]]]; [reflexivity|reflexivity|reflexivity|lia]. }
      replace (mgrad3 p f (bv k) D) with (lsum (fun n => lsum (fun m => gradient_term f 0 (-1) (fun n => IZR (n + 1)) (fun n => / r * / r * (/ r) ^ n) k n m) (zrange (- n) n)) (zrange 0 p)).
      2:{ unfold mgrad3, lsum2. apply lsum_ext. intros n Hn. apply in_zrange in Hn. apply lsum_ext. intros m Hm. rewrite dM_frame by (try assumption; lia).
          unfold gradient_term. rewrite Z.sub_0_r. replace (-1 * IZR (n + 1)) with (- IZR (n + 1)) by ring. ring. }
      eapply Rle_trans; [exact BF|].
      replace (rsum (fun n => rsum (fun m => Cmod (f n m) * (/ r * / r * (/ r) ^ Z.to_nat (n - 0) * IZR (n + 1))) (zrange (- n) n)) (zrange 0 p)) with (weighted e (multipole_weight r)).
      2:{ rewrite weighted_of. apply rsum_ext. intros n Hn. apply in_zrange in Hn. apply rsum_ext. intros m _. unfold multipole_weight. rewrite Z.sub_0_r.
          replace (Z.to_nat (n + 2)) with (S (S (Z.to_nat n))) by lia. rewrite <- pow_inv. cbn [pow]. ring. }
      apply count_ok; [lia|]. apply Rmult_le_pos; [left; apply Rdiv_lt_0_compat; lra|]. rewrite weighted_of. apply rsum_nonneg. intros n Hn. apply in_zrange in Hn. apply rsum_nonneg. intros m _.
      apply Rmult_le_pos; [apply Cmod_ge_0|]. apply Rmult_le_pos; [apply IZR_le; lia|left; apply Rinv_0_lt_compat, pow_lt; lra].
Qed.
End Expansion.
End Point.
End Force.
