(** The three-dimensional force fields in double precision near the vertical line through the centre of the expansion. *)
From Coq Require Import Reals List Arith ZArith Lia Lra.
From Coquelicot Require Import Rcomplements Complex.
From Flocq Require Import Core.
From Verif Require Import Num Outcome Vec VecProofs Tables3D CAux Kernel3 Expansion2D Expansion3D Spherical SphericalProofs Harmonics3D Exp3Loops Exp3Theorems Exp3Forces
  RoundedFields RoundedSpec RoundedCases RoundedPairCases RoundedExpansion2D RoundedExpansion3D RoundedHarmonicTable RoundedTableSpec RoundedTable RoundedTableCases RoundedForce3D.
Import ListNotations.
Local Open Scope R_scope.

Lemma round_mono a b : a <= b -> double_round a <= double_round b.
Proof. intros H. apply round_le; [apply FLX_exp_valid; reflexivity|apply valid_rnd_N|exact H]. Qed.
Lemma round_mag x : Rabs (double_round x) <= (1 + / 9007199254740992) * Rabs x.
Proof. assert (D := double_accurate x). assert (T := Rabs_triang (double_round x - x) x). replace (double_round x - x + x) with (double_round x) in T by ring. lra. Qed.
(** The cosine of the polar angle is rounded to one or to minus one. *)
Lemma cone_cos Y a b z : (forall x y, y_hyp Y x y = double_round (sqrt (x * x + y * y))) -> (forall y x, y_atan2 Y y x = double_round (atan2 y x)) ->
  (forall t, y_cos Y t = double_round (cos t)) -> z <> 0 -> sqrt (a * a + b * b) <= / 268435456 * Rabs z ->
  Rabs (y_cos Y (fst (angles_r Y [double_round a; double_round b; double_round z]))) = 1.
Proof.
  intros HH HT HC Hz0 Hc. unfold angles_r. cbn [vget nth fst]. rewrite HC, HT, HH. assert (Hz := Rabs_pos_lt _ Hz0).
  set (u := / 9007199254740992). set (k := 1 + u). assert (Pk : 1 <= k <= 1001 / 1000) by (unfold k, u; lra).
  assert (PS := sqrt_pos (a * a + b * b)). assert (SS := sqrt_sqrt (a * a + b * b) ltac:(nra)). set (h := sqrt (a * a + b * b)) in *.
  assert (Da : double_round a * double_round a <= k * k * (a * a)).
  { assert (Q := round_mag a). fold u k in Q. assert (Q2 := Rmult_le_compat _ _ _ _ (Rabs_pos _) (Rabs_pos _) Q Q). rewrite <- !Rabs_mult in Q2.
    rewrite (Rabs_pos_eq (double_round a * double_round a)) in Q2 by apply Rle_0_sqr. replace (k * Rabs a * (k * Rabs a)) with (k * k * Rabs (a * a)) in Q2 by (rewrite Rabs_mult; ring).
    rewrite (Rabs_pos_eq (a * a)) in Q2 by apply Rle_0_sqr. exact Q2. }
  assert (Db : double_round b * double_round b <= k * k * (b * b)).
  { assert (Q := round_mag b). fold u k in Q. assert (Q2 := Rmult_le_compat _ _ _ _ (Rabs_pos _) (Rabs_pos _) Q Q). rewrite <- !Rabs_mult in Q2.
    rewrite (Rabs_pos_eq (double_round b * double_round b)) in Q2 by apply Rle_0_sqr. replace (k * Rabs b * (k * Rabs b)) with (k * k * Rabs (b * b)) in Q2 by (rewrite Rabs_mult; ring).
    rewrite (Rabs_pos_eq (b * b)) in Q2 by apply Rle_0_sqr. exact Q2. }
  set (h1 := sqrt (double_round a * double_round a + double_round b * double_round b)). assert (P1 : 0 <= h1) by apply sqrt_pos.
  assert (L1 : h1 <= k * h). { rewrite <- (sqrt_square (k * h)) by nra. apply sqrt_le_1_alt. replace (k * h * (k * h)) with (k * k * (h * h)) by ring. rewrite SS. nra. }
  assert (L2 := round_mag h1). fold u k in L2. rewrite (Rabs_pos_eq h1) in L2 by exact P1. set (h2 := double_round h1) in *.
  assert (P2 : 0 <= h2). { unfold h2. apply Rle_trans with (double_round 0); [rewrite RoundedPairCases.round_0; lra|]. apply round_mono. exact P1. }
  rewrite (Rabs_pos_eq h2) in L2 by exact P2.
  assert (Dz := double_accurate z). fold u in Dz. set (z1 := double_round z) in *.
  assert (SZ : 0 < z * z1 /\ 999 / 1000 * Rabs z <= Rabs z1).
  { unfold u in Dz. apply Rabs_le_between in Dz. destruct (Rle_lt_dec 0 z) as [Pz|Nz]; [rewrite (Rabs_pos_eq z) in * by lra|rewrite (Rabs_left z) in * by lra].
    - split; [nra|]. rewrite Rabs_pos_eq; lra.
    - split; [nra|]. rewrite Rabs_left; lra. }
  destruct SZ as [SZ Pz].
  assert (X : h2 <= 1004 / 1000 * / 268435456 * Rabs z1) by nra. set (d := 1004 / 1000 * / 268435456) in *.
  assert (AT : 0 < Rabs z1 -> 0 <= atan (h2 / Rabs z1) <= d).
  { intros PZ. destruct (Req_dec h2 0) as [->|N]; [unfold Rdiv; rewrite Rmult_0_l, atan_0; unfold d; lra|].
    assert (Q : 0 < h2 / Rabs z1) by (apply Rdiv_lt_0_compat; lra). assert (W := atan_le _ Q). split; [lra|]. apply Rle_trans with (h2 / Rabs z1); [lra|].
    apply (Rmult_le_reg_r (Rabs z1)); [lra|]. unfold Rdiv. rewrite Rmult_assoc, Rinv_l, Rmult_1_r by lra. exact X. }
  unfold atan2. destruct (Rlt_dec 0 z1) as [Pz1|Nz1].
  - rewrite (Rabs_pos_eq z1) in AT by lra. specialize (AT Pz1). rewrite round_cos_1; [apply Rabs_R1|].
    assert (Q := double_accurate (atan (h2 / z1))). fold u in Q. rewrite (Rabs_pos_eq (atan (h2 / z1))) in Q by lra. apply Rabs_le_between in Q. unfold d in AT. apply Rabs_le. unfold u in Q. lra.
  - destruct (Rlt_dec z1 0) as [Lz|Gz]; [|exfalso; replace z1 with 0 in SZ by lra; lra]. rewrite (Rabs_left z1) in AT by lra. specialize (AT ltac:(lra)).
    destruct (Rle_dec 0 h2); [|lra]. replace (h2 / - z1) with (- (h2 / z1)) in AT by (field; lra). rewrite atan_opp in AT. set (g := atan (h2 / z1)) in *.
    assert (Q := double_accurate (g + PI)). fold u in Q. assert (PB := PI_4). assert (PL := PI2_1). rewrite (Rabs_pos_eq (g + PI)) in Q by (unfold d in AT; lra). set (t := double_round (g + PI)) in *.
    assert (T : Rabs (t - PI) <= / 134217728). { apply Rabs_le_between in Q. apply Rabs_le. unfold d in AT. unfold u in Q. lra. }
    replace (cos t) with (- cos (t - PI)). 2:{ rewrite cos_minus, cos_PI, sin_PI. ring. }
    unfold double_round. rewrite round_NE_opp. fold (double_round (cos (t - PI))). rewrite round_cos_1 by exact T. rewrite Rabs_Ropp. apply Rabs_R1.
Qed.
Theorem cone_forces G e x1 x2 x3 a b c : (forall x y, h_dif (g_h G) x y = double_round (x - y)) ->
  (forall x y, y_hyp (g_y G) x y = double_round (sqrt (x * x + y * y))) -> (forall y x, y_atan2 (g_y G) y x = double_round (atan2 y x)) ->
  (forall t, y_cos (g_y G) t = double_round (cos t)) -> s3_ctr e = [a; b; c] -> x3 <> c -> sqrt ((x1 - a) * (x1 - a) + (x2 - b) * (x2 - b)) <= / 268435456 * Rabs (x3 - c) ->
  me3_force_r G e [x1; x2; x3] = NonFinite /\ le3_force_r G e [x1; x2; x3] = NonFinite.
Proof.
  intros HD HH HT HC Ec Hz Hs. assert (C := cone_cos (g_y G) (x1 - a) (x2 - b) (x3 - c) HH HT HC ltac:(lra) Hs).
  unfold me3_force_r, le3_force_r. rewrite Ec. replace (vdif_r (g_h G) [x1; x2; x3] [a; b; c]) with [double_round (x1 - a); double_round (x2 - b); double_round (x3 - c)].
  2:{ unfold vdif_r. cbn. rewrite !HD. reflexivity. }
  destruct (angles_r (g_y G) [double_round (x1 - a); double_round (x2 - b); double_round (x3 - c)]) as [th ph]. cbn [fst] in C.
  unfold ylm_deriv_table_r. rewrite C. destruct (Req_EM_T 1 1) as [_|N]; [split; reflexivity|]. exfalso. apply N. reflexivity.
Qed.
Theorem cone_exact p e x1 x2 x3 a b c : wf3 p e -> s3_ctr e = [a; b; c] -> x1 <> a \/ x2 <> b -> exists F G, me3_force e [x1; x2; x3] = Ok F /\ le3_force e [x1; x2; x3] = Ok G.
Proof.
  intros W Ec Hn. destruct (wf3_form p e W) as [f ->]. cbn [s3_ctr s3_of] in Ec. rewrite Ec.
  assert (O : Exp3Forces.off_axis (p3 (vsub [x1; x2; x3] [a; b; c]))).
  { unfold Exp3Forces.off_axis, p3, vsub, c1, c2. cbn. destruct Hn as [H|H]; [left|right]; intros E; apply H; lra. }
  do 2 eexists. split; [apply me3_force_ok|apply le3_force_ok]; try reflexivity; try lia; exact O.
Qed.
