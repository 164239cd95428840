(** Error bounds of the direct sums in IEEE doubles. *)
From Coq Require Import Reals List Bool ZArith Arith Lia Lra.
From Flocq Require Import Core BinarySingleNaN PrimFloat.
From Verif Require Import Num Outcome Vec CAux Fields FieldSpec FieldProofs RoundedFields RoundedSpec RoundedProofs RoundedCases RoundedTree FloatCases FloatFit FloatGeometry FloatSpec FloatBridge
  FloatFields FloatFieldsSpec FloatFieldsProofs.
From Coq Require Import Floats.
Import ListNotations.
Local Open Scope R_scope.

Lemma real_sources_dim d srcs : moderate_sources d srcs -> same_dim d (map real_src srcs).
Proof. intros H s S. apply in_map_iff in S. destruct S as (s' & <- & S). cbn [real_src ps_pos]. rewrite map_length. apply (H s' S). Qed.
Lemma norm_weaken e e' hyp : e <= e' -> accurate_norm e hyp -> accurate_norm e' hyp.
Proof. intros L H v. eapply Rle_trans; [apply H|]. apply Rmult_le_compat_r; [apply sqrt_pos|exact L]. Qed.
Lemma ln_accurate e : 0 <= e -> accurate_log e ln.
Proof. intros E r _. rewrite Rminus_eq_0, Rabs_R0. apply Rmult_le_pos; [exact E|apply Rabs_pos]. Qed.
Notation u53 := (/ 9007199254740992).

Theorem space_potential_doubles hypF hyp lgF e grav safe srcs x : 0 <= e <= / 1000 -> norm_of 3 hypF hyp -> accurate_norm e hyp ->
  moderate 3 x -> moderate_sources 3 srcs -> evaluable safe (map real_of x) (map real_src srcs) -> (Z.of_nat (length srcs) <= 9007199254740992)%Z ->
  let v := potential_sumF hypF lgF 3 grav safe srcs x in let away := others (map real_of x) (map real_src srcs) in
  PrimFloat.is_finite v = true /\
  Rabs (real_of v - direct_potential 3 grav away (map real_of x)) <=
    ((1 + u53) ^ (length srcs + 1) / ((1 - e) * (1 - u53)) - 1) * rsum (fun s => Rabs (ps_q s) / dist (ps_pos s) (map real_of x)) away.
Proof.
  intros E HN HA MX MS EV NS v away.
  destruct (potential_sum_real 3 hypF hyp lgF ln grav safe ltac:(lia) HN (norm_weaken _ _ _ (proj2 E) HA) ltac:(discriminate) x MX srcs MS EV NS) as [F R].
  split; [exact F|].
  destruct (space_potential_error double_round hyp ln u53 e grav safe (map real_src srcs) (rv x) ltac:(lra) ltac:(lra) double_accurate HA (ln_accurate e (proj1 E))) as (w & W & B).
  - rewrite map_length. apply MX.
  - apply real_sources_dim, MS.
  - apply (moderate_representable 3), MX.
  - exact EV.
  - rewrite R in W. injection W as <-. rewrite map_length in B. exact B.
Qed.
Theorem plane_potential_doubles hypF hyp lgF lg e grav safe srcs x : 0 <= e <= / 1000 -> norm_of 2 hypF hyp -> accurate_norm e hyp -> log_of lgF lg -> accurate_log e lg ->
  moderate 2 x -> moderate_sources 2 srcs -> evaluable safe (map real_of x) (map real_src srcs) -> (Z.of_nat (length srcs) <= 9007199254740992)%Z ->
  let v := potential_sumF hypF lgF 2 grav safe srcs x in let away := others (map real_of x) (map real_src srcs) in
  PrimFloat.is_finite v = true /\
  Rabs (real_of v - direct_potential 2 grav away (map real_of x)) <=
    ((1 + u53) ^ (length srcs + 1) * (1 + e) - 1) * rsum (fun s => Rabs (ps_q s) * Rabs (ln (dist (ps_pos s) (map real_of x)))) away
    + (1 + u53) ^ (length srcs + 1) * (1 + e) * - ln ((1 - e) * (1 - u53)) * abs_charge away.
Proof.
  intros E HN HA HL AL MX MS EV NS v away.
  destruct (potential_sum_real 2 hypF hyp lgF lg grav safe ltac:(lia) HN (norm_weaken _ _ _ (proj2 E) HA) (fun _ => HL) x MX srcs MS EV NS) as [F R].
  split; [exact F|].
  destruct (plane_potential_error double_round hyp lg u53 e grav safe (map real_src srcs) (rv x) ltac:(lra) ltac:(lra) double_accurate HA AL) as (w & W & B).
  - rewrite map_length. apply MX.
  - apply real_sources_dim, MS.
  - apply (moderate_representable 2), MX.
  - exact EV.
  - rewrite R in W. injection W as <-. rewrite map_length in B. exact B.
Qed.
Theorem million_doubles hypF hyp lgF e grav safe srcs x : 0 <= e <= / 4503599627370496 -> norm_of 3 hypF hyp -> accurate_norm e hyp ->
  moderate 3 x -> moderate_sources 3 srcs -> evaluable safe (map real_of x) (map real_src srcs) -> (Z.of_nat (length srcs) <= 1048576)%Z ->
  let v := potential_sumF hypF lgF 3 grav safe srcs x in let away := others (map real_of x) (map real_src srcs) in
  PrimFloat.is_finite v = true /\
  Rabs (real_of v - direct_potential 3 grav away (map real_of x)) <= / 4294967296 * rsum (fun s => Rabs (ps_q s) / dist (ps_pos s) (map real_of x)) away.
Proof.
  intros E HN HA MX MS EV NS v away. assert (E2 : 0 <= e <= / 1000) by lra.
  destruct (potential_sum_real 3 hypF hyp lgF ln grav safe ltac:(lia) HN (norm_weaken _ _ _ (proj2 E2) HA) ltac:(discriminate) x MX srcs MS EV ltac:(lia)) as [F R].
  split; [exact F|].
  destruct (million_sources hyp ln e grav safe (map real_src srcs) (rv x) E HA (ln_accurate e (proj1 E))) as (w & W & B).
  - rewrite map_length. apply MX.
  - apply real_sources_dim, MS.
  - apply (moderate_representable 3), MX.
  - exact EV.
  - rewrite map_length, INR_IZR_INZ. apply IZR_le, NS.
  - rewrite R in W. injection W as <-. exact B.
Qed.
Theorem force_doubles d hypF hyp e grav safe eps srcs x : (d <= 3)%nat -> 0 <= e <= / 1000 -> norm_of d hypF hyp -> accurate_norm e hyp ->
  moderate d x -> moderate_sources d srcs -> magnitude 150 eps -> 0 <= real_of eps ->
  evaluable safe (map real_of x) (map real_src srcs) -> (Z.of_nat (length srcs) <= 9007199254740992)%Z ->
  let f := forcefield_sumF hypF d grav safe eps srcs x in let away := others (map real_of x) (map real_src srcs) in
  length f = d /\ (forall y, In y f -> PrimFloat.is_finite y = true) /\
  forall k, (k < d)%nat ->
    Rabs (nth k (map real_of f) 0 - nth k (direct_force d grav (real_of eps) away (map real_of x)) 0) <=
    ((1 + u53) ^ (length srcs + 4) / (if (d =? 2)%nat then (1 - u53) ^ 5 else (1 - e) ^ 3 * (1 - u53) ^ 6) - 1)
    * rsum (fun s => Rabs (force_on d grav (real_of eps) s (map real_of x) k)) away.
Proof.
  intros D E HN HA MX MS HE HE0 EV NS f away.
  destruct (force_sum_real d hypF hyp grav safe eps D HN (norm_weaken _ _ _ (proj2 E) HA) x MX HE HE0 srcs MS EV NS) as (F & L & R).
  split; [exact L|]. split; [exact F|].
  destruct (force_error double_round hyp u53 e d grav safe (real_of eps) (map real_src srcs) (rv x) ltac:(lra) ltac:(lra) double_accurate HA) as (w & W & _ & B).
  - rewrite map_length. apply MX.
  - apply real_sources_dim, MS.
  - apply (moderate_representable d), MX.
  - exact EV.
  - exact HE0.
  - rewrite R in W. injection W as <-. rewrite map_length in B. exact B.
Qed.

(** *** Cases *)
Lemma ln_le a b : 0 < a -> a <= b -> ln a <= ln b.
Proof. intros P [L|E]; [left; apply ln_increasing; assumption|rewrite E; lra]. Qed.
(** The double nearest to a real number. *)
Definition float_round (y : R) : float :=
  B2Prim (BinarySingleNaN.binary_normalize prec emax Hprec Hmax mode_NE (ZnearestE (scaled_mantissa radix2 (FLX_exp 53) y)) (cexp radix2 (FLX_exp 53) y) false).
Lemma float_round_real y : y = 0 \/ pw (-1022) <= Rabs y -> Rabs y <= pw 1020 -> fin (float_round y) /\ real_of (float_round y) = double_round y.
Proof.
  intros L U. unfold float_round, real_of. rewrite is_finite_equiv, Prim2B_B2Prim.
  assert (H := binary_normalize_correct prec emax Hprec Hmax mode_NE (ZnearestE (scaled_mantissa radix2 (FLX_exp 53) y)) (cexp radix2 (FLX_exp 53) y) false). cbv zeta in H.
  change (F2R {| Fnum := ZnearestE (scaled_mantissa radix2 (FLX_exp 53) y); Fexp := cexp radix2 (FLX_exp 53) y |}) with (double_round y) in H.
  change (round_mode mode_NE) with ZnearestE in H.
  rewrite normal_round in H by (destruct L as [->|L]; [left; apply round_zero|right; apply round_ge, L]).
  assert (I : double_round (double_round y) = double_round y).
  { unfold double_round. apply round_generic; [typeclasses eauto|]. apply generic_format_round; [apply FLX_exp_valid; reflexivity|typeclasses eauto]. }
  rewrite I in H. rewrite Rlt_bool_true in H by (apply small_enough, U). destruct H as (H1 & H2 & _). split; assumption.
Qed.
(** Logarithm and norm, correctly rounded. *)
Definition float_log (r : float) : float := float_round (ln (real_of r)).
Definition float_hypot (v : list float) : float := float_round (R_sqrt.sqrt (rsum (fun c => c ^ 2) (map real_of v))).
Lemma log_range r : magnitude 300 r -> 0 < real_of r -> ln (real_of r) = 0 \/ pw (-100) <= Rabs (ln (real_of r)) <= pw 100.
Proof.
  intros M P. assert (B := within_bounds _ _ _ (proj2 (within_magnitude 300 r) M) ltac:(lra)). rewrite Rabs_pos_eq in B by lra. destruct M as [F _]. set (y := real_of r) in *.
  assert (LU : Rabs (ln y) <= 300).
  { assert (L2 : ln 2 < 1) by (rewrite <- (ln_exp 1); apply ln_increasing; [lra|]; assert (H := exp_ineq1 1 ltac:(lra)); lra).
    assert (L20 : 0 < ln 2) by (rewrite <- ln_1; apply ln_increasing; lra).
    assert (EQ : forall z, ln (pw z) = IZR z * ln 2).
    { intros z. rewrite bpow_exp. rewrite ln_exp. reflexivity. }
    assert (A1 : ln (pw (-300)) <= ln y) by (apply ln_le; [apply bpow_gt_0|apply B]). assert (A2 : ln y <= ln (pw 300)) by (apply ln_le; [exact P|apply B]).
    rewrite EQ in A1, A2. apply Rabs_le. split; nra. }
  assert (PU : 300 <= pw 100). { apply Rle_trans with (pw 10); [simpl; lra|apply bpow_le; lia]. }
  destruct (Req_dec y 1) as [E|E]; [left; rewrite E; apply ln_1|right]. split; [|lra].
  assert (LO : forall t, / 18014398509481984 <= t -> pw (-100) <= t).
  { intros t T. eapply Rle_trans; [|exact T]. replace (/ 18014398509481984) with (pw (-54)) by reflexivity. apply bpow_le. lia. }
  apply LO.
  assert (UP : forall t, 0 < t -> ln t <= t - 1). { intros t T. assert (H := exp_ineq1_le (ln t)). rewrite exp_ln in H by exact T. lra. }
  destruct (Rlt_dec y (/ 2)) as [S|S].
  { assert (H := UP y P). rewrite Rabs_left by lra. lra. }
  assert (MU : multiple (-53) y).
  { replace y with (double_round y) by (apply real_format, F). apply (round_fine (-1)). rewrite Rabs_pos_eq by lra. simpl. lra. }
  assert (GAP : / 9007199254740992 <= Rabs (y - 1)).
  { destruct (multiple_big (-53) (y - 1)) as [Z|G]; [|lra|exact G]. apply multiple_add; [exact MU|]. exists (-9007199254740992)%Z.
    change (pw (-53)) with (/ 9007199254740992). lra. }
  destruct (Rlt_dec y 1) as [S1|S1].
  - assert (H := UP y P). rewrite Rabs_left in GAP by lra. rewrite Rabs_left by lra. lra.
  - assert (H := UP (/ y) (Rinv_0_lt_compat _ P)). rewrite ln_Rinv in H by exact P. rewrite Rabs_pos_eq in GAP by lra.
    rewrite Rabs_pos_eq; [|rewrite <- ln_1; apply ln_le; lra].
    assert (I : / y <= 1 - / 9007199254740992 / y \/ 2 < y).
    { destruct (Rlt_dec 2 y) as [T|T]; [right; exact T|left]. apply (Rmult_le_reg_r y); [exact P|]. unfold Rdiv. field_simplify; lra. }
    destruct I as [I|I].
    + assert (V : / 2 <= / y \/ 2 < y). { destruct (Rlt_dec 2 y) as [T|T]; [right; exact T|left; apply Rinv_le_contravar; lra]. }
      destruct V as [V|V]; [|assert (W := Rinv_lt_contravar 2 y ltac:(lra) V); lra]. unfold Rdiv in I. lra.
    + assert (W := Rinv_lt_contravar 2 y ltac:(lra) I). lra.
Qed.

Theorem float_log_of : log_of float_log double_log.
Proof.
  intros r M P. assert (B := log_range r M P). destruct (float_round_real (ln (real_of r))) as [F R].
  - destruct B as [B|[B _]]; [left; exact B|right; eapply Rle_trans; [|exact B]; apply bpow_le; lia].
  - destruct B as [B|[_ B]]; [rewrite B, Rabs_R0; apply bpow_ge_0|eapply Rle_trans; [exact B|apply bpow_le; lia]].
  - split; [|exact R]. split; [exact F|]. change (real_of (float_log r)) with (real_of (float_round (ln (real_of r)))). rewrite R. apply round_within, B.
Qed.
Theorem float_hypot_of d : (d <= 3)%nat -> norm_of d float_hypot double_norm.
Proof.
  intros D v L M. set (w := map real_of v).
  assert (W : forall y, In y w -> y = 0 \/ pw (-500) <= Rabs y <= pw 500).
  { intros y Y. apply in_map_iff in Y. destruct Y as (z & <- & Z). apply (M z Z). }
  destruct (sum_squares_bounds w (pw 500) (pw (-500)) (bpow_ge_0 _ _) W (bpow_ge_0 _ _)) as [[S0 S1] S2].
  assert (LW : INR (length w) <= 4). { unfold w. rewrite map_length, L. apply Rle_trans with (INR 3); [apply le_INR, D|simpl; lra]. }
  unfold float_hypot, double_norm. fold w. set (S := rsum (fun c => c ^ 2) w) in *.
  assert (N0 := sqrt_pos S). apply float_round_real; rewrite Rabs_pos_eq by exact N0.
  - destruct S2 as [Z|G]; [left; rewrite Z; apply sqrt_0|right]. apply Rle_trans with (pw (-500)); [apply bpow_le; lia|].
    rewrite <- (sqrt_pow2 (pw (-500))) by apply bpow_ge_0. apply sqrt_le_1_alt, G.
  - apply Rle_trans with (pw 501); [|apply bpow_le; lia]. rewrite <- (sqrt_pow2 (pw 501)) by apply bpow_ge_0. apply sqrt_le_1_alt.
    eapply Rle_trans; [exact S1|]. replace (pw 501) with (2 * pw 500) by (symmetry; exact (bpow_plus radix2 1 500)).
    assert (Q := pow2_ge_0 (pw 500)). replace ((2 * pw 500) ^ 2) with (4 * pw 500 ^ 2) by ring. apply Rmult_le_compat_r; assumption.
Qed.

(** Two charges and a point with integer coordinates, in space and (one charge at the point) in the plane. *)
Definition sourceZ (p : list Z) (q : Z) : psrc float := PSrc (map float_of_Z p) (float_of_Z q).
Definition pairF : list (psrc float) := [sourceZ [3; 1; 2]%Z 1; sourceZ [0; 0; -5]%Z (-2)].
Definition pointF : list float := map float_of_Z [1; 4; 0]%Z.
Definition pair2F : list (psrc float) := [sourceZ [3; 1]%Z 1; sourceZ [1; 4]%Z (-2)].
Definition point2F : list float := map float_of_Z [1; 4]%Z.
Lemma whole_magnitude z : (Z.abs z <= 9007199254740992)%Z -> magnitude 150 (float_of_Z z).
Proof.
  intros H. destruct (of_Z_real z H) as [F R]. split; [exact F|]. rewrite R. destruct (Z.eq_dec z 0) as [->|N]; [left; reflexivity|right].
  rewrite <- abs_IZR. split.
  - apply Rle_trans with 1; [change 1 with (pw 0); apply bpow_le; lia|apply IZR_le; lia].
  - apply Rle_trans with (pw 53); [rewrite pw53; apply IZR_le; exact H|apply bpow_le; lia].
Qed.
Lemma whole_moderate d p : length p = d -> (forall z, In z p -> (Z.abs z <= 9007199254740992)%Z) -> moderate d (map float_of_Z p).
Proof. intros L H. split; [rewrite map_length; exact L|]. intros y Y. apply in_map_iff in Y. destruct Y as (z & <- & Z). apply whole_magnitude, H, Z. Qed.
Ltac small := let Z := fresh "Z" in intros ? Z; cbn in Z; repeat destruct Z as [<-|Z]; try contradiction; cbn; lia.
Lemma pointF_moderate : moderate 3 pointF. Proof. apply whole_moderate; [reflexivity|small]. Qed.
Lemma point2F_moderate : moderate 2 point2F. Proof. apply whole_moderate; [reflexivity|small]. Qed.
Lemma pairF_moderate : moderate_sources 3 pairF.
Proof. intros s [<-|[<-|[]]]; (split; [apply whole_moderate; [reflexivity|small]|apply whole_magnitude; cbn; lia]). Qed.
Lemma pair2F_moderate : moderate_sources 2 pair2F.
Proof. intros s [<-|[<-|[]]]; (split; [apply whole_moderate; [reflexivity|small]|apply whole_magnitude; cbn; lia]). Qed.
Lemma whole_rv p : (forall z, In z p -> (Z.abs z <= 9007199254740992)%Z) -> map real_of (map float_of_Z p) = map IZR p.
Proof. intros H. rewrite map_map. apply map_ext_in. intros z Z. apply of_Z_real, H, Z. Qed.
Lemma pairF_away : forall s, In s (map real_src pairF) -> ps_pos s <> map real_of pointF.
Proof.
  intros s S. cbn [pairF map] in S. destruct S as [<-|[<-|[]]]; unfold pointF; cbn [real_src sourceZ ps_pos]; rewrite !whole_rv by small; cbn [map]; intros E;
    apply (f_equal (fun l => nth 0 l 0)) in E; cbn [nth] in E; lra.
Qed.
Lemma zero_magnitude : magnitude 150 0%float /\ 0 <= real_of 0%float.
Proof. destruct zero_real as [F R]. split; [split; [exact F|left; exact R]|rewrite R; lra]. Qed.
