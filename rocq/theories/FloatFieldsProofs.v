(** The direct sums in IEEE doubles are those of the model with rounded operations. *)
From Coq Require Import Reals List Bool ZArith Arith Lia Lra.
From Flocq Require Import Core BinarySingleNaN PrimFloat.
From Verif Require Import Num Outcome Vec CAux Fields FieldSpec FieldProofs RoundedFields RoundedSpec RoundedProofs RoundedCases RoundedTree FloatCases FloatFit FloatGeometry FloatSpec FloatBridge
  FloatFields FloatFieldsSpec.
From Coq Require Import Floats.
Import ListNotations.
Local Open Scope R_scope.

(** *** Doubles of given magnitude *)
Definition within (a b : Z) (x : float) : Prop := fin x /\ (real_of x = 0 \/ pw a <= Rabs (real_of x) <= pw b).
Lemma within_magnitude k x : within (- k) k x <-> magnitude k x. Proof. reflexivity. Qed.
Lemma within_weaken a b a' b' x : (a' <= a)%Z -> (b <= b')%Z -> within a b x -> within a' b' x.
Proof.
  intros A B [F [Z|[L U]]]; (split; [exact F|]); [left; exact Z|right]. split.
  - eapply Rle_trans; [|exact L]. apply bpow_le. exact A.
  - eapply Rle_trans; [exact U|]. apply bpow_le. exact B.
Qed.
Lemma real_format x : fin x -> double_round (real_of x) = real_of x.
Proof.
  intros _. unfold double_round. apply round_generic; [typeclasses eauto|]. apply generic_format_FLX_FLT with (emin := (-1074)%Z).
  exact (BinarySingleNaN.generic_format_B2R prec emax (PrimFloat.Prim2B x)).
Qed.
Lemma within_fits a b x : within a b x -> fits (a - 52) b x.
Proof.
  intros [F H]. split; [exact F|]. split.
  - rewrite <- (real_format x F). destruct H as [Z|[L _]]; [rewrite Z, round_zero; exists 0%Z; ring|apply round_fine, L].
  - destruct H as [Z|[_ U]]; [rewrite Z, Rabs_R0; apply bpow_ge_0|exact U].
Qed.
Lemma fits_within e E x : fits e E x -> within e E x.
Proof. intros (F & M & B). split; [exact F|]. destruct (multiple_big e _ M) as [Z|G]; [left; exact Z|right; split; assumption]. Qed.
Lemma within_bounds a b x : within a b x -> real_of x <> 0 -> pw a <= Rabs (real_of x) <= pw b.
Proof. intros [_ [Z|H]] N; [contradiction|exact H]. Qed.
Lemma round_within q a b : q = 0 \/ pw a <= Rabs q <= pw b -> double_round q = 0 \/ pw a <= Rabs (double_round q) <= pw b.
Proof. intros [->|[L U]]; [left; apply round_zero|right; split; [apply round_ge, L|apply round_le, U]]. Qed.
Lemma within_mul a b c e x y : (-1022 <= a + c)%Z -> (b + e <= 1020)%Z -> within a b x -> within c e y ->
  within (a + c) (b + e) (x * y)%float /\ real_of (x * y)%float = double_round (real_of x * real_of y).
Proof.
  intros L U [FX HX] [FY HY].
  assert (B : real_of x * real_of y = 0 \/ pw (a + c) <= Rabs (real_of x * real_of y) <= pw (b + e)).
  { destruct HX as [Z|HX]; [left; rewrite Z; ring|]. destruct HY as [Z|HY]; [left; rewrite Z; ring|right]. rewrite Rabs_mult, !bpow_plus.
    split; apply Rmult_le_compat; try apply bpow_ge_0; try apply Rabs_pos; (apply HX || apply HY). }
  destruct (mul_real x y FX FY) as [F R].
  - destruct B as [B|[B _]]; [left; exact B|right]. eapply Rle_trans; [|exact B]. apply bpow_le. exact L.
  - destruct B as [B|[_ B]]; [rewrite B, Rabs_R0; apply bpow_ge_0|]. eapply Rle_trans; [exact B|]. apply bpow_le. exact U.
  - split; [|exact R]. split; [exact F|]. rewrite R. apply round_within, B.
Qed.
Lemma within_div a b c e x y : (-1022 <= a - e)%Z -> (b - c <= 1020)%Z -> within a b x -> within c e y -> real_of y <> 0 ->
  within (a - e) (b - c) (x / y)%float /\ real_of (x / y)%float = double_round (real_of x / real_of y).
Proof.
  intros L U [FX HX] HY NY. assert (BY := within_bounds _ _ _ HY NY). assert (PY : 0 < Rabs (real_of y)) by (apply Rabs_pos_lt, NY).
  assert (B : real_of x / real_of y = 0 \/ pw (a - e) <= Rabs (real_of x / real_of y) <= pw (b - c)).
  { destruct HX as [Z|HX]; [left; rewrite Z; unfold Rdiv; ring|right]. unfold Rdiv. rewrite Rabs_mult, Rabs_inv. unfold Z.sub. rewrite !bpow_plus, !bpow_opp.
    split; apply Rmult_le_compat; try apply bpow_ge_0; try apply Rabs_pos; try apply HX;
      try (left; apply Rinv_0_lt_compat; (exact PY || apply bpow_gt_0)); apply Rinv_le; try exact PY; try apply bpow_gt_0; apply BY. }
  destruct (div_real x y FX NY) as [F R].
  - destruct B as [B|[B _]]; [left; exact B|right]. eapply Rle_trans; [|exact B]. apply bpow_le. exact L.
  - destruct B as [B|[_ B]]; [rewrite B, Rabs_R0; apply bpow_ge_0|]. eapply Rle_trans; [exact B|]. apply bpow_le. exact U.
  - split; [|exact R]. split; [exact F|]. rewrite R. apply round_within, B.
Qed.
Lemma opp_real x : fin x -> fin (- x)%float /\ real_of (- x)%float = - real_of x.
Proof.
  intros F. rewrite is_finite_equiv in *. unfold real_of. rewrite opp_equiv. split; [rewrite is_finite_Bopp; exact F|apply B2R_Bopp].
Qed.
Lemma within_opp a b x : within a b x -> within a b (- x)%float /\ real_of (- x)%float = - real_of x.
Proof.
  intros [F H]. destruct (opp_real x F) as [G R]. split; [|exact R]. split; [exact G|]. rewrite R, Rabs_Ropp. destruct H as [Z|H]; [left; rewrite Z; ring|right; exact H].
Qed.
Lemma eqb_zero x : fin x -> PrimFloat.eqb x 0 = Req_bool (real_of x) 0.
Proof.
  intros F. destruct zero_real as [F0 R0]. rewrite eqb_equiv. rewrite is_finite_equiv in F, F0. rewrite Beqb_correct by assumption. fold (real_of x) (real_of 0%float). rewrite R0.
  unfold Req_bool. destruct (Req_EM_T (real_of x) 0) as [E|E]; [rewrite E; apply Raux.Req_bool_true; reflexivity|apply Raux.Req_bool_false; exact E].
Qed.

(** *** Sums of many terms *)
Lemma whole_multiple k E : (k <= 9007199254740992)%Z -> (0 <= k)%Z -> double_round (IZR k * pw E) = IZR k * pw E.
Proof.
  intros K K0. unfold double_round. apply round_generic; [typeclasses eauto|]. destruct (Z.eq_dec k 9007199254740992) as [->|N].
  - rewrite <- pw53, <- bpow_plus. apply format_pow.
  - apply generic_format_FLX. exists (Float radix2 k E); [reflexivity|]. cbn [Fnum]. change (radix2 ^ 53)%Z with 9007199254740992%Z. lia.
Qed.
Lemma add_bounded e E k x y : (-1022 <= e)%Z -> (E <= 966)%Z -> (0 <= k < 9007199254740992)%Z ->
  fin x -> multiple e (real_of x) -> Rabs (real_of x) <= IZR k * pw E -> fits e E y ->
  fin (x + y)%float /\ multiple e (real_of (x + y)%float) /\ Rabs (real_of (x + y)%float) <= IZR (k + 1) * pw E /\
  real_of (x + y)%float = double_round (real_of x + real_of y).
Proof.
  intros L1 L2 K FX MX BX (FY & MY & BY). assert (M := multiple_add e _ _ MX MY).
  assert (B : Rabs (real_of x + real_of y) <= IZR (k + 1) * pw E).
  { eapply Rle_trans; [apply Rabs_triang|]. rewrite plus_IZR. lra. }
  assert (U : IZR (k + 1) * pw E <= pw 1020).
  { apply Rle_trans with (pw 53 * pw E); [apply Rmult_le_compat_r; [apply bpow_ge_0|]; rewrite pw53; apply IZR_le; lia|]. rewrite <- bpow_plus. apply bpow_le. lia. }
  destruct (add_real x y FX FY) as [F R].
  - destruct (multiple_big e _ M) as [Z|G]; [left; exact Z|right]. eapply Rle_trans; [|exact G]. apply bpow_le. exact L1.
  - lra.
  - split; [exact F|]. rewrite R. split; [apply round_multiple, M|]. split; [|reflexivity].
    unfold double_round. apply abs_round_le_generic; [apply FLX_exp_valid; reflexivity|typeclasses eauto| |exact B].
    rewrite <- (whole_multiple (k + 1) E) by lia. apply generic_format_round; [apply FLX_exp_valid; reflexivity|typeclasses eauto].
Qed.
Lemma sum_bounded {A} (fF : A -> float) (e E : Z) l : (-1022 <= e)%Z -> (E <= 966)%Z -> (forall a, In a l -> fits e E (fF a)) ->
  forall k x, (0 <= k)%Z -> (k + Z.of_nat (length l) <= 9007199254740992)%Z -> fin x -> multiple e (real_of x) -> Rabs (real_of x) <= IZR k * pw E ->
  let r := fold_left (fun s a => (s + fF a)%float) l x in
  fin r /\ multiple e (real_of r) /\ Rabs (real_of r) <= IZR (k + Z.of_nat (length l)) * pw E /\
  real_of r = fold_left (fun s a => double_round (s + real_of (fF a))) l (real_of x).
Proof.
  intros L1 L2. induction l as [|a l IH]; intros H k x K0 K FX MX BX; cbn [fold_left length] in *.
  - rewrite Z.add_0_r. split; [|split; [|split]]; auto.
  - destruct (add_bounded e E k x (fF a) L1 L2 ltac:(lia) FX MX BX (H a (or_introl eq_refl))) as (F & M & B & R).
    destruct (IH (fun b Hb => H b (or_intror Hb)) (k + 1)%Z (x + fF a)%float ltac:(lia) ltac:(lia) F M B) as (F' & M' & B' & R').
    split; [exact F'|]. split; [exact M'|]. split; [|rewrite R', R; reflexivity].
    replace (k + Z.of_nat (S (length l)))%Z with (k + 1 + Z.of_nat (length l))%Z by lia. exact B'.
Qed.

(** *** Differences and distances *)
Lemma neg_one_R : nneg1 (H := NR) = -1.
Proof. rewrite <- nneg1_real. apply neg_one_real. Qed.
Lemma vsub_r_eq a b : vsub (N := NR) a b = vsub_r double_round a b.
Proof. unfold vsub, vneg, vscale. rewrite neg_one_R. reflexivity. Qed.
Lemma moderate_fits d x : moderate d x -> fitv (-202) 150 x.
Proof. intros [_ H]. apply Forall_forall. intros y Y. apply (magnitude_fits 150); [lia|]. apply H, Y. Qed.
Lemma moderate_representable d x : moderate d x -> representable double_round (rv x).
Proof.
  intros [_ H] y Y. apply in_map_iff in Y. destruct Y as (z & <- & Z). destruct (H z Z) as [F _].
  unfold double_round. rewrite round_NE_opp. f_equal. apply real_format, F.
Qed.
Lemma len_vsub_F d p x : length p = d -> length x = d -> length (vsub (N := NumF) p x) = d.
Proof. intros P X. unfold vsub, vadd, vneg, vscale, map2. rewrite map_length, combine_length, map_length. lia. Qed.
Lemma diff_real d p x : moderate d p -> moderate d x ->
  fitv (-202) 151 (vsub (N := NumF) p x) /\ length (vsub (N := NumF) p x) = d /\ rv (vsub (N := NumF) p x) = vsub_r double_round (rv p) (rv x).
Proof.
  intros P X. destruct (vsub_real (-202) 150 p x ltac:(lia) ltac:(lia) (moderate_fits d p P) (moderate_fits d x X)) as [F R].
  split; [exact F|]. split; [apply len_vsub_F; [apply P|apply X]|]. rewrite R. apply vsub_r_eq.
Qed.

Lemma sum_squares_bounds v B b : 0 <= b -> (forall y, In y v -> y = 0 \/ b <= Rabs y <= B) -> 0 <= B ->
  0 <= rsum (fun c => c ^ 2) v <= INR (length v) * B ^ 2 /\ (rsum (fun c => c ^ 2) v = 0 \/ b ^ 2 <= rsum (fun c => c ^ 2) v).
Proof.
  intros B0 H BB. induction v as [|y v IH].
  - cbn [length INR]. change (rsum (fun c : R => c ^ 2) []) with 0. split; [lra|left; reflexivity].
  - destruct IH as [[I1 I2] I3]; [intros z Z; apply H; right; exact Z|]. rewrite rsum_cons. cbn [length]. rewrite S_INR.
    assert (S := pow2_ge_0 y). destruct (H y (or_introl eq_refl)) as [Y|[Y1 Y2]].
    + rewrite Y. replace (0 ^ 2) with 0 by ring. assert (X := pow2_ge_0 B). split; [lra|]. destruct I3; [left; lra|right; lra].
    + assert (U : y ^ 2 <= B ^ 2) by (rewrite <- (pow2_abs y); apply pow_incr; split; [apply Rabs_pos|exact Y2]).
      assert (L : b ^ 2 <= y ^ 2) by (rewrite <- (pow2_abs y); apply pow_incr; split; [exact B0|exact Y1]).
      split; [lra|right; lra].
Qed.
Lemma norm_within d hypF hyp p x : (d <= 3)%nat -> norm_of d hypF hyp -> accurate_norm (/ 1000) hyp -> moderate d p -> moderate d x ->
  let r := hypF (vsub (N := NumF) p x) in
  within (-203) 153 r /\ real_of r = hyp (vsub_r double_round (rv p) (rv x)) /\ 0 <= real_of r.
Proof.
  intros D3 HN HA P X r. destruct (diff_real d p x P X) as (F & L & R). set (v := vsub (N := NumF) p x) in *.
  assert (M : forall y, In y v -> magnitude 500 y).
  { intros y Y. unfold fitv in F. rewrite Forall_forall in F. apply (fits_magnitude (-202) 151); try lia. apply F, Y. }
  destruct (HN v L M) as [FR RR]. unfold r. rewrite RR, <- R. set (w := rv v).
  assert (W : forall y, In y w -> y = 0 \/ pw (-202) <= Rabs y <= pw 151).
  { intros y Y. apply in_map_iff in Y. destruct Y as (z & <- & Z). unfold fitv in F. rewrite Forall_forall in F. apply (fits_within _ _ _ (F z Z)). }
  destruct (sum_squares_bounds w (pw 151) (pw (-202)) (bpow_ge_0 _ _) W (bpow_ge_0 _ _)) as [[S0 S1] S2].
  assert (LW : INR (length w) <= 4). { unfold w. rewrite map_length, L. apply Rle_trans with (INR 3); [apply le_INR, D3|simpl; lra]. }
  set (S := rsum (fun c => c ^ 2) w) in *.
  assert (SU : S <= pw 152 ^ 2).
  { eapply Rle_trans; [exact S1|]. replace (pw 152) with (2 * pw 151) by (exact (bpow_plus radix2 1 151)).
    assert (Q := pow2_ge_0 (pw 151)). replace ((2 * pw 151) ^ 2) with (4 * pw 151 ^ 2) by ring. apply Rmult_le_compat_r; assumption. }
  assert (NU : R_sqrt.sqrt S <= pw 152). { rewrite <- (sqrt_pow2 (pw 152)) by apply bpow_ge_0. apply sqrt_le_1_alt, SU. }
  assert (H := HA w). fold S in H. apply Rabs_le_inv in H. assert (N0 := sqrt_pos S).
  assert (PD : pw 153 = 2 * pw 152) by (exact (bpow_plus radix2 1 152)).
  assert (PL : pw (-202) = 2 * pw (-203)) by (exact (bpow_plus radix2 1 (-203))).
  assert (P1 := bpow_gt_0 radix2 (-203)). assert (P2 := bpow_gt_0 radix2 152).
  split; [|split; [reflexivity|lra]].
  split; [exact FR|]. rewrite RR. fold w. destruct S2 as [Z|G].
  - left. rewrite Z, sqrt_0 in H. lra.
  - right. assert (NL : pw (-202) <= R_sqrt.sqrt S). { rewrite <- (sqrt_pow2 (pw (-202))) by apply bpow_ge_0. apply sqrt_le_1_alt, G. }
    rewrite Rabs_pos_eq by lra. split; lra.
Qed.

(** *** Potentials *)
Section Potential.
Variables (d : nat) (hypF : list float -> float) (hyp : list R -> R) (lgF : float -> float) (lg : R -> R) (grav safe : bool).
Hypothesis D3 : (d <= 3)%nat.
Hypothesis HN : norm_of d hypF hyp.
Hypothesis HA : accurate_norm (/ 1000) hyp.
Hypothesis HL : d = 2%nat -> log_of lgF lg.
Variable x : list float.
Hypothesis HX : moderate d x.
Lemma away_positive s : moderate d (ps_pos s) -> ps_pos (real_src s) <> rv x -> hyp (vsub_r double_round (rv (ps_pos s)) (rv x)) <> 0.
Proof.
  intros P N E. assert (LP : length (rv (ps_pos s)) = length (rv x)) by (rewrite !map_length; destruct P as [-> _]; destruct HX as [-> _]; reflexivity).
  assert (Q := dist_rel double_round (/ 9007199254740992) ltac:(lra) double_accurate hyp (/ 1000) ltac:(lra) (norm_of_spec _ _ HA) _ _ LP (opp_of_spec _ _ (moderate_representable d x HX))).
  assert (DP : 0 < dist (rv (ps_pos s)) (rv x)) by (apply dist_pos; [exact LP|exact N]).
  assert (PP := rel_pos _ _ _ _ (lo_pos (/ 9007199254740992) ltac:(lra) (/ 1000) ltac:(lra)) DP Q). lra.
Qed.
Theorem potential_real s : moderate d (ps_pos s) -> magnitude 150 (ps_q s) -> (safe = true \/ ps_pos (real_src s) <> rv x) ->
  fits (-355) 353 (potentialF hypF lgF d grav safe s x) /\
  potential_r double_round hyp lg d grav safe (real_src s) (rv x) = Ok (real_of (potentialF hypF lgF d grav safe s x)).
Proof.
  intros P Q EV. destruct (norm_within d hypF hyp (ps_pos s) x D3 HN HA P HX) as (W & R & R0). unfold potentialF, potential_r. cbn [real_src ps_pos ps_q].
  set (r := hypF (vsub (N := NumF) (ps_pos s) x)) in *. rewrite <- R. rewrite (eqb_zero r (proj1 W)).
  destruct (safe && Req_bool (real_of r) 0)%bool eqn:E.
  { destruct zero_real as [F0 Z0]. rewrite Z0. split; [|reflexivity]. split; [exact F0|]. rewrite Z0. split; [exists 0%Z; ring|rewrite Rabs_R0; apply bpow_ge_0]. }
  assert (NZ : real_of r <> 0).
  { destruct EV as [->|N].
    - cbn [andb] in E. intros Z. rewrite Z in E. unfold Req_bool in E. destruct (Req_EM_T 0 0); [discriminate|contradiction].
    - rewrite R. apply away_positive; assumption. }
  assert (T : exists pot, (if (d =? 2)%nat then ps_q s * lgF r else - ps_q s / r)%float = pot /\ within (-303) 353 pot /\
    (do pot <- (if (d =? 2)%nat then (if Req_EM_T (real_of r) 0 then NonFinite else Ok (double_round (real_of (ps_q s) * lg (real_of r)))) else rdiv_r double_round (- real_of (ps_q s)) (real_of r)) ;;
     Ok (if grav then pot else - pot))%outcome = Ok (if grav then real_of pot else - real_of pot)).
  { eexists. split; [reflexivity|]. destruct (d =? 2)%nat eqn:D2.
    - apply Nat.eqb_eq in D2. destruct (HL D2 r) as [LM LR]; [apply (within_weaken (-203) 153); try lia; exact W|lra|].
      destruct (within_mul (-150) 150 (-100) 100 (ps_q s) (lgF r) ltac:(lia) ltac:(lia) Q LM) as [A B].
      split; [apply (within_weaken (-250) 250); try lia; exact A|]. destruct (Req_EM_T (real_of r) 0); [contradiction|]. cbn [bind]. rewrite B, LR. reflexivity.
    - destruct (within_opp _ _ _ Q) as [QO QR]. destruct (within_div (-150) 150 (-203) 153 (- ps_q s)%float r ltac:(lia) ltac:(lia) QO W NZ) as [A B].
      split; [exact A|]. unfold rdiv_r. destruct (Req_EM_T (real_of r) 0); [contradiction|]. cbn [bind]. rewrite B, QR. reflexivity. }
  destruct T as (pot & E1 & W1 & E2). rewrite E1, E2. destruct grav.
  - split; [apply (within_fits (-303)), W1|reflexivity].
  - destruct (within_opp _ _ _ W1) as [W2 R2]. split; [apply (within_fits (-303)), W2|rewrite R2; reflexivity].
Qed.
Theorem potential_sum_real srcs : moderate_sources d srcs -> evaluable safe (rv x) (map real_src srcs) -> (Z.of_nat (length srcs) <= 9007199254740992)%Z ->
  fin (potential_sumF hypF lgF d grav safe srcs x) /\
  potential_sum_r double_round hyp lg d grav safe (map real_src srcs) (rv x) = Ok (real_of (potential_sumF hypF lgF d grav safe srcs x)).
Proof.
  intros MS EV NS. destruct zero_real as [F0 R0].
  assert (T : forall s, In s srcs -> fits (-355) 353 (potentialF hypF lgF d grav safe s x) /\
    potential_r double_round hyp lg d grav safe (real_src s) (rv x) = Ok (real_of (potentialF hypF lgF d grav safe s x))).
  { intros s S. destruct (MS s S) as [P Q]. apply potential_real; try assumption. destruct EV as [EV|EV]; [left; exact EV|right; apply EV, in_map, S]. }
  destruct (sum_bounded (fun s => potentialF hypF lgF d grav safe s x) (-355) 353 srcs ltac:(lia) ltac:(lia) (fun s S => proj1 (T s S)) 0 0%float ltac:(lia) ltac:(lia) F0) as (F & _ & _ & R).
  - rewrite R0. exists 0%Z. ring.
  - rewrite R0, Rabs_R0. rewrite Rmult_0_l. lra.
  - split; [exact F|]. unfold potential_sumF. rewrite R, R0. unfold potential_sum_r. clear R F MS EV NS.
    revert T. generalize 0 as z. induction srcs as [|s srcs IH]; intros z T; [reflexivity|]. cbn [map ofold fold_left].
    rewrite (proj2 (T s (or_introl eq_refl))). cbn [bind]. apply IH. intros s' S'. apply T. right. exact S'.
Qed.
End Potential.

(** *** Forces *)
Lemma round_nonzero q : double_round q = 0 -> q = 0.
Proof.
  intros Z. assert (A := double_accurate q). rewrite Z in A. replace (0 - q) with (- q) in A by ring. rewrite Rabs_Ropp in A.
  destruct (Req_dec q 0) as [E|E]; [exact E|]. apply Rabs_pos_lt in E. lra.
Qed.
Lemma round_nonneg q : 0 <= q -> 0 <= double_round q.
Proof. intros H. rewrite <- round_zero. unfold double_round. apply Generic_fmt.round_le; [apply FLX_exp_valid; reflexivity|typeclasses eauto|exact H]. Qed.
Lemma scale_r_eq v s : vscale (N := NR) v s = vscale_r double_round v s. Proof. reflexivity. Qed.
Lemma neg_r_eq v : vneg (N := NR) v = vneg_r double_round v.
Proof. unfold vneg. rewrite neg_one_R. reflexivity. Qed.
Lemma fits_mul_r e E f F x y : (-1022 <= e + f)%Z -> (E + F <= 1020)%Z -> fits e E x -> fits f F y ->
  fits (e + f) (E + F) (x * y)%float /\ real_of (x * y)%float = double_round (real_of x * real_of y).
Proof. exact (fits_mul e E f F x y). Qed.
Lemma fits_add_r e E x y : (-1022 <= e)%Z -> (E <= 1019)%Z -> fits e E x -> fits e E y ->
  fits e (E + 1) (x + y)%float /\ real_of (x + y)%float = double_round (real_of x + real_of y).
Proof. exact (fits_add e E x y). Qed.

Section Force.
Variables (d : nat) (hypF : list float -> float) (hyp : list R -> R) (grav safe : bool) (eps : float).
Hypothesis D3 : (d <= 3)%nat.
Hypothesis HN : norm_of d hypF hyp.
Hypothesis HA : accurate_norm (/ 1000) hyp.
Variable x : list float.
Hypothesis HX : moderate d x.
Hypothesis HE : magnitude 150 eps.
Hypothesis HE0 : 0 <= real_of eps.
Lemma eps_fits e E : (e <= -202)%Z -> (150 <= E)%Z -> fits e E eps.
Proof. intros A B. apply (fits_weaken (-202) 150); [exact A|exact B|]. apply (magnitude_fits 150); [lia|exact HE]. Qed.
Lemma plane_size p : d = 2%nat -> moderate d p -> let w := vsub (N := NumF) p x in let wr := vsub_r double_round (rv p) (rv x) in
  fits (-404) 303 (norm_sqF w) /\ real_of (norm_sqF w) = vnorm_sq_r double_round wr /\ 0 <= real_of (norm_sqF w) /\ (real_of (norm_sqF w) = 0 -> hyp wr = 0).
Proof.
  intros D P. destruct (diff_real d p x P HX) as (F & L & R). rewrite D in L. cbv zeta. rewrite <- R. set (w := vsub (N := NumF) p x) in *.
  destruct w as [|a [|b [|c w']]]; try discriminate L. inversion F as [|? ? A F1]; subst. inversion F1 as [|? ? B _]; subst. cbn [map norm_sqF vnorm_sq_r].
  destruct (fits_mul_r (-202) 151 (-202) 151 a a ltac:(lia) ltac:(lia) A A) as [A2 AR]. destruct (fits_mul_r (-202) 151 (-202) 151 b b ltac:(lia) ltac:(lia) B B) as [B2 BR].
  destruct (fits_add_r (-404) 302 _ _ ltac:(lia) ltac:(lia) A2 B2) as [S SR]. rewrite AR, BR in SR.
  assert (PA := round_nonneg _ (Rle_0_sqr (real_of a))). assert (PB := round_nonneg _ (Rle_0_sqr (real_of b))). unfold Rsqr in PA, PB.
  split; [exact S|]. split; [exact SR|]. split; [rewrite SR; apply round_nonneg; lra|]. rewrite SR. intros Z. apply round_nonzero in Z.
  assert (ZA : real_of a = 0) by (apply Rsqr_0_uniq, round_nonzero; unfold Rsqr; lra).
  assert (ZB : real_of b = 0) by (apply Rsqr_0_uniq, round_nonzero; unfold Rsqr; lra).
  assert (H := HA [real_of a; real_of b]). rewrite ZA, ZB in *. rewrite !rsum_cons in H. cbv beta in H.
  replace (0 ^ 2 + (0 ^ 2 + rsum (fun c => c ^ 2) [])) with 0 in H by (change (rsum (fun c => c ^ 2) []) with 0; ring). rewrite sqrt_0 in H. apply Rabs_le_inv in H. lra.
Qed.
Definition sizesF (w : list float) : float * float :=
  if (d =? 2)%nat then (norm_sqF w, norm_sqF w + eps)%float else let r := hypF w in (r, r * r * r + eps)%float.
Lemma sizes_real p : moderate d p -> let w := vsub (N := NumF) p x in let wr := vsub_r double_round (rv p) (rv x) in
  exists r den, sizesF w = (r, den) /\ fin r /\ within (-661) 460 den /\ (real_of r <> 0 -> real_of den <> 0) /\ (real_of r = 0 -> hyp wr = 0) /\
  real_of r = (if (d =? 2)%nat then vnorm_sq_r double_round wr else hyp wr) /\
  real_of den = (if (d =? 2)%nat then double_round (vnorm_sq_r double_round wr + real_of eps) else double_round (double_round (double_round (hyp wr * hyp wr) * hyp wr) + real_of eps)).
Proof.
  intros P w wr. unfold sizesF. destruct (d =? 2)%nat eqn:D.
  - apply Nat.eqb_eq in D. destruct (plane_size p D P) as (S & SR & S0 & SZ). fold w wr in S, SR, S0, SZ.
    destruct (fits_add_r (-404) 303 (norm_sqF w) eps ltac:(lia) ltac:(lia) S (eps_fits (-404) 303 ltac:(lia) ltac:(lia))) as [T TR].
    eexists; eexists. split; [reflexivity|]. split; [apply S|]. split; [apply (within_weaken (-404) 304); try lia; apply fits_within, T|].
    split; [|split; [exact SZ|split; [exact SR|rewrite TR, SR; reflexivity]]].
    intros N Z. rewrite TR in Z. apply round_nonzero in Z. lra.
  - destruct (norm_within d hypF hyp p x D3 HN HA P HX) as (W & R & R0). fold w wr in W, R, R0. set (r := hypF w) in *.
    destruct (within_mul (-203) 153 (-203) 153 r r ltac:(lia) ltac:(lia) W W) as [W2 R2]. destruct (within_mul (-406) 306 (-203) 153 _ r ltac:(lia) ltac:(lia) W2 W) as [W3 R3]. cbn in W3.
    destruct (fits_add_r (-661) 459 (r * r * r)%float eps ltac:(lia) ltac:(lia) (within_fits _ _ _ W3) (eps_fits (-661) 459 ltac:(lia) ltac:(lia))) as [T TR].
    eexists; eexists. split; [reflexivity|]. split; [apply W|]. split; [apply (within_weaken (-661) 460); try lia; apply fits_within, T|].
    rewrite R in R2. rewrite R2, R in R3. rewrite R3 in TR.
    split; [|split; [intros Z; rewrite <- R; exact Z|split; [exact R|exact TR]]].
    intros N Z. rewrite TR in Z. apply round_nonzero in Z. rewrite R in N, R0.
    assert (Q1 := round_nonneg _ (Rle_0_sqr (hyp wr))). unfold Rsqr in Q1. assert (Q2 := round_nonneg _ (Rmult_le_pos _ _ Q1 R0)).
    assert (Q3 : double_round (double_round (hyp wr * hyp wr) * hyp wr) = 0) by lra.
    apply round_nonzero, Rmult_integral in Q3. destruct Q3 as [Q3|Q3]; [|contradiction]. apply round_nonzero, Rmult_integral in Q3. destruct Q3; contradiction.
Qed.
Theorem force_real_charge c s : (0 <= c <= 150)%Z -> moderate d (ps_pos s) -> magnitude c (ps_q s) -> (safe = true \/ ps_pos (real_src s) <> rv x) ->
  fitv (-714 - c) (812 + c) (forcefieldF hypF d grav safe eps s x) /\ length (forcefieldF hypF d grav safe eps s x) = d /\
  forcefield_r double_round hyp d grav safe (real_of eps) (real_src s) (rv x) = Ok (rv (forcefieldF hypF d grav safe eps s x)).
Proof.
  intros C P Q EV. destruct (diff_real d (ps_pos s) x P HX) as (F & L & R). destruct (sizes_real (ps_pos s) P) as (r & den & E & FR & WD & ND & NR0 & RR & DR).
  assert (EF : forcefieldF hypF d grav safe eps s x = if (safe && PrimFloat.eqb r 0)%bool then repeat 0%float d
    else let f := vscale (N := NumF) (vsub (N := NumF) (ps_pos s) x) (ps_q s / den)%float in if grav then f else vneg (N := NumF) f).
  { unfold forcefieldF. fold (sizesF (vsub (N := NumF) (ps_pos s) x)). rewrite E. reflexivity. }
  assert (ER : forcefield_r double_round hyp d grav safe (real_of eps) (real_src s) (rv x) = if (safe && Req_bool (real_of r) 0)%bool then Ok (vzero d)
    else (do f <- rdiv_r double_round (real_of (ps_q s)) (real_of den) ;; Ok (if grav then vscale_r double_round (vsub_r double_round (rv (ps_pos s)) (rv x)) f
      else vneg_r double_round (vscale_r double_round (vsub_r double_round (rv (ps_pos s)) (rv x)) f)))%outcome).
  { unfold forcefield_r. cbn [real_src ps_pos ps_q]. rewrite RR, DR. destruct (d =? 2)%nat; reflexivity. }
  rewrite EF, ER, (eqb_zero r FR). destruct (safe && Req_bool (real_of r) 0)%bool eqn:SZ.
  { destruct zero_real as [F0 Z0]. split; [|split; [apply repeat_length|]].
    - apply Forall_forall. intros y Y. apply repeat_spec in Y. subst y. split; [exact F0|]. rewrite Z0. split; [exists 0%Z; ring|rewrite Rabs_R0; apply bpow_ge_0].
    - rewrite map_repeat, Z0. reflexivity. }
  assert (NZ : real_of r <> 0).
  { destruct EV as [EV|N].
    - rewrite EV in SZ. cbn [andb] in SZ. intros Z. rewrite Z in SZ. unfold Req_bool in SZ. destruct (Req_EM_T 0 0); [discriminate|contradiction].
    - intros Z. exact (away_positive d hyp HA x HX s P N (NR0 Z)). }
  destruct (within_div (- c) c (-661) 460 (ps_q s) den ltac:(lia) ltac:(lia) Q WD (ND NZ)) as [WF FRr].
  apply within_fits in WF. replace (- c - 460 - 52)%Z with (-512 - c)%Z in WF by ring. replace (c - -661)%Z with (661 + c)%Z in WF by ring.
  destruct (vscale_real (-202) 151 (-512 - c) (661 + c) _ _ ltac:(lia) ltac:(lia) F WF) as [VF VR].
  replace (-202 + (-512 - c))%Z with (-714 - c)%Z in VF by ring. replace (151 + (661 + c))%Z with (812 + c)%Z in VF by ring.
  destruct (vneg_real (-714 - c) (812 + c) _ ltac:(lia) ltac:(lia) VF) as [OF OR].
  unfold rdiv_r. destruct (Req_EM_T (real_of den) 0) as [Z|_]; [destruct (ND NZ Z)|]. cbn [bind].
  rewrite R, scale_r_eq in VR. rewrite neg_r_eq, VR in OR. rewrite <- FRr. cbv zeta.
  destruct grav.
  - split; [exact VF|]. split; [unfold vscale; rewrite map_length; exact L|rewrite VR; reflexivity].
  - split; [exact OF|]. split; [unfold vneg, vscale; rewrite !map_length; exact L|rewrite OR; reflexivity].
Qed.
Theorem force_real s : moderate d (ps_pos s) -> magnitude 150 (ps_q s) -> (safe = true \/ ps_pos (real_src s) <> rv x) ->
  fitv (-864) 962 (forcefieldF hypF d grav safe eps s x) /\ length (forcefieldF hypF d grav safe eps s x) = d /\
  forcefield_r double_round hyp d grav safe (real_of eps) (real_src s) (rv x) = Ok (rv (forcefieldF hypF d grav safe eps s x)).
Proof. exact (force_real_charge 150 s ltac:(lia)). Qed.

Definition bounded_by (k : Z) (v : list float) : Prop := Forall (fun y => fin y /\ multiple (-864) (real_of y) /\ Rabs (real_of y) <= IZR k * pw 962) v.
Lemma vadd_bounded k a b : (0 <= k < 9007199254740992)%Z -> bounded_by k a -> fitv (-864) 962 b ->
  bounded_by (k + 1) (vadd (N := NumF) a b) /\ rv (vadd (N := NumF) a b) = vadd_r double_round (rv a) (rv b).
Proof.
  intros K HA'. revert b. induction HA' as [|y a (Y1 & Y2 & Y3) _ IH]; intros b HB; [split; [constructor|reflexivity]|].
  destruct HB as [|z b Z HB]; [split; [constructor|reflexivity]|]. destruct (IH b HB) as [IB IR].
  destruct (add_bounded (-864) 962 k y z ltac:(lia) ltac:(lia) K Y1 Y2 Y3 Z) as (G1 & G2 & G3 & G4).
  split.
  - constructor; [split; [exact G1|split; assumption]|exact IB].
  - unfold vadd, vadd_r, map2 in *. cbn [map combine]. f_equal; [exact G4|exact IR].
Qed.
Theorem force_sum_real srcs : moderate_sources d srcs -> evaluable safe (rv x) (map real_src srcs) -> (Z.of_nat (length srcs) <= 9007199254740992)%Z ->
  (forall y, In y (forcefield_sumF hypF d grav safe eps srcs x) -> fin y) /\ length (forcefield_sumF hypF d grav safe eps srcs x) = d /\
  forcefield_sum_r double_round hyp d grav safe (real_of eps) (map real_src srcs) (rv x) = Ok (rv (forcefield_sumF hypF d grav safe eps srcs x)).
Proof.
  intros MS EV NS.
  assert (T : forall s, In s srcs -> fitv (-864) 962 (forcefieldF hypF d grav safe eps s x) /\ length (forcefieldF hypF d grav safe eps s x) = d /\
    forcefield_r double_round hyp d grav safe (real_of eps) (real_src s) (rv x) = Ok (rv (forcefieldF hypF d grav safe eps s x))).
  { intros s S. destruct (MS s S) as [P Q]. apply force_real; try assumption. destruct EV as [EV|EV]; [left; exact EV|right; apply EV, in_map, S]. }
  clear MS EV. unfold forcefield_sumF, forcefield_sum_r.
  assert (G : forall k v, (0 <= k)%Z -> (k + Z.of_nat (length srcs) <= 9007199254740992)%Z -> bounded_by k v -> length v = d ->
    let r := fold_left (fun frc s => vadd (N := NumF) frc (forcefieldF hypF d grav safe eps s x)) srcs v in
    (forall y, In y r -> fin y) /\ length r = d /\
    ofold (fun frc s => do f <- forcefield_r double_round hyp d grav safe (real_of eps) s (rv x) ;; Ok (vadd_r double_round frc f))%outcome (map real_src srcs) (rv v) = Ok (rv r)).
  { clear NS. induction srcs as [|s srcs IH]; intros k v K0 K B LV; cbn [fold_left map ofold length] in *.
    - split; [|split; [exact LV|reflexivity]]. unfold bounded_by in B. rewrite Forall_forall in B. intros y Y. apply (B y Y).
    - destruct (T s (or_introl eq_refl)) as (T1 & T2 & T3). rewrite T3. cbn [bind].
      destruct (vadd_bounded k v _ ltac:(lia) B T1) as [B' R']. rewrite <- R'. apply (IH (fun s' S' => T s' (or_intror S')) (k + 1)%Z); try lia; [exact B'|].
      unfold vadd, map2. rewrite map_length, combine_length. lia. }
  destruct zero_real as [F0 Z0].
  destruct (G 0%Z (repeat 0%float d) ltac:(lia) ltac:(lia)) as (G1 & G2 & G3).
  - apply Forall_forall. intros y Y. apply repeat_spec in Y. subst y. rewrite Z0. split; [exact F0|]. split; [exists 0%Z; ring|rewrite Rabs_R0, Rmult_0_l; lra].
  - apply repeat_length.
  - split; [exact G1|]. split; [exact G2|]. rewrite map_repeat, Z0 in G3. exact G3.
Qed.
End Force.
