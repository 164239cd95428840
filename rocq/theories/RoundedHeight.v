(** The height and the order that the constructors compute in rounded arithmetic. *)
From Coq Require Import List Bool ZArith Arith Lia Lra Reals.
From Coquelicot Require Import Coquelicot.
From Verif Require Import Num Outcome Vec Orthtree AdaptiveTree CAux FieldSpec FmmApi FmmApiProofs BalancedFmm BalancedApiProofs RoundedSpec RoundedBalancedFmm RoundedApi.
Import ListNotations.
Local Open Scope R_scope.

Lemma ln_diff a b : 0 < a -> 0 < b -> ln a - ln b <= (a - b) / b.
Proof.
  intros Pa Pb. replace (ln a - ln b) with (ln (a / b)) by (unfold Rdiv; rewrite ln_mult, ln_Rinv by (try apply Rinv_0_lt_compat; assumption); ring). assert (Q : 0 < a / b) by (apply Rdiv_lt_0_compat; assumption).
  pose proof (exp_ineq1_le (ln (a / b))) as X. rewrite exp_ln in X by exact Q. replace ((a - b) / b) with (a / b - 1) by (field; lra). lra.
Qed.
Lemma ln_near w r' r : 0 <= w <= 1 / 2 -> 0 < r -> Rabs (r' - r) <= w * r -> 0 < r' /\ Rabs (ln r' - ln r) <= 2 * w.
Proof.
  intros Hw Hr H. apply Rabs_le_between in H. assert (P : 0 < r') by nra. split; [exact P|]. apply Rabs_le. split.
  - pose proof (ln_diff r r' Hr P) as X. assert ((r - r') / r' <= 2 * w); [|lra].
    apply (Rmult_le_reg_r r'); [assumption|]. unfold Rdiv. rewrite Rmult_assoc, Rinv_l by lra. nra.
  - pose proof (ln_diff r' r P Hr) as X. assert ((r' - r) / r <= 2 * w); [|lra].
    apply (Rmult_le_reg_r r); [assumption|]. unfold Rdiv. rewrite Rmult_assoc, Rinv_l by lra. nra.
Qed.
Lemma ln_tol : 1 / 2000 < ln (1001 / 1000).
Proof. pose proof (ln_diff 1 (1001 / 1000) ltac:(lra) ltac:(lra)) as X. rewrite ln_1 in X. lra. Qed.
Lemma ln2_bounds : 1 / 2 <= ln 2 <= 1.
Proof.
  split; [pose proof (ln_diff 1 2 ltac:(lra) ltac:(lra)) as X; rewrite ln_1 in X; lra|].
  pose proof (ln_diff 2 1 ltac:(lra) ltac:(lra)) as X. rewrite ln_1 in X. lra.
Qed.

Section Rounded.
Variable rnd lg : R -> R.
Variable u e : R.
Hypothesis Hu : 0 <= u <= / 10000000.
Hypothesis He : 0 <= e <= / 10000000.
Hypothesis Hrnd : accurate_rounding u rnd.
Hypothesis Hlg : accurate_log e lg.

(** The rounded quotient of logarithms, times the logarithm of the base. *)
Lemma quotient_close Q' Q N : 0 < Q -> Rabs (Q' - Q) <= / 5000 * Q -> Rabs (ln Q) <= 100 -> 2 <= N ->
  Rabs (rnd (lg Q' / lg N) * ln N - ln Q) <= 1 / 2000.
Proof.
  intros HQ HQ' HA HN. destruct (ln_near (/ 5000) Q' Q ltac:(lra) HQ HQ') as [P' L'].
  assert (B : 1 / 2 <= ln N). { destruct ln2_bounds as [B _]. destruct HN as [HN|<-]; [apply ln_increasing in HN; lra|lra]. }
  assert (G1 := Hlg Q' P'). assert (G2 := Hlg N ltac:(lra)). rewrite (Rabs_right (ln N)) in G2 by lra.
  set (b := ln N) in *. set (a := ln Q) in *. set (b' := lg N) in *. set (a' := lg Q') in *.
  assert (Ha : Rabs (ln Q') <= 101). { apply Rabs_le_between in HA, L'. apply Rabs_le. lra. }
  assert (E1 : Rabs (a' - a) <= 42 / 100000).
  { replace (a' - a) with ((a' - ln Q') + (ln Q' - a)) by ring. eapply Rle_trans; [apply Rabs_triang|].
    assert (e * Rabs (ln Q') <= / 10000000 * 101). { apply Rmult_le_compat; [lra|apply Rabs_pos|lra|exact Ha]. } lra. }
  apply Rabs_le_between in G2. assert (Eb : (1 - / 10000000) * b <= b' <= (1 + / 10000000) * b) by (split; nra).
  assert (Pb : 0 < b') by nra.
  assert (G3 := Hrnd (a' / b')). set (q := rnd (a' / b')) in *.
  assert (Aa : Rabs a' <= 102). { apply Rabs_le_between in HA, E1. apply Rabs_le. lra. }
  (* a'/b' * b close to a' *)
  assert (E2 : Rabs (a' / b' * b - a') <= 3 / 100000).
  { replace (a' / b' * b - a') with (a' * ((b - b') / b')) by (field; lra). rewrite Rabs_mult.
    assert (Rabs ((b - b') / b') <= 2 / 10000000).
    { apply Rabs_le. assert (X : (b - b') / b' * b' = b - b') by (field; lra). split; apply (Rmult_le_reg_r b'); try exact Pb; rewrite X; lra. }
    assert (Rabs a' * Rabs ((b - b') / b') <= 102 * (2 / 10000000)) by (apply Rmult_le_compat; [apply Rabs_pos|apply Rabs_pos|exact Aa|assumption]). lra. }
  assert (E3 : Rabs (q * b - a' / b' * b) <= 3 / 100000).
  { replace (q * b - a' / b' * b) with ((q - a' / b') * b) by ring. rewrite Rabs_mult, (Rabs_right b) by lra.
    assert (X : Rabs (a' / b') * b <= 102 + 3 / 100000).
    { replace (Rabs (a' / b') * b) with (Rabs (a' / b' * b)) by (rewrite Rabs_mult, (Rabs_right b) by lra; reflexivity).
      apply Rabs_le_between in E2, Aa. apply Rabs_le. lra. }
    assert (Rabs (q - a' / b') * b <= u * Rabs (a' / b') * b) by (apply Rmult_le_compat_r; lra).
    assert (u * (Rabs (a' / b') * b) <= / 10000000 * (102 + 3 / 100000)) by (apply Rmult_le_compat; [lra|apply Rmult_le_pos; [apply Rabs_pos|lra]|lra|exact X]).
    lra. }
  replace (q * b - a) with ((q * b - a' / b' * b) + (a' / b' * b - a') + (a' - a)) by ring.
  apply Rabs_le_between in E1, E2, E3. apply Rabs_le. lra.
Qed.

(** What the rounded-up quotient says of [Q]. *)
Lemma ceil_close Q' Q N : 0 < Q -> Rabs (Q' - Q) <= / 5000 * Q -> Rabs (ln Q) <= 100 -> 2 <= N ->
  let z := Rceil (rnd (lg Q' / lg N)) in
  (1001 / 1000 <= Q * N -> (0 <= z <= 202)%Z) /\ (Q * N <= 1000 / 1001 -> (z < 0)%Z) /\
  forall k, (z <= Z.of_nat k)%Z -> Q <= 1001 / 1000 * N ^ k.
Proof.
  intros HQ HQ' HA HN z. assert (D := quotient_close Q' Q N HQ HQ' HA HN). apply Rabs_le_between in D.
  assert (T := ln_tol). destruct (Rceil_spec (rnd (lg Q' / lg N))) as [C1 C2]. fold z in C1, C2. set (q := rnd (lg Q' / lg N)) in *. clearbody q z.
  assert (B : 1 / 2 <= ln N). { destruct ln2_bounds as [B _]. destruct HN as [HN|<-]; [apply ln_increasing in HN; lra|lra]. }
  assert (PQN : 0 < Q * N) by (apply Rmult_lt_0_compat; lra).
  assert (M : forall a b, 0 < a -> a <= b -> ln a <= ln b). { intros a b Pa [H| ->]; [left; apply ln_increasing; assumption|lra]. }
  split; [|split].
  - intros H. apply M in H; [|lra]. rewrite ln_mult in H by lra.
    split.
    + assert (-1 < q). { apply (Rmult_lt_reg_r (ln N)); [lra|]. lra. } assert (-1 < IZR z) by lra. apply lt_IZR in H1. lia.
    + apply Rabs_le_between in HA. assert (q <= 201). { apply (Rmult_le_reg_r (ln N)); [lra|]. nra. }
      assert (IZR z < 203) by lra. apply lt_IZR in H1. lia.
  - intros H. apply M in H; [|exact PQN]. rewrite ln_mult in H by lra.
    replace (1000 / 1001) with (/ (1001 / 1000)) in H by lra. rewrite ln_Rinv in H by lra.
    assert (q < -1). { apply (Rmult_lt_reg_r (ln N)); [lra|]. lra. } assert (IZR z < 0) by lra. apply lt_IZR in H1. exact H1.
  - intros k Hk. assert (q <= INR k). { rewrite INR_IZR_INZ. apply IZR_le in Hk. lra. }
    assert (PN : 0 < N ^ k) by (apply pow_lt; lra).
    destruct (Rle_lt_dec Q (1001 / 1000 * N ^ k)) as [|C]; [assumption|]. exfalso. apply ln_increasing in C; [|apply Rmult_lt_0_compat; lra].
    rewrite ln_mult, ln_pow in C by (try apply Rmult_lt_0_compat; lra).
    assert (q * ln N <= INR k * ln N) by (apply Rmult_le_compat_r; lra). lra.
Qed.
Lemma ceil_least Q' Q N : 0 < Q -> Rabs (Q' - Q) <= / 5000 * Q -> Rabs (ln Q) <= 100 -> 2 <= N ->
  forall k, (Z.of_nat k < Rceil (rnd (lg Q' / lg N)))%Z -> N ^ k < 1001 / 1000 * Q.
Proof.
  intros HQ HQ' HA HN k Hk. assert (D := quotient_close Q' Q N HQ HQ' HA HN). apply Rabs_le_between in D.
  assert (T := ln_tol). destruct (Rceil_spec (rnd (lg Q' / lg N))) as [C1 C2]. set (z := Rceil _) in *. set (q := rnd (lg Q' / lg N)) in *. clearbody q z.
  assert (B : 1 / 2 <= ln N). { destruct ln2_bounds as [B _]. destruct HN as [HN|<-]; [apply ln_increasing in HN; lra|lra]. }
  assert (INR k < q). { rewrite INR_IZR_INZ. assert (K : (Z.of_nat k <= z - 1)%Z) by lia. apply IZR_le in K. rewrite minus_IZR in K. lra. }
  apply ln_lt_inv; [apply pow_lt; lra|apply Rmult_lt_0_compat; lra|]. rewrite ln_mult, ln_pow by lra.
  assert (INR k * ln N < q * ln N) by (apply Rmult_lt_compat_r; lra). lra.
Qed.

Lemma pow_children d k : INR (n_children d) ^ k = (2 ^ d) ^ k.
Proof. unfold n_children. rewrite pow_INR. replace (INR 2) with 2 by (cbn; ring). reflexivity. Qed.
Lemma ln_range Q k : (k <= 100)%nat -> / 2 ^ k <= Q <= 2 ^ k -> 0 < Q /\ Rabs (ln Q) <= 100.
Proof.
  intros Hk [H1 H2]. assert (P : 0 < 2 ^ k) by (apply pow_lt; lra). assert (PQ : 0 < Q) by (pose proof (Rinv_0_lt_compat _ P); lra). split; [exact PQ|].
  assert (M : forall a b, 0 < a -> a <= b -> ln a <= ln b). { intros a b Pa [H| ->]; [left; apply ln_increasing; assumption|lra]. }
  apply M in H1; [|apply Rinv_0_lt_compat; exact P]. apply M in H2; [|exact PQ]. rewrite ln_Rinv in H1 by exact P. rewrite ln_pow in H1, H2 by lra.
  assert (X : INR k * ln 2 <= 100 * 1). { apply Rmult_le_compat; [apply pos_INR|destruct ln2_bounds; lra|replace 100 with (INR 100) by (cbn; ring); apply le_INR; exact Hk|apply ln2_bounds]. }
  apply Rabs_le. lra.
Qed.

(** *** The height *)
Section Height.
Variable d n cap : nat.
Hypothesis Hd : (1 <= d)%nat.
Hypothesis Hcap : (1 <= cap)%nat.
Hypothesis HQ : / 2 ^ 64 <= INR n / INR cap <= 2 ^ 64.
Notation Q := (INR n / INR cap).
Notation N := (INR (n_children d)).
Notation z := (Rceil (rnd (lg (rnd Q) / lg N))).
Lemma cap_pos : 0 < INR cap. Proof. apply lt_0_INR. lia. Qed.
Lemma Q_facts : 0 < Q /\ Rabs (rnd Q - Q) <= / 5000 * Q /\ Rabs (ln Q) <= 100 /\ 2 <= N /\ bal_height_r rnd lg d n cap = to_size z.
Proof.
  destruct (ln_range Q 64 ltac:(lia) HQ) as [P L]. split; [exact P|]. split; [|split; [exact L|split]].
  - eapply Rle_trans; [apply Hrnd|]. rewrite Rabs_right by lra. apply Rmult_le_compat_r; lra.
  - rewrite <- (pow_1 N), pow_children, pow_1. destruct d as [|k]; [lia|]. cbn [pow]. assert (1 <= 2 ^ k) by (apply pow_R1_Rle; lra). lra.
  - unfold bal_height_r. destruct (Nat.eqb_spec n 0) as [->|_]; [cbn [INR] in P; unfold Rdiv in P; lra|]. destruct (Nat.eqb_spec cap 0) as [->|_]; [lia|]. reflexivity.
Qed.
Theorem height_rounded : 1001 / 1000 * INR cap <= INR n * 2 ^ d ->
  exists k, bal_height_r rnd lg d n cap = Ok k /\ INR n <= 1001 / 1000 * (INR cap * (2 ^ d) ^ k) /\
    forall j, (j < k)%nat -> INR cap * (2 ^ d) ^ j < 1001 / 1000 * INR n.
Proof.
  intros H. destruct Q_facts as (P & C & L & N2 & E). destruct (ceil_close _ _ _ P C L N2) as (C1 & _ & C3). assert (PC := cap_pos).
  assert (EQ : Q * INR cap = INR n) by (field; lra).
  assert (Z : (0 <= z <= 202)%Z).
  { apply C1. apply (Rmult_le_reg_r (INR cap)); [exact PC|]. replace (Q * N * INR cap) with (INR n * N) by (field; lra). rewrite <- (pow_1 N), pow_children, pow_1. exact H. }
  exists (Z.to_nat z). split; [|split].
  - rewrite E. unfold to_size. rewrite (proj2 (Z.leb_le 0 z)) by apply Z. rewrite (proj2 (Z.ltb_lt z (2 ^ 64))) by (destruct Z as [_ Z]; eapply Z.le_lt_trans; [exact Z|reflexivity]). reflexivity.
  - specialize (C3 (Z.to_nat z) ltac:(rewrite Z2Nat.id by apply Z; apply Z.le_refl)). rewrite pow_children in C3.
    apply (Rmult_le_compat_r (INR cap)) in C3; [|lra]. rewrite EQ in C3. lra.
  - intros j Hj. assert (K := ceil_least _ _ _ P C L N2 j ltac:(lia)). rewrite pow_children in K.
    apply (Rmult_lt_compat_r (INR cap)) in K; [|exact PC]. rewrite Rmult_assoc, EQ in K. lra.
Qed.
Theorem height_rounded_undefined : 1001 / 1000 * (INR n * 2 ^ d) <= INR cap -> bal_height_r rnd lg d n cap = UB.
Proof.
  intros H. destruct Q_facts as (P & C & L & N2 & E). destruct (ceil_close _ _ _ P C L N2) as (_ & C2 & _). assert (PC := cap_pos).
  rewrite E. unfold to_size. rewrite (proj2 (Z.leb_gt 0 z)); [reflexivity|]. apply C2.
  apply (Rmult_le_reg_r (INR cap)); [exact PC|]. replace (Q * N * INR cap) with (INR n * N) by (field; lra). rewrite <- (pow_1 N), pow_children, pow_1. lra.
Qed.
(** Compared with the height of exact arithmetic. *)
Theorem height_off_by_one h k : bal_height d n cap = Ok h -> bal_height_r rnd lg d n cap = Ok k -> (k <= S h)%nat /\ (h <= S k)%nat.
Proof.
  intros Hh Hk. destruct Q_facts as (P & C & L & N2 & E). assert (PC := cap_pos). assert (EQ : Q * INR cap = INR n) by (field; lra).
  rewrite E in Hk. unfold to_size in Hk. destruct (Z.leb_spec 0 z) as [Z0|]; [|discriminate]. destruct (z <? 2 ^ 64)%Z; [|discriminate]. cbn [andb] in Hk. injection Hk as Hk.
  apply bal_height_spec in Hh; [|exact Hd]. destruct Hh as (_ & _ & _ & H1 & H2).
  assert (CV : forall j, INR (cap * (2 ^ d) ^ j) = INR cap * N ^ j) by (intros j; rewrite mult_INR, pow_INR; reflexivity).
  assert (G : forall i j, (i <= j)%nat -> N ^ i <= N ^ j) by (intros; apply Rle_pow; lra || assumption).
  assert (PN : forall j, 0 < N ^ j) by (intros; apply pow_lt; lra).
  split; apply Nat.nlt_ge; intros X.
  - assert (K := ceil_least _ _ _ P C L N2 (S h) ltac:(lia)). apply le_INR in H1. rewrite CV in H1.
    apply (Rmult_lt_compat_r (INR cap)) in K; [|exact PC]. rewrite (Rmult_assoc (1001 / 1000)), EQ in K. cbn [pow] in K. assert (X2 := Rmult_le_pos _ _ (Rlt_le _ _ PC) (Rlt_le _ _ (PN h))). nra.
  - destruct (ceil_close _ _ _ P C L N2) as (_ & _ & C3). specialize (C3 k ltac:(lia)). specialize (H2 (S k) X). apply lt_INR in H2. rewrite CV in H2.
    apply (Rmult_le_compat_r (INR cap)) in C3; [|lra]. rewrite EQ in C3. cbn [pow] in H2. assert (X2 := Rmult_le_pos _ _ (Rlt_le _ _ PC) (Rlt_le _ _ (PN k))). nra.
Qed.
Theorem height_same : 1001 / 1000 * INR cap <= INR n * 2 ^ d ->
  (forall j, INR n < 1000 / 1001 * (INR cap * (2 ^ d) ^ j) \/ 1001 / 1000 * (INR cap * (2 ^ d) ^ j) < INR n) ->
  exists k, bal_height_r rnd lg d n cap = Ok k /\ bal_height d n cap = Ok k.
Proof.
  intros H HJ. destruct (height_rounded H) as (k & E & K1 & K2). exists k. split; [exact E|]. apply bal_height_spec; [exact Hd|].
  assert (PC := cap_pos). assert (CV : forall j, INR (cap * (2 ^ d) ^ j) = INR cap * (2 ^ d) ^ j) by (intros j; rewrite mult_INR, <- pow_children, pow_INR; reflexivity).
  assert (PN : forall j, 0 < INR cap * (2 ^ d) ^ j) by (intros j; apply Rmult_lt_0_compat; [exact PC|]; apply pow_lt; apply pow_lt; lra).
  split; [exact Hcap|]. split; [|split; [|split]].
  - apply INR_lt. rewrite mult_INR, pow_INR. replace (INR 2) with 2 by (cbn; ring). lra.
  - destruct Q_facts as (P & C & L & N2 & E2). rewrite E2 in E. unfold to_size in E. destruct (Z.leb_spec 0 z) as [Z0|]; [|discriminate].
    destruct (Z.ltb_spec z (2 ^ 64)) as [Z1|]; [|discriminate]. cbn [andb] in E. injection E as <-. rewrite Z2Nat.id by exact Z0. exact Z1.
  - apply INR_le. rewrite CV. specialize (PN k). destruct (HJ k); lra.
  - intros j Hj. apply INR_lt. rewrite CV. specialize (K2 j Hj). specialize (PN j). destruct (HJ j); lra.
Qed.
End Height.

(** *** The order *)
Lemma charge_close srcs : Rabs (total_charge_r rnd srcs - abs_charge srcs) <= ((1 + u) ^ length srcs - 1) * abs_charge srcs.
Proof.
  assert (G : forall l k a' a, 0 <= a -> Rabs (a' - a) <= ((1 + u) ^ k - 1) * a ->
    Rabs (fold_left (fun acc s => rnd (acc + Rabs (ps_q s))) l a' - (a + abs_charge l)) <= ((1 + u) ^ (k + length l) - 1) * (a + abs_charge l)).
  { induction l as [|s l IH]; intros k a' a Ha H; cbn [fold_left length].
    - unfold abs_charge. cbn [rsum fold_right map]. rewrite Nat.add_0_r. rewrite !Rplus_0_r. exact H.
    - assert (Q0 := Rabs_pos (ps_q s)).
      assert (EA : a + abs_charge (s :: l) = (a + Rabs (ps_q s)) + abs_charge l) by (change (abs_charge (s :: l)) with (Rabs (ps_q s) + abs_charge l); ring).
      rewrite EA. replace (k + S (length l))%nat with (S k + length l)%nat by lia. apply IH; [lra|].
      assert (R := Hrnd (a' + Rabs (ps_q s))). assert (P : 1 <= (1 + u) ^ k) by (apply pow_R1_Rle; lra).
      assert (B : Rabs (a' + Rabs (ps_q s)) <= (1 + u) ^ k * (a + Rabs (ps_q s))). { apply Rabs_le_between in H. apply Rabs_le. nra. }
      cbn [pow]. replace (rnd (a' + Rabs (ps_q s)) - (a + Rabs (ps_q s))) with ((rnd (a' + Rabs (ps_q s)) - (a' + Rabs (ps_q s))) + (a' - a)) by ring.
      eapply Rle_trans; [apply Rabs_triang|].
      assert (u * Rabs (a' + Rabs (ps_q s)) <= u * ((1 + u) ^ k * (a + Rabs (ps_q s)))) by (apply Rmult_le_compat_l; lra). nra. }
  specialize (G srcs 0%nat 0 0 ltac:(lra)). cbn [pow Nat.add] in G. rewrite Rplus_0_l in G. apply G. rewrite Rminus_0_r, Rabs_R0. lra.
Qed.
Lemma pow_close n : INR n * u <= / 10000 -> (1 + u) ^ n - 1 <= / 9999.
Proof.
  intros H. assert (E : (1 + u) ^ n <= exp (INR n * u)).
  { clear H. induction n as [|n IH]; [cbn [pow INR]; rewrite Rmult_0_l, exp_0; lra|]. rewrite S_INR, Rmult_plus_distr_r, exp_plus, Rmult_1_l. cbn [pow].
    rewrite (Rmult_comm (exp _)). apply Rmult_le_compat; [lra|apply pow_le; lra|apply exp_ineq1_le|exact IH]. }
  pose proof (exp_ineq1_le (- (INR n * u))) as X. rewrite exp_Ropp in X.
  assert (exp (INR n * u) <= 10000 / 9999).
  { pose proof (exp_pos (INR n * u)) as P. apply (Rmult_le_compat_r (exp (INR n * u))) in X; [|lra]. rewrite Rinv_l in X by lra. nra. }
  lra.
Qed.
Section Order.
Variable eps : R.
Variable srcs : list (psrc R).
Hypothesis Heps : 0 < eps.
Hypothesis Hn : INR (length srcs) * u <= / 10000.
Notation A := (abs_charge srcs).
Notation a := (total_charge_r rnd srcs).
Notation z := (Rceil (rnd (lg (rnd (a / eps)) / lg 2))).
Hypothesis HQ : / 2 ^ 100 <= A / eps <= 2 ^ 100.
Lemma A_facts : 0 < A /\ 0 < A / eps /\ Rabs (rnd (a / eps) - A / eps) <= / 5000 * (A / eps) /\ Rabs (ln (A / eps)) <= 100 /\ order_of_r rnd lg eps srcs = to_unsigned z.
Proof.
  destruct (ln_range _ 100 ltac:(lia) HQ) as [P L].
  assert (PA : 0 < A). { replace A with (A / eps * eps) by (field; lra). apply Rmult_lt_0_compat; assumption. }
  assert (C := charge_close srcs). assert (W := pow_close _ Hn). assert (C' : Rabs (a - A) <= / 9999 * A) by (eapply Rle_trans; [exact C|apply Rmult_le_compat_r; lra]).
  assert (Pa : 0 < a) by (apply Rabs_le_between in C'; lra).
  split; [exact PA|]. split; [exact P|]. split; [|split; [exact L|]].
  - assert (R := Hrnd (a / eps)). assert (Q0 : 0 < a / eps) by (apply Rdiv_lt_0_compat; assumption). rewrite (Rabs_right (a / eps)) in R by lra.
    assert (D : Rabs (a / eps - A / eps) <= / 9999 * (A / eps)).
    { replace (a / eps - A / eps) with ((a - A) * / eps) by (field; lra). rewrite Rabs_mult, (Rabs_right (/ eps)) by (left; apply Rinv_0_lt_compat; exact Heps).
      unfold Rdiv. rewrite <- Rmult_assoc. apply Rmult_le_compat_r; [left; apply Rinv_0_lt_compat; exact Heps|exact C']. }
    assert (u * (a / eps) <= / 10000000 * (2 * (A / eps))). { apply Rmult_le_compat; [lra|lra|lra|]. apply Rabs_le_between in D. lra. }
    apply Rabs_le_between in D, R. apply Rabs_le. lra.
  - unfold order_of_r. destruct (Rlt_dec 0 eps) as [_|]; [|contradiction]. destruct (Rlt_dec 0 a) as [_|]; [|contradiction]. reflexivity.
Qed.
Theorem order_rounded : 1001 / 1000 * (eps / 2) <= A ->
  exists p, order_of_r rnd lg eps srcs = Ok p /\ A / 2 ^ p <= 1001 / 1000 * eps /\ forall q, (q < p)%nat -> eps < 1001 / 1000 * (A / 2 ^ q).
Proof.
  intros H. destruct A_facts as (PA & P & C & L & E). destruct (ceil_close _ _ 2 P C L ltac:(lra)) as (C1 & _ & C3).
  assert (Z : (0 <= z <= 202)%Z).
  { apply C1. apply (Rmult_le_reg_r eps); [exact Heps|]. replace (A / eps * 2 * eps) with (A * 2) by (field; lra). lra. }
  assert (T : forall k, 0 < 2 ^ k) by (intros; apply pow_lt; lra).
  exists (Z.to_nat z). split; [|split].
  - rewrite E. unfold to_unsigned. rewrite (proj2 (Z.leb_le 0 z)) by apply Z. rewrite (proj2 (Z.ltb_lt z (2 ^ 32))) by (destruct Z as [_ Z]; eapply Z.le_lt_trans; [exact Z|reflexivity]). reflexivity.
  - specialize (C3 (Z.to_nat z) ltac:(rewrite Z2Nat.id by apply Z; apply Z.le_refl)). specialize (T (Z.to_nat z)). set (k := Z.to_nat z) in *. clearbody k.
    apply (Rmult_le_reg_r (2 ^ k)); [exact T|]. replace (A / 2 ^ k * 2 ^ k) with (A / eps * eps) by (field; lra). apply (Rmult_le_compat_r eps) in C3; [|lra]. lra.
  - intros q Hq. assert (K := ceil_least _ _ 2 P C L ltac:(lra) q ltac:(lia)). specialize (T q).
    apply (Rmult_lt_reg_r (2 ^ q)); [exact T|]. replace (1001 / 1000 * (A / 2 ^ q) * 2 ^ q) with (1001 / 1000 * (A / eps) * eps) by (field; lra). apply (Rmult_lt_compat_r eps) in K; [|exact Heps]. lra.
Qed.
Theorem order_rounded_undefined : 1001 / 1000 * A <= eps / 2 -> order_of_r rnd lg eps srcs = UB.
Proof.
  intros H. destruct A_facts as (PA & P & C & L & E). destruct (ceil_close _ _ 2 P C L ltac:(lra)) as (_ & C2 & _).
  rewrite E. unfold to_unsigned. rewrite (proj2 (Z.leb_gt 0 z)); [reflexivity|]. apply C2.
  apply (Rmult_le_reg_r eps); [exact Heps|]. replace (A / eps * 2 * eps) with (A * 2) by (field; lra). lra.
Qed.
Theorem order_off_by_one p q : order_of eps srcs = Ok p -> order_of_r rnd lg eps srcs = Ok q -> (q <= S p)%nat /\ (p <= S q)%nat.
Proof.
  intros Hp Hq. destruct A_facts as (PA & P & C & L & E). rewrite E in Hq. unfold to_unsigned in Hq. destruct (Z.leb_spec 0 z) as [Z0|]; [|discriminate].
  destruct (z <? 2 ^ 32)%Z; [|discriminate]. cbn [andb] in Hq. injection Hq as Hq.
  apply order_spec in Hp. destruct Hp as (_ & _ & _ & H1 & H2).
  assert (T : forall k, 0 < 2 ^ k) by (intros; apply pow_lt; lra). assert (EQ : A / eps * eps = A) by (field; lra).
  split; apply Nat.nlt_ge; intros X.
  - assert (K := ceil_least _ _ 2 P C L ltac:(lra) (S p) ltac:(lia)). apply (Rmult_lt_compat_r eps) in K; [|exact Heps]. cbn [pow] in K. specialize (T p).
    apply (Rmult_le_compat_r (2 ^ p)) in H1; [|lra]. replace (A / 2 ^ p * 2 ^ p) with A in H1 by (field; lra). assert (0 < eps * 2 ^ p) by (apply Rmult_lt_0_compat; assumption). nra.
  - destruct (ceil_close _ _ 2 P C L ltac:(lra)) as (_ & _ & C3). specialize (C3 q ltac:(lia)). specialize (H2 (S q) X). specialize (T q). cbn [pow] in H2.
    apply (Rmult_le_compat_r eps) in C3; [|lra]. apply (Rmult_lt_compat_r (2 * 2 ^ q)) in H2; [|lra]. replace (A / (2 * 2 ^ q) * (2 * 2 ^ q)) with A in H2 by (field; lra).
    assert (0 < eps * 2 ^ q) by (apply Rmult_lt_0_compat; assumption). nra.
Qed.
End Order.
End Rounded.
