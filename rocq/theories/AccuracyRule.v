(** How small the requested accuracy must be for a wanted absolute error. *)
From Coq Require Import List Bool ZArith Arith Lia Lra Reals.
From Verif Require Import Num Outcome Vec Orthtree AdaptiveTree GeometrySpec GeometryProofs BuildProofs BalancedSpec CAux FieldSpec FieldProofs
  Tables TableProofs Expansion2D Exp2Errors Exp2Proofs Exp2Theorems M2LError Fields TreeTheorems TreeTheorems3 FmmPasses FmmTree2D FmmApi PassTree FmmApiProofs
  FmmTheorems BalancedTree BalancedFmm BalancedApiProofs Tables3D Expansion3D FmmTree3D Exp3Theorems Fmm3ApiProofs Fmm3Theorems FmmTree2DProofs EpsRefuted BalancedTheorems.
Import ListNotations.
Local Open Scope R_scope.

Lemma order_exists eps srcs n : 0 < eps -> eps < abs_charge srcs -> (Z.of_nat n < 2 ^ 32)%Z -> abs_charge srcs <= eps * 2 ^ n ->
  exists p, (1 <= p <= n)%nat /\ order_of eps srcs = Ok p.
Proof.
  intros E0 EA N H. assert (P2 : forall k, 0 < 2 ^ k) by (intros; apply pow_lt; lra).
  assert (L : forall k, (abs_charge srcs / 2 ^ k <= eps) -> exists p, (p <= k)%nat /\ abs_charge srcs / 2 ^ p <= eps /\ forall q, (q < p)%nat -> eps < abs_charge srcs / 2 ^ q).
  { induction k as [|k IH]; intros K.
    - exists 0%nat. split; [lia|]. split; [exact K|]. intros q Q. lia.
    - destruct (Rle_dec (abs_charge srcs / 2 ^ k) eps) as [D|D].
      + destruct (IH D) as (p & P1 & P3). exists p. split; [lia|exact P3].
      + exists (S k). split; [lia|]. split; [exact K|]. intros q Q. apply Rnot_le_lt in D. eapply Rlt_le_trans; [exact D|].
        assert (0 <= abs_charge srcs) by apply abs_charge_nonneg. apply Rmult_le_compat_l; [assumption|].
        apply Rinv_le_contravar; [apply P2|]. apply Rle_pow; [lra|lia]. }
  destruct (L n) as (p & P1 & P3 & P4).
  { apply (Rmult_le_reg_r (2 ^ n)); [apply P2|]. unfold Rdiv. rewrite Rmult_assoc, Rinv_l by (apply Rgt_not_eq, P2). lra. }
  exists p. split.
  - split; [|exact P1]. destruct p; [|lia]. cbn [pow] in P3. lra.
  - apply order_spec. split; [exact E0|]. split; [lra|]. split; [lia|]. split; assumption.
Qed.

Lemma plane_bound eps A p delta : 0 < eps -> 0 <= A -> (1 <= p)%nat -> A / 2 ^ p <= eps -> 0 < delta -> 3 * A * eps <= 2 * delta ^ 2 ->
  trunc_bound (sqrt 2 / 2) p * A <= delta.
Proof.
  intros E A0 P H D R. eapply Rle_trans; [apply (trunc_sqrt A eps p A0 E H)|].
  assert (S2 := sqrt2_sq). assert (SL := sqrt2_lt). set (r := sqrt 2) in *.
  assert (Q : 0 <= sqrt (eps * A)) by apply sqrt_pos.
  assert (I : (1 + r) / INR (S p) <= (1 + r) / 2).
  { apply Rmult_le_compat_l; [lra|]. apply Rinv_le_contravar; [lra|]. replace 2 with (INR 2) by (simpl; ring). apply le_INR. lia. }
  eapply Rle_trans; [apply Rmult_le_compat_r; [exact Q|exact I]|].
  assert (T : sqrt (eps * A) * sqrt (eps * A) = eps * A) by (apply sqrt_sqrt; apply Rmult_le_pos; lra).
  set (q := sqrt (eps * A)) in *.
  apply Rsqr_incr_0; [|apply Rmult_le_pos; lra|lra]. unfold Rsqr.
  replace ((1 + r) / 2 * q * ((1 + r) / 2 * q)) with ((1 + 2 * r + r * r) / 4 * (q * q)) by field. rewrite T, S2.
  assert (r <= 3 / 2) by lra. assert (0 <= eps * A) by (apply Rmult_le_pos; lra). nra.
Qed.

Theorem plane_rule orders cap eps srcs delta : same_dim 2 srcs -> straddles 2 srcs ->
  (forall x, count_occ list_R_eq_dec (map (@ps_pos R) srcs) x <= cap)%nat ->
  0 < delta -> 0 < eps < abs_charge srcs -> abs_charge srcs <= eps * 2 ^ 1000 -> 3 * abs_charge srcs * eps <= 2 * delta ^ 2 ->
  exists fuel o, (forall r, adaptive_fmm2 cap fuel eps srcs (table_after orders) r <-> r = Ok o) /\
  forall grav x, length x = 2%nat -> exists v, potential_at grav srcs o x = Ok v /\
    Rabs (v - direct_potential 2 grav (filter (fun s => negb (is_at x s)) srcs) x) <= delta.
Proof.
  intros SD ST CO D0 [E0 EA] EN R. destruct (order_exists eps srcs 1000 E0 EA ltac:(lia) EN) as (p & P & O).
  destruct (fmm2_usable orders cap eps srcs p SD ST CO O EA) as (fuel & o & c & l & RB & IB & U & V).
  exists fuel, o. split; [exact U|]. intros grav x Hx. destruct (V grav x Hx) as (v & Hv & B1 & B2). exists v. split; [exact Hv|].
  assert (A0 := abs_charge_nonneg srcs). assert (OS := proj1 (order_spec _ _ _) O). destruct OS as (_ & _ & _ & HA & _).
  assert (T := plane_bound eps _ p delta E0 A0 (proj1 P) HA D0 R).
  destruct (in_box_dec 2 ltac:(lia) c l x) as [Hin|Hout].
  - eapply Rle_trans; [exact (B1 Hin)|exact T].
  - rewrite (B2 Hout). rewrite filter_all; [rewrite Rminus_diag_eq, Rabs_R0 by reflexivity; lra|].
    intros s Hs. rewrite (proj2 (is_at_false x s)); [reflexivity|]. apply (not_in_box_away 2 c l srcs x IB Hout s Hs).
Qed.
Theorem plane_rule_balanced orders cap eps srcs delta : same_dim 2 srcs -> spread 2 (@ps_pos R) srcs ->
  (1 <= cap)%nat -> (cap < length srcs * 2 ^ 2)%nat -> (Z.of_nat (length srcs) <= Z.of_nat cap * 2 ^ 32)%Z ->
  0 < delta -> 0 < eps < abs_charge srcs -> abs_charge srcs <= eps * 2 ^ 1000 -> 3 * abs_charge srcs * eps <= 2 * delta ^ 2 ->
  exists o c l, root_box 2 (map (@ps_pos R) srcs) = Some (c, l) /\ (forall r, balanced_fmm2 cap eps srcs (table_after orders) r <-> r = Ok o) /\
  forall grav x, length x = 2%nat -> in_half_open 2 c l x -> exists v, bal_potential_at grav o x = Ok v /\
    Rabs (v - direct_potential 2 grav (filter (fun s => negb (is_at x s)) srcs) x) <= delta.
Proof.
  intros SD ST C1 C2 C3 D0 [E0 EA] EN R. destruct (order_exists eps srcs 1000 E0 EA ltac:(lia) EN) as (p & P & O).
  destruct (bal2_usable orders cap eps srcs p SD ST C1 C2 C3 O EA) as (o & c & l & RB & _ & _ & U & V).
  exists o, c, l. split; [exact RB|]. split; [exact U|]. intros grav x Hx Hin. destruct (V grav x Hx Hin) as (v & Hv & B). exists v. split; [exact Hv|].
  assert (OS := proj1 (order_spec _ _ _) O). destruct OS as (_ & _ & _ & HA & _).
  eapply Rle_trans; [exact B|]. exact (plane_bound eps _ p delta E0 (abs_charge_nonneg srcs) (proj1 P) HA D0 R).
Qed.

(** *** Space: the error is of the order of the cube root of the requested accuracy *)
Lemma ratio3_cube : (sqrt 3 / (4 - sqrt 3)) ^ 3 <= / 2.
Proof.
  assert (S3 : sqrt 3 * sqrt 3 = 3) by (apply sqrt_sqrt; lra). assert (P : 0 < sqrt 3) by (apply sqrt_lt_R0; lra).
  set (r := sqrt 3) in *. assert (L : r < 2) by nra. assert (Q : 0 < 4 - r) by lra.
  replace ((r / (4 - r)) ^ 3) with (r ^ 3 / (4 - r) ^ 3) by (field; lra).
  apply (Rmult_le_reg_r ((4 - r) ^ 3)); [apply pow_lt; lra|]. unfold Rdiv. rewrite Rmult_assoc, Rinv_l by (apply pow_nonzero; lra).
  replace (r ^ 3) with (r * r * r) by ring. replace ((4 - r) ^ 3) with (64 - 48 * r + 12 * (r * r) - r * r * r) by ring. rewrite S3.
  assert (r < 1.7333) by nra. lra.
Qed.
Lemma space_bound eps A p side delta : 0 < eps -> 0 < A -> A / 2 ^ p <= eps -> 0 < side -> 0 < delta ->
  216 * A ^ 2 * eps <= (delta * side) ^ 3 ->
  2 * (sqrt 3 / (4 - sqrt 3)) ^ S p / ((2 - sqrt 3) * side) * A <= delta.
Proof.
  intros E A0 H S0 D R.
  assert (S3 : sqrt 3 * sqrt 3 = 3) by (apply sqrt_sqrt; lra). assert (P : 0 < sqrt 3) by (apply sqrt_lt_R0; lra).
  assert (C := ratio3_cube). set (r := sqrt 3) in *. assert (L : 1.732 < r < 1.7321) by nra.
  assert (Q0 : 0 < r / (4 - r)) by (apply Rdiv_lt_0_compat; lra). set (t := r / (4 - r)) in *.
  assert (Tp : 0 < t ^ p) by (apply pow_lt; exact Q0).
  assert (K : 2 * t / (2 - r) <= 6).
  { unfold t. apply (Rmult_le_reg_r ((4 - r) * (2 - r))); [apply Rmult_lt_0_compat; lra|].
    replace (2 * (r / (4 - r)) / (2 - r) * ((4 - r) * (2 - r))) with (2 * r) by (field; lra). nra. }
  replace (2 * t ^ S p / ((2 - r) * side) * A) with ((2 * t / (2 - r)) * (t ^ p * A / side)) by (cbn [pow]; field; lra).
  assert (W : 0 < t ^ p * A / side) by (apply Rdiv_lt_0_compat; [apply Rmult_lt_0_compat; lra|exact S0]).
  apply Rle_trans with (6 * (t ^ p * A / side)); [apply Rmult_le_compat_r; lra|].
  assert (C3 : (t ^ p) ^ 3 <= / 2 ^ p).
  { rewrite <- pow_mult, Nat.mul_comm, pow_mult, <- pow_inv. apply pow_incr. split; [apply pow_le; lra|exact C]. }
  destruct (Rle_dec (6 * (t ^ p * A / side)) delta) as [G|G]; [exact G|exfalso]. apply Rnot_le_lt in G.
  assert (G' : delta * side < 6 * (t ^ p * A)).
  { apply (Rmult_lt_compat_r side) in G; [|exact S0]. replace (6 * (t ^ p * A / side) * side) with (6 * (t ^ p * A)) in G by (field; lra). exact G. }
  assert (G3 : (delta * side) ^ 3 < (6 * (t ^ p * A)) ^ 3).
  { assert (0 < delta * side) by (apply Rmult_lt_0_compat; assumption). set (a := delta * side) in *. set (b := 6 * (t ^ p * A)) in *.
    assert (a * a < b * b) by nra. replace (a ^ 3) with (a * a * a) by ring. replace (b ^ 3) with (b * b * b) by ring. nra. }
  replace ((6 * (t ^ p * A)) ^ 3) with (216 * A ^ 2 * (A * (t ^ p) ^ 3)) in G3 by ring.
  assert (X : A * (t ^ p) ^ 3 <= eps) by (eapply Rle_trans; [apply Rmult_le_compat_l; [lra|exact C3]|exact H]).
  assert (Y : 216 * A ^ 2 * (A * (t ^ p) ^ 3) <= 216 * A ^ 2 * eps) by (apply Rmult_le_compat_l; [apply Rmult_le_pos; [lra|apply pow2_ge_0]|exact X]).
  lra.
Qed.

Theorem space_rule orders tb cap fuel t c l eps srcs delta : tables3_after orders = Ok tb -> same_dim 3 srcs ->
  build_adaptive 3 (@ps_pos R) cap fuel srcs = Ok t -> root_box 3 (map (@ps_pos R) srcs) = Some (c, l) ->
  (forall s, In s srcs -> in_box 3 c l (ps_pos s)) -> 0 < l ->
  0 < delta -> 0 < eps < abs_charge srcs -> abs_charge srcs <= eps * 2 ^ 42 ->
  216 * abs_charge srcs ^ 2 * eps <= (delta * (l / 2 ^ at_height t)) ^ 3 ->
  exists o, (forall r, adaptive_fmm3 cap fuel eps srcs tb r <-> r = Ok o) /\
  forall grav x, length x = 3%nat -> exists v, potential3_at grav srcs o x = Ok v /\
    Rabs (v - direct_potential 3 grav (filter (fun s => negb (is_at x s)) srcs) x) <= delta.
Proof.
  intros TB SD B RB IB L0 D0 [E0 EA] EN R. destruct (order_exists eps srcs 42 E0 EA ltac:(lia) EN) as (p & P & O).
  destruct (fmm3_potential orders tb cap fuel eps srcs p t c l TB SD O P B RB IB) as (o & U & _ & _ & V).
  exists o. split; [exact U|]. intros grav x Hx. destruct (V grav x Hx) as (v & Hv & B1 & B2). exists v. split; [exact Hv|].
  assert (OS := proj1 (order_spec _ _ _) O). destruct OS as (_ & _ & _ & HA & _).
  assert (SP : 0 < l / 2 ^ at_height t) by (apply Rdiv_lt_0_compat; [exact L0|apply pow_lt; lra]).
  assert (T := space_bound eps (abs_charge srcs) p _ delta E0 ltac:(lra) HA SP D0 R).
  destruct (in_box_dec 3 ltac:(lia) c l x) as [Hin|Hout].
  - eapply Rle_trans; [exact (B1 Hin)|]. destruct (length srcs <=? cap)%nat; [lra|exact T].
  - rewrite (B2 Hout). rewrite filter_all; [rewrite Rminus_diag_eq, Rabs_R0 by reflexivity; lra|].
    intros s Hs. rewrite (proj2 (is_at_false x s)); [reflexivity|]. apply (not_in_box_away 3 c l srcs x IB Hout s Hs).
Qed.

(** *** Instances *)
Lemma plane_rule_case : same_dim 2 five_unit /\ straddles 2 five_unit /\ spread 2 (@ps_pos R) five_unit /\
  (forall x, count_occ list_R_eq_dec (map (@ps_pos R) five_unit) x <= 1)%nat /\
  0 < / 100 /\ 0 < / 100000 < abs_charge five_unit /\ abs_charge five_unit <= / 100000 * 2 ^ 1000 /\ 3 * abs_charge five_unit * / 100000 <= 2 * (/ 100) ^ 2.
Proof.
  destruct five_unit_case as (H1 & H2 & H3 & _). split; [exact H1|]. split; [exact H2|]. split; [exact five_unit_spread|].
  split; [exact H3|]. rewrite five_unit_charge. split; [lra|]. split; [lra|]. split; [|lra].
  assert (B : 2 ^ 20 <= 2 ^ 1000) by (apply Rle_pow; [lra|lia]). replace (2 ^ 20) with 1048576 in B by (cbn [pow]; ring). lra.
Qed.
Lemma space_rule_case : exists fuel t c l delta, tables3_after [] = Ok tb3_init /\ same_dim 3 five3_unit /\
  build_adaptive 3 (@ps_pos R) 1 fuel five3_unit = Ok t /\ root_box 3 (map (@ps_pos R) five3_unit) = Some (c, l) /\
  (forall s, In s five3_unit -> in_box 3 c l (ps_pos s)) /\ 0 < l /\
  0 < delta /\ 0 < / 1000000 < abs_charge five3_unit /\ abs_charge five3_unit <= / 1000000 * 2 ^ 42 /\
  216 * abs_charge five3_unit ^ 2 * / 1000000 <= (delta * (l / 2 ^ at_height t)) ^ 3.
Proof.
  destruct five3_case as (H1 & H2 & H3 & H4 & _). assert (HN : five3_unit <> []) by discriminate.
  destruct (proj2 (adaptive_builds 3 (@ps_pos R) 1 five3_unit ltac:(lia) HN H1 H2) H4) as (fuel & t & HB).
  destruct (spread_inside 3 (@ps_pos R) five3_unit ltac:(lia) H1 H3) as (c & l & HR & _ & Hl & _).
  assert (Hbox := root_box_contains 3 (@ps_pos R) five3_unit c l ltac:(lia) H1 HR H2).
  assert (SP : 0 < l / 2 ^ at_height t) by (apply Rdiv_lt_0_compat; [exact Hl|apply pow_lt; lra]).
  exists fuel, t, c, l, (/ 5 / (l / 2 ^ at_height t)). split; [reflexivity|]. split; [exact H1|]. split; [exact HB|]. split; [exact HR|]. split; [exact Hbox|].
  split; [exact Hl|]. rewrite five3_charge. split; [apply Rdiv_lt_0_compat; [lra|exact SP]|]. split; [lra|]. split; [cbn [pow]; lra|].
  replace (/ 5 / (l / 2 ^ at_height t) * (l / 2 ^ at_height t)) with (/ 5).
  - cbn [pow]. lra.
  - unfold Rdiv at 1. rewrite Rmult_assoc, Rinv_l by (apply Rgt_not_eq; exact SP). ring.
Qed.
