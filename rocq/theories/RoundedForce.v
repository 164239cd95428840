(** Accuracy of the force fields of rounded expansions. *)
From Coq Require Import Reals List Arith Lra Lia.
From Coquelicot Require Import Complex.
From Verif Require Import Num Outcome Vec VecProofs Tables CAux TableProofs Expansion2D Exp2Proofs M2LError Exp2Local Fields FieldSpec FieldProofs Exp2Errors Exp2Forces Exp2ForceErrors
  RoundedExpansion2D RoundedComplexSpec ApproxC RoundedSeries RoundedLocal RoundedConvert RoundedGood.
Import ListNotations.
Local Open Scope R_scope.
Arguments Cmod x%C.
Arguments Re z%C.
Arguments Im z%C.
Arguments ap w n%nat x'%C x%C X%R.
Arguments Cpow z%C n%nat.
Arguments peval cs z%C.
Arguments dpeval cs z%C.
Arguments field_of v%C.

Section Force.
Variable w : R.
Hypothesis Hw : 0 <= w <= 1 / 2.
Variable A : carith.
Hypothesis HA : accurate_complex w A.
Variable p : nat.
Hypothesis Hp1 : (1 <= p)%nat.
Variable rho L : R.
Hypothesis Hrho : 0 <= rho < 1.
Notation ap := (ap w).
Notation me_close := (me_close w p).
Notation lgood := (lgood w p rho L).
Notation ftau := (rho ^ Datatypes.S p / (1 - rho)).
Notation fgain := (rho / (1 - rho)).
Notation Fk k S x := (rsum (fun s => force_on 2 true 0 s x k) S).

Lemma field_of_sub k a b : nth k (field_of (a - b)) 0 = nth k (field_of a) 0 - nth k (field_of b) 0.
Proof. destruct k as [|[|k]]; cbn [nth field_of]; unfold Re, Im; simpl; try (destruct k); ring. Qed.
Lemma field_ap n v t M k : ap n v t M -> ap n (RtoC (nth k (field_of v) 0)) (RtoC (nth k (field_of t) 0)) M.
Proof.
  intros [H1 H2]. split.
  - rewrite Cmod_R. eapply Rle_trans; [apply field_of_bound|exact H1].
  - rewrite <- RtoC_minus, Cmod_R, <- field_of_sub. eapply Rle_trans; [apply field_of_bound|exact H2].
Qed.

(** The force of a good local expansion. *)
Theorem lgood_force n c S r e x : lgood n c S r e -> 0 < r -> length x = 2%nat -> Cmod (cplx x - cplx c) <= r ->
  exists v t, le2_force_r A e x = field_of v /\ ap (n + 3 * p + 2) v t (fgain * abs_charge S / r) /\
    forall k, (k < 2)%nat -> Rabs (nth k (field_of t) 0 - Fk k S x) <= abs_charge S * ftau / r.
Proof.
  intros (bs & Bs & H1 & _ & _ & H4 & H5) Hr0 Hx Hr. specialize (H5 x Hx Hr).
  destruct (lforce_close w Hw A HA p Hp1 n (cplx c) bs Bs e x r H1 Hr) as (v & E & P). exists v, (dpeval bs (cplx x - cplx c)). split; [exact E|]. split.
  - eapply (ap_weaken w Hw); [exact P|apply le_n|]. apply (Rmult_le_reg_l r); [exact Hr0|]. replace (r * (fgain * abs_charge S / r)) with (fgain * abs_charge S) by (field; lra). exact H4.
  - intros k Hk. apply (Rmult_le_reg_l r); [exact Hr0|]. replace (r * (abs_charge S * ftau / r)) with (abs_charge S * ftau) by (field; lra). exact (H5 k Hk).
Qed.

(** The force of a multipole expansion. *)
Lemma mforce_loop z' z D : close_norm w z' z -> 0 < D <= Cmod z -> forall cs' cs Bs n k ip' ip IP res' res X j, apl w n cs' cs Bs -> ap k ip' ip IP ->
  forall N, (n + k + 3 * length cs' + 2 <= N)%nat -> ap N res' res X ->
  ap (N + length cs') (me2_force_loop_r A z' ip' res' j cs') (me2_force_loop z ip res j cs) (X + IP * (INR j * pevalR Bs (/ D) + / D * dpevalR Bs (/ D))).
Proof.
  intros Z HD cs'. induction cs' as [|a' cs' IH]; intros [|a cs] [|Y Bs] n k ip' ip IP res' res X j H P N HN HR; cbn in H; try contradiction.
  - cbn [me2_force_loop_r me2_force_loop pevalR dpevalR length]. rewrite Nat.add_0_r. eapply ap_eq; [exact HR|reflexivity|ring].
  - destruct H as [H1 H2]. cbn [me2_force_loop_r me2_force_loop pevalR dpevalR length]. cbn [length] in HN.
    replace (N + S (length cs'))%nat with (S N + length cs')%nat by lia.
    eapply ap_eq; [eapply (IH cs Bs n (k + 3)%nat _ _ (IP / D) _ _ (X + INR j * Y * IP) (S j) H2)|reflexivity|].
    + eapply (op_div w Hw A HA); [exact P|exact Z|exact HD].
    + lia.
    + apply (op_sub w Hw A HA); [exact HR|]. eapply ap_eq; [eapply ap_le; [exact Hw|eapply (op_mul w Hw A HA); [eapply (op_scale w Hw A HA); exact H1|exact P]|lia]|reflexivity|].
      rewrite Rabs_pos_eq by apply pos_INR. reflexivity.
    + rewrite S_INR. unfold Rdiv. ring.
Qed.
Lemma sq_inv z' z D : close_norm w z' z -> 0 < D <= Cmod z -> c_mul A z' z' <> RtoC 0 /\ ap 7 (c_div A (RtoC 1) (c_mul A z' z')) (/ z * / z)%C (/ D * / D).
Proof.
  intros Z HD. destruct (inv_close w Hw z' z D Z HD) as (N & _ & I1). assert (Nz : z <> RtoC 0) by (apply Cmod_gt_0; lra).
  set (v := c_mul A z' z'). assert (V : close_norm w v (z' * z')%C) by apply (ac_mul _ _ HA).
  assert (N2 : (z' * z')%C <> RtoC 0) by (apply Cmult_neq_0; exact N). assert (P2 := proj1 (Cmod_gt_0 _) N2).
  destruct (inv_close w Hw v (z' * z')%C (Cmod (z' * z')) V ltac:(lra)) as (Nv & _ & I2). split; [exact Nv|].
  assert (W2 : w * (1 + 2 * w) <= (1 + w) ^ 2 - 1) by nra.
  assert (A1 : ap 2 (/ z')%C (/ z)%C (/ D)).
  { split; [rewrite Cmod_inv by exact Nz; apply Rinv_le_contravar; lra|]. eapply Rle_trans; [exact I1|]. unfold Rdiv. rewrite <- Rmult_assoc.
    apply Rmult_le_compat_r; [left; apply Rinv_0_lt_compat; lra|exact W2]. }
  assert (A3 : ap 2 (z' * z' / v)%C (RtoC 1) 1).
  { split; [rewrite Cmod_1; lra|]. replace (z' * z' / v - RtoC 1)%C with (z' * z' * (/ v - / (z' * z')))%C by (field; repeat split; assumption).
    rewrite Cmod_mult. eapply Rle_trans; [apply Rmult_le_compat_l; [lra|exact I2]|]. replace (Cmod (z' * z') * (w * ((1 + 2 * w) / Cmod (z' * z')))) with (w * (1 + 2 * w)) by (field; lra). lra. }
  eapply (ap_round w Hw 6); [|apply (ac_div _ _ HA); exact Nv].
  assert (E : (RtoC 1 / v = / z' * / z' * (z' * z' / v))%C) by (field; repeat split; assumption). rewrite E.
  eapply ap_eq; [exact (ap_mul w 4 2 _ _ _ _ _ _ (ap_mul w 2 2 _ _ _ _ _ _ A1 A1) A3)|ring|ring].
Qed.
Theorem mgood_force n c S r e x : length c = 2%nat -> length x = 2%nat -> same_dim 2 S -> me_close n (cplx c) S r e ->
  (forall s, In s S -> dist (ps_pos s) c <= r) -> 0 < r <= rho * Cmod (cplx x - cplx c) -> 0 < Cmod (cplx x - cplx c) ->
  exists v t, me2_force_r A e x = Ok (field_of v) /\ ap (n + 4 * p + 9) v t (fgain * abs_charge S / r) /\
    forall k, (k < 2)%nat -> Rabs (nth k (field_of t) 0 - Fk k S x) <= abs_charge S * ftau / r.
Proof.
  intros Hc Hx Hd (E1 & E2 & E3 & E4 & E5 & E6) HS Hr HP. set (z := (cplx x - cplx c)%C) in *. set (D := Cmod z) in *. set (Q := abs_charge S) in *.
  assert (Q0 : 0 <= Q) by apply abs_charge_pos. assert (RD : 0 < rho) by (apply (Rmult_lt_reg_r D); lra).
  destruct (me2_force_error c p S x r D Hc Hx Hd) as (F & V & _ & B).
  { split; [lra|]. nra. } { exact HS. } { rewrite dist_Cmod by assumption. unfold D, z. lra. }
  rewrite me2_sources_map in V. unfold me2_force in V. cbn [se_ctr se_co se_ord] in V. fold z in V. rewrite se_get_map in V by lia. cbn [bind] in V.
  assert (Nz : z <> RtoC 0) by (apply Cmod_gt_0; exact HP). rewrite cdiv_ok in V by exact Nz. cbn [bind] in V. rewrite cdiv_ok in V by (apply Cmult_neq_0; exact Nz). cbn [bind] in V.
  change (seq 0 (Datatypes.S p)) with (0%nat :: seq 1 p) in V. cbn [map tl] in V. injection V as V.
  unfold me2_force_r. rewrite E2. set (z' := c_sub A (cplx x) (cplx c)). assert (Z : close_norm w z' z) by (apply (op_diff w Hw A HA)).
  assert (HDz : 0 < D <= Cmod z) by (split; [exact HP|apply Rle_refl]).
  assert (Nz' : z' <> RtoC 0) by (eapply close_nz; eassumption). destruct (sq_inv z' z D Z HDz) as (Nsq & SQ).
  unfold se_get. rewrite (nth_error_C (se_co e) 0) by lia. cbn [of_option bind]. rewrite cdiv_r_ok by exact Nz'. cbn [bind]. rewrite cdiv_r_ok by exact Nsq. cbn [bind].
  set (v' := me2_force_loop_r A z' _ _ 1 _). exists v'. eexists. split; [reflexivity|].
  destruct (se_co e) as [|a' cs']; [discriminate|]. cbn [nth tl] in *. cbn [length] in E3.
  assert (AL : apl w n cs' (map (me_coef (cplx c) S) (seq 1 p)) (map (fun k => Q * r ^ k / INR k) (seq 1 p))).
  { apply (apl_nth w p Hp1); rewrite ?map_length, ?seq_length; try lia. intros k Hk. rewrite nth_map_seq_C, nth_map_seq_R by lia. apply (E6 (1 + k)%nat). lia. }
  assert (IPa : ap 7 (c_div A (RtoC 1) (c_mul A z' z')) (RtoC 1 / (z * z))%C (/ D * / D)) by (eapply ap_eq; [exact SQ|field; exact Nz|reflexivity]).
  assert (R0 : ap (n + 3 * p + 9) (c_div A (RtoC (Re a')) z') (RtoC (Re (me_coef (cplx c) S 0)) / z)%C (Q / D)).
  { eapply ap_le; [exact Hw|eapply (op_div w Hw A HA n); [|exact Z|exact HDz]|lia]. rewrite <- (real_eq a' E4). exact E5. }
  assert (M := mforce_loop z' z D Z HDz cs' _ _ n 7 _ _ _ _ _ _ 1 AL IPa (n + 3 * p + 9) ltac:(lia) R0). fold v' in M.
  assert (ID : 0 < / D) by (apply Rinv_0_lt_compat; exact HP).
  assert (N1 : Q / D + / D * / D * (INR 1 * pevalR (map (fun k => Q * r ^ k / INR k) (seq 1 p)) (/ D) + / D * dpevalR (map (fun k => Q * r ^ k / INR k) (seq 1 p)) (/ D)) <= fgain * Q / r).
  { assert (E := dpevalR_map_seq (fun k => Q * r ^ k / INR k) (/ D) p 1). rewrite pow_1 in E. rewrite (Rmult_assoc (/ D) (/ D)), E.
    rewrite (rsum_ext _ (fun k => Q * (r / D) ^ k)).
    2:{ intros k Hk. apply in_seq in Hk. assert (0 < INR k) by (apply lt_0_INR; lia). unfold Rdiv. rewrite Rpow_mult_distr. field; lra. }
    rewrite rsum_const_mul.
    assert (T : 0 <= r / D <= rho).
    { split; [apply Rmult_le_pos; lra|]. apply (Rmult_le_reg_r D); [exact HP|]. unfold Rdiv. rewrite Rmult_assoc, Rinv_l by lra. lra. }
    set (g := rsum _ (seq 1 p)). assert (G : g <= fgain) by (eapply Rle_trans; [|apply (geom_tail rho p Hrho)]; apply rsum_le; intros k _; apply pow_incr; exact T).
    apply Rle_trans with (Q / D * (1 + fgain)).
    - replace (Q / D + / D * (Q * g)) with (Q / D * (1 + g)) by (unfold Rdiv; ring).
      apply Rmult_le_compat_l; [apply Rmult_le_pos; lra|lra].
    - assert (DR : / D <= rho * / r). { apply (Rmult_le_reg_r (D * r)); [apply Rmult_lt_0_compat; lra|]. replace (/ D * (D * r)) with r by (field; lra). replace (rho * / r * (D * r)) with (rho * D) by (field; lra). lra. }
      replace (Q / D * (1 + fgain)) with (Q * / (1 - rho) * / D) by (field; lra). replace (fgain * Q / r) with (Q * / (1 - rho) * (rho * / r)) by (field; lra).
      apply Rmult_le_compat_l; [|exact DR]. apply Rmult_le_pos; [exact Q0|left; apply Rinv_0_lt_compat; lra]. }
  split; [eapply (ap_weaken w Hw); [exact M|lia|exact N1]|].
  intros k Hk. specialize (B k Hk). rewrite <- V in B. eapply Rle_trans; [exact B|]. replace (Q * ftau / r) with (Q * (ftau * / r)) by (unfold Rdiv; ring). apply Rmult_le_compat_l; [exact Q0|].
  assert (T := ftau_bound p rho Hrho r r D ltac:(lra) (proj2 Hr) HP). assert (DR : 0 < D - r) by nra. assert (T1 : 0 <= r / D <= 1).
  { split; [apply Rmult_le_pos; lra|]. apply (Rmult_le_reg_r D); [exact HP|]. unfold Rdiv. rewrite Rmult_assoc, Rinv_l by lra. nra. }
  assert (T2 := pow_le (r / D) p (proj1 T1)). assert (T3 : (r / D) ^ Datatypes.S p <= (r / D) ^ p) by (cbn [pow]; nra).
  apply Rle_trans with ((r / D) ^ p / (D - r)); [unfold Rdiv at 1 3; apply Rmult_le_compat_r; [left; apply Rinv_0_lt_compat; exact DR|exact T3]|].
  apply (Rmult_le_reg_l r); [lra|]. replace (r * (ftau * / r)) with ftau by (field; lra). exact T.
Qed.
End Force.
