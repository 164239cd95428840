(** Integer coordinates of the boxes of a tree; exactness of the adjacency test; separation of non-adjacent boxes. *)
From Coq Require Import List Bool ZArith Arith Reals Lra Lia Psatz.
From Verif Require Import Num Outcome Vec Orthtree AdaptiveTree VecProofs GeometrySpec GeometryProofs.
Import ListNotations.

(** ** Adjacency between dyadic boxes, stated on boxes *)
Section Dyadic.
Local Open Scope R_scope.

Lemma pow2_pos k : 0 < 2 ^ k.
Proof. apply pow_lt; lra. Qed.

Lemma div_nonneg a b : 0 <= a -> 0 < b -> 0 <= a / b.
Proof. intros. apply Rmult_le_pos; [assumption|]. apply Rlt_le, Rinv_0_lt_compat; assumption. Qed.

Lemma pow2_le k m : (k <= m)%nat -> 2 ^ k <= 2 ^ m.
Proof. intros. apply Rle_pow; [lra|assumption]. Qed.

(** [l/2^a - l/2^b]-type combinations are integer multiples of the smaller length. *)
Lemma dyadic_gap l k1 k2 (m1 m2 : Z) : 0 < l ->
  exists N : Z, IZR m2 * (l / 2 ^ k2) - IZR m1 * (l / 2 ^ k1) = IZR N * Rmin (l / 2 ^ k1) (l / 2 ^ k2).
Proof.
  intros Hl.
  assert (P1 := pow2_pos k1). assert (P2 := pow2_pos k2).
  destruct (le_lt_dec k1 k2) as [H|H].
  - exists (m2 - m1 * 2 ^ (Z.of_nat (k2 - k1)))%Z.
    rewrite Rmin_right.
    + rewrite minus_IZR, mult_IZR. rewrite <- pow_IZR.
      replace (l / 2 ^ k1) with (2 ^ (k2 - k1) * (l / 2 ^ k2)). ring.
      replace k2 with (k1 + (k2 - k1))%nat at 2 by lia. rewrite pow_add.
      field. split; apply pow_nonzero; lra.
    + apply Rmult_le_compat_l; [lra|]. apply Rinv_le_contravar; [assumption|]. apply pow2_le; assumption.
  - exists (m2 * 2 ^ (Z.of_nat (k1 - k2)) - m1)%Z.
    rewrite Rmin_left.
    + rewrite minus_IZR, mult_IZR. rewrite <- pow_IZR.
      replace (l / 2 ^ k2) with (2 ^ (k1 - k2) * (l / 2 ^ k1)). ring.
      replace k1 with (k2 + (k1 - k2))%nat at 2 by lia. rewrite pow_add.
      field. split; apply pow_nonzero; lra.
    + apply Rmult_le_compat_l; [lra|]. apply Rinv_le_contravar; [assumption|]. apply pow2_le; lia.
Qed.

Lemma half_multiple N w : 0 < w -> (IZR N * w <= w / 2 <-> IZR N * w <= 0).
Proof.
  intros Hw. split; intros H; [|lra].
  destruct (Z_le_gt_dec N 0) as [L|G].
  - apply IZR_le in L. nra.
  - assert (1 <= N)%Z as G' by lia. apply IZR_le in G'. nra.
Qed.

Lemma adjacent_exact d (c c1 c2 : list R) l k1 k2 : 0 <= l ->
  subbox d c l k1 c1 -> subbox d c l k2 c2 ->
  (adjacent d c1 (l / 2 ^ k1) c2 (l / 2 ^ k2) = true <-> boxes_touch d c1 (l / 2 ^ k1) c2 (l / 2 ^ k2)).
Proof.
  intros Hl (Hc1 & n1 & B1 & E1) (Hc2 & n2 & B2 & E2).
  assert (P1 := pow2_pos k1). assert (P2 := pow2_pos k2).
  assert (Q1 : 0 <= l / 2 ^ k1) by (apply div_nonneg; lra).
  assert (Q2 : 0 <= l / 2 ^ k2) by (apply div_nonneg; lra).
  rewrite adjacent_iff_raw by assumption. rewrite boxes_touch_iff by assumption.
  destruct (Rle_lt_or_eq_dec 0 l Hl) as [Hp|Hz].
  2:{ subst l. unfold Rdiv in *. rewrite !Rmult_0_l in *. 
      rewrite Rmin_left by lra. rewrite Rmult_0_l. unfold vget; simpl. split; intros H j Hj; specialize (H j Hj); lra. }
  split; intros H j Hj; specialize (H j Hj); unfold vget in *; simpl in *; rewrite E1, E2 in * by assumption.
  - destruct (dyadic_gap l k1 k2 (Z.of_nat (n1 j) + 1) (Z.of_nat (n2 j)) Hp) as [N HN].
    destruct (dyadic_gap l k2 k1 (Z.of_nat (n2 j) + 1) (Z.of_nat (n1 j)) Hp) as [N' HN'].
    rewrite plus_IZR, <- !INR_IZR_INZ in HN, HN'. rewrite (Rmin_comm (l / 2 ^ k2)) in HN'.
    assert (W : 0 < Rmin (l / 2 ^ k1) (l / 2 ^ k2)).
    { apply Rmin_pos; apply Rdiv_lt_0_compat; lra. }
    destruct (half_multiple N _ W) as [HA _]. destruct (half_multiple N' _ W) as [HB _]. lra.
  - assert (W : 0 <= Rmin (l / 2 ^ k1) (l / 2 ^ k2)) by (apply Rmin_glb; assumption). lra.
Qed.

End Dyadic.

(** ** Boxes by address *)
Fixpoint box_len (l : R) (p : addr) : R :=
  match p with [] => l | _ :: q => (box_len l q / 2)%R end.
Fixpoint box_ctr (d : nat) (c : list R) (l : R) (p : addr) : list R :=
  match p with [] => c | i :: q => child_center d (box_ctr d c l q) (box_len l q / 2)%R i end.

(** Integer grid coordinate of box [p] in dimension [j] at its own level. *)
Fixpoint gco (d j : nat) (p : addr) : Z :=
  match p with
  | [] => 0%Z
  | i :: q => (2 * gco d j q + (if Nat.testbit i (d - 1 - j) then 1 else 0))%Z
  end.

Definition p2 (p : addr) : Z := (2 ^ Z.of_nat (length p))%Z.

Definition touch (d : nat) (p q : addr) : bool :=
  forallb (fun j => ((gco d j p * p2 q <=? (gco d j q + 1) * p2 p) && (gco d j q * p2 p <=? (gco d j p + 1) * p2 q))%Z)
          (seq 0 d).

Lemma p2_pos p : (0 < p2 p)%Z.
Proof. unfold p2. apply Z.pow_pos_nonneg; lia. Qed.
Lemma p2_cons i p : p2 (i :: p) = (2 * p2 p)%Z.
Proof. unfold p2. simpl length. rewrite Nat2Z.inj_succ, Z.pow_succ_r; lia. Qed.

Lemma gco_bounds d j p : (0 <= gco d j p < p2 p)%Z.
Proof.
  induction p as [|i p IH]; [unfold p2; simpl; lia|]. rewrite p2_cons. cbn [gco].
  destruct (Nat.testbit i (d - 1 - j)); lia.
Qed.

Lemma box_len_pow l p : box_len l p = (l / 2 ^ length p)%R.
Proof.
  induction p as [|i p IH]; simpl; [field|]. rewrite IH. field. apply pow_nonzero; lra.
Qed.

Lemma len_box_ctr d c l p : length c = d -> length (box_ctr d c l p) = d.
Proof. intros H. induction p; simpl; [assumption|]. apply len_child_center; assumption. Qed.

Lemma nth_box_ctr d c l p j : length c = d -> j < d ->
  (nth j (box_ctr d c l p) 0 = nth j c 0 - l / 2 + (IZR (gco d j p) + / 2) * (l / 2 ^ length p))%R.
Proof.
  intros Hc Hj. induction p as [|i p IH].
  - simpl. field.
  - simpl box_ctr. assert (E := vget_child_center d (box_ctr d c l p) (box_len l p / 2) i j (len_box_ctr _ _ _ _ Hc) Hj).
    unfold vget in E; cbn -[child_center box_ctr] in E. rewrite E, IH, box_len_pow. cbn [gco length pow].
    rewrite plus_IZR, mult_IZR.
    assert (2 ^ length p <> 0)%R by (apply pow_nonzero; lra).
    destruct (Nat.testbit i (d - 1 - j)); field; assumption.
Qed.

Lemma box_ctr_subbox d c l p : length c = d -> subbox d c l (length p) (box_ctr d c l p).
Proof.
  intros Hc. split; [apply len_box_ctr; assumption|].
  exists (fun j => Z.to_nat (gco d j p)). split.
  - intros j Hj. assert (B := gco_bounds d j p). unfold p2 in B.
    apply Nat2Z.inj_lt. rewrite Z2Nat.id by lia. rewrite Nat2Z.inj_pow. exact (proj2 B).
  - intros j Hj. rewrite nth_box_ctr by assumption. assert (B := gco_bounds d j p).
    rewrite INR_IZR_INZ, Z2Nat.id by lia. reflexivity.
Qed.

(** Conversely every dyadic sub-box of the root box has an address. *)
Lemma subbox_addr d c l k c' : length c = d -> subbox d c l k c' ->
  exists p, length p = k /\ Forall (fun i => i < 2 ^ d) p /\ box_ctr d c l p = c'.
Proof.
  intros Hc (Hl & n & B & E).
  assert (G : forall k n, (forall j, j < d -> n j < 2 ^ k) ->
     exists p, length p = k /\ Forall (fun i => i < 2 ^ d) p /\ forall j, j < d -> gco d j p = Z.of_nat (n j)).
  { clear. induction k as [|k IH]; intros n B.
    - exists []. split; [reflexivity|]. split; [constructor|]. intros j Hj. specialize (B j Hj). simpl in *. lia.
    - destruct (IH (fun j => n j / 2)) as (p & Hp & F & G).
      { intros j Hj. specialize (B j Hj). simpl in B. apply Nat.div_lt_upper_bound; lia. }
      exists (horner (fun j => Nat.odd (n j)) d :: p). split; [simpl; lia|]. split.
      { constructor; [apply horner_lt|assumption]. }
      intros j Hj. cbn [gco]. rewrite G by assumption. rewrite horner_bit by lia.
      replace (d - 1 - (d - 1 - j)) with j by lia.
      assert (M := Nat.div_mod (n j) 2 ltac:(lia)). 
      assert (O : Nat.odd (n j) = Nat.eqb (n j mod 2) 1).
      { rewrite <- Nat.bit0_odd. rewrite Nat.bit0_eqb. reflexivity. }
      rewrite O. assert (n j mod 2 < 2) by (apply Nat.mod_upper_bound; lia).
      destruct (Nat.eqb_spec (n j mod 2) 1); lia. }
  destruct (G k n B) as (p & Hp & F & Gp). exists p. split; [assumption|]. split; [assumption|].
  apply (vec_ext _ _ d); [apply len_box_ctr; assumption|assumption|].
  intros j Hj. unfold vget; cbn -[box_ctr]. rewrite nth_box_ctr, E by assumption.
  rewrite Gp by assumption. rewrite INR_IZR_INZ. rewrite Hp. reflexivity.
Qed.

Lemma touch_iff d p q : touch d p q = true <->
  forall j, j < d -> (gco d j p * p2 q <= (gco d j q + 1) * p2 p /\ gco d j q * p2 p <= (gco d j p + 1) * p2 q)%Z.
Proof.
  unfold touch. rewrite forallb_forall. split; intros H j Hj.
  - specialize (H j ltac:(apply in_seq; lia)). lia.
  - apply in_seq in Hj. specialize (H j ltac:(lia)). lia.
Qed.

Lemma IZR_p2 p : IZR (p2 p) = (2 ^ length p)%R.
Proof. unfold p2. rewrite <- pow_IZR. reflexivity. Qed.

Lemma adjacent_touch d c l p q : length c = d -> (0 < l)%R ->
  adjacent d (box_ctr d c l p) (box_len l p) (box_ctr d c l q) (box_len l q) = touch d p q.
Proof.
  intros Hc Hl. apply eq_true_iff_eq. rewrite !box_len_pow.
  rewrite (adjacent_exact d c) by (try apply box_ctr_subbox; auto; lra).
  rewrite touch_iff.
  assert (P1 := pow2_pos (length p)). assert (P2 := pow2_pos (length q)).
  rewrite boxes_touch_iff by (apply div_nonneg; lra).
  assert (K : forall a b : Z, ((IZR a * (l / 2 ^ length p) <= IZR b * (l / 2 ^ length q))%R <-> (a * p2 q <= b * p2 p)%Z)).
  { intros a b. split; intros H.
    - apply le_IZR. rewrite !mult_IZR, !IZR_p2.
      apply (Rmult_le_reg_r (l / (2 ^ length p * 2 ^ length q))).
      { apply Rdiv_lt_0_compat; [lra|]. apply Rmult_lt_0_compat; lra. }
      replace (IZR a * 2 ^ length q * (l / (2 ^ length p * 2 ^ length q)))%R with (IZR a * (l / 2 ^ length p))%R by (field; lra).
      replace (IZR b * 2 ^ length p * (l / (2 ^ length p * 2 ^ length q)))%R with (IZR b * (l / 2 ^ length q))%R by (field; lra).
      assumption.
    - apply IZR_le in H. rewrite !mult_IZR, !IZR_p2 in H.
      apply (Rmult_le_reg_r ((2 ^ length p * 2 ^ length q) / l)).
      { apply Rdiv_lt_0_compat; [|lra]. apply Rmult_lt_0_compat; lra. }
      replace (IZR a * (l / 2 ^ length p) * ((2 ^ length p * 2 ^ length q) / l))%R with (IZR a * 2 ^ length q)%R by (field; lra).
      replace (IZR b * (l / 2 ^ length q) * ((2 ^ length p * 2 ^ length q) / l))%R with (IZR b * 2 ^ length p)%R by (field; lra).
      assumption. }
  assert (K' : forall a b : Z, ((IZR b * (l / 2 ^ length q) <= IZR a * (l / 2 ^ length p))%R <-> (b * p2 p <= a * p2 q)%Z)).
  { intros a b. split; intros H.
    - destruct (Z_le_gt_dec (b * p2 p) (a * p2 q)) as [L|G]; [assumption|exfalso].
      assert (S1 : (IZR a * (l / 2 ^ length p) <= IZR b * (l / 2 ^ length q))%R) by (apply K; lia).
      assert (S2 : (IZR a * (l / 2 ^ length p) = IZR b * (l / 2 ^ length q))%R) by lra.
      assert (a * p2 q = b * p2 p)%Z; [|lia].
      apply eq_IZR. rewrite !mult_IZR, !IZR_p2.
      apply (Rmult_eq_reg_r (l / (2 ^ length p * 2 ^ length q))).
      2:{ apply Rgt_not_eq. apply Rdiv_lt_0_compat; [lra|]. apply Rmult_lt_0_compat; lra. }
      replace (IZR a * 2 ^ length q * (l / (2 ^ length p * 2 ^ length q)))%R with (IZR a * (l / 2 ^ length p))%R by (field; lra).
      replace (IZR b * 2 ^ length p * (l / (2 ^ length p * 2 ^ length q)))%R with (IZR b * (l / 2 ^ length q))%R by (field; lra).
      assumption.
    - apply Rnot_lt_le. intros C.
      assert (S1 : (a * p2 q <= b * p2 p)%Z) by (apply K; lra).
      assert (S2 : (a * p2 q = b * p2 p)%Z) by lia.
      apply Rlt_not_eq in C. apply C.
      apply (f_equal IZR) in S2. rewrite !mult_IZR, !IZR_p2 in S2.
      apply (Rmult_eq_reg_r ((2 ^ length p * 2 ^ length q) / l)).
      2:{ apply Rgt_not_eq. apply Rdiv_lt_0_compat; [|lra]. apply Rmult_lt_0_compat; lra. }
      replace (IZR a * (l / 2 ^ length p) * ((2 ^ length p * 2 ^ length q) / l))%R with (IZR a * 2 ^ length q)%R by (field; lra).
      replace (IZR b * (l / 2 ^ length q) * ((2 ^ length p * 2 ^ length q) / l))%R with (IZR b * 2 ^ length p)%R by (field; lra).
      assumption. }
  split; intros H j Hj; specialize (H j Hj); rewrite !nth_box_ctr in * by assumption.
  - split.
    + apply K. rewrite plus_IZR. lra.
    + apply K'. rewrite plus_IZR. lra.
  - destruct H as [H1 H2]. apply K in H1. apply K' in H2. rewrite plus_IZR in H1, H2. lra.
Qed.

Lemma touch_sym d p q : touch d p q = touch d q p.
Proof.
  apply eq_true_iff_eq. rewrite !touch_iff. split; intros H j Hj; specialize (H j Hj); lia.
Qed.
Lemma touch_refl d p : touch d p p = true.
Proof. apply touch_iff. intros j Hj. assert (P := p2_pos p). lia. Qed.
Lemma touch_up_l d i p q : touch d (i :: p) q = true -> touch d p q = true.
Proof.
  rewrite !touch_iff. intros H j Hj. specialize (H j Hj). rewrite p2_cons in H. cbn [gco] in H.
  assert (P := p2_pos p). assert (Q := p2_pos q). destruct (Nat.testbit i (d - 1 - j)); split; nia.
Qed.
Lemma touch_up_r d i p q : touch d p (i :: q) = true -> touch d p q = true.
Proof. rewrite touch_sym. intros H. apply touch_up_l in H. rewrite touch_sym. assumption. Qed.
Lemma touch_root_l d q : touch d [] q = true.
Proof.
  apply touch_iff. intros j Hj. assert (B := gco_bounds d j q). change (p2 []) with 1%Z. cbn [gco]. lia.
Qed.
Lemma touch_siblings d i i' p : touch d (i :: p) (i' :: p) = true.
Proof.
  apply touch_iff. intros j Hj. rewrite !p2_cons. cbn [gco]. assert (P := p2_pos p).
  destruct (Nat.testbit i (d - 1 - j)), (Nat.testbit i' (d - 1 - j)); nia.
Qed.
Lemma touch_same_level d p q : length p = length q -> touch d p q = false ->
  exists j, j < d /\ (2 <= Z.abs (gco d j p - gco d j q))%Z.
Proof.
  intros HL H. unfold touch in H.
  assert (E : exists j, In j (seq 0 d) /\ ((gco d j p * p2 q <=? (gco d j q + 1) * p2 p) && (gco d j q * p2 p <=? (gco d j p + 1) * p2 q))%Z = false).
  { revert H. induction (seq 0 d) as [|x s IH]; simpl; [discriminate|].
    intros H. apply andb_false_iff in H. destruct H as [H|H].
    - exists x. auto.
    - destruct (IH H) as (j & Hj & E). exists j. auto. }
  destruct E as (j & Hj & E). apply in_seq in Hj. exists j. split; [lia|].
  assert (PQ : p2 p = p2 q) by (unfold p2; rewrite HL; reflexivity). rewrite PQ in E.
  assert (Q := p2_pos q). nia.
Qed.

(** ** Distances *)
Section Dist.
Local Open Scope R_scope.

Definition sumsq (v : list R) : R := fold_right (fun x a => x * x + a) 0 v.

Lemma vnorm_sq_sumsq (v : list R) : vnorm_sq v = sumsq v.
Proof.
  unfold vnorm_sq, vdot. 
  assert (G : forall a, fold_left nadd (map2 nmul v v) a = a + sumsq v).
  { induction v as [|x v IH]; intros a; simpl; [lra|]. unfold map2 in *; simpl in *. rewrite IH. lra. }
  rewrite G. simpl. lra.
Qed.

Lemma sumsq_nonneg v : 0 <= sumsq v.
Proof. induction v; simpl; [lra|]. nra. Qed.

Lemma sumsq_component v j : (j < length v)%nat -> nth j v 0 * nth j v 0 <= sumsq v.
Proof.
  revert j; induction v as [|x v IH]; intros j H; simpl in *; [lia|].
  destruct j.
  - assert (N := sumsq_nonneg v). lra.
  - specialize (IH j ltac:(lia)). nra.
Qed.

Lemma center_distance d c l p q : length c = d -> 0 <= l -> length p = length q -> touch d p q = false ->
  4 * (box_len l p * box_len l p) <= vnorm_sq (vsub (box_ctr d c l p) (box_ctr d c l q)).
Proof.
  intros Hc Hl HL HT. destruct (touch_same_level d p q HL HT) as (j & Hj & D).
  rewrite vnorm_sq_sumsq.
  assert (L : length (vsub (box_ctr d c l p) (box_ctr d c l q)) = d).
  { rewrite len_vsub, !len_box_ctr by assumption. lia. }
  eapply Rle_trans; [|apply (sumsq_component _ j); lia].
  assert (E := vget_vsub (box_ctr d c l p) (box_ctr d c l q) j). rewrite !len_box_ctr in E by assumption.
  specialize (E Hj Hj). unfold vget in E; cbn -[vsub box_ctr] in E. rewrite E.
  rewrite !nth_box_ctr by assumption. rewrite box_len_pow. rewrite <- HL.
  set (w := l / 2 ^ length p). assert (W : 0 <= w).
  { unfold w. apply div_nonneg; [assumption|]. apply pow2_pos. }
  assert (D' : 2 <= Rabs (IZR (gco d j p) - IZR (gco d j q))).
  { rewrite <- minus_IZR, <- abs_IZR. apply IZR_le. assumption. }
  set (a := IZR (gco d j p)) in *. set (b := IZR (gco d j q)) in *.
  assert (4 <= (a - b) * (a - b)).
  { replace ((a - b) * (a - b)) with (Rabs (a - b) * Rabs (a - b)).
    - nra.
    - rewrite <- Rabs_mult. apply Rabs_pos_eq. apply Rle_0_sqr. }
  assert (0 <= w * w) by nra. nra.
Qed.
End Dist.
