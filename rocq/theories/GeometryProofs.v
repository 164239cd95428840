(** Proofs about box geometry: orthants, children, adjacency. *)
From Coq Require Import List Bool ZArith Arith Reals Lra Lia.
From Verif Require Import Num Outcome Vec Orthtree VecProofs GeometrySpec.
Import ListNotations.

(** ** Orthant index *)
Definition horner (f : nat -> bool) (n : nat) : nat :=
  fold_left (fun acc i => Nat.lor (Nat.shiftl acc 1) (if f i then 1 else 0)) (seq 0 n) 0.

Lemma testbit_high i d k : i < 2 ^ d -> d <= k -> Nat.testbit i k = false.
Proof.
  intros Hi Hk. destruct (Nat.eq_dec i 0) as [->|Hn]; [apply Nat.bits_0|].
  apply Nat.bits_above_log2. assert (Nat.log2 i < d) by (apply Nat.log2_lt_pow2; lia). lia.
Qed.

Lemma lor_shiftl1 a (b : bool) : Nat.lor (Nat.shiftl a 1) (if b then 1 else 0) = 2 * a + Nat.b2n b.
Proof.
  apply Nat.bits_inj. intros k. rewrite Nat.lor_spec.
  destruct k as [|k].
  - rewrite Nat.shiftl_spec_low by lia. rewrite Nat.testbit_0_r. destruct b; reflexivity.
  - rewrite Nat.shiftl_spec_high by lia. rewrite Nat.testbit_succ_r.
    replace (S k - 1) with k by lia.
    destruct b.
    + replace (Nat.testbit 1 (S k)) with false by (symmetry; apply (testbit_high 1 1 (S k)); simpl; lia).
      rewrite orb_false_r. reflexivity.
    + rewrite Nat.bits_0, orb_false_r. reflexivity.
Qed.

Lemma horner_S f n : horner f (S n) = 2 * horner f n + Nat.b2n (f n).
Proof. unfold horner. rewrite seq_S, fold_left_app. cbn [fold_left plus]. apply lor_shiftl1. Qed.

Lemma horner_lt f n : horner f n < 2 ^ n.
Proof.
  induction n. { unfold horner; simpl; lia. }
  rewrite horner_S. simpl. destruct (f n); simpl; lia.
Qed.

Lemma horner_bit f n k : k < n -> Nat.testbit (horner f n) k = f (n - 1 - k).
Proof.
  revert k; induction n; intros k Hk; [lia|].
  rewrite horner_S. destruct k as [|k].
  - rewrite Nat.testbit_0_r. f_equal. lia.
  - rewrite Nat.testbit_succ_r. rewrite IHn by lia. f_equal. lia.
Qed.

Lemma bits_eq_lt d a b : a < 2 ^ d -> b < 2 ^ d ->
  (forall k, k < d -> Nat.testbit a k = Nat.testbit b k) -> a = b.
Proof.
  intros Ha Hb H. apply Nat.bits_inj. intros k. destruct (lt_dec k d) as [Hk|Hk]; [auto|].
  rewrite !(testbit_high _ d) by (assumption || lia). reflexivity.
Qed.

Section R.
Local Open Scope R_scope.

Lemma get_orthant_horner d (c x : list R) :
  get_orthant d c x = horner (fun i => ngeb (vget x i) (vget c i)) d.
Proof. reflexivity. Qed.

Lemma get_orthant_lt d (c x : list R) : (get_orthant d c x < 2 ^ d)%nat.
Proof. rewrite get_orthant_horner. apply horner_lt. Qed.

Lemma get_orthant_bit d (c x : list R) j : (j < d)%nat ->
  Nat.testbit (get_orthant d c x) (d - 1 - j) = Rleb (vget c j) (vget x j).
Proof.
  intros. rewrite get_orthant_horner. rewrite horner_bit by lia.
  replace (d - 1 - (d - 1 - j))%nat with j by lia. reflexivity.
Qed.

Lemma get_orthant_iff d (c x : list R) i : (i < 2 ^ d)%nat ->
  (get_orthant d c x = i <->
   forall j, (j < d)%nat -> (Nat.testbit i (d - 1 - j) = true <-> vget c j <= vget x j)).
Proof.
  intros Hi. split.
  - intros <- j Hj. rewrite get_orthant_bit by assumption. apply Rleb_true.
  - intros H. apply (bits_eq_lt d); [apply get_orthant_lt|assumption|].
    intros k Hk. specialize (H (d - 1 - k)%nat ltac:(lia)).
    assert (E := get_orthant_bit d c x (d - 1 - k) ltac:(lia)).
    replace (d - 1 - (d - 1 - k))%nat with k in * by lia.
    rewrite E. destruct (Nat.testbit i k).
    + apply Rleb_true. apply H. reflexivity.
    + apply Rleb_false. apply Rnot_le_lt. intros C. apply H in C. discriminate.
Qed.

Lemma contains_iff d (c : list R) l x : length c = d -> (contains d c l x = true <-> in_box d c l x).
Proof.
  intros Hc. unfold contains. rewrite forallb_forall. unfold in_box. split; intros H j.
  - intros Hj. specialize (H j ltac:(apply in_seq; lia)).
    rewrite vget_box_lower, vget_box_upper in H by assumption.
    apply negb_true_iff, orb_false_iff in H. destruct H as [H1 H2].
    apply Rltb_false in H1, H2. unfold vget in *; simpl in *. lra.
  - intros Hj. apply in_seq in Hj. assert (j < d)%nat by lia. specialize (H j ltac:(lia)).
    rewrite vget_box_lower, vget_box_upper by assumption.
    apply negb_true_iff, orb_false_iff. unfold ngtb; simpl. rewrite !Rltb_false. unfold vget; simpl. lra.
Qed.

(** ** Children *)
Lemma child_contains d (c : list R) l x : length c = d -> in_box d c l x ->
  in_box d (child_center d c (l / 2) (get_orthant d c x)) (l / 2) x.
Proof.
  intros Hc H j Hj. specialize (H j Hj).
  assert (E := vget_child_center d c (l / 2) (get_orthant d c x) j Hc Hj). unfold vget at 1 in E; simpl in E.
  rewrite E, get_orthant_bit by assumption. unfold vget; simpl.
  destruct (Rleb_spec (nth j c 0) (nth j x 0)); lra.
Qed.

Lemma child_inside d (c : list R) l i x : length c = d ->
  in_box d (child_center d c (l / 2) i) (l / 2) x -> in_box d c l x.
Proof.
  intros Hc H j Hj. specialize (H j Hj).
  assert (E := vget_child_center d c (l / 2) i j Hc Hj). unfold vget at 1 in E; simpl in E. rewrite E in H.
  unfold vget in H; simpl in H. destruct (Nat.testbit i (d - 1 - j)); lra.
Qed.

Lemma child_disjoint d (c : list R) l i i' x : length c = d -> (i < 2 ^ d)%nat -> (i' < 2 ^ d)%nat ->
  in_interior d (child_center d c (l / 2) i) (l / 2) x ->
  in_interior d (child_center d c (l / 2) i') (l / 2) x -> i = i'.
Proof.
  intros Hc Hi Hi' H H'. apply (bits_eq_lt d); try assumption. intros k Hk.
  specialize (H (d - 1 - k)%nat ltac:(lia)). specialize (H' (d - 1 - k)%nat ltac:(lia)).
  assert (E := vget_child_center d c (l / 2) i (d - 1 - k) Hc ltac:(lia)).
  assert (E' := vget_child_center d c (l / 2) i' (d - 1 - k) Hc ltac:(lia)).
  unfold vget in E, E'; simpl in E, E'. rewrite E in H. rewrite E' in H'.
  replace (d - 1 - (d - 1 - k))%nat with k in * by lia. unfold vget in *; simpl in *.
  destruct (Nat.testbit i k), (Nat.testbit i' k); auto; lra.
Qed.

(** ** Adjacency *)
(** Per-dimension reading of the code's test. *)
Lemma adjacent_iff_raw d (c1 c2 : list R) l1 l2 : length c1 = d -> length c2 = d ->
  (adjacent d c1 l1 c2 l2 = true <->
   forall j, (j < d)%nat ->
     (vget c2 j - l2 / 2) - (vget c1 j + l1 / 2) <= Rmin l1 l2 / 2 /\
     (vget c1 j - l1 / 2) - (vget c2 j + l2 / 2) <= Rmin l1 l2 / 2).
Proof.
  intros H1 H2. unfold adjacent.
  assert (M : nmin l1 l2 = Rmin l1 l2).
  { unfold nmin; simpl. destruct (Rltb_spec l2 l1); unfold Rmin; destruct (Rle_dec l1 l2); lra. }
  rewrite M. rewrite forallb_forall. split.
  - intros H j Hj. specialize (H j ltac:(apply in_seq; lia)).
    rewrite !vget_vsub in H by (rewrite ?len_vsub, ?len_box_lower, ?len_box_upper, ?len_vfill by assumption; lia).
    rewrite !vget_box_lower, !vget_box_upper, !vget_vfill in H by assumption. rewrite nhalf_R in H.
    apply negb_true_iff, orb_false_iff in H. destruct H as [Ha Hb]. apply Rltb_false in Ha, Hb. simpl in *. lra.
  - intros H j Hj. apply in_seq in Hj. assert (j < d)%nat by lia. specialize (H j ltac:(lia)).
    rewrite !vget_vsub by (rewrite ?len_vsub, ?len_box_lower, ?len_box_upper, ?len_vfill by assumption; lia).
    rewrite !vget_box_lower, !vget_box_upper, !vget_vfill by assumption. rewrite nhalf_R.
    apply negb_true_iff, orb_false_iff. unfold ngtb; simpl. rewrite !Rltb_false. lra.
Qed.

Lemma boxes_touch_iff d (c1 c2 : list R) l1 l2 : 0 <= l1 -> 0 <= l2 -> 
  (boxes_touch d c1 l1 c2 l2 <->
   forall j, (j < d)%nat ->
     (nth j c2 0 - l2 / 2) - (nth j c1 0 + l1 / 2) <= 0 /\ (nth j c1 0 - l1 / 2) - (nth j c2 0 + l2 / 2) <= 0).
Proof.
  intros P1 P2. split.
  - intros (x & Hx & A & B) j Hj. specialize (A j Hj); specialize (B j Hj). lra.
  - intros H. exists (map (fun j => Rmax (nth j c1 0 - l1 / 2) (nth j c2 0 - l2 / 2)) (seq 0 d)).
    split; [rewrite map_length, seq_length; reflexivity|].
    assert (E : forall j, (j < d)%nat ->
       nth j (map (fun j => Rmax (nth j c1 0 - l1 / 2) (nth j c2 0 - l2 / 2)) (seq 0 d)) 0
       = Rmax (nth j c1 0 - l1 / 2) (nth j c2 0 - l2 / 2)).
    { intros j Hj. rewrite (nth_map_lt _ _ _ 0%nat) by (rewrite seq_length; assumption).
      rewrite seq_nth by assumption. reflexivity. }
    split; intros j Hj; rewrite E by assumption; specialize (H j Hj);
      unfold Rmax; destruct (Rle_dec _ _); lra.
Qed.

End R.
