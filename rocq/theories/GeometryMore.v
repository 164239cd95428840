(** Proofs: the directions of the children, and adjacency as a relation. *)
From Coq Require Import List Arith Reals Lia Lra.
From Verif Require Import Num Outcome Vec Orthtree VecProofs GeometryProofs GeometrySpec TreeGeometry.
Import ListNotations.
Local Open Scope R_scope.

Definition sign_vector (d : nat) (v : list R) : Prop := length v = d /\ forall x, In x v -> x = 1 \/ x = -1.

Lemma dirs_nth d i : (i < 2 ^ d)%nat -> nth_error (child_center_directions (T := R) d) i = Some (child_dir d i).
Proof.
  intros H. unfold child_center_directions, n_children. rewrite nth_error_map.
  assert (E : nth_error (seq 0 (2 ^ d)) i = Some i).
  { rewrite (nth_error_nth' _ 0%nat) by (rewrite seq_length; exact H). rewrite seq_nth by exact H. reflexivity. }
  rewrite E. reflexivity.
Qed.
Lemma dir_sign d i : sign_vector d (child_dir (T := R) d i).
Proof.
  split; [apply len_child_dir|]. intros x Hx. unfold child_dir in Hx. apply in_map_iff in Hx. destruct Hx as [j [<- _]].
  destruct (Nat.testbit i (d - j - 1)); [left; reflexivity|right]. exact nneg1_R.
Qed.
Lemma dir_orthant d i : (i < 2 ^ d)%nat -> get_orthant d (repeat 0 d) (child_dir d i) = i.
Proof.
  intros H. apply get_orthant_iff; [exact H|]. intros j Hj. rewrite vget_child_dir by exact Hj.
  replace (vget (repeat 0 d) j) with 0.
  2:{ unfold vget. symmetry. change (n0 : R) with 0. clear. revert j. induction d as [|d IH]; intros [|j]; cbn [repeat nth]; auto. }
  destruct (Nat.testbit i (d - 1 - j)); split; intros; try lra; try reflexivity; discriminate.
Qed.
Theorem directions_exact d :
  length (child_center_directions (T := R) d) = (2 ^ d)%nat /\
  (forall i v, nth_error (child_center_directions d) i = Some v -> sign_vector d v /\ get_orthant d (repeat 0 d) v = i) /\
  (forall v, sign_vector d v -> nth_error (child_center_directions d) (get_orthant d (repeat 0 d) v) = Some v).
Proof.
  assert (L : length (child_center_directions (T := R) d) = (2 ^ d)%nat) by (unfold child_center_directions, n_children; rewrite map_length, seq_length; reflexivity).
  split; [exact L|]. split.
  - intros i v H. assert (Hi : (i < 2 ^ d)%nat) by (rewrite <- L; apply nth_error_Some; congruence).
    rewrite dirs_nth in H by exact Hi. injection H as <-. split; [apply dir_sign|apply dir_orthant; exact Hi].
  - intros v [Hl Hv]. pose proof (get_orthant_lt d (repeat 0 d) v) as Hi. rewrite dirs_nth by exact Hi. f_equal.
    apply (vec_ext _ _ d); [apply len_child_dir|exact Hl|]. intros j Hj. rewrite vget_child_dir by exact Hj.
    rewrite get_orthant_bit by exact Hj.
    replace (vget (repeat 0 d) j) with 0.
    2:{ unfold vget. symmetry. change (n0 : R) with 0. clear. revert j. induction d as [|d IH]; intros [|j]; cbn [repeat nth]; auto. }
    assert (I : In (vget v j) v) by (unfold vget; apply nth_In; lia). destruct (Hv _ I) as [E|E]; rewrite E.
    + destruct (Rleb 0 1) eqn:Q; [reflexivity|]. apply Rleb_false in Q. lra.
    + destruct (Rleb 0 (-1)) eqn:Q; [apply Rleb_true in Q; lra|reflexivity].
Qed.

(** The same box has the same center in both parts of the statement: centers of children. *)
Theorem children_displaced d (c : list R) l i j : length c = d -> (j < d)%nat ->
  nth j (child_center d c (l / 2) i) 0 = nth j c 0 + nth j (child_dir d i) 0 * (l / 4).
Proof.
  intros Hc Hj. change (vget (child_center d c (l / 2) i) j = vget c j + vget (child_dir d i) j * (l / 4)).
  rewrite vget_child_center, vget_child_dir by assumption. destruct (Nat.testbit i (d - 1 - j)); lra.
Qed.

Lemma subbox_inside d c l k c' : 0 <= l -> subbox d c l k c' -> forall x, in_box d c' (l / 2 ^ k) x -> in_box d c l x.
Proof.
  intros Hl [_ [n [Hn H]]] x Hx j Hj. specialize (Hx j Hj). rewrite (H j Hj) in Hx. specialize (Hn j Hj).
  assert (P : 0 < 2 ^ k) by (apply pow_lt; lra).
  assert (S : 0 <= l / 2 ^ k) by (apply Rmult_le_pos; [exact Hl|left; apply Rinv_0_lt_compat; exact P]).
  assert (E : l = 2 ^ k * (l / 2 ^ k)) by (field; lra).
  assert (N0 : 0 <= INR (n j)) by apply pos_INR.
  assert (N1 : INR (n j) + 1 <= 2 ^ k).
  { rewrite <- S_INR. replace (2 ^ k) with (INR (2 ^ k)) by (rewrite pow_INR; reflexivity). apply le_INR. lia. }
  set (s := l / 2 ^ k) in *.
  assert (A : 0 <= INR (n j) * s) by (apply Rmult_le_pos; assumption).
  assert (B : (INR (n j) + 1) * s <= 2 ^ k * s) by (apply Rmult_le_compat_r; assumption). lra.
Qed.
Lemma subbox_trans d c l k c1 k' c2 : subbox d c l k c1 -> subbox d c1 (l / 2 ^ k) k' c2 -> subbox d c l (k + k') c2.
Proof.
  intros [L1 [n [Hn H]]] [L2 [m [Hm K]]]. split; [exact L2|]. exists (fun j => (n j * 2 ^ k' + m j)%nat). split.
  - intros j Hj. specialize (Hn j Hj). specialize (Hm j Hj). rewrite Nat.pow_add_r. nia.
  - intros j Hj. rewrite (K j Hj), (H j Hj), plus_INR, mult_INR, pow_INR, pow_add. change (INR 2) with 2.
    assert (P : 0 < 2 ^ k) by (apply pow_lt; lra). assert (P' : 0 < 2 ^ k') by (apply pow_lt; lra). field. split; lra.
Qed.
Lemma subbox_eq_pow d c l k k' c' : subbox d c l (k + k') c' -> l / 2 ^ k / 2 ^ k' = l / 2 ^ (k + k').
Proof. intros _. rewrite pow_add. field. split; apply pow_nonzero; lra. Qed.

Theorem adjacency_relation d (c : list R) l k1 c1 k2 c2 : 0 <= l -> subbox d c l k1 c1 -> subbox d c l k2 c2 ->
  adjacent d c1 (l / 2 ^ k1) c1 (l / 2 ^ k1) = true /\
  adjacent d c1 (l / 2 ^ k1) c2 (l / 2 ^ k2) = adjacent d c2 (l / 2 ^ k2) c1 (l / 2 ^ k1) /\
  forall k c3, subbox d c1 (l / 2 ^ k1) k c3 ->
    adjacent d c3 (l / 2 ^ k1 / 2 ^ k) c2 (l / 2 ^ k2) = true -> adjacent d c1 (l / 2 ^ k1) c2 (l / 2 ^ k2) = true.
Proof.
  intros Hl H1 H2.
  assert (S1 : 0 <= l / 2 ^ k1) by (apply Rmult_le_pos; [exact Hl|left; apply Rinv_0_lt_compat, pow_lt; lra]).
  split; [|split].
  - apply (adjacent_exact d c c1 c1 l k1 k1 Hl H1 H1). exists c1. split; [exact (proj1 H1)|]. split; intros j Hj; lra.
  - apply Bool.eq_true_iff_eq. rewrite (adjacent_exact d c c1 c2 l k1 k2 Hl H1 H2), (adjacent_exact d c c2 c1 l k2 k1 Hl H2 H1).
    split; intros (x & A & B & C); exists x; auto.
  - intros k c3 H3 A. apply (adjacent_exact d c c1 c2 l k1 k2 Hl H1 H2).
    pose proof (subbox_trans d c l k1 c1 k c3 H1 H3) as H4. rewrite (subbox_eq_pow d c l k1 k c3 H4) in A.
    apply (adjacent_exact d c c3 c2 l (k1 + k) k2 Hl H4 H2) in A. destruct A as (x & Lx & B & C). exists x. split; [exact Lx|]. split; [|exact C].
    apply (subbox_inside d c1 (l / 2 ^ k1) k c3 S1 H3). rewrite (subbox_eq_pow d c l k1 k c3 H4). exact B.
Qed.
