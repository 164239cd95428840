(** Leaf box indices, flat index and Morton index of the boxes of the balanced tree, expressed by box addresses. *)
From Coq Require Import List Bool ZArith Arith Lia Lra Reals.
From Verif Require Import Num Outcome Vec Orthtree AdaptiveTree VecProofs GeometrySpec GeometryProofs TreeGeometry AdaptiveProofs
  BuildProofs BalancedTree BalancedSpec BalancedIndex.
Import ListNotations.

(** Grid coordinates of a box. *)
Definition gcos (d : nat) (p : addr) : list Z := map (fun j => gco d j p) (seq 0 d).
Definition valid (d : nat) (p : addr) : Prop := Forall (fun i => i < 2 ^ d) p.

Lemma gcos_length d p : length (gcos d p) = d.
Proof. unfold gcos. rewrite map_length, seq_length. reflexivity. Qed.
Lemma gcos_digits d p : digits (2 ^ Z.of_nat (length p)) (gcos d p).
Proof. apply Forall_forall. intros z Hz. apply in_map_iff in Hz. destruct Hz as (j & <- & _). apply gco_bounds. Qed.
Lemma gcos_nth d p j : j < d -> nth j (gcos d p) 0%Z = gco d j p.
Proof. intros H. unfold gcos. apply (nth_map_seq (fun j => gco d j p)). exact H. Qed.

Lemma gcos_inj d p q : length p = length q -> valid d p -> valid d q -> gcos d p = gcos d q -> p = q.
Proof.
  revert q; induction p as [|i p IH]; intros [|i' q] HL Hp Hq E; try discriminate; [reflexivity|].
  inversion Hp as [|? ? Hi Hp']; subst. inversion Hq as [|? ? Hi' Hq']; subst.
  assert (A : forall j, j < d -> gco d j p = gco d j q /\ Nat.testbit i (d - 1 - j) = Nat.testbit i' (d - 1 - j)).
  { intros j Hj. assert (E' : gco d j (i :: p) = gco d j (i' :: q)) by (rewrite <- !gcos_nth by exact Hj; rewrite E; reflexivity).
    cbn [gco] in E'. destruct (Nat.testbit i (d - 1 - j)), (Nat.testbit i' (d - 1 - j)); split; try reflexivity; lia. }
  f_equal.
  - apply (bits_eq_lt d); auto. intros k Hk. destruct (A (d - 1 - k) ltac:(lia)) as [_ B].
    replace (d - 1 - (d - 1 - k)) with k in B by lia. exact B.
  - apply IH; auto. apply map_ext_in. intros j Hj. apply in_seq in Hj. apply A. lia.
Qed.

Lemma path_valid_all d c l x k : valid d (path d c l x k).
Proof. induction k; [constructor|]. cbn [path]. constructor; [apply get_orthant_lt|exact IHk]. Qed.

Section Addr.
Variable d : nat.
Variable c : list R.
Variable l : R.
Hypothesis Hc : length c = d.
Hypothesis Hl : (0 < l)%R.
Notation path := (path d c l).
Notation low j := (nth j c 0 - l / 2)%R.

(** The descent by orthants reaches the cell of the uniform grid that contains the point. *)
Lemma path_cell x k j : j < d -> in_half_open d c l x ->
  (IZR (gco d j (path x k)) * (l / 2 ^ k) <= nth j x 0 - low j < (IZR (gco d j (path x k)) + 1) * (l / 2 ^ k))%R.
Proof.
  intros Hj H. induction k as [|k IH].
  - cbn [BuildProofs.path gco]. specialize (H j Hj). cbn [pow]. lra.
  - cbn [BuildProofs.path gco].
    assert (B := get_orthant_bit d (box_ctr d c l (path x k)) x j Hj).
    assert (C := nth_box_ctr d c l (path x k) j Hc Hj). rewrite path_length in C.
    unfold vget in B. change (nth j x n0) with (nth j x 0%R) in B. change (nth j (box_ctr d c l (path x k)) n0) with (nth j (box_ctr d c l (path x k)) 0%R) in B.
    set (g := gco d j (path x k)) in *. set (w := (l / 2 ^ k)%R) in *.
    assert (W : (l / 2 ^ S k = w / 2)%R) by (unfold w; cbn [pow]; field; apply pow_nonzero; lra). rewrite W.
    destruct (Nat.testbit (get_orthant d (box_ctr d c l (path x k)) x) (d - 1 - j)).
    + symmetry in B. apply Rleb_true in B. rewrite plus_IZR, mult_IZR. lra.
    + symmetry in B. apply Rleb_false in B. rewrite plus_IZR, mult_IZR. lra.
Qed.

Section Height.
Variable h : nat.
Hypothesis Hh : h < 32.

Theorem indices_path x : length x = d -> in_half_open d c l x ->
  leaf_box_indices d h c l x = Ok (gcos d (path x h)).
Proof.
  intros Hx H. rewrite (indices_in d h c l Hc Hl Hh x Hx H). f_equal. apply map_ext_in. intros j Hj. apply in_seq in Hj.
  apply (coord_floor h c l Hl). apply path_cell; [lia|exact H].
Qed.

Lemma ctr_in_half_open p : in_half_open d c l (box_ctr d c l p).
Proof.
  intros j Hj. rewrite nth_box_ctr by assumption. assert (B := gco_bounds d j p).
  assert (P := pow2_pos (length p)). assert (W : (0 < l / 2 ^ length p)%R) by (apply Rdiv_lt_0_compat; lra).
  assert (E : (2 ^ length p * (l / 2 ^ length p) = l)%R) by (field; lra).
  assert (B1 : (0 <= IZR (gco d j p))%R) by (apply IZR_le; lia).
  assert (B2 : (IZR (gco d j p) + 1 <= 2 ^ length p)%R).
  { rewrite <- IZR_p2. rewrite <- plus_IZR. apply IZR_le. lia. }
  set (g := IZR (gco d j p)) in *. set (w := (l / 2 ^ length p)%R) in *. split.
  - assert (0 <= (g + / 2) * w)%R by (apply Rmult_le_pos; lra). lra.
  - assert ((g + / 2) * w < 2 ^ length p * w)%R by (apply Rmult_lt_compat_r; lra). lra.
Qed.

Lemma indices_ctr p : length p = h -> leaf_box_indices d h c l (box_ctr d c l p) = Ok (gcos d p).
Proof.
  intros E. rewrite (indices_in d h c l Hc Hl Hh _ (len_box_ctr d c l p Hc) (ctr_in_half_open p)). f_equal.
  apply map_ext_in. intros j Hj. apply in_seq in Hj. apply (coord_floor h c l Hl).
  rewrite nth_box_ctr by (auto; lia). rewrite E.
  assert (W : (0 < l / 2 ^ h)%R) by (apply Rdiv_lt_0_compat; [lra|apply pow2_pos]). lra.
Qed.

(** Bucket numbers. *)
Hypothesis Hdh : d * h <= 32.
Definition bucket (p : addr) : nat := Z.to_nat (dig (2 ^ Z.of_nat h) (rev (gcos d p))).

Lemma bucket_ok p : length p = h ->
  bind (flat_index d h (gcos d p)) (fun f => if (f <? Z.of_nat (n_leaves d h))%Z then Ok (Z.to_nat f) else UB) = Ok (bucket p) /\
  bucket p < n_leaves d h.
Proof.
  intros E. assert (D := gcos_digits d p). rewrite E in D.
  rewrite (flat_index_eq d h Hh Hdh _ (gcos_length d p) D). cbn [bind].
  assert (P : (0 < 2 ^ Z.of_nat h)%Z) by (apply Z.pow_pos_nonneg; lia).
  assert (B := dig_bounds _ P _ (Forall_rev D)). rewrite rev_length, gcos_length in B.
  assert (NL : Z.of_nat (n_leaves d h) = ((2 ^ Z.of_nat h) ^ Z.of_nat d)%Z).
  { unfold n_leaves, n_children. rewrite !Nat2Z.inj_pow. rewrite <- !Z.pow_mul_r by lia. f_equal. lia. }
  rewrite NL. rewrite (proj2 (Z.ltb_lt _ _)) by lia. split; [reflexivity|]. unfold bucket. lia.
Qed.
Lemma bucket_inj p q : length p = h -> length q = h -> valid d p -> valid d q -> bucket p = bucket q -> p = q.
Proof.
  intros Ep Eq Vp Vq E. assert (Dp := gcos_digits d p). assert (Dq := gcos_digits d q). rewrite Ep in Dp. rewrite Eq in Dq.
  assert (P : (0 < 2 ^ Z.of_nat h)%Z) by (apply Z.pow_pos_nonneg; lia).
  assert (Bp := dig_bounds _ P _ (Forall_rev Dp)). assert (Bq := dig_bounds _ P _ (Forall_rev Dq)).
  apply (gcos_inj d); auto; [congruence|].
  assert (R : rev (gcos d p) = rev (gcos d q)).
  { apply (dig_inj _ P); [apply Forall_rev; assumption|apply Forall_rev; assumption|rewrite !rev_length, !gcos_length; reflexivity|].
    unfold bucket in E. lia. }
  rewrite <- (rev_involutive (gcos d p)), R. apply rev_involutive.
Qed.
Lemma bucket_of_path x : length x = d -> in_half_open d c l x -> bucket_of d h c l x = Ok (bucket (path x h)).
Proof. intros Hx H. unfold bucket_of. rewrite indices_path by assumption. cbn [bind]. apply bucket_ok. apply path_length. Qed.
Lemma bucket_of_ctr p : length p = h -> bucket_of d h c l (box_ctr d c l p) = Ok (bucket p).
Proof. intros E. unfold bucket_of. rewrite indices_ctr by assumption. cbn [bind]. apply bucket_ok. exact E. Qed.
End Height.
End Addr.

(** *** Morton index *)
(** Position of a box in level order. *)
Fixpoint aidx (d : nat) (p : addr) : Z :=
  match p with [] => 0%Z | i :: q => (aidx d q * 2 ^ Z.of_nat d + Z.of_nat i)%Z end.

Lemma valid_lt d i : i < 2 ^ d -> (0 <= Z.of_nat i < 2 ^ Z.of_nat d)%Z.
Proof. intros H. split; [lia|]. change 2%Z with (Z.of_nat 2). rewrite <- Nat2Z.inj_pow. lia. Qed.
Lemma aidx_bounds d p : valid d p -> (0 <= aidx d p < 2 ^ Z.of_nat (length p * d))%Z.
Proof.
  induction 1 as [|i p Hi H IH]; [cbn; lia|]. cbn [aidx length Nat.mul]. apply valid_lt in Hi.
  rewrite Nat2Z.inj_add, Z.pow_add_r by lia. nia.
Qed.
Lemma testbit_of_nat j : forall a, Z.testbit (Z.of_nat a) (Z.of_nat j) = Nat.testbit a j.
Proof.
  induction j as [|j IH]; intros a.
  - cbn [Z.of_nat]. rewrite Z.bit0_odd. cbn [Nat.testbit].
    destruct (Nat.Even_or_Odd a) as [[b ->]|[b ->]].
    + rewrite Nat.odd_mul, Nat2Z.inj_mul, Z.odd_mul. reflexivity.
    + rewrite Nat.odd_add, Nat.odd_mul, Nat2Z.inj_add, Nat2Z.inj_mul, Z.odd_add, Z.odd_mul. reflexivity.
  - cbn [Nat.testbit]. rewrite <- IH. rewrite Nat.div2_div, Nat2Z.inj_div, Nat2Z.inj_succ.
    rewrite <- (Z.pow_1_r (Z.of_nat 2)). change (Z.of_nat 2) with 2%Z. rewrite Z.div_pow2_bits by lia. reflexivity.
Qed.
Lemma aidx_bits d p : valid d p -> forall i j, i < length p -> j < d ->
  Z.testbit (aidx d p) (Z.of_nat (i * d + j)) = Nat.testbit (nth i p 0) j.
Proof.
  induction 1 as [|k p Hk H IH]; intros i j Hi Hj; [cbn in Hi; lia|]. cbn [aidx]. apply valid_lt in Hk.
  rewrite testbit_pair by lia. destruct i as [|i].
  - cbn [Nat.mul Nat.add nth]. rewrite (proj2 (Z.ltb_lt _ _)) by lia. apply testbit_of_nat.
  - rewrite (proj2 (Z.ltb_ge _ _)) by nia. cbn [nth length] in *. rewrite <- (IH i j) by lia. f_equal. lia.
Qed.
Lemma gco_bits d p j : forall i, i < length p -> Z.testbit (gco d j p) (Z.of_nat i) = Nat.testbit (nth i p 0) (d - 1 - j).
Proof.
  induction p as [|k p IH]; intros i Hi; [cbn in Hi; lia|]. cbn [gco]. destruct i as [|i].
  - cbn [nth Z.of_nat]. destruct (Nat.testbit k (d - 1 - j)); [apply Z.testbit_odd_0|]. rewrite Z.add_0_r. apply Z.testbit_even_0.
  - cbn [nth length] in *. rewrite Nat2Z.inj_succ. rewrite <- IH by lia.
    destruct (Nat.testbit k (d - 1 - j)); [apply Z.testbit_odd_succ; lia|rewrite Z.add_0_r; apply Z.testbit_even_succ; lia].
Qed.

Theorem morton_aidx d p : valid d p -> length p < 64 / d -> morton_index d (length p) (gcos d p) = Ok (aidx d p).
Proof.
  intros V Hh. assert (Hd : d <> 0) by (intros ->; cbn in Hh; lia).
  destruct (morton_index_bits d (length p) (gcos d p) Hh (gcos_length d p) (gcos_digits d p)) as (m & E & Bd & Bits).
  rewrite E. f_equal. assert (BA := aidx_bounds d p V). rewrite Nat.mul_comm in BA. apply Z.bits_inj'. intros k Hk.
  destruct (Z_lt_le_dec k (Z.of_nat (d * length p))) as [L|G].
  - set (n := Z.to_nat k). replace k with (Z.of_nat n) by lia.
    assert (n = n / d * d + n mod d) by (rewrite Nat.mul_comm; apply Nat.div_mod; exact Hd).
    assert (n mod d < d) by (apply Nat.mod_upper_bound; exact Hd).
    assert (n / d < length p) by (apply Nat.div_lt_upper_bound; lia).
    set (i := n / d) in *. set (j := n mod d) in *. replace n with (i * d + j) by lia.
    rewrite Bits by assumption. rewrite aidx_bits by assumption. rewrite gcos_nth by lia. rewrite gco_bits by assumption.
    f_equal. lia.
  - assert (Hi : forall z, (0 <= z < 2 ^ Z.of_nat (d * length p))%Z -> Z.testbit z k = false).
    { intros z Hz. destruct (Z.eq_dec z 0) as [->|NZ]; [apply Z.bits_0|]. apply Z.bits_above_log2; [lia|].
      apply Z.lt_le_trans with (Z.of_nat (d * length p)); [apply Z.log2_lt_pow2; lia|lia]. }
    rewrite !Hi by assumption. reflexivity.
Qed.

(** Boxes in level order. *)
Fixpoint all_boxes (d k : nat) : list addr :=
  match k with O => [[]] | S k' => flat_map (fun p => map (fun i => i :: p) (seq 0 (2 ^ d))) (all_boxes d k') end.
Lemma all_boxes_length d k : length (all_boxes d k) = (2 ^ d) ^ k.
Proof.
  induction k; [reflexivity|]. cbn [all_boxes Nat.pow]. rewrite <- IHk. generalize (all_boxes d k). clear IHk. intros ps.
  induction ps as [|p ps IH]; [cbn; lia|]. cbn [flat_map]. rewrite app_length, map_length, seq_length. unfold addr in *. rewrite IH. cbn [length]. lia.
Qed.
Lemma all_boxes_In d k p : In p (all_boxes d k) <-> valid d p /\ length p = k.
Proof.
  revert p; induction k as [|k IH]; intros p; cbn [all_boxes].
  - split; [intros [<-|[]]; split; [constructor|reflexivity]|intros [_ H]; destruct p; [left; reflexivity|discriminate]].
  - rewrite in_flat_map. split.
    + intros (q & Hq & Hp). apply in_map_iff in Hp. destruct Hp as (i & <- & Hi). apply in_seq in Hi. apply IH in Hq.
      destruct Hq as [V L]. split; [constructor; [lia|exact V]|cbn; lia].
    + intros [V L]. destruct p as [|i q]; [discriminate|]. inversion V; subst. exists q. split; [apply IH; cbn in L; auto|].
      apply in_map_iff. exists i. split; [reflexivity|]. apply in_seq. lia.
Qed.
Lemma nth_error_blocks {A B} (f : A -> list B) n (ps : list A) i j : (forall p, In p ps -> length (f p) = n) -> j < n ->
  nth_error (flat_map f ps) (i * n + j) = match nth_error ps i with Some p => nth_error (f p) j | None => None end.
Proof.
  revert i; induction ps as [|p ps IH]; intros i H Hj; cbn [flat_map].
  - destruct i, j; reflexivity || (cbn; destruct (_ + _); reflexivity).
  - assert (L := H p (or_introl eq_refl)). destruct i as [|i].
    + cbn [Nat.mul Nat.add nth_error]. apply nth_error_app1. lia.
    + rewrite nth_error_app2 by lia. cbn [nth_error]. rewrite <- IH by (auto with datatypes). f_equal. lia.
Qed.
Theorem nth_all_boxes d p : valid d p -> nth_error (all_boxes d (length p)) (Z.to_nat (aidx d p)) = Some p.
Proof.
  induction 1 as [|i p Hi V IH]; [reflexivity|]. cbn [length all_boxes aidx]. assert (B := aidx_bounds d p V).
  assert (E : Z.to_nat (aidx d p * 2 ^ Z.of_nat d + Z.of_nat i) = Z.to_nat (aidx d p) * 2 ^ d + i).
  { change 2%Z with (Z.of_nat 2). rewrite <- Nat2Z.inj_pow. lia. }
  rewrite E. rewrite nth_error_blocks; [|intros; rewrite map_length, seq_length; reflexivity|exact Hi].
  unfold addr in *. rewrite IH. rewrite nth_error_map.
  assert (S1 : nth_error (seq 0 (2 ^ d)) i = Some i).
  { rewrite nth_error_nth' with (d := 0) by (rewrite seq_length; exact Hi). rewrite seq_nth by exact Hi. reflexivity. }
  rewrite S1. reflexivity.
Qed.

(** The descent for a point of the root box reaches the box that contains it. *)
Lemma path_iff d c l p x : length c = d -> (0 < l)%R -> valid d p -> in_half_open d c l x ->
  (path d c l x (length p) = p <-> in_half_open d (box_ctr d c l p) (box_len l p) x).
Proof.
  intros Hc Hl V Hx. remember (length p) as h eqn:L. symmetry in L. assert (W : (0 < l / 2 ^ h)%R) by (apply Rdiv_lt_0_compat; [exact Hl|apply pow2_pos]). split.
  - intros E j Hj. assert (C := path_cell d c l Hc x h j Hj Hx). rewrite E in C.
    rewrite nth_box_ctr by assumption. rewrite box_len_pow, L. lra.
  - intros H. apply (gcos_inj d); [rewrite path_length; congruence|apply path_valid_all|exact V|].
    unfold gcos. apply map_ext_in. intros j Hj. apply in_seq in Hj. assert (C := path_cell d c l Hc x h j ltac:(lia) Hx).
    specialize (H j ltac:(lia)). rewrite nth_box_ctr in H by (assumption || lia). rewrite box_len_pow, L in H.
    set (a := gco d j (path d c l x h)) in *. set (b := gco d j p) in *.
    assert (U1 : (IZR a < IZR b + 1)%R) by (apply Rmult_lt_reg_r with (l / 2 ^ h)%R; [exact W|]; lra).
    assert (U2 : (IZR b < IZR a + 1)%R) by (apply Rmult_lt_reg_r with (l / 2 ^ h)%R; [exact W|]; lra).
    rewrite <- (plus_IZR b 1) in U1. rewrite <- (plus_IZR a 1) in U2. apply lt_IZR in U1, U2. lia.
Qed.
