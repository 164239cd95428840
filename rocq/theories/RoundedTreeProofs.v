(** The balanced tree in rounded arithmetic: error analysis of the box geometry. *)
From Coq Require Import List Bool ZArith Arith Lia Lra Reals Permutation.
From Verif Require Import AnyTree Num Outcome Vec Orthtree AdaptiveTree TreeSpec VecProofs GeometrySpec GeometryProofs TreeGeometry AdaptiveProofs
  BfsProofs ListProofs ListContents RootBoxProofs BuildProofs BalancedTree BalancedSpec BalancedIndex BalancedAddr BalancedProofs BalancedTheorems
  RoundedSpec RoundedTree RoundedTreeSpec AnyBalanced.
Import ListNotations.
Local Open Scope R_scope.

Lemma abs2 x a : Rabs x <= a <-> - a <= x <= a.
Proof. split; [intros H; unfold Rabs in H; destruct (Rcase_abs x); lra|intros H; apply Rabs_le; lra]. Qed.

Section Rounded.
Variable rnd : R -> R.
Variable hyp : list R -> R.
Variable u : R.
Hypothesis Hu : 0 <= u <= / 9007199254740992.
Hypothesis Hacc : accurate_rounding u rnd.
Hypothesis Hint : exact_integers rnd.
Hypothesis Hhyp : accurate_norm (/ 1000) hyp.
Notation NN := (NumRnd rnd).
Notation DD := (DistRnd hyp).

Lemma rnd_int z : (Z.abs z <= 2 ^ 53)%Z -> rnd (IZR z / 1) = IZR z.
Proof. intros H. replace (IZR z / 1) with (IZR z) by field. apply Hint. exact H. Qed.
Lemma neg1_r : @nneg1 R NN = -1.
Proof. unfold nneg1. cbn [nlit NumRnd]. rewrite (rnd_int (-1)); [reflexivity|lia]. Qed.
Lemma half_r x : @nhalf R NN x = rnd (x / 2).
Proof. unfold nhalf. cbn [nlit ndiv NumRnd]. rewrite (rnd_int 2) by lia. reflexivity. Qed.
Lemma rnd0 : rnd 0 = 0.
Proof. assert (H := Hacc 0). rewrite Rabs_R0, Rmult_0_r in H. assert (P := Rabs_pos (rnd 0 - 0)). assert (E : Rabs (rnd 0 - 0) = 0) by lra.
  destruct (Req_dec (rnd 0 - 0) 0) as [Z|Z]; [lra|]. apply Rabs_no_R0 in Z. contradiction. Qed.
Lemma rel x : exists e, Rabs e <= u /\ rnd x = x * (1 + e).
Proof.
  destruct (Req_dec x 0) as [->|N]; [exists 0; rewrite Rabs_R0, rnd0; split; lra|].
  exists ((rnd x - x) / x). assert (H := Hacc x). split; [|field; exact N].
  unfold Rdiv. rewrite Rabs_mult, Rabs_inv. assert (P := Rabs_pos_lt x N). apply Rmult_le_reg_r with (Rabs x); [exact P|].
  rewrite Rmult_assoc, Rinv_l by lra. lra.
Qed.

(** *** Vectors *)
Lemma rlen_vadd (a b : list R) : length (@vadd R NN a b) = Nat.min (length a) (length b).
Proof. unfold vadd. apply length_map2. Qed.
Lemma rlen_vscale (a : list R) s : length (@vscale R NN a s) = length a.
Proof. unfold vscale. apply map_length. Qed.
Lemma rlen_vsub (a b : list R) : length (@vsub R NN a b) = Nat.min (length a) (length b).
Proof. unfold vsub, vneg. rewrite rlen_vadd, rlen_vscale. reflexivity. Qed.
Lemma r_vadd (a b : list R) j : (j < length a)%nat -> (j < length b)%nat -> nth j (@vadd R NN a b) 0 = rnd (nth j a 0 + nth j b 0).
Proof. intros Ha Hb. unfold vadd. rewrite (nth_map2 _ a b j 0 0 0) by assumption. reflexivity. Qed.
Lemma r_vscale (a : list R) s j : (j < length a)%nat -> nth j (@vscale R NN a s) 0 = rnd (nth j a 0 * s).
Proof. intros Ha. unfold vscale. rewrite (nth_map_lt _ a j 0 0) by assumption. reflexivity. Qed.
Lemma r_vsub (a b : list R) j : (j < length a)%nat -> (j < length b)%nat -> nth j (@vsub R NN a b) 0 = rnd (nth j a 0 + rnd (nth j b 0 * -1)).
Proof.
  intros Ha Hb. unfold vsub, vneg. rewrite r_vadd by (rewrite ?rlen_vscale; assumption). rewrite r_vscale by assumption.
  rewrite neg1_r. reflexivity.
Qed.
Lemma r_vfill d (x : R) j : (j < d)%nat -> nth j (@vfill R d x) 0 = x.
Proof. unfold vfill. revert j. induction d as [|k IH]; intros [|j] H; cbn; try lia; [reflexivity|]. apply IH. lia. Qed.
Lemma rlen_box_lower d c l : length c = d -> length (@box_lower R NN d c l) = d.
Proof. intros H. unfold box_lower. rewrite rlen_vsub, rlen_vscale. unfold vfill. rewrite repeat_length. lia. Qed.
Lemma rlen_box_upper d c l : length c = d -> length (@box_upper R NN d c l) = d.
Proof. intros H. unfold box_upper. rewrite rlen_vadd, rlen_vscale. unfold vfill. rewrite repeat_length. lia. Qed.
Lemma r_box_lower d c l j : length c = d -> (j < d)%nat ->
  nth j (@box_lower R NN d c l) 0 = rnd (nth j c 0 + rnd (rnd (1 * rnd (l / 2)) * -1)).
Proof.
  intros H Hj. unfold box_lower. rewrite r_vsub by (rewrite ?rlen_vscale; unfold vfill; rewrite ?repeat_length; lia).
  rewrite r_vscale by (unfold vfill; rewrite repeat_length; lia). rewrite r_vfill by exact Hj. rewrite half_r. reflexivity.
Qed.
Lemma r_box_upper d c l j : length c = d -> (j < d)%nat ->
  nth j (@box_upper R NN d c l) 0 = rnd (nth j c 0 + rnd (1 * rnd (l / 2))).
Proof.
  intros H Hj. unfold box_upper. rewrite r_vadd by (rewrite ?rlen_vscale; unfold vfill; rewrite ?repeat_length; lia).
  rewrite r_vscale by (unfold vfill; rewrite repeat_length; lia). rewrite r_vfill by exact Hj. rewrite half_r. reflexivity.
Qed.
Lemma rlen_child_dir d i : length (@child_dir R NN d i) = d.
Proof. unfold child_dir. rewrite map_length. apply seq_length. Qed.
Lemma r_child_dir d i j : (j < d)%nat -> nth j (@child_dir R NN d i) 0 = if Nat.testbit i (d - 1 - j) then 1 else -1.
Proof.
  intros H. unfold child_dir. rewrite (nth_map_lt _ _ j 0%nat) by (rewrite seq_length; exact H). rewrite seq_nth by exact H.
  replace (d - (0 + j) - 1)%nat with (d - 1 - j)%nat by lia. rewrite neg1_r. reflexivity.
Qed.
Lemma r_child_center d pc cl i j : length pc = d -> (j < d)%nat ->
  nth j (@child_center R NN d pc cl i) 0 = rnd (nth j pc 0 + rnd ((if Nat.testbit i (d - 1 - j) then 1 else -1) * rnd (cl / 2))).
Proof.
  intros H Hj. unfold child_center. rewrite r_vadd by (rewrite ?rlen_vscale, ?rlen_child_dir; lia).
  rewrite r_vscale by (rewrite rlen_child_dir; lia). rewrite r_child_dir by exact Hj. rewrite half_r. reflexivity.
Qed.
Lemma rlen_child_center d pc cl i : length pc = d -> length (@child_center R NN d pc cl i) = d.
Proof. intros H. unfold child_center. rewrite rlen_vadd, rlen_vscale, rlen_child_dir. lia. Qed.

(** *** Data *)
Variable d : nat.
Variable m M : R.
Variable h : nat.
Hypothesis Hd : (1 <= d)%nat.
Hypothesis Hh : (h < 32)%nat.
Hypothesis HM : 0 < m <= M.
Hypothesis HmM : M <= 1048576 * m.
Hypothesis HmMh : M * 2 ^ h <= 4294967296 * m.
Definition eta : R := u * M.
Lemma eta0 : 0 <= eta.
Proof. unfold eta. apply Rmult_le_pos; lra. Qed.
Lemma eta_M : 9007199254740992 * eta <= M.
Proof.
  unfold eta. assert (u * M <= / 9007199254740992 * M) by (apply Rmult_le_compat_r; lra).
  assert (9007199254740992 * (/ 9007199254740992 * M) = M) by field. lra.
Qed.
Lemma eta_m : 8589934592 * eta <= m.
Proof. assert (A := eta_M). lra. Qed.
(** An operation whose exact result is at most [k M] errs by at most [k eta]. *)
Lemma rM k x : - (k * M) <= x <= k * M -> x - k * eta <= rnd x <= x + k * eta.
Proof.
  intros H. assert (A := Hacc x). assert (B : Rabs x <= k * M) by (apply Rabs_le; lra).
  assert (C : u * Rabs x <= u * (k * M)) by (apply Rmult_le_compat_l; lra). apply abs2 in A. unfold eta.
  replace (k * (u * M)) with (u * (k * M)) by ring. lra.
Qed.
Lemma rlit q : 0 <= q -> q - u * q <= rnd q <= q + u * q.
Proof. intros H. assert (A := Hacc q). rewrite (Rabs_pos_eq q) in A by exact H. apply abs2 in A. lra. Qed.
(** Product with a rounded literal. *)
Lemma mlit k q r x : 0 <= k -> - (k * M) <= x <= k * M -> 0 <= q -> q - u * q <= r <= q + u * q -> x * q - k * q * eta <= x * r <= x * q + k * q * eta.
Proof.
  intros Hk H Hq Hr. assert (B : Rabs x <= k * M) by (apply Rabs_le; lra). assert (C : Rabs (r - q) <= u * q) by (apply Rabs_le; lra).
  assert (D : Rabs (x * (r - q)) <= k * M * (u * q)).
  { rewrite Rabs_mult. apply Rmult_le_compat; try apply Rabs_pos; assumption. }
  apply abs2 in D. unfold eta. replace (k * q * (u * M)) with (k * M * (u * q)) by ring. lra.
Qed.

(** *** The root box *)
Lemma raw_range_r pts : @raw_range R NN d pts = @raw_range R NumR d pts.
Proof. reflexivity. Qed.
Lemma max_element_r xs : @max_element R NN xs = @max_element R NumR xs.
Proof. reflexivity. Qed.
Lemma rlen_pad v : length (@pad R NN v) = length v.
Proof. unfold pad. rewrite rlen_vadd, rlen_vscale. apply Nat.min_id. Qed.
Lemma r_pad v j : (j < length v)%nat -> Rabs (nth j v 0) <= M ->
  nth j v 0 * (1 + eps5) - 2 * eta <= nth j (@pad R NN v) 0 <= nth j v 0 * (1 + eps5) + 2 * eta.
Proof.
  intros Hj B. apply abs2 in B. unfold pad. rewrite r_vadd by (rewrite ?rlen_vscale; assumption). rewrite r_vscale by assumption.
  set (x := nth j v 0) in *. cbn [nlit NumRnd]. change (IZR 1 / IZR 100000) with eps5. set (r := rnd eps5).
  assert (Hr := rlit eps5 ltac:(unfold eps5; lra)). fold r in Hr. assert (E0 := eta0). assert (EM := eta_M).
  assert (P := mlit 1 eps5 r x ltac:(lra) ltac:(lra) ltac:(unfold eps5; lra) Hr). unfold eps5 in *.
  assert (A := rM (1/10) (x * r) ltac:(lra)). set (y := rnd (x * r)) in *.
  assert (C := rM (12/10) (x + y) ltac:(lra)). lra.
Qed.

Context {Src : Type}.
Variable pos : Src -> list R.
Variable srcs : list Src.
Hypothesis Hpos : forall s, In s srcs -> length (pos s) = d.
Hypothesis Hsur : surround d pos srcs m M.

Theorem root_rounded : exists c l, @root_box R NN d (map pos srcs) = Some (c, l) /\ length c = d /\
  2 * m <= l <= 3 * M /\ forall j, (j < d)%nat -> Rabs (nth j c 0) <= 2 * M /\
    forall s, In s srcs -> nth j c 0 - l / 2 + m / 200000 <= nth j (pos s) 0 <= nth j c 0 + l / 2 - m / 200000.
Proof.
  assert (HN : map pos srcs <> []).
  { destruct (Hsur 0%nat ltac:(lia)) as ((s & Hs & _) & _). destruct srcs; [destruct Hs|discriminate]. }
  destruct (raw_range_spec d (map pos srcs) HN) as (lo & hi & E & B).
  { intros x Hx. apply in_map_iff in Hx. destruct Hx as (s & <- & Hs). auto. }
  assert (B' := B). destruct B' as (L1 & L2 & _).
  assert (E0 := eta0). assert (EM := eta_M). assert (Em := eta_m).
  assert (BJ : forall j, (j < d)%nat -> - M <= nth j lo 0 <= - m /\ m <= nth j hi 0 <= M /\
     forall s, In s srcs -> nth j lo 0 <= nth j (pos s) 0 <= nth j hi 0).
  { intros j Hj. destruct B as (_ & _ & B). destruct (B j Hj) as (A & (a & Ia & Ea) & (b & Ib & Eb)).
    destruct (Hsur j Hj) as ((s1 & I1 & S1) & (s2 & I2 & S2) & S3).
    apply in_map_iff in Ia, Ib. destruct Ia as (sa & <- & Ia), Ib as (sb & <- & Ib).
    assert (A1 := A (pos s1) (in_map pos _ _ I1)). assert (A2 := A (pos s2) (in_map pos _ _ I2)).
    assert (A3 := S3 sa Ia). assert (A4 := S3 sb Ib). apply abs2 in A3, A4. rewrite <- Ea in A3. rewrite <- Eb in A4.
    split; [lra|]. split; [lra|]. intros s Hs. apply A. apply in_map. exact Hs. }
  set (lo' := @pad R NN lo). set (hi' := @pad R NN hi).
  assert (P1 : length lo' = d) by (unfold lo'; rewrite rlen_pad; assumption).
  assert (P2 : length hi' = d) by (unfold hi'; rewrite rlen_pad; assumption).
  assert (PL : forall j, (j < d)%nat -> nth j lo 0 * (1 + eps5) - 2 * eta <= nth j lo' 0 <= nth j lo 0 * (1 + eps5) + 2 * eta).
  { intros j Hj. destruct (BJ j Hj) as (A & _). apply r_pad; [lia|apply Rabs_le; lra]. }
  assert (PH : forall j, (j < d)%nat -> nth j hi 0 * (1 + eps5) - 2 * eta <= nth j hi' 0 <= nth j hi 0 * (1 + eps5) + 2 * eta).
  { intros j Hj. destruct (BJ j Hj) as (_ & A & _). apply r_pad; [lia|apply Rabs_le; lra]. }
  set (ext := @vsub R NN hi' lo'). assert (LS : length ext = d) by (unfold ext; rewrite rlen_vsub; lia).
  assert (NS : forall j, (j < d)%nat -> (nth j hi 0 - nth j lo 0) * (1 + eps5) - 10 * eta <= nth j ext 0 <= (nth j hi 0 - nth j lo 0) * (1 + eps5) + 10 * eta).
  { intros j Hj. destruct (BJ j Hj) as (A1 & A2 & _). specialize (PL j Hj). specialize (PH j Hj). unfold ext. rewrite r_vsub by lia.
    unfold eps5 in *. assert (C := rM 2 (nth j lo' 0 * -1) ltac:(lra)). set (y := rnd (nth j lo' 0 * -1)) in *.
    assert (D := rM 3 (nth j hi' 0 + y) ltac:(lra)). lra. }
  destruct (max_element_spec ext) as (l & EMX & IM & MM).
  { intros Z. rewrite Z in LS. simpl in LS. lia. }
  exists (@vscale R NN (@vadd R NN lo' hi') (@nlit R NN 1 2)), l. split; [|split; [|split]].
  - unfold root_box, data_range. rewrite raw_range_r, E. cbn [fst snd]. rewrite !all_some_map. fold lo' hi'. fold ext. rewrite max_element_r, EMX. reflexivity.
  - rewrite rlen_vscale, rlen_vadd. lia.
  - apply (In_nth _ _ 0) in IM. destruct IM as (j & Hj & El). rewrite LS in Hj. specialize (NS j Hj). rewrite El in NS.
    destruct (BJ j Hj) as (A1 & A2 & _). unfold eps5 in NS. lra.
  - intros j Hj. destruct (BJ j Hj) as (A1 & A2 & A3). specialize (PL j Hj). specialize (PH j Hj). specialize (NS j Hj).
    assert (ML : nth j ext 0 <= l) by (apply MM; apply nth_In; lia).
    rewrite r_vscale by (rewrite rlen_vadd; lia). rewrite r_vadd by lia. cbn [nlit NumRnd].
    assert (Hr := rlit (1/2) ltac:(lra)). change (IZR 1 / IZR 2) with (1/2). set (r := rnd (1/2)) in *. unfold eps5 in *.
    assert (C := rM 3 (nth j lo' 0 + nth j hi' 0) ltac:(lra)). set (y := rnd (nth j lo' 0 + nth j hi' 0)) in *.
    assert (D := mlit 3 (1/2) r y ltac:(lra) ltac:(lra) ltac:(lra) Hr). assert (F := rM 3 (y * r) ltac:(lra)). set (z := rnd (y * r)) in *.
    split; [apply Rabs_le; lra|]. intros s Hs. specialize (A3 s Hs). lra.
Qed.

(** *** Boxes below a root box of this size *)
Section Boxes.
Variable c : list R.
Variable l : R.
Hypothesis Hc : length c = d.
Hypothesis Hl : 2 * m <= l <= 3 * M.
Hypothesis Hcj : forall j, (j < d)%nat -> Rabs (nth j c 0) <= 2 * M.
Notation ctr := (@AnyTree.ctr R NN d c l).
Notation blen := (@AnyTree.blen R NN l).
Notation W k := (l / 2 ^ k).

Lemma W_half k : W (S k) = W k / 2.
Proof. cbn [pow]. assert (P := pow2_pos k). field. lra. Qed.
Lemma W_pos k : 0 < W k.
Proof. apply Rdiv_lt_0_compat; [lra|apply pow2_pos]. Qed.
Lemma W_le k : W k <= l.
Proof. induction k as [|k IH]; [cbn; lra|]. rewrite W_half. assert (P := W_pos k). lra. Qed.
Lemma W_mono k k' : (k <= k')%nat -> W k' <= W k.
Proof. induction 1 as [|k' H IH]; [lra|]. rewrite W_half. assert (P := W_pos k'). lra. Qed.
Lemma kW k : INR k * W k <= l.
Proof.
  assert (G : INR (S k) * W k <= l \/ k = 0%nat).
  { induction k as [|k [IH|IH]]; [right; reflexivity| |].
    - left. rewrite W_half. assert (P := W_pos k). rewrite S_INR in *. rewrite S_INR in *. assert (0 <= INR k) by apply pos_INR. 
      destruct k as [|k]; [cbn in *; lra|]. rewrite (S_INR k) in *. assert (0 <= INR k) by apply pos_INR. nra.
    - subst k. left. rewrite W_half. cbn. lra. }
  destruct G as [G| ->]; [|cbn; lra]. rewrite S_INR in G. assert (P := W_pos k). lra.
Qed.
Lemma eta_W k : (k <= h)%nat -> 4194304 * eta <= W k.
Proof.
  intros Hk. apply Rle_trans with (W h); [|apply W_mono; exact Hk]. assert (P := pow2_pos h). assert (EM := eta_M).
  apply Rmult_le_reg_r with (2 ^ h); [exact P|]. replace (W h * 2 ^ h) with l by (field; lra).
  assert (A : 9007199254740992 * eta * 2 ^ h <= M * 2 ^ h) by (apply Rmult_le_compat_r; lra). lra.
Qed.
Lemma u_small : 0 <= u <= 1 / 1000000000000.
Proof. split; [apply Hu|]. apply Rle_trans with (/ 9007199254740992); [apply Hu|]. lra. Qed.

(** Side lengths. *)
Lemma blen_err p : (length p <= 32)%nat -> Rabs (blen p - W (length p)) <= 2 * INR (length p) * u * W (length p).
Proof.
  induction p as [|i p IH]; cbn [AnyTree.blen length]; intros H.
  - replace (l - l / 2 ^ 0) with 0 by (cbn; field). rewrite Rabs_R0. cbn. lra.
  - specialize (IH ltac:(lia)). rewrite half_r, W_half. assert (A := Hacc (blen p / 2)). assert (P := W_pos (length p)).
    set (w := W (length p)) in *. set (b := blen p) in *. assert (K : 0 <= INR (length p) <= 32).
    { split; [apply pos_INR|]. replace 32 with (INR 32) by (cbn; lra). apply le_INR. lia. }
    rewrite S_INR. set (k := INR (length p)) in *. assert (U := u_small). apply abs2 in IH, A.
    assert (KU : 0 <= k * u <= 1 / 1000) by (split; [apply Rmult_le_pos; lra|]; assert (k * u <= 32 * (1 / 1000000000000)) by (apply Rmult_le_compat; lra); lra).
    assert (BB : Rabs (b / 2) <= w).
    { apply Rabs_le. assert (2 * k * u * w <= w) by nra. lra. }
    assert (UB : u * Rabs (b / 2) <= u * w) by (apply Rmult_le_compat_l; lra).
    apply Rabs_le. lra.
Qed.
Lemma blen_eta p : (length p <= 32)%nat -> W (length p) - 6 * eta <= blen p <= W (length p) + 6 * eta.
Proof.
  intros H. assert (A := blen_err p H). assert (K := kW (length p)). assert (U := u_small). apply abs2 in A.
  assert (B : u * (INR (length p) * W (length p)) <= u * l) by (apply Rmult_le_compat_l; lra).
  assert (C : u * l <= u * (3 * M)) by (apply Rmult_le_compat_l; lra). unfold eta. lra.
Qed.

Lemma len_ctr p : length (ctr p) = d.
Proof. induction p as [|i p IH]; [exact Hc|]. cbn [AnyTree.ctr]. apply rlen_child_center. exact IH. Qed.
(** Exact grid centre. *)
Local Notation gc j p := (nth j c 0 - l / 2 + (IZR (gco d j p) + / 2) * W (length p)).
Lemma gc_bounds j p : nth j c 0 - l / 2 <= gc j p <= nth j c 0 + l / 2.
Proof.
  assert (B := gco_bounds d j p). assert (P := pow2_pos (length p)). assert (Q := W_pos (length p)).
  assert (E : l = 2 ^ length p * W (length p)) by (field; lra).
  assert (B1 : 0 <= IZR (gco d j p)) by (apply IZR_le; lia).
  assert (B2 : IZR (gco d j p) + 1 <= 2 ^ length p) by (rewrite <- IZR_p2, <- plus_IZR; apply IZR_le; lia).
  assert (F : (IZR (gco d j p) + / 2) * W (length p) <= (2 ^ length p) * W (length p)) by (apply Rmult_le_compat_r; lra).
  assert (G : 0 <= (IZR (gco d j p) + / 2) * W (length p)) by (apply Rmult_le_pos; lra). lra.
Qed.
Lemma gc_child j i p : gc j (i :: p) = gc j p + (if Nat.testbit i (d - 1 - j) then 1 else -1) * (W (S (length p)) / 2).
Proof.
  cbn [gco length]. rewrite plus_IZR, mult_IZR, W_half. set (w := W (length p)). destruct (Nat.testbit i (d - 1 - j)); cbn; field.
Qed.
Lemma ctr_err p j : (length p <= 32)%nat -> (j < d)%nat -> gc j p - 20 * INR (length p) * eta <= nth j (ctr p) 0 <= gc j p + 20 * INR (length p) * eta.
Proof.
  intros H Hj. assert (E0 := eta0). assert (EM := eta_M). revert H. induction p as [|i p IH]; intros H.
  - cbn. lra.
  - specialize (IH ltac:(cbn in H; lia)). assert (HC := Hcj j Hj). apply abs2 in HC.
    assert (K : 0 <= INR (length p) <= 32).
    { split; [apply pos_INR|]. replace 32 with (INR 32) by (cbn; lra). apply le_INR. cbn in H. lia. }
    assert (GB := gc_bounds j p). assert (GB' := gc_bounds j (i :: p)). rewrite gc_child in *. cbn [AnyTree.ctr].
    change (@nhalf R NN (blen p)) with (blen (i :: p)). rewrite r_child_center by (try apply len_ctr; assumption).
    assert (BL := blen_eta (i :: p) H). cbn [length] in *. rewrite S_INR. set (k := INR (length p)) in *.
    assert (WL := W_le (S (length p))). assert (WP := W_pos (S (length p))). set (w := W (S (length p))) in *.
    set (b := blen (i :: p)) in *. set (g := nth j c 0 - l / 2 + _) in *. set (x := nth j (ctr p) 0) in *.
    assert (KE : k * eta <= 32 * eta) by (apply Rmult_le_compat_r; lra).
    assert (A := rM 2 (b / 2) ltac:(lra)). set (y := rnd (b / 2)) in *.
    destruct (Nat.testbit i (d - 1 - j)).
    + assert (B := rM 3 (1 * y) ltac:(lra)). set (z := rnd (1 * y)) in *. assert (C := rM 8 (x + z) ltac:(lra)). lra.
    + assert (B := rM 3 (-1 * y) ltac:(lra)). set (z := rnd (-1 * y)) in *. assert (C := rM 8 (x + z) ltac:(lra)). lra.
Qed.
Lemma ctr_eta p j : (length p <= 32)%nat -> (j < d)%nat -> gc j p - 640 * eta <= nth j (ctr p) 0 <= gc j p + 640 * eta.
Proof.
  intros H Hj. assert (A := ctr_err p j H Hj). assert (E0 := eta0).
  assert (K : INR (length p) <= 32) by (replace 32 with (INR 32) by (cbn; lra); apply le_INR; lia).
  assert (KE : INR (length p) * eta <= 32 * eta) by (apply Rmult_le_compat_r; lra). lra.
Qed.

(** Corners. *)
Lemma lower_err C L j : length C = d -> (j < d)%nat -> Rabs (nth j C 0) <= 6 * M -> 0 <= L <= 4 * M ->
  nth j C 0 - L / 2 - 20 * eta <= nth j (@box_lower R NN d C L) 0 <= nth j C 0 - L / 2 + 20 * eta.
Proof.
  intros HC Hj BC BL. apply abs2 in BC. rewrite r_box_lower by assumption. assert (E0 := eta0). assert (EM := eta_M).
  assert (A := rM 2 (L / 2) ltac:(lra)). set (y := rnd (L / 2)) in *. assert (B := rM 3 (1 * y) ltac:(lra)). set (z := rnd (1 * y)) in *.
  assert (D := rM 4 (z * -1) ltac:(lra)). set (t := rnd (z * -1)) in *. assert (F := rM 10 (nth j C 0 + t) ltac:(lra)). lra.
Qed.
Lemma upper_err C L j : length C = d -> (j < d)%nat -> Rabs (nth j C 0) <= 6 * M -> 0 <= L <= 4 * M ->
  nth j C 0 + L / 2 - 20 * eta <= nth j (@box_upper R NN d C L) 0 <= nth j C 0 + L / 2 + 20 * eta.
Proof.
  intros HC Hj BC BL. apply abs2 in BC. rewrite r_box_upper by assumption. assert (E0 := eta0). assert (EM := eta_M).
  assert (A := rM 2 (L / 2) ltac:(lra)). set (y := rnd (L / 2)) in *. assert (B := rM 3 (1 * y) ltac:(lra)). set (z := rnd (1 * y)) in *.
  assert (F := rM 10 (nth j C 0 + z) ltac:(lra)). lra.
Qed.
Lemma ctr_bound p j : (length p <= 32)%nat -> (j < d)%nat -> Rabs (nth j (ctr p) 0) <= 6 * M.
Proof.
  intros H Hj. assert (A := ctr_eta p j H Hj). assert (B := gc_bounds j p). assert (C := Hcj j Hj). apply abs2 in C.
  assert (E0 := eta0). assert (EM := eta_M). apply Rabs_le. lra.
Qed.
Lemma blen_bound p : (length p <= h)%nat -> 0 < blen p <= 4 * M /\ W (length p) * (999 / 1000) <= blen p <= W (length p) * (1001 / 1000).
Proof.
  intros H. assert (A := blen_eta p ltac:(lia)). assert (WL := W_le (length p)). assert (WP := W_pos (length p)).
  assert (E := eta_W (length p) H). assert (E0 := eta0). assert (EM := eta_M). lra.
Qed.

(** Adjacency and separation of boxes of the same depth. *)
Lemma nmin_r a b : @nmin R NN a b = a \/ @nmin R NN a b = b.
Proof. unfold nmin. destruct (nltb b a); auto. Qed.
Lemma gap_err p q j : length p = length q -> (length p <= h)%nat -> (j < d)%nat ->
  let g := IZR (gco d j q - gco d j p) * W (length p) in let w := W (length p) in
  let L a b := rnd (rnd (nth j (@box_lower R NN d (ctr b) (blen b)) 0 + rnd (nth j (@box_upper R NN d (ctr a) (blen a)) 0 * -1)) +
                    rnd (@nhalf R NN (@nmin R NN (blen p) (blen q)) * -1)) in
  Rabs (L p q - (g - w - w / 2)) <= w / 10 /\ Rabs (L q p - (- g - w - w / 2)) <= w / 10.
Proof.
  intros HL H Hj g w L.
  assert (E0 := eta0). assert (EM := eta_M). assert (EW := eta_W (length p) H). fold w in EW.
  assert (Cp := ctr_eta p j ltac:(lia) Hj). assert (Cq := ctr_eta q j ltac:(lia) Hj). rewrite <- HL in Cq.
  assert (G : gc j q - gc j p = g) by (rewrite <- HL; unfold g; rewrite minus_IZR; ring). rewrite <- HL in G.
  assert (Bp := blen_bound p H). assert (Bq := blen_bound q ltac:(lia)). rewrite <- HL in Bq. fold w in Bp, Bq, Cp, Cq, G.
  assert (Lp := blen_eta p ltac:(lia)). assert (Lq := blen_eta q ltac:(lia)). rewrite <- HL in Lq. fold w in Lp, Lq.
  assert (lp := lower_err (ctr p) (blen p) j (len_ctr p) Hj (ctr_bound p j ltac:(lia) Hj) ltac:(lra)).
  assert (lq := lower_err (ctr q) (blen q) j (len_ctr q) Hj (ctr_bound q j ltac:(lia) Hj) ltac:(lra)).
  assert (up := upper_err (ctr p) (blen p) j (len_ctr p) Hj (ctr_bound p j ltac:(lia) Hj) ltac:(lra)).
  assert (uq := upper_err (ctr q) (blen q) j (len_ctr q) Hj (ctr_bound q j ltac:(lia) Hj) ltac:(lra)).
  assert (bp := ctr_bound p j ltac:(lia) Hj). assert (bq := ctr_bound q j ltac:(lia) Hj). apply abs2 in bp, bq.
  assert (T : w / 2 - 10 * eta <= @nhalf R NN (@nmin R NN (blen p) (blen q)) <= w / 2 + 10 * eta).
  { rewrite half_r. destruct (nmin_r (blen p) (blen q)) as [-> | ->].
    - assert (A := rM 2 (blen p / 2) ltac:(lra)). lra.
    - assert (A := rM 2 (blen q / 2) ltac:(lra)). lra. }
  set (tol := @nhalf R NN _) in *. assert (WL := W_le (length p)). fold w in WL.
  assert (A := rM 3 (tol * -1) ltac:(lra)).
  assert (DIFF : forall lo up' x, - (20 * M) <= lo <= 20 * M -> - (20 * M) <= up' <= 20 * M -> x - 2000 * eta <= lo - up' <= x + 2000 * eta ->
    Rabs (rnd (rnd (lo + rnd (up' * -1)) + rnd (tol * -1)) - (x - w / 2)) <= w / 10).
  { intros lo up' x H1 H2 H3. set (r := rnd (tol * -1)) in *.
    assert (B1 := rM 20 (up' * -1) ltac:(lra)). set (y := rnd (up' * -1)) in *.
    assert (B2 := rM 41 (lo + y) ltac:(lra)). set (z := rnd (lo + y)) in *.
    assert (B3 := rM 50 (z + r) ltac:(lra)). apply Rabs_le. lra. }
  split; [apply DIFF with (x := g - w)|apply DIFF with (x := - g - w)]; lra.
Qed.
Lemma IZR_W_le z w : 0 < w -> (z <= 1)%Z -> IZR z * w <= w.
Proof. intros Hw Hz. assert (IZR z <= 1) by (apply (IZR_le z 1); exact Hz). assert (IZR z * w <= 1 * w) by (apply Rmult_le_compat_r; lra). lra. Qed.
Lemma IZR_W_ge z w : 0 < w -> (2 <= z)%Z -> 2 * w <= IZR z * w.
Proof. intros Hw Hz. assert (2 <= IZR z) by (apply (IZR_le 2 z); exact Hz). apply Rmult_le_compat_r; lra. Qed.
Lemma touch_level p q : length p = length q -> touch d p q = true <-> forall j, (j < d)%nat -> (Z.abs (gco d j p - gco d j q) <= 1)%Z.
Proof.
  intros HL. rewrite touch_iff. assert (E : p2 q = p2 p) by (unfold p2; rewrite HL; reflexivity). rewrite E. assert (P := p2_pos p).
  split; intros H j Hj; specialize (H j Hj); nia.
Qed.
Lemma adjacent_rounded p q : length p = length q -> (length p <= h)%nat ->
  @adjacent R NN d (ctr p) (blen p) (ctr q) (blen q) = touch d p q.
Proof.
  intros HL H. assert (WP := W_pos (length p)). set (w := W (length p)) in *.
  assert (BODY : forall j, (j < d)%nat ->
    (negb (@ngtb R NN (vget (@vsub R NN (@vsub R NN (@box_lower R NN d (ctr q) (blen q)) (@box_upper R NN d (ctr p) (blen p))) (vfill d (@nhalf R NN (@nmin R NN (blen p) (blen q))))) j) n0 ||
           @ngtb R NN (vget (@vsub R NN (@vsub R NN (@box_lower R NN d (ctr p) (blen p)) (@box_upper R NN d (ctr q) (blen q))) (vfill d (@nhalf R NN (@nmin R NN (blen p) (blen q))))) j) n0) = true
     <-> (Z.abs (gco d j p - gco d j q) <= 1)%Z)).
  { intros j Hj. destruct (gap_err p q j HL H Hj) as [G1 G2]. fold w in G1, G2. apply abs2 in G1, G2.
    unfold vget. cbn [n0 NumRnd]. assert (LBp := rlen_box_lower d (ctr p) (blen p) (len_ctr p)). assert (LBq := rlen_box_lower d (ctr q) (blen q) (len_ctr q)).
    assert (LUp := rlen_box_upper d (ctr p) (blen p) (len_ctr p)). assert (LUq := rlen_box_upper d (ctr q) (blen q) (len_ctr q)).
    assert (LF : length (vfill d (@nhalf R NN (@nmin R NN (blen p) (blen q)))) = d) by (unfold vfill; apply repeat_length).
    rewrite !r_vsub by (rewrite ?rlen_vsub; lia). rewrite r_vfill by exact Hj.
    unfold ngtb. cbn [nltb NumRnd]. set (A := rnd (rnd (_ + _) + _)) in G1 |- *. set (B := rnd (rnd (_ + _) + _)) in G2 |- *.
    change (@n0 R NumR) with 0. rewrite negb_true_iff, orb_false_iff, !Rltb_false. split.
    - intros [HA HB]. destruct (Z.le_gt_cases (gco d j q - gco d j p) 1) as [K|K]; [|assert (X := IZR_W_ge (gco d j q - gco d j p) w WP ltac:(lia)); exfalso; lra].
      destruct (Z.le_gt_cases (gco d j p - gco d j q) 1) as [K'|K']; [lia|]. exfalso.
      assert (X := IZR_W_ge (gco d j p - gco d j q) w WP ltac:(lia)). rewrite minus_IZR in *. lra.
    - intros K. assert (X := IZR_W_le (gco d j q - gco d j p) w WP ltac:(lia)). assert (Y := IZR_W_le (gco d j p - gco d j q) w WP ltac:(lia)).
      rewrite minus_IZR in *. lra. }
  apply eq_true_iff_eq. rewrite (touch_level p q HL). unfold adjacent. rewrite forallb_forall. split.
  - intros A j Hj. apply BODY; [exact Hj|]. apply A. apply in_seq. lia.
  - intros A j Hj. apply in_seq in Hj. apply BODY; [lia|]. apply A. lia.
Qed.

Lemma norm_ge v j : (j < length v)%nat -> Rabs (nth j v 0) <= sqrt (CAux.rsum (fun x => x ^ 2) v).
Proof.
  intros Hj. rewrite <- sqrt_Rsqr_abs. apply sqrt_le_1_alt. revert j Hj. induction v as [|a v IH]; intros j Hj; [cbn in Hj; lia|].
  assert (NN0 : 0 <= CAux.rsum (fun x => x ^ 2) v).
  { clear. induction v as [|b v IH]; [cbn; lra|]. change (CAux.rsum (fun x => x ^ 2) (b :: v)) with (b ^ 2 + CAux.rsum (fun x => x ^ 2) v).
    assert (0 <= b ^ 2) by apply pow2_ge_0. lra. }
  change (CAux.rsum (fun x => x ^ 2) (a :: v)) with (a ^ 2 + CAux.rsum (fun x => x ^ 2) v). unfold Rsqr in *. destruct j as [|j]; cbn [nth].
  - assert (a * a = a ^ 2) by ring. lra.
  - specialize (IH j ltac:(cbn in Hj; lia)). assert (0 <= a ^ 2) by apply pow2_ge_0. lra.
Qed.
Lemma close_rounded p q : length p = length q -> (length p <= h)%nat -> touch d p q = false ->
  @too_close R NN DD Src (@mk0 R Src NN d c l h p) (@mk0 R Src NN d c l h q) = false.
Proof.
  intros HL H HT. unfold too_close, mk0. cbn [an_center an_len norm_ltb DistRnd nlit nmul NumRnd].
  destruct (touch_same_level d p q HL HT) as (j & Hj & D).
  assert (WP := W_pos (length p)). assert (E0 := eta0). assert (EM := eta_M). assert (EW := eta_W (length p) H).
  assert (Cp := ctr_eta p j ltac:(lia) Hj). assert (Cq := ctr_eta q j ltac:(lia) Hj). rewrite <- HL in Cq.
  assert (bp := ctr_bound p j ltac:(lia) Hj). assert (bq := ctr_bound q j ltac:(lia) Hj). apply abs2 in bp, bq.
  assert (Bp := blen_bound p H). assert (Lp := blen_eta p ltac:(lia)). set (w := W (length p)) in *.
  set (v := @vsub R NN (ctr p) (ctr q)). assert (LV : length v = d) by (unfold v; rewrite rlen_vsub, !len_ctr; apply Nat.min_id).
  assert (VJ : 2 * w - w / 1000 <= Rabs (nth j v 0)).
  { unfold v. rewrite r_vsub by (rewrite len_ctr; exact Hj).
    assert (A := rM 6 (nth j (ctr q) 0 * -1) ltac:(lra)). set (y := rnd (nth j (ctr q) 0 * -1)) in *.
    assert (B := rM 20 (nth j (ctr p) 0 + y) ltac:(lra)). set (z := rnd (nth j (ctr p) 0 + y)) in *.
    assert (G : Rabs (IZR (gco d j p - gco d j q) * w) >= 2 * w).
    { rewrite Rabs_mult, (Rabs_pos_eq w) by lra. rewrite <- abs_IZR. apply Rle_ge. apply IZR_W_ge; [exact WP|exact D]. }
    rewrite minus_IZR in G. unfold Rabs in *. destruct (Rcase_abs z), (Rcase_abs ((IZR (gco d j p) - IZR (gco d j q)) * w)).
 idtac. lra. lra. lra. lra. }
  assert (NV := norm_ge v j ltac:(lia)). assert (HV := Hhyp v). set (s := sqrt _) in *. apply abs2 in HV.
  apply Rltb_false. assert (Hr := rlit (199/100) ltac:(lra)). change (IZR 199 / IZR 100) with (199/100). set (r := rnd (199/100)) in *.
  assert (U := u_small). assert (X : rnd (r * blen p) <= r * blen p + 10 * eta).
  { assert (0 <= r <= 2) by lra. assert (0 <= r * blen p <= 2 * (4 * M)) by (split; [apply Rmult_le_pos; lra|apply Rmult_le_compat; lra]).
    assert (Y := rM 10 (r * blen p) ltac:(lra)). lra. }
  assert (Y : r * blen p <= (199/100 + 1/1000) * blen p) by (apply Rmult_le_compat_r; lra). lra.
Qed.

(** Boxes of different depths. *)
Lemma W_split (p q : addr) : (length p <= length q)%nat -> W (length p) = IZR (2 ^ Z.of_nat (length q - length p)) * W (length q).
Proof.
  intros H. rewrite IZR_pow2. assert (P := pow2_pos (length p)). assert (Q := pow2_pos (length q)).
  replace (2 ^ length q) with (2 ^ (length q - length p) * 2 ^ length p) by (rewrite <- pow_add; f_equal; lia).
  assert (S := pow2_pos (length q - length p)). field. lra.
Qed.
Lemma p2_split (p q : addr) : (length p <= length q)%nat -> p2 q = (2 ^ Z.of_nat (length q - length p) * p2 p)%Z.
Proof. intros H. unfold p2. rewrite <- Z.pow_add_r by lia. f_equal. lia. Qed.
Lemma gap_any p q j : (length p <= length q)%nat -> (length q <= h)%nat -> (j < d)%nat ->
  let w := W (length q) in let K := (2 ^ Z.of_nat (length q - length p))%Z in
  let L a b := rnd (rnd (nth j (@box_lower R NN d (ctr b) (blen b)) 0 + rnd (nth j (@box_upper R NN d (ctr a) (blen a)) 0 * -1)) +
                    rnd (@nhalf R NN (@nmin R NN (blen p) (blen q)) * -1)) in
  Rabs (L p q - (IZR (gco d j q - (gco d j p + 1) * K) * w - w / 2)) <= w / 10 /\
  Rabs (L q p - (IZR (gco d j p * K - (gco d j q + 1)) * w - w / 2)) <= w / 10.
Proof.
  intros HL H Hj w K L.
  assert (E0 := eta0). assert (EM := eta_M). assert (EW := eta_W (length q) H). fold w in EW. assert (WP := W_pos (length q)). fold w in WP.
  assert (Cp := ctr_eta p j ltac:(lia) Hj). assert (Cq := ctr_eta q j ltac:(lia) Hj).
  assert (WS := W_split p q HL). fold w K in WS. assert (K1 : 1 <= IZR K) by (apply IZR_le; assert (0 < K)%Z by (apply Z.pow_pos_nonneg; lia); lia).
  assert (Bp := blen_bound p ltac:(lia)). assert (Bq := blen_bound q ltac:(lia)). fold w in Bq, Cq.
  assert (Lp := blen_eta p ltac:(lia)). assert (Lq := blen_eta q ltac:(lia)). fold w in Lq.
  assert (lp := lower_err (ctr p) (blen p) j (len_ctr p) Hj (ctr_bound p j ltac:(lia) Hj) ltac:(lra)).
  assert (lq := lower_err (ctr q) (blen q) j (len_ctr q) Hj (ctr_bound q j ltac:(lia) Hj) ltac:(lra)).
  assert (up := upper_err (ctr p) (blen p) j (len_ctr p) Hj (ctr_bound p j ltac:(lia) Hj) ltac:(lra)).
  assert (uq := upper_err (ctr q) (blen q) j (len_ctr q) Hj (ctr_bound q j ltac:(lia) Hj) ltac:(lra)).
  assert (bp := ctr_bound p j ltac:(lia) Hj). assert (bq := ctr_bound q j ltac:(lia) Hj). apply abs2 in bp, bq.
  set (wp := W (length p)) in *. assert (WW : w <= wp) by (rewrite WS; rewrite <- (Rmult_1_l w) at 1; apply Rmult_le_compat_r; lra).
  assert (T : w / 2 - 10 * eta <= @nhalf R NN (@nmin R NN (blen p) (blen q)) <= w / 2 + 10 * eta).
  { rewrite half_r. unfold nmin. cbn [nltb NumRnd]. destruct (Rltb (blen q) (blen p)) eqn:B.
    - assert (A := rM 2 (blen q / 2) ltac:(lra)). lra.
    - apply Rltb_false in B. assert (A := rM 2 (blen p / 2) ltac:(lra)). lra. }
  set (tol := @nhalf R NN _) in *. assert (WL := W_le (length q)). fold w in WL.
  assert (A := rM 3 (tol * -1) ltac:(lra)).
  assert (DIFF : forall lo up' x, - (20 * M) <= lo <= 20 * M -> - (20 * M) <= up' <= 20 * M -> x - 2000 * eta <= lo - up' <= x + 2000 * eta ->
    Rabs (rnd (rnd (lo + rnd (up' * -1)) + rnd (tol * -1)) - (x - w / 2)) <= w / 10).
  { intros lo up' x H1 H2 H3. set (r := rnd (tol * -1)) in *.
    assert (B1 := rM 20 (up' * -1) ltac:(lra)). set (y := rnd (up' * -1)) in *.
    assert (B2 := rM 41 (lo + y) ltac:(lra)). set (z := rnd (lo + y)) in *.
    assert (B3 := rM 50 (z + r) ltac:(lra)). apply Rabs_le. lra. }
  assert (G1 : IZR (gco d j q - (gco d j p + 1) * K) * w = IZR (gco d j q) * w - (IZR (gco d j p) + 1) * wp).
  { rewrite minus_IZR, mult_IZR, plus_IZR, WS. ring. }
  assert (G2 : IZR (gco d j p * K - (gco d j q + 1)) * w = IZR (gco d j p) * wp - (IZR (gco d j q) + 1) * w).
  { rewrite minus_IZR, mult_IZR, plus_IZR, WS. ring. }
  split; apply DIFF; lra.
Qed.
Lemma IZR_W_0 z w : 0 < w -> (z <= 0)%Z -> IZR z * w <= 0.
Proof. intros Hw Hz. assert (IZR z <= 0) by (apply (IZR_le z 0); exact Hz). assert (IZR z * w <= 0 * w) by (apply Rmult_le_compat_r; lra). lra. Qed.
Lemma IZR_W_1 z w : 0 < w -> (1 <= z)%Z -> w <= IZR z * w.
Proof. intros Hw Hz. assert (1 <= IZR z) by (apply (IZR_le 1 z); exact Hz). assert (1 * w <= IZR z * w) by (apply Rmult_le_compat_r; lra). lra. Qed.
Lemma adjacent_le p q : (length p <= length q)%nat -> (length q <= h)%nat -> @adjacent R NN d (ctr p) (blen p) (ctr q) (blen q) = touch d p q.
Proof.
  intros HL H. assert (WP := W_pos (length q)). set (w := W (length q)) in *.
  assert (BODY : forall j, (j < d)%nat ->
    (negb (@ngtb R NN (vget (@vsub R NN (@vsub R NN (@box_lower R NN d (ctr q) (blen q)) (@box_upper R NN d (ctr p) (blen p))) (vfill d (@nhalf R NN (@nmin R NN (blen p) (blen q))))) j) n0 ||
           @ngtb R NN (vget (@vsub R NN (@vsub R NN (@box_lower R NN d (ctr p) (blen p)) (@box_upper R NN d (ctr q) (blen q))) (vfill d (@nhalf R NN (@nmin R NN (blen p) (blen q))))) j) n0) = true
     <-> (gco d j p * p2 q <= (gco d j q + 1) * p2 p /\ gco d j q * p2 p <= (gco d j p + 1) * p2 q)%Z)).
  { intros j Hj. destruct (gap_any p q j HL H Hj) as [G1 G2]. fold w in G1, G2. apply abs2 in G1, G2.
    unfold vget. cbn [n0 NumRnd]. assert (LBp := rlen_box_lower d (ctr p) (blen p) (len_ctr p)). assert (LBq := rlen_box_lower d (ctr q) (blen q) (len_ctr q)).
    assert (LUp := rlen_box_upper d (ctr p) (blen p) (len_ctr p)). assert (LUq := rlen_box_upper d (ctr q) (blen q) (len_ctr q)).
    assert (LF : length (vfill d (@nhalf R NN (@nmin R NN (blen p) (blen q)))) = d) by (unfold vfill; apply repeat_length).
    rewrite !r_vsub by (rewrite ?rlen_vsub; lia). rewrite r_vfill by exact Hj.
    unfold ngtb. cbn [nltb NumRnd]. set (A := rnd (rnd (_ + _) + _)) in G1 |- *. set (B := rnd (rnd (_ + _) + _)) in G2 |- *.
    change (@n0 R NumR) with 0. rewrite negb_true_iff, orb_false_iff, !Rltb_false.
    assert (PS := p2_split p q HL). assert (P0 := p2_pos p). set (K := (2 ^ Z.of_nat (length q - length p))%Z) in *.
    set (z1 := (gco d j q - (gco d j p + 1) * K)%Z) in *. set (z2 := (gco d j p * K - (gco d j q + 1))%Z) in *.
    assert (EQ : (gco d j p * p2 q <= (gco d j q + 1) * p2 p /\ gco d j q * p2 p <= (gco d j p + 1) * p2 q)%Z <-> (z1 <= 0 /\ z2 <= 0)%Z).
    { rewrite PS. unfold z1, z2. clear - P0. split; intros [X Y]; split; nia. }
    rewrite EQ. split.
    - intros [HA HB]. split.
      + destruct (Z.le_gt_cases z1 0) as [C|C]; [exact C|]. assert (X := IZR_W_1 z1 w WP ltac:(lia)). exfalso; lra.
      + destruct (Z.le_gt_cases z2 0) as [C|C]; [exact C|]. assert (X := IZR_W_1 z2 w WP ltac:(lia)). exfalso; lra.
    - intros [C1 C2]. assert (X1 := IZR_W_0 z1 w WP C1). assert (X2 := IZR_W_0 z2 w WP C2). lra. }
  apply eq_true_iff_eq. rewrite touch_iff. unfold adjacent. rewrite forallb_forall. split.
  - intros A j Hj. apply BODY; [exact Hj|]. apply A. apply in_seq. lia.
  - intros A j Hj. apply in_seq in Hj. apply BODY; [lia|]. apply A. lia.
Qed.
Lemma nmin_sym a b : @nmin R NN a b = @nmin R NN b a.
Proof.
  unfold nmin. cbn [nltb NumRnd]. destruct (Rltb b a) eqn:A, (Rltb a b) eqn:B; try reflexivity.
  - apply Rltb_true in A, B. lra.
  - apply Rltb_false in A, B. lra.
Qed.
Lemma adjacent_any p q : (length p <= h)%nat -> (length q <= h)%nat -> @adjacent R NN d (ctr p) (blen p) (ctr q) (blen q) = touch d p q.
Proof.
  intros Hp Hq. destruct (Nat.le_ge_cases (length p) (length q)) as [L|L]; [apply adjacent_le; assumption|].
  rewrite touch_sym, <- adjacent_le by assumption. unfold adjacent. rewrite nmin_sym.
  induction (seq 0 d) as [|j js IH]; [reflexivity|]. cbn [forallb]. rewrite IH, orb_comm. reflexivity.
Qed.

(** The descent by orthants. *)
Notation path := (@AnyTree.path R NN d c l).
Lemma path_near x k j : (k <= h)%nat -> (j < d)%nat -> Rabs (nth j x 0 - nth j c 0) <= l / 2 ->
  Rabs (nth j x 0 - nth j (ctr (path x k)) 0) <= W k / 2 + 1280 * INR k * eta.
Proof.
  intros Hk Hj Hx. assert (E0 := eta0). induction k as [|k IH].
  - cbn [AnyTree.path AnyTree.ctr INR pow]. lra.
  - specialize (IH ltac:(lia)). cbn [AnyTree.path]. set (p := path x k) in *. assert (L : length p = k) by apply AnyTree.path_length.
    change (@get_orthant R NN d (ctr p) x) with (@get_orthant R NumR d (ctr p) x).
    assert (B := get_orthant_bit d (ctr p) x j Hj). unfold vget in B. change (@n0 R NumR) with 0 in B.
    set (i := get_orthant d (ctr p) x) in *.
    assert (C := ctr_eta p j ltac:(lia) Hj). assert (C' := ctr_eta (i :: p) j ltac:(cbn [length]; lia) Hj).
    assert (GC := gc_child j i p). rewrite B in GC. cbn [length] in C', GC. rewrite L in *. rewrite !W_half in *. rewrite S_INR.
    apply abs2 in IH. set (a := nth j (ctr p) 0) in *. set (b := nth j (ctr (i :: p)) 0) in *. set (y := nth j x 0) in *.
    assert (WP := W_pos k). assert (KE : 0 <= INR k * eta) by (apply Rmult_le_pos; [apply pos_INR|exact E0]).
    destruct (Rleb a y) eqn:O; [apply Rleb_true in O|apply Rleb_false in O]; apply Rabs_le; lra.
Qed.

Lemma touch_gap_le p q : (length p <= length q)%nat -> (length q <= h)%nat ->
  (touch d p q = true -> forall j, (j < d)%nat -> Rabs (nth j (ctr p) 0 - nth j (ctr q) 0) <= (blen p + blen q) / 2 + blen q / 500) /\
  (touch d p q = false -> exists j, (j < d)%nat /\ (blen p + blen q) / 2 + 99 / 100 * blen q <= Rabs (nth j (ctr p) 0 - nth j (ctr q) 0)).
Proof.
  intros HL H. assert (E0 := eta0). assert (EM := eta_M). assert (EW := eta_W (length q) H). assert (WP := W_pos (length q)).
  set (w := W (length q)) in *. assert (WS := W_split p q HL). fold w in WS. assert (PS := p2_split p q HL). assert (P0 := p2_pos p).
  set (K := (2 ^ Z.of_nat (length q - length p))%Z) in *. set (wp := W (length p)) in *.
  assert (Lp := blen_eta p ltac:(lia)). assert (Lq := blen_eta q ltac:(lia)). fold w in Lq. fold wp in Lp.
  assert (G1 : forall j, IZR (gco d j q - (gco d j p + 1) * K) * w = IZR (gco d j q) * w - (IZR (gco d j p) + 1) * wp).
  { intros j. rewrite minus_IZR, mult_IZR, plus_IZR, WS. ring. }
  assert (G2 : forall j, IZR (gco d j p * K - (gco d j q + 1)) * w = IZR (gco d j p) * wp - (IZR (gco d j q) + 1) * w).
  { intros j. rewrite minus_IZR, mult_IZR, plus_IZR, WS. ring. }
  assert (EQ : forall j, (gco d j p * p2 q <= (gco d j q + 1) * p2 p /\ gco d j q * p2 p <= (gco d j p + 1) * p2 q)%Z <->
     (gco d j q - (gco d j p + 1) * K <= 0 /\ gco d j p * K - (gco d j q + 1) <= 0)%Z).
  { intros j. rewrite PS. clear - P0. split; intros [X Y]; split; nia. }
  split.
  - intros T j Hj. assert (C := proj1 (EQ j) (proj1 (touch_iff d p q) T j Hj)). destruct C as [C1 C2].
    assert (X1 := IZR_W_0 _ w WP C1). assert (X2 := IZR_W_0 _ w WP C2). rewrite G1 in X1. rewrite G2 in X2.
    assert (Cp := ctr_eta p j ltac:(lia) Hj). assert (Cq := ctr_eta q j ltac:(lia) Hj). fold w in Cq. fold wp in Cp. apply Rabs_le. lra.
  - intros T. unfold touch in T. assert (NT : ~ forall j, (j < d)%nat -> (gco d j p * p2 q <= (gco d j q + 1) * p2 p /\ gco d j q * p2 p <= (gco d j p + 1) * p2 q)%Z).
    { intros A. apply touch_iff in A. unfold touch in A. congruence. }
    clear T. assert (EX : exists j, (j < d)%nat /\ ~ (gco d j p * p2 q <= (gco d j q + 1) * p2 p /\ gco d j q * p2 p <= (gco d j p + 1) * p2 q)%Z).
    { assert (IND : forall n, (forall j, (j < n)%nat -> (gco d j p * p2 q <= (gco d j q + 1) * p2 p /\ gco d j q * p2 p <= (gco d j p + 1) * p2 q)%Z) \/
        exists j, (j < n)%nat /\ ~ (gco d j p * p2 q <= (gco d j q + 1) * p2 p /\ gco d j q * p2 p <= (gco d j p + 1) * p2 q)%Z).
      { induction n as [|n [IH|(j & Hj & N)]]; [left; intros j Hj; lia| |right; exists j; split; [lia|exact N]].
        destruct (Z_le_gt_dec (gco d n p * p2 q) ((gco d n q + 1) * p2 p)) as [A|A]; [|right; exists n; split; [lia|intros [? ?]; lia]].
        destruct (Z_le_gt_dec (gco d n q * p2 p) ((gco d n p + 1) * p2 q)) as [B|B]; [|right; exists n; split; [lia|intros [? ?]; lia]].
        left. intros j Hj. destruct (Nat.eq_dec j n) as [->|]; [split; assumption|apply IH; lia]. }
      destruct (IND d) as [F|F]; [contradiction|exact F]. }
    destruct EX as (j & Hj & N). exists j. split; [exact Hj|]. rewrite EQ in N.
    assert (Cp := ctr_eta p j ltac:(lia) Hj). assert (Cq := ctr_eta q j ltac:(lia) Hj). fold w in Cq. fold wp in Cp.
    destruct (Z_le_gt_dec (gco d j q - (gco d j p + 1) * K) 0) as [A|A].
    + assert (X := IZR_W_1 (gco d j p * K - (gco d j q + 1)) w WP ltac:(lia)). rewrite G2 in X.
      apply Rle_trans with (nth j (ctr p) 0 - nth j (ctr q) 0); [|apply Rle_abs]. lra.
    + assert (X := IZR_W_1 (gco d j q - (gco d j p + 1) * K) w WP ltac:(lia)). rewrite G1 in X. rewrite <- Rabs_Ropp.
      apply Rle_trans with (- (nth j (ctr p) 0 - nth j (ctr q) 0)); [|apply Rle_abs]. lra.
Qed.
Lemma blen_close p q : (length p <= length q)%nat -> (length q <= h)%nat -> 998 / 1000 * blen q <= blen p.
Proof.
  intros HL H. assert (A := W_mono _ _ HL). assert (B := blen_bound p ltac:(lia)). assert (C := blen_bound q H). assert (D := W_pos (length q)). lra.
Qed.
Lemma touch_gap p q : (length p <= h)%nat -> (length q <= h)%nat ->
  (touch d p q = true -> forall j, (j < d)%nat ->
     Rabs (nth j (ctr p) 0 - nth j (ctr q) 0) <= (blen p + blen q) / 2 + Rmin (blen p) (blen q) / 400) /\
  (touch d p q = false -> exists j, (j < d)%nat /\
     (blen p + blen q) / 2 + 98 / 100 * Rmin (blen p) (blen q) <= Rabs (nth j (ctr p) 0 - nth j (ctr q) 0)).
Proof.
  assert (L : forall p q, (length p <= length q)%nat -> (length q <= h)%nat ->
    (touch d p q = true -> forall j, (j < d)%nat ->
       Rabs (nth j (ctr p) 0 - nth j (ctr q) 0) <= (blen p + blen q) / 2 + Rmin (blen p) (blen q) / 400) /\
    (touch d p q = false -> exists j, (j < d)%nat /\
       (blen p + blen q) / 2 + 98 / 100 * Rmin (blen p) (blen q) <= Rabs (nth j (ctr p) 0 - nth j (ctr q) 0))).
  { clear p q. intros p q HL H. destruct (touch_gap_le p q HL H) as [A B]. assert (C := blen_close p q HL H). assert (P := blen_bound q H).
    assert (M1 : 998 / 1000 * blen q <= Rmin (blen p) (blen q)) by (apply Rmin_glb; lra). assert (M2 := Rmin_r (blen p) (blen q)). split.
    - intros T j Hj. specialize (A T j Hj). lra.
    - intros T. destruct (B T) as (j & Hj & X). exists j. split; [exact Hj|]. lra. }
  intros Hp Hq. destruct (Nat.le_ge_cases (length p) (length q)) as [C|C]; [apply L; assumption|].
  destruct (L q p C Hp) as [A B]. rewrite touch_sym, Rmin_comm, (Rplus_comm (blen p)). split.
  - intros T j Hj. rewrite Rabs_minus_sym. apply A; assumption.
  - intros T. destruct (B T) as (j & Hj & X). exists j. split; [exact Hj|]. rewrite Rabs_minus_sym. exact X.
Qed.

Lemma path_grid x p : valid d p -> (length p <= h)%nat -> (forall j, (j < d)%nat -> Rabs (nth j x 0 - gc j p) <= W (length p) / 2 - W h / 4000) ->
  path x (length p) = p.
Proof.
  assert (E0 := eta0). assert (EW := eta_W h (le_n h)). assert (WH := W_pos h). induction p as [|i p IH]; intros V L HX; [reflexivity|].
  apply Forall_cons_iff in V. destruct V as [Hi V']. cbn [length] in *. cbn [AnyTree.path]. rewrite IH.
  - f_equal. change (@get_orthant R NN d (ctr p) x) with (@get_orthant R NumR d (ctr p) x). apply get_orthant_iff; [exact Hi|].
    intros j Hj. unfold vget. change (@n0 R NumR) with 0. specialize (HX j Hj). apply abs2 in HX. assert (GC := gc_child j i p).
    assert (C := ctr_eta p j ltac:(lia) Hj). cbn [length] in GC. rewrite !W_half in *.
    destruct (Nat.testbit i (d - 1 - j)); (split; [intros X|intros X]); try reflexivity; try discriminate; try lra; exfalso; lra.
  - exact V'.
  - lia.
  - intros j Hj. specialize (HX j Hj). apply abs2 in HX. assert (GC := gc_child j i p). cbn [length] in GC. rewrite !W_half in *. apply Rabs_le.
    destruct (Nat.testbit i (d - 1 - j)); lra.
Qed.
Lemma path_inside x p : valid d p -> (length p <= h)%nat ->
  (forall j, (j < d)%nat -> Rabs (nth j x 0 - nth j (ctr p) 0) <= 499 / 1000 * blen p) -> path x (length p) = p.
Proof.
  intros V L HX. apply path_grid; [exact V|exact L|]. intros j Hj. specialize (HX j Hj). apply abs2 in HX.
  assert (E0 := eta0). assert (EW := eta_W (length p) L). assert (Lp := blen_eta p ltac:(lia)). assert (C := ctr_eta p j ltac:(lia) Hj).
  assert (WM := W_mono _ _ L). apply Rabs_le. lra.
Qed.
Lemma contains_inner x p : (length p <= h)%nat -> (forall j, (j < d)%nat -> Rabs (nth j x 0 - nth j (ctr p) 0) <= 499 / 1000 * blen p) ->
  @contains R NN d (ctr p) (blen p) x = true.
Proof.
  intros H HX. assert (E0 := eta0). assert (EM := eta_M). assert (EW := eta_W (length p) H). assert (Bp := blen_bound p H).
  unfold contains. apply forallb_forall. intros j Hj. apply in_seq in Hj. specialize (HX j ltac:(lia)). apply abs2 in HX.
  assert (lo := lower_err (ctr p) (blen p) j (len_ctr p) ltac:(lia) (ctr_bound p j ltac:(lia) ltac:(lia)) ltac:(lra)).
  assert (up := upper_err (ctr p) (blen p) j (len_ctr p) ltac:(lia) (ctr_bound p j ltac:(lia) ltac:(lia)) ltac:(lra)).
  unfold vget, ngtb. cbn [nltb n0 NumRnd]. change (@n0 R NumR) with 0. rewrite negb_true_iff, orb_false_iff, !Rltb_false. lra.
Qed.

Lemma contains_outer x p j : (length p <= h)%nat -> (j < d)%nat -> @contains R NN d (ctr p) (blen p) x = true ->
  Rabs (nth j x 0 - nth j (ctr p) 0) <= W (length p) / 2 + 30 * eta.
Proof.
  intros H Hj HC. assert (E0 := eta0). assert (EM := eta_M). assert (EW := eta_W (length p) H). assert (Bp := blen_bound p H).
  assert (Be := blen_eta p ltac:(lia)). unfold contains in HC. assert (HC' := proj1 (forallb_forall _ _) HC j ltac:(apply in_seq; lia)). clear HC. cbv beta in HC'.
  assert (lo := lower_err (ctr p) (blen p) j (len_ctr p) ltac:(lia) (ctr_bound p j ltac:(lia) ltac:(lia)) ltac:(lra)).
  assert (up := upper_err (ctr p) (blen p) j (len_ctr p) ltac:(lia) (ctr_bound p j ltac:(lia) ltac:(lia)) ltac:(lra)).
  unfold vget, ngtb in HC'. cbn [nltb n0 NumRnd] in HC'. rewrite negb_true_iff, orb_false_iff, !Rltb_false in HC'. apply Rabs_le. lra.
Qed.

(** Leaf box indices. *)
Definition ind (x : list R) (j : nat) : R :=
  rnd (rnd (rnd (nth j x 0 + rnd (nth j (@box_lower R NN d c l) 0 * -1)) * rnd (1 / l)) * IZR (2 ^ Z.of_nat h)).
Lemma indices_rounded x : length x = d ->
  (forall j, (j < d)%nat -> (0 <= Int_part (ind x j) < 2 ^ Z.of_nat h)%Z) ->
  @leaf_box_indices R NN d h c l x = Ok (map (fun j => Int_part (ind x j)) (seq 0 d)).
Proof.
  intros Hx HB. unfold leaf_box_indices. rewrite boxes_eq by exact Hh. cbn [bind].
  assert (E0 : @neqb R NN l (@n0 R NN) = false).
  { unfold neqb. cbn [nleb n0 NumRnd]. rewrite (proj2 (Rleb_false l 0)) by lra. reflexivity. }
  rewrite E0. apply omapM_ok. intros j Hj. apply in_seq in Hj.
  assert (V : @nmul R NN (@vget R NN (@vscale R NN (@vsub R NN x (@box_lower R NN d c l)) (@ndiv R NN (@n1 R NN) l)) j) (@nlit R NN (2 ^ Z.of_nat h) 1) = ind x j).
  { unfold vget. cbn [n0 NumRnd]. assert (LB := rlen_box_lower d c l Hc). rewrite r_vscale by (rewrite rlen_vsub; lia). rewrite r_vsub by lia.
    cbn [nmul ndiv nlit n1 NumRnd]. rewrite rnd_int; [reflexivity|].
    assert (0 < 2 ^ Z.of_nat h)%Z by (apply Z.pow_pos_nonneg; lia). assert (2 ^ Z.of_nat h <= 2 ^ 53)%Z by (apply Z.pow_le_mono_r; lia). lia. }
  rewrite V. cbn [nfloor NumRnd of_option bind]. specialize (HB j ltac:(lia)). unfold to_u32, u32_max.
  assert (2 ^ Z.of_nat h < 2 ^ 32)%Z by (apply Z.pow_lt_mono_r; lia). change (2 ^ 32)%Z with 4294967296%Z in *.
  rewrite (proj2 (Z.leb_le _ _)), (proj2 (Z.ltb_lt _ _)) by lia. cbn [andb bind]. rewrite (proj2 (Z.leb_gt _ _)) by lia. reflexivity.
Qed.
Lemma ind_eq x j : (j < d)%nat -> Rabs (nth j x 0) <= 6 * M -> exists y e, ind x j = y / W h * (1 + e) /\ Rabs e <= 4 * u /\
  nth j x 0 - (nth j c 0 - l / 2) - 100 * eta <= y <= nth j x 0 - (nth j c 0 - l / 2) + 100 * eta.
Proof.
  intros Hj Hx. assert (E0 := eta0). assert (EM := eta_M). assert (HC := Hcj j Hj).
  assert (LE := lower_err c l j Hc Hj ltac:(lra) ltac:(lra)). apply abs2 in Hx, HC. unfold ind.
  set (lo := nth j (@box_lower R NN d c l) 0) in *. assert (A := rM 5 (lo * -1) ltac:(lra)). set (nl := rnd (lo * -1)) in *.
  assert (B := rM 20 (nth j x 0 + nl) ltac:(lra)). set (y := rnd (nth j x 0 + nl)) in *.
  destruct (rel (1 / l)) as (e1 & B1 & ->). destruct (rel (y * (1 / l * (1 + e1)))) as (e2 & B2 & ->).
  destruct (rel (y * (1 / l * (1 + e1)) * (1 + e2) * IZR (2 ^ Z.of_nat h))) as (e3 & B3 & ->).
  exists y, ((1 + e1) * (1 + e2) * (1 + e3) - 1). split; [|split].
  - rewrite IZR_pow2. assert (P := pow2_pos h). field. lra.
  - assert (U := u_small). replace ((1 + e1) * (1 + e2) * (1 + e3) - 1) with (e1 + e2 + e3 + (e1 * e2 + e1 * e3 + e2 * e3 + e1 * e2 * e3)) by ring.
    assert (PR : forall a b, Rabs a <= u -> Rabs b <= u -> Rabs (a * b) <= u * (1 / 1000)).
    { intros a b Ha Hb. rewrite Rabs_mult. apply Rmult_le_compat; try apply Rabs_pos; lra. }
    assert (P12 := PR e1 e2 B1 B2). assert (P13 := PR e1 e3 B1 B3). assert (P23 := PR e2 e3 B2 B3).
    assert (P123 : Rabs (e1 * e2 * e3) <= u * (1 / 1000)) by (apply PR; [lra|exact B3]).
    apply abs2 in B1, B2, B3, P12, P13, P23, P123. apply Rabs_le. lra.
  - lra.
Qed.
(** For a point of the root box, the index computed is that of the cell, up to a hundredth of its side. *)
Lemma ind_err x j : (j < d)%nat -> Rabs (nth j x 0) <= 6 * M -> 0 <= nth j x 0 - (nth j c 0 - l / 2) <= l ->
  Rabs (ind x j - (nth j x 0 - (nth j c 0 - l / 2)) / W h) <= 1 / 1000.
Proof.
  intros Hj Hx HR. destruct (ind_eq x j Hj Hx) as (y & e & -> & He & Hy). assert (E0 := eta0). assert (EM := eta_M).
  assert (EW := eta_W h (le_n h)). assert (WP := W_pos h). set (a := nth j x 0 - (nth j c 0 - l / 2)) in *.
  assert (YW : Rabs ((y - a) / W h) <= 1 / 10000).
  { unfold Rdiv at 1. rewrite Rabs_mult, Rabs_inv, (Rabs_pos_eq (W h)) by lra. apply Rmult_le_reg_r with (W h); [exact WP|].
    rewrite Rmult_assoc, Rinv_l by lra. assert (Rabs (y - a) <= 100 * eta) by (apply Rabs_le; lra). lra. }
  assert (AW : 0 <= a / W h <= 2147483648).
  { split; [apply Rmult_le_pos; [lra|left; apply Rinv_0_lt_compat; exact WP]|].
    apply Rle_trans with (l / W h).
    - apply Rmult_le_compat_r; [left; apply Rinv_0_lt_compat; exact WP|lra].
    - assert (P := pow2_pos h). replace (l / W h) with (2 ^ h) by (field; lra).
      replace 2147483648 with (2 ^ 31) by (cbn; ring). apply Rle_pow; [lra|lia]. }
  assert (YE : y / W h = a / W h + (y - a) / W h) by (unfold Rdiv; ring). rewrite YE. set (b := a / W h) in *. set (g := (y - a) / W h) in *.
  assert (U := u_small). apply abs2 in YW. replace ((b + g) * (1 + e) - b) with (g + (b + g) * e) by ring.
  assert (ER : Rabs ((b + g) * e) <= 2147483650 * (4 * / 9007199254740992)).
  { rewrite Rabs_mult. apply Rmult_le_compat; try apply Rabs_pos; [apply Rabs_le; lra|]. assert (u <= / 9007199254740992) by apply Hu. lra. }
  apply abs2 in ER. apply Rabs_le. lra.
Qed.
(** Leaf centres. *)
Lemma frac_W a : a * W h / W h = a.
Proof. assert (P := W_pos h). unfold Rdiv at 1. rewrite Rmult_assoc, Rinv_r by lra. ring. Qed.
Lemma ctr_index p j : length p = h -> (j < d)%nat -> Int_part (ind (ctr p) j) = gco d j p.
Proof.
  intros L Hj. assert (B := gc_bounds j p). assert (C := ctr_eta p j ltac:(lia) Hj). assert (EW := eta_W h (le_n h)). assert (WP := W_pos h).
  assert (G := gco_bounds d j p). assert (Q := proj2 G). unfold p2 in Q. destruct G as [G _].
  assert (E0 := eta0). rewrite L in *.
  assert (TOP : (IZR (gco d j p) + 1) * W h <= l).
  { assert (P := pow2_pos h). apply Rle_trans with (2 ^ h * W h); [|right; field; lra]. apply Rmult_le_compat_r; [lra|].
    rewrite <- (plus_IZR _ 1), <- IZR_pow2. apply IZR_le. lia. }
  assert (LOW : 0 <= IZR (gco d j p) * W h) by (apply Rmult_le_pos; [apply (IZR_le 0); exact G|lra]).
  assert (D := ind_err (ctr p) j Hj (ctr_bound p j ltac:(lia) Hj) ltac:(lra)).
  set (x := nth j (ctr p) 0 - (nth j c 0 - l / 2)) in *.
  assert (X : Rabs (x / W h - (IZR (gco d j p) + / 2)) <= 1 / 1000).
  { replace (x / W h - (IZR (gco d j p) + / 2)) with ((x - (IZR (gco d j p) + / 2) * W h) / W h) by (field; split; [apply pow_nonzero; lra|lra]).
    unfold Rdiv at 1. rewrite Rabs_mult, Rabs_inv, (Rabs_pos_eq (W h)) by lra. apply Rmult_le_reg_r with (W h); [exact WP|].
    rewrite Rmult_assoc, Rinv_l by lra. assert (Rabs (x - (IZR (gco d j p) + / 2) * W h) <= 640 * eta) by (apply Rabs_le; unfold x; lra). lra. }
  apply Int_part_eq. apply abs2 in D, X. lra.
Qed.
Theorem ctr_indices p : length p = h -> @leaf_box_indices R NN d h c l (ctr p) = Ok (gcos d p).
Proof.
  intros L. rewrite indices_rounded.
  - f_equal. apply map_ext_in. intros j Hj. apply in_seq in Hj. apply ctr_index; [exact L|lia].
  - apply len_ctr.
  - intros j Hj. rewrite ctr_index by assumption. assert (G := gco_bounds d j p). unfold p2 in G. rewrite L in G. exact G.
Qed.

(** Points inside the root box by the margin. *)
Definition inner (x : list R) : Prop := length x = d /\ forall j, (j < d)%nat ->
  nth j c 0 - l / 2 + m / 200000 <= nth j x 0 <= nth j c 0 + l / 2 - m / 200000.
Lemma inner_bound x j : inner x -> (j < d)%nat -> Rabs (nth j x 0) <= 6 * M /\ 0 <= nth j x 0 - (nth j c 0 - l / 2) <= l.
Proof. intros [_ H] Hj. specialize (H j Hj). assert (HC := Hcj j Hj). apply abs2 in HC. split; [apply Rabs_le|]; lra. Qed.
Lemma inner_index x j : inner x -> (j < d)%nat -> (0 <= Int_part (ind x j) < 2 ^ Z.of_nat h)%Z.
Proof.
  intros H Hj. destruct (inner_bound x j H Hj) as [B R]. destruct H as [_ H]. specialize (H j Hj).
  destruct (ind_eq x j Hj B) as (y & e & E & He & Hy). assert (E0 := eta0). assert (Em := eta_m). assert (WP := W_pos h).
  assert (U := u_small). apply abs2 in He.
  assert (Y0 : 0 <= y) by lra.
  assert (Y1 : y <= l - m / 300000) by lra.
  assert (I0 : 0 <= ind x j).
  { rewrite E. apply Rmult_le_pos; [|lra]. apply Rmult_le_pos; [exact Y0|left; apply Rinv_0_lt_compat; exact WP]. }
  assert (I1 : ind x j < 2 ^ h).
  { rewrite E. apply Rmult_lt_reg_r with (W h); [exact WP|]. replace (2 ^ h * W h) with l by (field; apply pow_nonzero; lra).
    replace (y / W h * (1 + e) * W h) with (y * (1 + e)) by (field; split; [apply pow_nonzero; lra|lra]).
    assert (u <= / 9007199254740992) by apply Hu.
    assert (y * e <= l * (4 * / 9007199254740992)).
    { apply Rle_trans with (y * (4 * / 9007199254740992)); [apply Rmult_le_compat_l; lra|apply Rmult_le_compat_r; lra]. }
    lra. }
  assert (F := base_Int_part (ind x j)). split.
  - assert (IZR (-1) < IZR (Int_part (ind x j))) by lra. assert (-1 < Int_part (ind x j))%Z by (apply lt_IZR; assumption). lia.
  - apply lt_IZR. rewrite IZR_pow2. lra.
Qed.
End Boxes.

(** *** The constructor *)
Notation pos0 := (fun _ : Src => @nil R).
Notation c0 := (repeat 0 d).
Notation ss0 := (@nil Src).
Notation present := (AdaptiveProofs.present d pos0 c0 1 0 ss0 (ByDepth h)).
Notation chs := (BalancedProofs.chs d pos0 c0 1 ss0 h).
Notation final := (ListProofs.final d pos0 c0 1 0 ss0 (ByDepth h) h).
Definition leaf_index (c : list R) (l : R) (x : list R) : list Z := map (fun j => Int_part (ind c l x j)) (seq 0 d).
Definition leaf_at (c : list R) (l : R) (x : list R) : addr := box_at d h (leaf_index c l x).
Notation leaf_of c l := (fun s => leaf_at c l (pos s)).
Notation mkn c l p := (@AnyBalanced.mk R Src NN d c l srcs h (leaf_of c l) p).
Notation tree c l ch := (@any_bal R Src NN d c l srcs h (leaf_of c l) ch).

Section Point.
Variable c : list R.
Variable l : R.
Hypothesis Hc : length c = d.
Hypothesis Hl : 2 * m <= l <= 3 * M.
Hypothesis Hcj : forall j, (j < d)%nat -> Rabs (nth j c 0) <= 2 * M.
Notation ctr := (@AnyTree.ctr R NN d c l).
Notation blen := (@AnyTree.blen R NN l).
Lemma leaf_index_tuple x : inner c l x -> tuple d h (leaf_index c l x).
Proof.
  intros H. unfold leaf_index. split; [rewrite map_length, seq_length; reflexivity|].
  intros z Hz. apply in_map_iff in Hz. destruct Hz as (j & <- & Hj). apply in_seq in Hj. apply (inner_index c l Hc Hl Hcj x j H). lia.
Qed.
Lemma leaf_at_ok x : inner c l x -> length (leaf_at c l x) = h /\ valid d (leaf_at c l x) /\
  @leaf_box_indices R NN d h c l x = Ok (gcos d (leaf_at c l x)).
Proof.
  intros H. split; [apply box_at_length|]. split; [apply box_at_valid|]. unfold leaf_at. rewrite box_at_gcos by (assumption || apply leaf_index_tuple, H).
  apply indices_rounded; [exact Hc|exact Hl|apply H|]. intros j Hj. apply (inner_index c l Hc Hl Hcj x j H Hj).
Qed.
Lemma leaf_at_near x j : inner c l x -> (j < d)%nat -> Rabs (nth j x 0 - nth j (ctr (leaf_at c l x)) 0) <= 51 / 100 * blen (leaf_at c l x).
Proof.
  intros H Hj. set (p := leaf_at c l x). assert (L : length p = h) by apply box_at_length.
  destruct (inner_bound c l Hl Hcj x j H Hj) as [B R]. assert (D := ind_err c l Hc Hl Hcj x j Hj B R).
  assert (C := ctr_eta c l Hc Hl Hcj p j ltac:(lia) Hj). destruct (blen_bound c l Hc Hl p ltac:(lia)) as [_ BL].
  assert (EW := eta_W l Hl h (le_n h)). assert (WP := W_pos l Hl h). rewrite L in *.
  assert (G : gco d j p = Int_part (ind c l x j)).
  { rewrite <- gcos_nth by exact Hj. unfold p, leaf_at. rewrite box_at_gcos by (assumption || apply leaf_index_tuple, H).
    unfold leaf_index. rewrite (nth_map_lt _ (seq 0 d) j 0%nat 0%Z) by (rewrite seq_length; exact Hj). rewrite seq_nth by exact Hj. reflexivity. }
  rewrite G in C. assert (F := base_Int_part (ind c l x j)). set (z := IZR (Int_part (ind c l x j))) in *. set (w := l / 2 ^ h) in *.
  set (a := nth j x 0 - (nth j c 0 - l / 2)) in *. apply abs2 in D.
  assert (A : a = a / w * w) by (unfold Rdiv; rewrite Rmult_assoc, Rinv_l by lra; ring).
  assert (A1 : (z - 1 / 1000) * w <= a) by (rewrite A; apply Rmult_le_compat_r; lra).
  assert (A2 : a <= (z + 1 + 1 / 1000) * w) by (rewrite A; apply Rmult_le_compat_r; lra).
  assert (E0 := eta0). apply Rabs_le. unfold a in *. lra.
Qed.
Lemma grid_mk p : valid d p -> (length p <= h)%nat -> grid_box d c l (mkn c l p) (gcos d p).
Proof.
  intros V L. assert (ED : an_depth (mkn c l p) = length p) by (unfold AnyBalanced.mk; destruct (length p <? h)%nat; reflexivity).
  assert (EL : an_len (mkn c l p) = blen p) by (unfold AnyBalanced.mk; destruct (length p <? h)%nat; reflexivity).
  assert (EC : an_center (mkn c l p) = ctr p) by (unfold AnyBalanced.mk; destruct (length p <? h)%nat; reflexivity).
  unfold grid_box. rewrite ED, EL, EC. cbn zeta. destruct (blen_bound c l Hc Hl p L) as [_ B].
  assert (EW := eta_W l Hl (length p) L). assert (E0 := eta0). split; [|split].
  - split; [apply gcos_length|]. intros z Hz. apply (proj1 (Forall_forall _ _) (gcos_digits d p) z Hz).
  - apply Rabs_le. lra.
  - intros j Hj. rewrite gcos_nth by exact Hj. assert (C := ctr_eta c l Hc Hl Hcj p j ltac:(lia) Hj). apply Rabs_le. lra.
Qed.
Lemma touch_centres p q : length q = length p -> (length p <= h)%nat -> (touch d p q = true <-> centres_within d (3 / 2) (mkn c l p) (mkn c l q)).
Proof.
  intros HL L. assert (EL : an_len (mkn c l p) = blen p) by (unfold AnyBalanced.mk; destruct (length p <? h)%nat; reflexivity).
  assert (EC : forall p, an_center (mkn c l p) = ctr p) by (intros p0; unfold AnyBalanced.mk; destruct (length p0 <? h)%nat; reflexivity).
  unfold centres_within. rewrite EL, !EC. rewrite (touch_level c Hc p q (eq_sym HL)). destruct (blen_bound c l Hc Hl p L) as [_ B].
  assert (EW := eta_W l Hl (length p) L). assert (E0 := eta0). assert (WP := W_pos l Hl (length p)).
  assert (J : forall j, (j < d)%nat -> Rabs ((nth j (ctr p) 0 - nth j (ctr q) 0) - IZR (gco d j p - gco d j q) * (l / 2 ^ length p)) <= 1280 * eta).
  { intros j Hj. assert (C := ctr_eta c l Hc Hl Hcj p j ltac:(lia) Hj). assert (C' := ctr_eta c l Hc Hl Hcj q j ltac:(lia) Hj). rewrite HL in C'.
    rewrite minus_IZR. apply Rabs_le. lra. }
  set (w := l / 2 ^ length p) in *. split.
  - intros H j Hj. specialize (H j Hj). specialize (J j Hj). set (z := (gco d j p - gco d j q)%Z) in *. apply abs2 in J.
    assert (Zb : -1 <= IZR z <= 1) by (split; apply IZR_le; lia).
    assert (- w <= IZR z * w <= w).
    { split; [replace (- w) with (-1 * w) by ring|replace w with (1 * w) at 2 by ring]; apply Rmult_le_compat_r; lra. }
    apply Rabs_le. lra.
  - intros H j Hj. specialize (H j Hj). specialize (J j Hj). set (z := (gco d j p - gco d j q)%Z) in *. apply abs2 in J. apply abs2 in H.
    destruct (Z_le_gt_dec (Z.abs z) 1) as [|N]; [assumption|exfalso].
    destruct (Z_le_gt_dec 0 z) as [P|P].
    + assert (2 * w <= IZR z * w) by (apply Rmult_le_compat_r; [lra|apply IZR_le; lia]). lra.
    + assert (IZR z * w <= -2 * w) by (apply Rmult_le_compat_r; [lra|apply IZR_le; lia]). lra.
Qed.
Lemma apart_centres p q : length q = length p -> (length p <= h)%nat -> touch d p q = false ->
  exists j, (j < d)%nat /\ 199 / 100 * blen p <= Rabs (nth j (ctr p) 0 - nth j (ctr q) 0).
Proof.
  intros HL L T. destruct (touch_same_level d p q (eq_sym HL) T) as (j & Hj & D). exists j. split; [exact Hj|].
  destruct (blen_bound c l Hc Hl p L) as [_ B]. assert (EW := eta_W l Hl (length p) L). assert (E0 := eta0). assert (WP := W_pos l Hl (length p)).
  assert (C := ctr_eta c l Hc Hl Hcj p j ltac:(lia) Hj). assert (C' := ctr_eta c l Hc Hl Hcj q j ltac:(lia) Hj). rewrite HL in C'.
  set (w := l / 2 ^ length p) in *. set (z := (gco d j p - gco d j q)%Z) in *.
  assert (ZE : (IZR (gco d j p) + / 2) * w - (IZR (gco d j q) + / 2) * w = IZR z * w) by (unfold z; rewrite minus_IZR; ring).
  destruct (Z_le_gt_dec 0 z) as [P|P].
  - assert (2 * w <= IZR z * w) by (apply Rmult_le_compat_r; [lra|apply IZR_le; lia]). apply Rle_trans with (nth j (ctr p) 0 - nth j (ctr q) 0); [|apply Rle_abs]. lra.
  - assert (IZR z * w <= -2 * w) by (apply Rmult_le_compat_r; [lra|apply IZR_le; lia]). rewrite <- Rabs_Ropp.
    apply Rle_trans with (- (nth j (ctr p) 0 - nth j (ctr q) 0)); [|apply Rle_abs]. lra.
Qed.
End Point.

(** *** The facts about the boxes of adaptive trees *)
Theorem box_facts : exists c l, @root_box R NN d (map pos srcs) = Some (c, l) /\ 0 < l <= 3 * M /\
  (forall p, (length p <= h)%nat -> let w := l / 2 ^ length p in Rabs (@AnyTree.blen R NN l p - w) <= w / 1000 /\
     forall j, (j < d)%nat -> Rabs (nth j (@AnyTree.ctr R NN d c l p) 0 - (nth j c 0 - l / 2 + (IZR (gco d j p) + 1 / 2) * w)) <= w / 1000) /\
  (forall p q, (length p <= h)%nat -> (length q <= h)%nat ->
     @adjacent R NN d (@AnyTree.ctr R NN d c l p) (@AnyTree.blen R NN l p) (@AnyTree.ctr R NN d c l q) (@AnyTree.blen R NN l q) = touch d p q) /\
  (forall p q, (length p <= h)%nat -> (length q <= h)%nat ->
     (touch d p q = true -> forall j, (j < d)%nat -> Rabs (nth j (@AnyTree.ctr R NN d c l p) 0 - nth j (@AnyTree.ctr R NN d c l q) 0) <=
        (@AnyTree.blen R NN l p + @AnyTree.blen R NN l q) / 2 + Rmin (@AnyTree.blen R NN l p) (@AnyTree.blen R NN l q) / 400) /\
     (touch d p q = false -> exists j, (j < d)%nat /\
        (@AnyTree.blen R NN l p + @AnyTree.blen R NN l q) / 2 + 98 / 100 * Rmin (@AnyTree.blen R NN l p) (@AnyTree.blen R NN l q) <=
        Rabs (nth j (@AnyTree.ctr R NN d c l p) 0 - nth j (@AnyTree.ctr R NN d c l q) 0))) /\
  (forall p q, length q = length p -> (length p <= h)%nat -> touch d p q = false ->
     @too_close R NN DD Src (@mk0 R Src NN d c l h p) (@mk0 R Src NN d c l h q) = false /\
     exists j, (j < d)%nat /\ 199 / 100 * @AnyTree.blen R NN l p <= Rabs (nth j (@AnyTree.ctr R NN d c l p) 0 - nth j (@AnyTree.ctr R NN d c l q) 0)) /\
  (forall x, among d pos srcs x -> forall k j, (k <= h)%nat -> (j < d)%nat ->
     Rabs (nth j x 0 - nth j (@AnyTree.ctr R NN d c l (@AnyTree.path R NN d c l x k)) 0) <= 51 / 100 * @AnyTree.blen R NN l (@AnyTree.path R NN d c l x k)) /\
  (forall x p, (length p <= h)%nat ->
     (forall j, (j < d)%nat -> Rabs (nth j x 0 - nth j (@AnyTree.ctr R NN d c l p) 0) <= 499 / 1000 * @AnyTree.blen R NN l p) ->
     @contains R NN d (@AnyTree.ctr R NN d c l p) (@AnyTree.blen R NN l p) x = true /\ (valid d p -> @AnyTree.path R NN d c l x (length p) = p)).
Proof.
  destruct root_rounded as (c & l & HR & Hc & Hl & HJ).
  assert (Hcj : forall j, (j < d)%nat -> Rabs (nth j c 0) <= 2 * M) by (intros j Hj; apply HJ; exact Hj).
  exists c, l. split; [exact HR|]. split; [lra|]. split; [|split; [|split; [|split; [|split]]]].
  - intros p L w. destruct (blen_bound c l Hc Hl p L) as [_ B]. assert (EW := eta_W l Hl (length p) L). assert (E0 := eta0). fold w in B, EW. split.
    + apply Rabs_le. lra.
    + intros j Hj. assert (C := ctr_eta c l Hc Hl Hcj p j ltac:(lia) Hj). fold w in C. apply Rabs_le. lra.
  - intros p q Hp Hq. apply (adjacent_any c l Hc Hl Hcj); assumption.
  - intros p q Hp Hq. apply (touch_gap c l Hc Hl Hcj); assumption.
  - intros p q HL L T. split; [apply (close_rounded c l Hc Hl Hcj); [congruence|exact L|exact T]|].
    apply (apart_centres c l Hc Hl Hcj); assumption.
  - intros x [Hx A] k j Hk Hj. destruct (A j Hj) as (a & b & Ha & Hb & AB). destruct (HJ j Hj) as [_ Q]. assert (Qa := Q a Ha). assert (Qb := Q b Hb).
    assert (P := path_near c l Hc Hl Hcj x k j Hk Hj ltac:(apply Rabs_le; lra)).
    set (p := @AnyTree.path R NN d c l x k) in *. assert (L : length p = k) by apply AnyTree.path_length.
    destruct (blen_bound c l Hc Hl p ltac:(lia)) as [_ B]. assert (EW := eta_W l Hl (length p) ltac:(lia)). assert (E0 := eta0). rewrite L in *.
    assert (KE : INR k * eta <= 31 * eta) by (apply Rmult_le_compat_r; [exact E0|]; replace 31 with (INR 31) by (simpl; lra); apply le_INR; lia).
    assert (WP := W_pos l Hl k). lra.
  - intros x p L HX. split; [apply (contains_inner c l Hc Hl Hcj)|intros V; apply (path_inside c l Hc Hl Hcj)]; assumption.
Qed.

(** The boxes and their contents against the exact grid, up to a fraction of the smallest boxes. *)
Theorem fine_facts : exists c l, @root_box R NN d (map pos srcs) = Some (c, l) /\ length c = d /\ 2 * m <= l <= 3 * M /\
  (forall p, (length p <= h)%nat -> length (@AnyTree.ctr R NN d c l p) = d /\ forall j, (j < d)%nat ->
     Rabs (nth j (@AnyTree.ctr R NN d c l p) 0 - nth j (box_ctr d c l p) 0) <= l / 2 ^ h / 5000) /\
  (forall x k j, among d pos srcs x -> (k <= h)%nat -> (j < d)%nat ->
     Rabs (nth j x 0 - nth j (box_ctr d c l (@AnyTree.path R NN d c l x k)) 0) <= l / 2 ^ k / 2 + l / 2 ^ h / 100) /\
  (forall x p j, (length p <= h)%nat -> (j < d)%nat -> @contains R NN d (@AnyTree.ctr R NN d c l p) (@AnyTree.blen R NN l p) x = true ->
     Rabs (nth j x 0 - nth j (box_ctr d c l p) 0) <= l / 2 ^ length p / 2 + l / 2 ^ h / 100).
Proof.
  destruct root_rounded as (c & l & HR & Hc & Hl & HJ).
  assert (Hcj : forall j, (j < d)%nat -> Rabs (nth j c 0) <= 2 * M) by (intros j Hj; apply HJ; exact Hj).
  assert (E0 := eta0). assert (EW := eta_W l Hl h (le_n h)).
  assert (GC : forall p j, (j < d)%nat -> nth j (box_ctr d c l p) 0 = nth j c 0 - l / 2 + (IZR (gco d j p) + / 2) * (l / 2 ^ length p)).
  { intros p j Hj. rewrite nth_box_ctr by assumption. assert (P := pow2_pos (length p)). field. lra. }
  assert (CE : forall p j, (length p <= h)%nat -> (j < d)%nat -> Rabs (nth j (@AnyTree.ctr R NN d c l p) 0 - nth j (box_ctr d c l p) 0) <= 640 * eta).
  { intros p j L Hj. rewrite GC by exact Hj. assert (C := ctr_eta c l Hc Hl Hcj p j ltac:(lia) Hj). apply Rabs_le. lra. }
  exists c, l. split; [exact HR|]. split; [exact Hc|]. split; [exact Hl|]. split; [|split].
  - intros p L. split; [apply (len_ctr c l Hc)|]. intros j Hj. eapply Rle_trans; [apply (CE p j L Hj)|]. lra.
  - intros x k j [Hx A] Hk Hj. destruct (A j Hj) as (a & b & Ha & Hb & AB). destruct (HJ j Hj) as [_ Q]. assert (Qa := Q a Ha). assert (Qb := Q b Hb).
    assert (P := path_near c l Hc Hl Hcj x k j Hk Hj ltac:(apply Rabs_le; lra)).
    set (p := @AnyTree.path R NN d c l x k) in *. assert (L : length p = k) by apply AnyTree.path_length.
    assert (C := CE p j ltac:(lia) Hj).
    assert (KE : INR k * eta <= 31 * eta) by (apply Rmult_le_compat_r; [exact E0|]; replace 31 with (INR 31) by (simpl; lra); apply le_INR; lia).
    apply abs2 in P. apply abs2 in C. apply Rabs_le. lra.
  - intros x p j L Hj HC. assert (P := contains_outer c l Hc Hl Hcj x p j L Hj HC). assert (C := CE p j L Hj).
    apply abs2 in P. apply abs2 in C. apply Rabs_le. lra.
Qed.

Hypothesis Hh1 : (1 <= h)%nat.
Hypothesis Hdh : (d * h <= 32)%nat.
Theorem built : exists c l ch, @root_box R NN d (map pos srcs) = Some (c, l) /\ length c = d /\ 2 * m <= l <= 3 * M /\
  (forall j, (j < d)%nat -> Rabs (nth j c 0) <= 2 * M) /\
  (forall x, length x = d -> (forall j, (j < d)%nat -> exists a b, In a srcs /\ In b srcs /\ nth j (pos a) 0 <= nth j x 0 <= nth j (pos b) 0) -> inner c l x) /\
  @bal_build R NN DD Src d pos h srcs = Ok (tree c l ch, final).
Proof.
  destruct root_rounded as (c & l & HR & Hc & Hl & HJ).
  assert (Hcj : forall j, (j < d)%nat -> Rabs (nth j c 0) <= 2 * M) by (intros j Hj; apply HJ; exact Hj).
  assert (IN : forall x, length x = d -> (forall j, (j < d)%nat -> exists a b, In a srcs /\ In b srcs /\ nth j (pos a) 0 <= nth j x 0 <= nth j (pos b) 0) -> inner c l x).
  { intros x Hx H. split; [exact Hx|]. intros j Hj. destruct (H j Hj) as (a & b & Ha & Hb & AB). destruct (HJ j Hj) as [_ Q].
    assert (Qa := Q a Ha). assert (Qb := Q b Hb). lra. }
  destruct (any_bal_build (NT := NN) (DT := DD) d pos c l srcs h Hd Hh Hdh (leaf_of c l)) as (ch & _ & E).
  - intros s Hs. apply (leaf_at_ok c l Hc Hl Hcj). apply IN; [apply Hpos, Hs|]. intros j Hj. exists s, s. repeat split; try assumption; lra.
  - intros p Lp _. apply (ctr_indices c l Hc Hl Hcj). exact Lp.
  - intros p q _ _ HL L. apply (adjacent_rounded c l Hc Hl Hcj); assumption.
  - intros p q _ _ HL L T. apply (close_rounded c l Hc Hl Hcj); assumption.
  - exact Hh1.
  - exact HR.
  - exists c, l, ch. repeat (split; [assumption|]). exact E.
Qed.

End Rounded.
