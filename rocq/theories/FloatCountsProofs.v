(** The numbers of nodes of a balanced tree are exact although they are computed in doubles. *)
From Coq Require Import Reals List Bool ZArith Arith Lia Lra.
From Flocq Require Import Core BinarySingleNaN PrimFloat.
From Verif Require Import Num Orthtree BalancedTree BalancedSpec RoundedCases FloatCases FloatFit FloatCounts FloatCountsSpec.
From Coq Require Import Floats.
Local Open Scope R_scope.

Lemma exact_int z : (0 <= z <= 9007199254740992)%Z -> double_round (IZR z) = IZR z.
Proof. intros H. destruct z as [|p|p]; [apply round_zero|apply exact_pos; lia|lia]. Qed.
(** The rounded quotient of two integers has the same integral part if the remainder is small. *)
Lemma floor_quotient Q m : (0 < m)%Z -> (0 <= Q <= 9007199254740992)%Z -> (2 * (Q mod m) < m)%Z -> Int_part (double_round (IZR Q / IZR m)) = (Q / m)%Z.
Proof.
  intros M HQ R. set (N := (Q / m)%Z). set (r := (Q mod m)%Z) in *. assert (E : Q = (m * N + r)%Z) by (apply Z.div_mod; lia).
  assert (B := Z.mod_pos_bound Q m M). fold r in B. assert (N0 : (0 <= N <= 9007199254740992)%Z).
  { unfold N. split; [apply Z.div_pos; lia|]. apply Z.le_trans with Q; [|lia]. apply Z.div_le_upper_bound; [lia|nia]. }
  assert (M' : 0 < IZR m) by (apply IZR_lt; lia). set (q := IZR Q / IZR m).
  assert (QN : q = IZR N + IZR r / IZR m) by (unfold q; rewrite E, plus_IZR, mult_IZR; field; lra).
  assert (F : 0 <= IZR r / IZR m < / 2).
  { split; [apply Rmult_le_pos; [apply IZR_le; lia|apply Rlt_le, Rinv_0_lt_compat, M']|]. apply Rmult_lt_reg_r with (IZR m); [exact M'|].
    unfold Rdiv. rewrite Rmult_assoc, Rinv_l, Rmult_1_r by lra. assert (IZR (2 * r) < IZR m) by (apply IZR_lt; exact R). rewrite mult_IZR in H. lra. }
  assert (X := exact_int N N0). assert (L : IZR N <= double_round q).
  { rewrite <- X. unfold double_round. apply Generic_fmt.round_le; [apply FLX_exp_valid; reflexivity|typeclasses eauto|lra]. }
  assert (D : Rabs (double_round q - q) <= Rabs (IZR N - q)).
  { assert (VE : Valid_exp (FLX_exp 53)) by (apply FLX_exp_valid; reflexivity). destruct (round_N_pt radix2 (FLX_exp 53) (fun z => negb (Z.even z)) q) as [_ P]. unfold double_round. apply P.
    rewrite <- X. apply generic_format_round; [apply FLX_exp_valid; reflexivity|typeclasses eauto]. }
  rewrite (Rabs_left1 (IZR N - q)) in D by lra. apply Rabs_le_inv in D. rewrite int_part_floor. apply Zfloor_imp. rewrite plus_IZR. lra.
Qed.

Section Counts.
Variables (powF : nat -> nat -> float) (d h : nat).
Hypothesis HP : exact_pow powF.
Hypothesis D1 : (1 <= d)%nat.
Hypothesis HD : (d * h <= 53)%nat.
Lemma power_bound k : (k <= h)%nat -> (1 <= Z.of_nat (2 ^ d) ^ Z.of_nat k <= 9007199254740992)%Z.
Proof.
  intros K. rewrite Nat2Z.inj_pow, <- Z.pow_mul_r by lia. change (Z.of_nat 2) with 2%Z. split.
  - assert (0 < 2 ^ (Z.of_nat d * Z.of_nat k))%Z by (apply Z.pow_pos_nonneg; nia). lia.
  - change 9007199254740992%Z with (2 ^ 53)%Z. apply Z.pow_le_mono_r; nia.
Qed.
Lemma pow_real k : (k <= h)%nat -> PrimFloat.is_finite (powF (2 ^ d) k) = true /\ real_of (powF (2 ^ d) k) = IZR (Z.of_nat (2 ^ d) ^ Z.of_nat k).
Proof. intros K. apply HP, power_bound, K. Qed.
Lemma int_part_IZR z : Int_part (IZR z) = z.
Proof. rewrite int_part_floor. apply Zfloor_IZR. Qed.
Lemma leaves_exact k : (k <= h)%nat -> n_leavesF powF d k = Some (Z.of_nat ((2 ^ d) ^ k)).
Proof. intros K. destruct (pow_real k K) as [F R]. unfold n_leavesF, n_children. rewrite (floor_real _ F), R, int_part_IZR, (Nat2Z.inj_pow (2 ^ d) k). reflexivity. Qed.
Lemma divisor : (1 <= h)%nat -> PrimFloat.is_finite (count_float (2 ^ d - 1)) = true /\ real_of (count_float (2 ^ d - 1)) = IZR (Z.of_nat (2 ^ d) - 1) /\ (1 <= Z.of_nat (2 ^ d) - 1 <= 9007199254740992)%Z.
Proof.
  intros H. assert (P := power_bound 1 H). change (Z.of_nat 1) with 1%Z in P. rewrite Z.pow_1_r in P. assert (G : (2 ^ 1 <= 2 ^ d)%nat) by (apply Nat.pow_le_mono_r; lia). cbn [Nat.pow Nat.mul Nat.add] in G.
  destruct (of_Z_real (Z.of_nat (2 ^ d - 1))) as [F R]; [lia|]. split; [exact F|]. split; [|lia]. unfold count_float. rewrite R. f_equal. lia.
Qed.
(** Division of doubles holding integers. *)
Lemma quotient_floor x y Q m : PrimFloat.is_finite x = true -> real_of x = IZR Q -> real_of y = IZR m ->
  (1 <= m <= 9007199254740992)%Z -> (0 <= Q <= 9007199254740992)%Z -> (2 * (Q mod m) < m)%Z -> float_floor (x / y)%float = Some (Q / m)%Z.
Proof.
  intros FX RX RY HM HQ HR. assert (M1 : 1 <= IZR m) by (apply IZR_le; lia). assert (Q0 : 0 <= IZR Q) by (apply IZR_le; lia).
  assert (MB : IZR m <= pw 53) by (rewrite pw53; apply IZR_le; lia). assert (QB : IZR Q <= pw 53) by (rewrite pw53; apply IZR_le; lia).
  assert (I0 : 0 < / IZR m) by (apply Rinv_0_lt_compat; lra). assert (I1 : / IZR m <= 1) by (rewrite <- Rinv_1; apply Rinv_le_contravar; lra).
  destruct (div_real x y FX) as [F R]; rewrite ?RX, ?RY.
  - lra.
  - destruct (Z.eq_dec Q 0) as [->|N]; [left; unfold Rdiv; ring|right]. rewrite Rabs_pos_eq by (apply Rmult_le_pos; lra).
    apply Rle_trans with (pw (-53)); [apply bpow_le; lia|]. change (-53)%Z with (- (53))%Z. rewrite bpow_opp. apply Rle_trans with (/ IZR m).
    + apply Rinv_le_contravar; lra.
    + unfold Rdiv. rewrite <- (Rmult_1_l (/ IZR m)) at 1. apply Rmult_le_compat_r; [lra|]. apply IZR_le. lia.
  - rewrite Rabs_pos_eq by (apply Rmult_le_pos; lra). apply Rle_trans with (pw 53); [|apply bpow_le; lia]. unfold Rdiv. nra.
  - rewrite (floor_real _ F), R, RX, RY. f_equal. apply floor_quotient; lia.
Qed.
Lemma power_mod k : (1 < Z.of_nat (2 ^ d) - 1)%Z -> ((Z.of_nat (2 ^ d) ^ Z.of_nat k) mod (Z.of_nat (2 ^ d) - 1) = 1)%Z.
Proof.
  intros M. set (c := Z.of_nat (2 ^ d)) in *. induction k as [|k IH]; [rewrite Z.pow_0_r; apply Z.mod_small; lia|].
  rewrite Nat2Z.inj_succ, Z.pow_succ_r by lia. rewrite Z.mul_mod, IH by lia. replace (c mod (c - 1))%Z with 1%Z; [apply Z.mod_small; lia|].
  apply Z.mod_unique with 1%Z; lia.
Qed.
Lemma nodes_exact : (1 <= h)%nat -> n_nodesF powF d h = Some (Z.of_nat (n_nodes d h)).
Proof.
  intros H. destruct (pow_real h (le_n h)) as [F R]. destruct (divisor H) as (G & S & B). assert (P := power_bound h (le_n h)).
  unfold n_nodesF, n_nodes, n_children. erewrite quotient_floor; [|exact F|exact R|exact S|lia|lia|].
  - f_equal. rewrite Nat2Z.inj_div by lia. rewrite (Nat2Z.inj_pow (2 ^ d) h), Nat2Z.inj_sub by lia. reflexivity.
  - destruct (Z.eq_dec (Z.of_nat (2 ^ d) - 1) 1) as [->|N]; [rewrite Z.mod_1_r; lia|]. rewrite power_mod by lia.
    assert (Z.of_nat (2 ^ d) - 1 <> 2)%Z; [|lia]. intros C. destruct d as [|d']; [lia|]. rewrite Nat.pow_succ_r' in C. lia.
Qed.
Lemma offset_exact k : (1 <= h)%nat -> (k <= h)%nat -> offsetF powF d k = Some (Z.of_nat (level_offset d k)).
Proof.
  intros H K. destruct (pow_real k K) as [F R]. destruct (divisor H) as (G & S & B). assert (P := power_bound k K).
  destruct one_real as [F1 R1]. set (Q := (Z.of_nat (2 ^ d) ^ Z.of_nat k)%Z) in *.
  assert (SUB : PrimFloat.is_finite (powF (2 ^ d) k - 1)%float = true /\ real_of (powF (2 ^ d) k - 1)%float = IZR (Q - 1)).
  { rewrite is_finite_equiv in *. unfold real_of in *. rewrite sub_equiv. assert (X := Bminus_correct _ _ Hprec Hmax mode_NE (Prim2B (powF (2 ^ d) k)) (Prim2B 1%float) F F1).
    rewrite R, R1 in X. cbn [round_mode] in X. rewrite <- minus_IZR in X.
    assert (RR : round radix2 (SpecFloat.fexp prec emax) ZnearestE (IZR (Q - 1)) = IZR (Q - 1)).
    { rewrite normal_round; [apply exact_int; lia|]. destruct (Z.eq_dec (Q - 1) 0) as [->|N]; [left; reflexivity|right].
      rewrite Rabs_pos_eq by (apply IZR_le; lia). apply Rle_trans with 1; [apply (bpow_le radix2 (-1022) 0); lia|apply IZR_le; lia]. }
    rewrite RR in X. rewrite Rlt_bool_true in X.
    - destruct X as (X1 & X2 & _). split; assumption.
    - rewrite Rabs_pos_eq by (apply IZR_le; lia). apply Rle_lt_trans with (pw 53); [rewrite pw53; apply IZR_le; lia|apply bpow_lt; reflexivity]. }
  destruct SUB as [FS RS]. unfold offsetF, n_children. erewrite quotient_floor; [|exact FS|exact RS|exact S|lia|lia|].
  - f_equal. unfold level_offset. rewrite Nat2Z.inj_div by lia. rewrite !Nat2Z.inj_sub, (Nat2Z.inj_pow (2 ^ d) k); [reflexivity|lia|].
    assert ((2 ^ d) ^ k <> 0)%nat by (apply Nat.pow_nonzero, Nat.pow_nonzero; lia). lia.
  - destruct (Z.eq_dec (Z.of_nat (2 ^ d) - 1) 1) as [->|N]; [rewrite Z.mod_1_r; lia|].
    rewrite Zminus_mod. unfold Q. rewrite power_mod by lia. rewrite (Z.mod_small 1) by lia. change (1 - 1)%Z with 0%Z. rewrite Z.mod_0_l by lia. lia.
Qed.
Theorem counts_exact : (1 <= h)%nat ->
  n_nodesF powF d h = Some (Z.of_nat (n_nodes d h)) /\ n_leavesF powF d h = Some (Z.of_nat (n_leaves d h)) /\
  forall k, (k <= h)%nat -> n_leavesF powF d k = Some (Z.of_nat ((2 ^ d) ^ k)) /\ offsetF powF d k = Some (Z.of_nat (level_offset d k)).
Proof.
  intros H. split; [exact (nodes_exact H)|]. split; [exact (leaves_exact h (le_n h))|]. intros k K. split; [exact (leaves_exact k K)|exact (offset_exact k H K)].
Qed.
End Counts.

Lemma nodes_value d h : (2 <= d)%nat -> ((2 ^ d - 1) * n_nodes d h = (2 ^ d) ^ h - 1)%nat.
Proof.
  intros D. unfold n_nodes, n_children. set (c := (2 ^ d)%nat). assert (C : (4 <= c)%nat) by (apply (Nat.pow_le_mono_r 2 2 d); lia).
  assert (M : ((c ^ h) mod (c - 1) = 1)%nat).
  { induction h as [|h IH]; [apply Nat.mod_small; lia|]. cbn [Nat.pow]. rewrite Nat.mul_mod, IH by lia. replace (c mod (c - 1))%nat with 1%nat; [apply Nat.mod_small; lia|].
    apply Nat.mod_unique with 1%nat; lia. }
  assert (E := Nat.div_mod (c ^ h) (c - 1) ltac:(lia)). rewrite M in E. set (q := (c ^ h / (c - 1))%nat) in *. clearbody q. rewrite E, Nat.add_sub. reflexivity.
Qed.
Theorem counts_doubles powF d h : exact_pow powF -> (2 <= d)%nat -> (1 <= h)%nat -> (d * h <= 53)%nat ->
  exists nodes, n_nodesF powF d h = Some (Z.of_nat nodes) /\ ((2 ^ d - 1) * nodes = (2 ^ d) ^ h - 1)%nat /\ n_leavesF powF d h = Some (Z.of_nat ((2 ^ d) ^ h)) /\
  forall k, (k <= h)%nat -> n_leavesF powF d k = Some (Z.of_nat ((2 ^ d) ^ k)) /\ offsetF powF d k = Some (Z.of_nat (level_offset d k)).
Proof.
  intros HP D H B. destruct (counts_exact powF d h HP ltac:(lia) B H) as (E1 & E2 & E3). exists (n_nodes d h). split; [exact E1|]. split; [exact (nodes_value d h D)|].
  split; [exact E2|exact E3].
Qed.
Definition int_pow (b n : nat) : float := float_of_Z (Z.of_nat b ^ Z.of_nat n).
Lemma int_pow_exact : exact_pow int_pow.
Proof. intros b n H. apply of_Z_real. rewrite Z.abs_eq; lia. Qed.
(** Beyond 53 bits the counts are wrong. *)
Lemma wide_refuted : n_nodesF int_pow 2 28 <> Some ((4 ^ 28 - 1) / 3)%Z.
Proof. vm_compute. discriminate. Qed.
