(** A norm in doubles: the square root of the sum of the squares, as the library computes it for other dimensions than 1, 2, 3. *)
From Coq Require Import Reals List Bool ZArith Arith Lia Lra.
From Flocq Require Import Core.
From Verif Require Import Num Vec CAux RoundedSpec RoundedCases RoundedTree FloatCases FloatFit FloatGeometry FloatSpec.
From Coq Require Import Floats.
Import ListNotations.
Local Open Scope R_scope.

(** vector.hpp 74: [sqrt(norm_sq())], with [norm_sq] as in vector.hpp 77-91. *)
Definition float_norm (v : list float) : float := PrimFloat.sqrt (vnorm_sq (N := NumF) v).
(** The same with rounded operations, for vectors of [d] coordinates. *)
Definition rounded_norm (d : nat) (w : list R) : R :=
  if Nat.eqb (length w) d then double_round (R_sqrt.sqrt (vnorm_sq (N := NR) w)) else double_norm w.

Definition between (k : Z) (x : float) : Prop := fin x /\ (real_of x = 0 \/ pw (-1000) <= real_of x <= pw k).
Lemma square_between y : magnitude 500 y -> between 1000 (y * y)%float /\ real_of (y * y)%float = double_round (real_of y * real_of y).
Proof.
  intros [F H]. assert (B : real_of y * real_of y = 0 \/ pw (-1000) <= real_of y * real_of y <= pw 1000).
  { destruct H as [H|H]; [left; rewrite H; ring|right]. replace (real_of y * real_of y) with (Rabs (real_of y) * Rabs (real_of y)) by (rewrite <- Rabs_mult; apply Rabs_pos_eq, Rle_0_sqr).
    change (-1000)%Z with (-500 + -500)%Z. change 1000%Z with (500 + 500)%Z. rewrite !bpow_plus. assert (P := bpow_ge_0 radix2 (-500)). assert (Q := Rabs_pos (real_of y)).
    split; apply Rmult_le_compat; try lra; apply H. }
  assert (P : 0 <= real_of y * real_of y) by apply Rle_0_sqr.
  destruct (mul_real y y F F) as [G R].
  - destruct B as [B|B]; [left; exact B|right]. rewrite Rabs_pos_eq by exact P. eapply Rle_trans; [|apply B]. apply bpow_le. lia.
  - rewrite Rabs_pos_eq by exact P. destruct B as [->|B]; [apply bpow_ge_0|]. eapply Rle_trans; [apply B|]. apply bpow_le. lia.
  - split; [|exact R]. split; [exact G|]. rewrite R. destruct B as [->|B]; [left; apply round_zero|right].
    assert (0 <= double_round (real_of y * real_of y)) as PP by (unfold double_round; apply round_ge_generic; [apply FLX_exp_valid; reflexivity|typeclasses eauto|apply generic_format_0|exact P]).
    rewrite <- (Rabs_pos_eq (double_round _)) by exact PP. split; [apply round_ge|apply round_le]; rewrite Rabs_pos_eq by exact P; apply B.
Qed.
Lemma between_pos k x : between k x -> 0 <= real_of x.
Proof. intros [_ [H|H]]; [rewrite H; lra|]. assert (P := bpow_ge_0 radix2 (-1000)). lra. Qed.
Lemma add_between k x y : (1000 <= k)%Z -> (k <= 1019)%Z -> between k x -> between 1000 y ->
  between (k + 1) (x + y)%float /\ real_of (x + y)%float = double_round (real_of x + real_of y).
Proof.
  intros K1 K2 HX HY. assert (PX := between_pos k x HX). assert (PY := between_pos 1000 y HY). destruct HX as [FX HX]. destruct HY as [FY HY].
  assert (BX : real_of x <= pw k) by (destruct HX as [->|H]; [apply bpow_ge_0|apply H]).
  assert (BY : real_of y <= pw k) by (apply Rle_trans with (pw 1000); [destruct HY as [->|H]; [apply bpow_ge_0|apply H]|apply bpow_le, K1]).
  assert (U : real_of x + real_of y <= pw (k + 1)) by (rewrite bpow_plus; simpl (pw 1); lra).
  assert (B : real_of x + real_of y = 0 \/ pw (-1000) <= real_of x + real_of y).
  { destruct HX as [X|X]; [|right; lra]. destruct HY as [Y|Y]; [left; lra|right; lra]. }
  destruct (add_real x y FX FY) as [G R].
  - destruct B as [B|B]; [left; exact B|right]. rewrite Rabs_pos_eq by lra. eapply Rle_trans; [|apply B]. apply bpow_le. lia.
  - rewrite Rabs_pos_eq by lra. eapply Rle_trans; [apply U|]. apply bpow_le. lia.
  - split; [|exact R]. split; [exact G|]. rewrite R. destruct B as [->|B]; [left; apply round_zero|right].
    assert (0 <= double_round (real_of x + real_of y)) as PP by (unfold double_round; apply round_ge_generic; [apply FLX_exp_valid; reflexivity|typeclasses eauto|apply generic_format_0|lra]).
    rewrite <- (Rabs_pos_eq (double_round _)) by exact PP. split; [apply round_ge|apply round_le]; rewrite Rabs_pos_eq by lra; assumption.
Qed.
Lemma squares_real v : (forall y, In y v -> magnitude 500 y) ->
  Forall (between 1000) (map2 (nmul (Num := NumF)) v v) /\ rv (map2 (nmul (Num := NumF)) v v) = map2 (nmul (Num := NR)) (rv v) (rv v).
Proof.
  induction v as [|y v IH]; intros H; [split; [constructor|reflexivity]|]. destruct IH as [IF IR]; [intros z Z; apply H; right; exact Z|].
  destruct (square_between y (H y (or_introl eq_refl))) as [A B].
  change (map2 (nmul (Num := NumF)) (y :: v) (y :: v)) with ((y * y)%float :: map2 (nmul (Num := NumF)) v v).
  change (map2 (nmul (Num := NR)) (rv (y :: v)) (rv (y :: v))) with (double_round (real_of y * real_of y) :: map2 (nmul (Num := NR)) (rv v) (rv v)).
  cbn [map]. rewrite IR, B. split; [constructor; assumption|reflexivity].
Qed.
Lemma sum_real ys : forall k a, (1000 <= k)%Z -> (k + Z.of_nat (length ys) <= 1020)%Z -> Forall (between 1000) ys -> between k a ->
  between (k + Z.of_nat (length ys)) (fold_left (nadd (Num := NumF)) ys a) /\ real_of (fold_left (nadd (Num := NumF)) ys a) = fold_left (nadd (Num := NR)) (rv ys) (real_of a).
Proof.
  induction ys as [|y ys IH]; intros k a K1 K2 H A; cbn [length fold_left map] in *.
  - split; [|reflexivity]. replace (k + Z.of_nat 0)%Z with k by lia. exact A.
  - inversion H as [|y' ys' Y H' E1]; subst. destruct (add_between k a y K1 ltac:(lia) A Y) as [B R].
    destruct (IH (k + 1)%Z (a + y)%float ltac:(lia) ltac:(lia) H' B) as [C D]. cbn [nadd NumF NumRnd] in *. rewrite <- R. split; [|exact D].
    replace (k + Z.of_nat (S (length ys)))%Z with (k + 1 + Z.of_nat (length ys))%Z by lia. exact C.
Qed.
Theorem float_norm_of d : (d <= 20)%nat -> norm_of d float_norm (rounded_norm d).
Proof.
  intros D v L H. destruct (squares_real v H) as [S1 S2]. unfold float_norm, rounded_norm. rewrite map_length, L, Nat.eqb_refl. unfold vnorm_sq, vdot.
  assert (LL : length (map2 (nmul (Num := NumF)) v v) = d).
  { unfold map2. rewrite map_length, combine_length, L. apply Nat.min_id. }
  assert (Z : between 1000 (n0 (Num := NumF))). { split; [apply zero_real|left; apply zero_real]. }
  destruct (sum_real (map2 (nmul (Num := NumF)) v v) 1000 _ ltac:(lia) ltac:(rewrite LL; lia) S1 Z) as [B R]. cbn [n0 NumF NumRnd] in *. rewrite (proj2 zero_real), S2 in R.
  destruct (sqrt_real _ (proj1 B)) as [F Q]; [destruct B as [_ [B|B]]; [left; exact B|right; apply B]|]. rewrite R in Q. split; assumption.
Qed.

(** *** Its accuracy *)
Notation ud := (/ 9007199254740992).
Lemma step_close acc accr x delta : 0 <= acc -> ud <= delta <= 1 -> Rabs (accr - acc) <= delta * acc ->
  Rabs (double_round (accr + double_round (x * x)) - (acc + x ^ 2)) <= (delta + 4 * ud) * (acc + x ^ 2).
Proof.
  intros PA PD H. assert (A1 := double_accurate (x * x)). assert (P : 0 <= x * x) by apply Rle_0_sqr. rewrite (Rabs_pos_eq (x * x)) in A1 by exact P.
  assert (A2 := double_accurate (accr + double_round (x * x))). set (y := double_round (x * x)) in *. set (z := double_round (accr + y)) in *.
  replace (x ^ 2) with (x * x) by ring. set (q := x * x) in *. clearbody q y z. clear x.
  assert (S : Rabs (accr + y - (acc + q)) <= delta * (acc + q)).
  { replace (accr + y - (acc + q)) with ((accr - acc) + (y - q)) by ring. eapply Rle_trans; [apply Rabs_triang|]. assert (ud * q <= delta * q) by (apply Rmult_le_compat_r; lra). lra. }
  assert (T : Rabs (accr + y) <= 2 * (acc + q)).
  { replace (accr + y) with ((accr + y - (acc + q)) + (acc + q)) by ring. eapply Rle_trans; [apply Rabs_triang|]. rewrite (Rabs_pos_eq (acc + q)) by lra.
    assert (delta * (acc + q) <= 1 * (acc + q)) by (apply Rmult_le_compat_r; lra). lra. }
  replace (z - (acc + q)) with ((z - (accr + y)) + (accr + y - (acc + q))) by ring. eapply Rle_trans; [apply Rabs_triang|]. lra.
Qed.
Lemma fold_close w : forall acc accr delta, 0 <= acc -> ud <= delta -> delta + INR (length w) * (4 * ud) <= 1 -> Rabs (accr - acc) <= delta * acc ->
  Rabs (fold_left (nadd (Num := NR)) (map2 (nmul (Num := NR)) w w) accr - (acc + rsum (fun c => c ^ 2) w)) <= (delta + INR (length w) * (4 * ud)) * (acc + rsum (fun c => c ^ 2) w).
Proof.
  induction w as [|x w IH]; intros acc accr delta PA D1 D2 H.
  - change (rsum (fun c => c ^ 2) []) with 0. cbn [length fold_left map2 combine map]. simpl INR. rewrite Rplus_0_r. rewrite Rmult_0_l, Rplus_0_r. exact H.
  - change (map2 (nmul (Num := NR)) (x :: w) (x :: w)) with (double_round (x * x) :: map2 (nmul (Num := NR)) w w). cbn [fold_left]. rewrite rsum_cons.
    cbn [length] in *. rewrite S_INR in *. assert (I := pos_INR (length w)). assert (I4 : 0 <= INR (length w) * (4 * ud)) by (apply Rmult_le_pos; lra).
    assert (P : 0 <= x ^ 2) by (replace (x ^ 2) with (x * x) by ring; apply Rle_0_sqr).
    assert (S := step_close acc accr x delta PA ltac:(split; lra) H).
    assert (G := IH (acc + x ^ 2) (double_round (accr + double_round (x * x))) (delta + 4 * ud) ltac:(lra) ltac:(lra) ltac:(lra) S).
    replace (acc + (x ^ 2 + rsum (fun c => c ^ 2) w)) with (acc + x ^ 2 + rsum (fun c => c ^ 2) w) by ring.
    replace (delta + (INR (length w) + 1) * (4 * ud)) with (delta + 4 * ud + INR (length w) * (4 * ud)) by ring. exact G.
Qed.
Theorem rounded_norm_accurate d : (d <= 20)%nat -> accurate_norm (/ 1000) (rounded_norm d).
Proof.
  intros D w. unfold rounded_norm. destruct (Nat.eqb_spec (length w) d) as [L|L].
  - set (s := rsum (fun c => c ^ 2) w). assert (PS : 0 <= s) by (apply rsum_nonneg; intros; replace (a ^ 2) with (a * a) by ring; apply Rle_0_sqr).
    unfold vnorm_sq, vdot. set (t := fold_left _ _ _). assert (HT : Rabs (t - s) <= / 10000 * s).
    { assert (ND : 0 <= INR (length w) <= 20). { split; [apply pos_INR|]. rewrite L. change 20 with (IZR (Z.of_nat 20)). rewrite <- INR_IZR_INZ. apply le_INR, D. }
      assert (G := fold_close w 0 0 ud ltac:(lra) ltac:(lra) ltac:(lra)). rewrite !Rplus_0_l, Rminus_0_r, Rabs_R0, Rmult_0_r in G. specialize (G ltac:(lra)).
      change (n0 (Num := NR)) with 0 in t. fold s t in G. eapply Rle_trans; [exact G|]. apply Rmult_le_compat_r; [exact PS|]. lra. }
    assert (TB : (1 - / 10000) * s <= t <= (1 + / 10000) * s) by (apply Rabs_le_inv in HT; lra).
    assert (PT : 0 <= t) by nra.
    set (a := R_sqrt.sqrt s). set (b := R_sqrt.sqrt t). assert (PA : 0 <= a) by apply sqrt_pos. assert (PB : 0 <= b) by apply sqrt_pos.
    assert (AA : a * a = s) by (apply sqrt_sqrt, PS). assert (BB : b * b = t) by (apply sqrt_sqrt, PT).
    assert (AB : (1 - / 10000) * a <= b <= (1 + / 10000) * a).
    { split; apply Rnot_lt_le; intros N.
      - assert (b * b < (1 - / 10000) * a * ((1 - / 10000) * a)) by (apply Rmult_le_0_lt_compat; lra). nra.
      - assert ((1 + / 10000) * a * ((1 + / 10000) * a) < b * b) by (apply Rmult_le_0_lt_compat; nra). nra. }
    assert (E := double_accurate b). rewrite (Rabs_pos_eq b) in E by exact PB. fold s a.
    replace (double_round b - a) with ((double_round b - b) + (b - a)) by ring. eapply Rle_trans; [apply Rabs_triang|].
    assert (Rabs (b - a) <= / 10000 * a) by (apply Rabs_le; lra). nra.
  - eapply Rle_trans; [apply double_norm_accurate|]. apply Rmult_le_compat_r; [apply sqrt_pos|lra].
Qed.
