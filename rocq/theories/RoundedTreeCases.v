(** Cases for the balanced tree in rounded arithmetic, and data on which it fails in doubles. *)
From Coq Require Import Reals List Bool ZArith Arith Lia Lra.
From Flocq Require Import Core Relative BinarySingleNaN PrimFloat.
From Verif Require Import Num Outcome Vec Orthtree AdaptiveTree TreeSpec RootBoxProofs BalancedTree BalancedSpec BalancedProofs BalancedApiProofs BalancedTheorems
  RoundedSpec RoundedCases RoundedPairCases RoundedTree RoundedTreeSpec FloatCases.
From Coq Require Import Floats.
Import ListNotations.
Local Open Scope R_scope.

Theorem double_is_double_like : double_like double_round double_norm.
Proof.
  split; [|split].
  - exists (/ 9007199254740992). split; [lra|apply double_accurate].
  - intros z Hz. replace (IZR z) with (IZR z * bpow radix2 0) by (simpl; ring). apply round_int_pow. exact Hz.
  - intros v. eapply Rle_trans; [apply double_norm_accurate|]. apply Rmult_le_compat_r; [apply sqrt_pos|lra].
Qed.
(** Nine points of the plane, at distances from a tenth to hundred. *)
Definition nine : list (list R) := [[-1/10; 0]; [1/10; 1/10]; [0; -1/10]; [3; 7]; [-100; 20]; [50; 50]; [50; 51]; [-99; -99]; [1; -100]].
Theorem nine_in_range : in_range 2 8 (fun x => x) nine.
Proof.
  split; [lia|]. split; [lia|]. split; [cbn; lia|]. split; [intros s Hs; cbn in Hs; intuition (subst; reflexivity)|].
  exists (1/10), 100. split; [|split; [lra|split; cbn; lra]]. intros j Hj.
  assert (B : forall s, In s nine -> Rabs (nth j s 0) <= 100).
  { intros s Hs. apply Rabs_le. destruct j as [|[|j]]; [| |lia]; cbn in Hs; intuition (subst; cbn; lra). }
  destruct j as [|[|j]]; [| |lia]; (split; [|split; [|exact B]]).
  - exists [-1/10; 0]. split; [left; reflexivity|cbn; lra].
  - exists [1/10; 1/10]. split; [right; left; reflexivity|cbn; lra].
  - exists [0; -1/10]. split; [right; right; left; reflexivity|cbn; lra].
  - exists [1/10; 1/10]. split; [right; left; reflexivity|cbn; lra].
Qed.

(** Two points on which construction succeeds in exact arithmetic and fails in doubles. *)
Definition low_corner : list (list float) := [[-0x1p-60; -0x1p-60]; [1; 1]]%float.
Definition high_corner : list (list float) := [[-1; -1]; [0x1p-40; 0x1p-40]]%float.
Lemma real_of_sign (f : float) s m e : Prim2SF f = S754_finite s m e -> if s then real_of f < 0 else 0 < real_of f.
Proof.
  intros H. rewrite real_of_SF, H. unfold SF2R. destruct s; cbn [cond_Zopp]; [apply F2R_lt_0|apply F2R_gt_0]; reflexivity.
Qed.
Lemma pair_exact (a b : float) : (real_of a < 0) -> (0 < real_of b) ->
  exists r, bal_build 2 (fun x => x) 1 (map (map real_of) [[a; a]; [b; b]]) = Ok r.
Proof.
  intros A B. cbn [map].
  assert (SP : spread 2 (fun x : list R => x) [[real_of a; real_of a]; [real_of b; real_of b]]).
  { intros j Hj. split; [exists [real_of a; real_of a]; split; [left; reflexivity|]|exists [real_of b; real_of b]; split; [right; left; reflexivity|]];
      destruct j as [|[|j]]; cbn; lra || lia. }
  assert (LEN : forall s, In s [[real_of a; real_of a]; [real_of b; real_of b]] -> length s = 2%nat) by (intros s [<-|[<-|[]]]; reflexivity).
  destruct (spread_inside 2 (fun x : list R => x) _ ltac:(lia) LEN SP) as (c & l & HR & Hc & Hl & Hin).
  exact (proj2 (bal_build_iff 2 (fun x : list R => x) _ ltac:(lia) LEN 1 c l ltac:(lia) ltac:(lia) ltac:(lia) HR) (conj Hl Hin)).
Qed.
Theorem low_fails : (exists r, bal_build 2 (fun x => x) 1 (map (map real_of) low_corner) = Ok r) /\
  forall D : Dist float, bal_build 2 (fun x => x) 1 low_corner = UB.
Proof.
  split; [|intros D; vm_compute; reflexivity].
  apply (pair_exact (-0x1p-60)%float 1%float).
  - refine (real_of_sign _ true _ _ _). vm_compute. reflexivity.
  - refine (real_of_sign _ false _ _ _). vm_compute. reflexivity.
Qed.
Theorem high_fails : (exists r, bal_build 2 (fun x => x) 1 (map (map real_of) high_corner) = Ok r) /\
  forall D : Dist float, bal_build 2 (fun x => x) 1 high_corner = Throw.
Proof.
  split; [|intros D; vm_compute; reflexivity].
  apply (pair_exact (-1)%float 0x1p-40%float).
  - refine (real_of_sign _ true _ _ _). vm_compute. reflexivity.
  - refine (real_of_sign _ false _ _ _). vm_compute. reflexivity.
Qed.

Theorem nine_refinable : in_refinable_range 2 12 (fun x => x) nine.
Proof.
  destruct nine_in_range as (_ & _ & _ & L & _). split; [lia|]. split; [lia|]. split; [exact L|]. exists (1/10), 100. split; [|split].
  - intros j Hj. assert (B : forall s, In s nine -> Rabs (nth j s 0) <= 100).
    { intros s Hs. apply Rabs_le. destruct j as [|[|j]]; [| |lia]; cbn in Hs; intuition (subst; cbn; lra). }
    destruct j as [|[|j]]; [| |lia]; (split; [|split; [|exact B]]).
    + exists [-1/10; 0]. split; [left; reflexivity|cbn; lra].
    + exists [1/10; 1/10]. split; [right; left; reflexivity|cbn; lra].
    + exists [0; -1/10]. split; [right; right; left; reflexivity|cbn; lra].
    + exists [1/10; 1/10]. split; [right; left; reflexivity|cbn; lra].
  - split; [lra|split; cbn; lra].
  - split.
    + unfold nine. repeat constructor; intros H; cbn in H; repeat destruct H as [H|H]; try (injection H; intros; lra); destruct H.
    + intros s s' Hs Hs' NE. replace (2 ^ 12) with 4096 by (cbn; lra). cbn in Hs, Hs'.
      repeat destruct Hs as [Hs|Hs]; try contradiction; repeat destruct Hs' as [Hs'|Hs']; try contradiction; subst; try (exfalso; apply NE; reflexivity);
      (exists 0%nat; split; [lia|]; cbn [nth]; unfold Rabs; destruct Rcase_abs; lra) || (exists 1%nat; split; [lia|]; cbn [nth]; unfold Rabs; destruct Rcase_abs; lra).
Qed.
