(** Double precision as an instance of the rounding-error theorems. *)
From Coq Require Import Reals List Arith ZArith Lia Lra.
From Flocq Require Import Core Relative.
From Verif Require Import Num Outcome Vec CAux Fields FieldSpec FieldProofs RoundedFields RoundedSpec RoundedProofs.
Import ListNotations.
Local Open Scope R_scope.

(** Rounding to nearest with 53 bits. *)
Definition double_round (x : R) : R := round radix2 (FLX_exp 53) ZnearestE x.
(** Norm and logarithm, correctly rounded. *)
Definition double_norm (v : list R) : R := double_round (sqrt (rsum (fun c => c ^ 2) v)).
Definition double_log (r : R) : R := double_round (ln r).

Lemma double_accurate : accurate_rounding (/ 9007199254740992) double_round.
Proof.
  intros x. assert (H := relative_error_N_FLX radix2 53 ltac:(reflexivity) (fun z => negb (Z.even z)) x).
  eapply Rle_trans; [exact H|]. right. f_equal. unfold Rdiv. simpl. lra.
Qed.
Lemma double_norm_accurate : accurate_norm (/ 4503599627370496) double_norm.
Proof.
  intros v. set (n := sqrt _). assert (N : 0 <= n) by apply sqrt_pos. eapply Rle_trans; [apply (double_accurate n)|].
  rewrite Rabs_pos_eq by exact N. apply Rmult_le_compat_r; [exact N|]. lra.
Qed.
Lemma double_log_accurate : accurate_log (/ 4503599627370496) double_log.
Proof.
  intros r _. eapply Rle_trans; [apply (double_accurate (ln r))|]. apply Rmult_le_compat_r; [apply Rabs_pos|]. lra.
Qed.

Theorem million_sources hyp lg e grav safe srcs x : 0 <= e <= / 4503599627370496 -> accurate_norm e hyp -> accurate_log e lg ->
  length x = 3%nat -> same_dim 3 srcs -> representable double_round x -> evaluable safe x srcs -> INR (length srcs) <= 1048576 ->
  exists v, potential_sum_r double_round hyp lg 3 grav safe srcs x = Ok v /\
  Rabs (v - direct_potential 3 grav (others x srcs) x) <= / 4294967296 * rsum (fun s => Rabs (ps_q s) / dist (ps_pos s) x) (others x srcs).
Proof.
  intros E N G L SD X EV C. set (u := / 9007199254740992). assert (U : u = / 9007199254740992) by reflexivity. assert (U01 : 0 <= u < 1) by lra.
  destruct (space_potential_error double_round hyp lg u e grav safe srcs x U01 ltac:(lra) double_accurate N G L SD X EV) as (v & V & B).
  exists v. split; [exact V|]. eapply Rle_trans; [exact B|]. apply Rmult_le_compat_r.
  { apply rsum_nonneg. intros s Hs. apply filter_In in Hs. destruct Hs as [Hs At]. apply Bool.negb_true_iff, is_at_false in At.
    apply Rmult_le_pos; [apply Rabs_pos|]. left. apply Rinv_0_lt_compat, dist_pos; [rewrite L; apply SD; exact Hs|exact At]. }
  set (n := (length srcs + 1)%nat) in *. assert (Nn : 0 <= INR n <= 1048577).
  { unfold n. rewrite plus_INR. simpl. assert (P := pos_INR (length srcs)). lra. }
  assert (NU : 0 <= INR n * u <= 1048577 * u) by (split; [apply Rmult_le_pos; lra|apply Rmult_le_compat_r; lra]).
  assert (P := growth_bound u n U01 ltac:(lra)).
  set (a := 1 - INR n * u) in *. assert (A : 1 - 1048577 * u <= a <= 1) by (unfold a; lra).
  set (b := (1 - e) * (1 - u)). assert (BB : 1 - e - u <= b) by (unfold b; nra).
  assert (AB : 1 - 1048577 * u - e - u <= a * b).
  { apply Rle_trans with (a * (1 - e - u)); [|apply Rmult_le_compat_l; lra].
    assert (0 <= (1 - a) * (e + u)) by (apply Rmult_le_pos; lra). nra. }
  assert (Q : (1 + u) ^ n / b <= / (a * b)).
  { rewrite Rinv_mult. apply Rmult_le_compat_r; [left; apply Rinv_0_lt_compat; lra|exact P]. }
  assert (W : / (a * b) <= / (1 - 1048577 * u - e - u)) by (apply Rinv_le_contravar; lra).
  assert (Z : / (1 - 1048577 * u - e - u) <= 1 + / 4294967296); [|lra].
  apply (Rmult_le_reg_r (1 - 1048577 * u - e - u)); [lra|]. rewrite Rinv_l by lra. lra.
Qed.

(** Two unit sources and a point of the dyadic grid. *)
Definition near_pair : list (psrc R) := [PSrc [3; 1; 2] 1; PSrc [0; 0; -5] (-2)].
Definition grid_point : list R := [1; / 2; 0].
Lemma grid_representable : representable double_round grid_point.
Proof.
  assert (F : forall y, generic_format radix2 (FLX_exp 53) y -> double_round (- y) = - y).
  { intros y H. apply round_generic; [apply valid_rnd_N|]. apply generic_format_opp. exact H. }
  intros y [<-|[<-|[<-|[]]]]; apply F.
  - change 1 with (bpow radix2 0). apply generic_format_bpow. unfold FLX_exp. simpl. lia.
  - change (/ 2) with (bpow radix2 (-1)). apply generic_format_bpow. unfold FLX_exp. simpl. lia.
  - apply generic_format_0.
Qed.
Lemma near_pair_dim : same_dim 3 near_pair.
Proof. intros s [<-|[<-|[]]]; reflexivity. Qed.
Lemma near_pair_away : forall s, In s near_pair -> ps_pos s <> grid_point.
Proof. intros s [<-|[<-|[]]] H; injection H; intros; lra. Qed.
