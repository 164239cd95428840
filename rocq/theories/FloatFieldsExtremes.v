(** A single source in IEEE doubles: the force for moderate data, and two cases of extreme data. *)
From Coq Require Import Reals List Bool ZArith Arith Lia Lra.
From Flocq Require Import Core BinarySingleNaN PrimFloat.
From Verif Require Import Num Outcome Vec CAux Fields FieldSpec FieldProofs RoundedFields RoundedSpec RoundedProofs RoundedCases RoundedTree FloatCases FloatFit FloatGeometry FloatSpec FloatBridge
  FloatFields FloatFieldsSpec FloatFieldsProofs FloatFieldsTheorems.
From Coq Require Import Floats.
Import ListNotations.
Local Open Scope R_scope.

Lemma nth_map_seq (g : nat -> R) d k : (k < d)%nat -> nth k (map g (seq 0 d)) 0 = g k.
Proof. intros K. rewrite (nth_indep _ 0 (g 0%nat)) by (rewrite map_length, seq_length; exact K). rewrite (map_nth g), seq_nth by exact K. reflexivity. Qed.
Theorem single_force d hypF hyp grav safe s x k : (d = 2 \/ d = 3)%nat -> norm_of d hypF hyp -> accurate_norm (/ 1000) hyp ->
  moderate d x -> moderate d (ps_pos s) -> magnitude 150 (ps_q s) -> real_of (ps_q s) <> 0 ->
  (k < d)%nat -> nth k (map real_of (ps_pos s)) 0 <> nth k (map real_of x) 0 ->
  let f := nth k (forcefield_sumF hypF d grav safe 0%float [s] x) 0%float in PrimFloat.is_finite f = true /\ real_of f <> 0.
Proof.
  intros D HN HA MX MP MQ NQ K NK f. destruct zero_magnitude as [Z1 Z2]. destruct zero_real as [ZF ZR].
  assert (MS : moderate_sources d [s]) by (intros s' [<-|[]]; split; assumption).
  assert (NP : ps_pos (real_src s) <> rv x). { intros E. apply NK. cbn [real_src ps_pos] in E. rewrite E. reflexivity. }
  assert (EV : evaluable safe (rv x) (map real_src [s])) by (right; intros s' [<-|[]]; exact NP).
  destruct (force_doubles d hypF hyp (/ 1000) grav safe 0%float [s] x ltac:(lia) ltac:(lra) HN HA MX MS Z1 Z2 EV ltac:(cbn; lia)) as (L & F & B).
  split; [apply F, nth_In; rewrite L; exact K|].
  specialize (B k K). cbn [length] in B.
  assert (LP : length (rv (ps_pos s)) = length (rv x)) by (rewrite !map_length; destruct MP as [-> _]; destruct MX as [-> _]; reflexivity).
  assert (AT : others (rv x) (map real_src [s]) = [real_src s]).
  { unfold others. cbn [map filter]. destruct (is_at (rv x) (real_src s)) eqn:A; [|reflexivity]. apply is_at_true in A. contradiction. }
  rewrite AT in B. unfold direct_force in B.
  rewrite nth_map_seq in B by exact K.
  rewrite !rsum_cons in B. change (rsum (fun s => force_on d grav (real_of 0) s (rv x) k) []) with 0 in B.
  change (rsum (fun s => Rabs (force_on d grav (real_of 0) s (rv x) k)) []) with 0 in B. rewrite !Rplus_0_r in B.
  intros Z. assert (Z' : nth k (rv (forcefield_sumF hypF d grav safe 0%float [s] x)) 0 = 0).
  { rewrite <- ZR at 1. rewrite map_nth. exact Z. }
  rewrite Z' in B. set (E := force_on d grav (real_of 0) (real_src s) (rv x) k) in *. replace (0 - E) with (- E) in B by ring. rewrite Rabs_Ropp in B.
  assert (DP : 0 < dist (rv (ps_pos s)) (rv x)) by (apply dist_pos; [exact LP|exact NP]).
  assert (NE : E <> 0).
  { unfold E, force_on. cbn [real_src ps_pos ps_q]. apply Rmult_integral_contrapositive. split; [unfold field_sign; destruct grav; intros Q; lra|].
    unfold Rdiv. apply Rmult_integral_contrapositive. split; [apply Rmult_integral_contrapositive; split; [exact NQ|intros Q; apply NK; lra]|].
    apply Rinv_neq_0_compat. unfold force_den. rewrite ZR. set (r := dist (rv (ps_pos s)) (rv x)) in *. destruct D as [-> | ->]; cbn [Nat.eqb]; rewrite Rplus_0_r; apply pow_nonzero; lra. }
  apply Rabs_pos_lt in NE.
  assert (C : (1 + u53) ^ (1 + 4) / (if (d =? 2)%nat then (1 - u53) ^ 5 else (1 - / 1000) ^ 3 * (1 - u53) ^ 6) - 1 < 1).
  { destruct D as [-> | ->]; cbn [Nat.eqb Nat.add]; lra. }
  nra.
Qed.

(** Two distinct points of the plane at distance [2^-600]: the square of the distance underflows, and the force, which is [2^600], is reported as 0. *)
Definition near_source (d : nat) (a : float) : psrc float := PSrc (a :: repeat 0%float (d - 1)) 1%float.
Definition origin (d : nat) : list float := repeat 0%float d.
Lemma tiny_real : real_of 0x1p-600%float = pw (-600).
Proof. rewrite real_of_SF. replace (Prim2SF 0x1p-600) with (S754_finite false 4503599627370496 (-652)) by (vm_compute; reflexivity).
  unfold SF2R, F2R. cbn [Fnum Fexp cond_Zopp]. replace (IZR 4503599627370496) with (pw 52) by reflexivity. rewrite <- bpow_plus. reflexivity. Qed.
Lemma small_real : real_of 0x1p-400%float = pw (-400).
Proof. rewrite real_of_SF. replace (Prim2SF 0x1p-400) with (S754_finite false 4503599627370496 (-452)) by (vm_compute; reflexivity).
  unfold SF2R, F2R. cbn [Fnum Fexp cond_Zopp]. replace (IZR 4503599627370496) with (pw 52) by reflexivity. rewrite <- bpow_plus. reflexivity. Qed.
Lemma axis_dist a d : (1 <= d)%nat -> 0 < a -> dist (a :: repeat 0 (d - 1)) (repeat 0 d) = a.
Proof.
  intros D A. unfold dist. cbn [length]. rewrite repeat_length. replace (S (d - 1)) with d by lia.
  replace (rsum _ _) with (a ^ 2); [apply sqrt_pow2; lra|].
  destruct d as [|d]; [lia|]. cbn [seq]. rewrite rsum_cons. cbn [nth repeat]. replace (S d - 1)%nat with d by lia.
  rewrite (rsum_ext _ (fun _ => 0)).
  - rewrite (rsum_ext _ (fun k => 0 * 0)) by (intros; ring). rewrite rsum_scal. ring.
  - intros k Hk. apply in_seq in Hk. destruct k as [|k]; [lia|]. cbn [nth].
    assert (R0 : forall n j, nth j (repeat 0 n) 0 = 0) by (induction n as [|n IH]; intros [|j]; cbn; auto). rewrite !R0. ring.
Qed.
Theorem plane_underflow hypF grav :
  forcefield_sumF hypF 2 grav true 0%float [near_source 2 0x1p-600%float] (origin 2) = [0; 0]%float.
Proof. destruct grav; vm_compute; reflexivity. Qed.
Theorem space_underflow hypF : hypF [0x1p-400; 0; 0]%float = 0x1p-400%float ->
  map PrimFloat.is_finite (forcefield_sumF hypF 3 true true 0%float [near_source 3 0x1p-400%float] (origin 3)) = [false; false; false].
Proof.
  intros H. unfold forcefield_sumF. cbn [fold_left]. unfold forcefieldF. cbn [Nat.eqb near_source ps_pos ps_q origin repeat Nat.sub].
  replace (vsub (N := NumF) [0x1p-400; 0; 0]%float [0; 0; 0]%float) with [0x1p-400; 0; 0]%float by (vm_compute; reflexivity).
  rewrite H. vm_compute. reflexivity.
Qed.
Theorem exact_force d a : (d = 2 \/ d = 3)%nat -> 0 < real_of a <= 1 ->
  1 <= nth 0 (direct_force d true 0 [real_src (near_source d a)] (map real_of (origin d))) 0.
Proof.
  intros D A. destruct zero_real as [_ Z]. destruct one_real as [_ O]. unfold direct_force. rewrite nth_map_seq by lia. rewrite rsum_cons.
  change (rsum (fun s => force_on d true 0 s (map real_of (origin d)) 0) []) with 0. unfold force_on, origin, near_source. cbn [real_src ps_pos ps_q map]. rewrite !map_repeat, Z, O.
  rewrite axis_dist by (lia || apply A). unfold field_sign. set (t := real_of a) in *.
  replace (nth 0 (repeat 0 d) 0) with 0 by (destruct D as [-> | ->]; reflexivity). cbn [nth].
  assert (I : 1 <= / t) by (rewrite <- Rinv_1; apply Rinv_le_contravar; lra).
  unfold force_den. destruct D as [-> | ->]; cbn [Nat.eqb].
  - replace (1 * (1 * (t - 0) / (t ^ 2 + 0)) + 0) with (/ t) by (field; lra). exact I.
  - replace (1 * (1 * (t - 0) / (t ^ 3 + 0)) + 0) with (/ t * / t) by (field; lra). nra.
Qed.

Theorem plane_force_lost : exists s x, Forall (fun y => PrimFloat.is_finite y = true) (ps_pos s ++ x) /\ ps_q s = 1%float /\
  nth 0 (map real_of (ps_pos s)) 0 <> nth 0 (map real_of x) 0 /\
  (forall hypF grav, forcefield_sumF hypF 2 grav true 0%float [s] x = [0; 0]%float) /\ 1 <= nth 0 (direct_force 2 true 0 [real_src s] (map real_of x)) 0.
Proof.
  exists (near_source 2 0x1p-600%float), (origin 2). assert (P := bpow_gt_0 radix2 (-600)). assert (L : pw (-600) <= 1) by (change 1 with (pw 0); apply bpow_le; lia).
  split; [repeat constructor|]. split; [reflexivity|]. split.
  { cbn [near_source origin ps_pos map repeat nth]. rewrite tiny_real, (proj2 zero_real). lra. }
  split; [intros hypF grav; apply plane_underflow|]. apply exact_force; [left; reflexivity|rewrite tiny_real; lra].
Qed.
Theorem space_force_infinite : exists s x, Forall (fun y => PrimFloat.is_finite y = true) (ps_pos s ++ x) /\ ps_q s = 1%float /\
  nth 0 (map real_of (ps_pos s)) 0 <> nth 0 (map real_of x) 0 /\
  (forall hypF, hypF (vsub (N := NumF) (ps_pos s) x) = nth 0 (ps_pos s) 0%float ->
    map PrimFloat.is_finite (forcefield_sumF hypF 3 true true 0%float [s] x) = [false; false; false]).
Proof.
  exists (near_source 3 0x1p-400%float), (origin 3). assert (P := bpow_gt_0 radix2 (-400)).
  split; [repeat constructor|]. split; [reflexivity|]. split.
  { cbn [near_source origin ps_pos map repeat nth]. rewrite small_real, (proj2 zero_real). lra. }
  intros hypF H. apply space_underflow. rewrite <- H at 2. f_equal. 
Qed.
Lemma two_charges_differ : nth 0 (map real_of (ps_pos (sourceZ [3; 1; 2]%Z 1))) 0 <> nth 0 (map real_of pointF) 0 /\ real_of (ps_q (sourceZ [3; 1; 2]%Z 1)) <> 0.
Proof.
  unfold pointF, sourceZ. cbn [ps_pos ps_q]. rewrite !whole_rv by small. destruct (of_Z_real 1 ltac:(cbn; lia)) as [_ ->]. cbn [map nth]. split; lra.
Qed.
