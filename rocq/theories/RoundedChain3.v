(** Three-dimensional expansions used by hand in rounded arithmetic. *)
From Coq Require Import List ZArith Arith Lia Lra Reals.
From Coquelicot Require Import Complex.
From Verif Require Import Num Outcome Vec CAux Tables3D Expansion3D Exp3Loops Exp3Errors Exp3Theorems FieldSpec RoundedExpansion2D RoundedExpansion3D RoundedHarmonicSpec
  RoundedLoops3 RoundedErrors3 RoundedGood3 RoundedFmmSpec3.
Import ListNotations.
Local Open Scope R_scope.

Section Chain.
Variable w : R.
Hypothesis Hw : 0 <= w <= 1 / 2.
Variable ky : nat.
Variable A : harith.
Hypothesis HA : accurate_harmonics w ky A.
Variable p : nat.
Notation P := (Z.of_nat p).
Notation U := (direct_potential 3 true).

Lemma ge_is n n' : n = n' -> ge w p n = growth3 w p n'.
Proof. intros <-. unfold ge, growth3, gam, k1. rewrite plus_IZR, <- INR_IZR_INZ. reflexivity. Qed.
Lemma k1_is : k1 p = INR p + 1.
Proof. unfold k1. rewrite plus_IZR, <- INR_IZR_INZ. reflexivity. Qed.
Lemma sq_is : Z.to_nat ((P + 1) * (P + 1)) = ((p + 1) * (p + 1))%nat. Proof. nia. Qed.

Theorem multipole_rounded c srcs a r x : length c = 3%nat -> same_dim 3 srcs -> (forall s, In s srcs -> dist (ps_pos s) c <= a) -> 0 <= a < r -> length x = 3%nat -> r <= dist x c ->
  exists e v, me3_sources_r A c P srcs = Ok e /\ me3_pot_r A e x = Ok v /\
  Rabs (v - U srcs x) <= trunc3 a r p * abs_charge srcs +
    (growth3 w p (2 * (ky * (2 * p + 1) + 40 * p + 40) + (p + 1) * (p + 1) + length srcs) - 1) * (2 * (INR p + 1) ^ 3 * magnitude3 srcs x).
Proof.
  intros Hc HS Hd Ha Hx Hr. destruct (mgood_p2m w Hw ky A HA p c srcs a ltac:(lra) Hc HS Hd) as (e & E & M).
  destruct (mgood_value w Hw ky A HA p (trunc3 a r p) _ c srcs a r e x M Hx Ha Hr (Rle_refl _)) as (v & V & B). exists e, v. split; [exact E|]. split; [exact V|].
  eapply Rle_trans; [exact B|]. apply Req_le. rewrite k1_is, sq_is. erewrite ge_is; [reflexivity|]. unfold Nop. rewrite Nat2Z.id. ring.
Qed.
Theorem local_rounded c srcs b r x : length c = 3%nat -> same_dim 3 srcs -> 0 <= b < r -> (forall s, In s srcs -> r <= dist (ps_pos s) c) -> length x = 3%nat -> dist x c <= b ->
  exists e v, le3_sources_r A c P srcs = Ok e /\ le3_pot_r A e x = Ok v /\
  Rabs (v - U srcs x) <= trunc3 b r p * abs_charge srcs +
    (growth3 w p (2 * (ky * (2 * p + 1) + 40 * p + 40) + (p + 1) * (p + 1) + length srcs) - 1) * (2 * (INR p + 1) ^ 3 * magnitude3 srcs x).
Proof.
  intros Hc HS Hb Hd Hx Hr. destruct (lgood_p2l w Hw ky A HA p (trunc3 b r p) c srcs b r Hc HS Hb Hd (Rle_refl _)) as (e & E & M).
  destruct (lgood_value w Hw ky A HA p (trunc3 b r p) _ c srcs b e x M Hx Hr) as (v & V & B). exists e, v. split; [exact E|]. split; [exact V|].
  eapply Rle_trans; [exact B|]. apply Req_le. rewrite k1_is, sq_is. erewrite ge_is; [reflexivity|]. unfold Nop. rewrite Nat2Z.id. ring.
Qed.
Theorem chain_rounded orders tb cs ct cu cv srcs a a' b b' r x : tables3_after orders = Ok tb -> (1 <= p <= max_order3 orders)%nat ->
  length cs = 3%nat -> length ct = 3%nat -> length cu = 3%nat -> length cv = 3%nat -> length x = 3%nat -> same_dim 3 srcs ->
  0 <= a -> 0 <= b' -> (forall s, In s srcs -> dist (ps_pos s) cs <= a) -> a + dist cs ct <= a' -> a' + b < r -> r <= dist ct cu ->
  b' + dist cu cv <= b -> dist x cv <= b' ->
  exists e1 e2 e3 e4 v, me3_sources_r A cs P srcs = Ok e1 /\ me3_merge_r A tb ct [e1] = Ok e2 /\ le3_convert_r A tb cu e2 = Ok e3 /\
    le3_translate_r A tb cv e3 = Ok e4 /\ le3_pot_r A e4 x = Ok v /\
  Rabs (v - U srcs x) <= trunc3_two a' b r p * abs_charge srcs +
    (growth3 w p (5 * (ky * (2 * p + 1) + 40 * p + 40) + (p + 1) * (p + 1) + length srcs + 1) - 1) * (2 * (INR p + 1) ^ 3 * magnitude3 srcs x).
Proof.
  intros T Hp H1 H2 H3 H4 Hx HS Ha Hb' Hd Haa Hab Hr Hbb Hxv. assert (FT := tables3_for orders tb p T Hp).
  assert (D : forall y z, 0 <= dist y z) by (intros; apply sqrt_pos). assert (D1 := D cs ct). assert (D2 := D cu cv).
  destruct (mgood_p2m w Hw ky A HA p cs srcs a Ha H1 HS Hd) as (e1 & E1 & M1).
  destruct (mgood_m2m w Hw ky A HA p tb FT (Nop ky P + length srcs) ct a' [((cs, srcs), a)] [e1] H2 ltac:(lra) ltac:(discriminate)) as (e2 & E2 & M2).
  { constructor; [|constructor]. cbn [fst snd]. split; [exact M1|]. split; assumption. }
  cbn [flat_map fst snd app] in M2. rewrite app_nil_r in M2.
  destruct (lgood_m2l w Hw ky A HA p (trunc3_two a' b r p) tb FT _ cu ct srcs b a' e2 r H3 M2 ltac:(lra) ltac:(lra) Hab Hr (Rle_refl _)) as (e3 & E3 & M3).
  destruct (lgood_l2l w Hw ky A HA p (trunc3_two a' b r p) tb FT _ cu srcs b e3 cv b' M3 H4 Hb' Hbb) as (e4 & E4 & M4).
  destruct (lgood_value w Hw ky A HA p (trunc3_two a' b r p) _ cv srcs b' e4 x M4 Hx Hxv) as (v & V & B).
  exists e1, e2, e3, e4, v. repeat (split; [assumption|]).
  eapply Rle_trans; [exact B|]. apply Req_le. rewrite k1_is, sq_is. erewrite ge_is; [reflexivity|]. unfold Nop. rewrite Nat2Z.id. cbn [length]. ring.
Qed.
End Chain.

(** A chain: two sources near the origin, evaluated near (8, 0, 0). *)
Definition chain_pair : list (psrc R) := [PSrc [1 / 2; 0; 0] 1; PSrc [0; - (1 / 2); 0] (-2)].
Lemma near_pair : forall s, In s chain_pair -> dist (ps_pos s) [0; 0; 0] <= 1 / 2.
Proof.
  assert (Q : sqrt (1 / 4) = 1 / 2) by (replace (1 / 4) with (1 / 2 * (1 / 2)) by lra; apply sqrt_square; lra).
  intros s [<-|[<-|[]]]; unfold dist; cbn; (apply Rle_trans with (sqrt (1 / 4)); [apply sqrt_le_1_alt; lra|lra]).
Qed.
Lemma dist_axis a b : a <= b -> dist [a; 0; 0] [b; 0; 0] = b - a.
Proof.
  intros H. unfold dist. cbn. replace (_ + _) with ((b - a) * (b - a)) by ring. apply sqrt_square. lra.
Qed.
Theorem chain_case : same_dim 3 chain_pair /\ (forall s, In s chain_pair -> dist (ps_pos s) [0; 0; 0] <= 1 / 2) /\
  1 / 2 + dist [0; 0; 0] [1; 0; 0] <= 3 / 2 /\ 3 / 2 + 3 / 2 < 7 /\ 7 <= dist [1; 0; 0] [8; 0; 0] /\ 1 / 2 + dist [8; 0; 0] [9; 0; 0] <= 3 / 2 /\ dist [9; 0; 0] [9; 0; 0] <= 1 / 2.
Proof.
  split; [intros s [<-|[<-|[]]]; reflexivity|]. split; [exact near_pair|]. rewrite !dist_axis by lra. lra.
Qed.
