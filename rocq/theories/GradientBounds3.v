(** The gradients of the solid harmonics of degree n at a point of the unit sphere are at most 2 n. *)
From Coq Require Import Reals List Arith ZArith Lia Lra Psatz.
From Coquelicot Require Import Coquelicot.
From Verif Require Import Num Outcome Vec Tables3D CAux Kernel3 Expansion2D Spherical SphericalProofs Harmonics3D Exp2Forces Gradient3 CoefNorms.
Import ListNotations.
Local Open Scope R_scope.

Lemma derive_right psi L : is_derive psi 0 L -> psi 0 = 0 -> (forall s, 0 <= s -> 0 <= psi s) -> 0 <= L.
Proof.
  intros D Z H. apply Rnot_lt_le. intros N. apply is_derive_Reals in D. destruct (D (- L / 2) ltac:(lra)) as [d Hd].
  assert (Pd := cond_pos d). specialize (Hd (d / 2) ltac:(lra) ltac:(rewrite Rabs_pos_eq; lra)). rewrite Rplus_0_l, Z, Rminus_0_r in Hd.
  assert (Q : 0 <= psi (d / 2) / (d / 2)). { apply Rmult_le_pos; [apply H; lra|left; apply Rinv_0_lt_compat; lra]. }
  rewrite Rabs_pos_eq in Hd; lra.
Qed.
Lemma line_derive y u : dp3 (fun s => padd y (pscal s u)) 0 u.
Proof.
  assert (L : forall a b, is_derive (fun s => a + s * b) 0 b) by (intros a b; auto_derive; [exact I|ring]).
  unfold dp3, padd, pscal, c1, c2, c3. cbn [fst snd]. split; [|split]; apply L.
Qed.
Theorem dYr_bound u y n m : (Z.abs m <= n)%Z -> pn u = 1 -> pn y = 1 -> Cmod (dYr u y n m) <= 2 * IZR n.
Proof.
  intros Hm Hu Hy. set (g := fun s => padd y (pscal s u)). assert (G0 : g 0 = y). { unfold g, padd, pscal, c1, c2, c3. destruct y as [[a b] c]. cbn [fst snd]. f_equal; [f_equal|]; ring. }
  assert (D := Yr_derive g 0 u n m (line_derive y u)). rewrite G0 in D. set (V := dYr u y n m) in *. set (N := (2 * Z.to_nat n)%nat).
  destruct D as [D1 D2]. cbv beta in D1, D2.
  assert (B : forall s, 0 <= s -> Cmod (Yr (g s) n m - Yr y n m)%C <= (1 + s) ^ N - 1).
  { intros s Hs. assert (M := Yr_move y (pscal s u) s n ltac:(lia) Hs). rewrite pn_scal, Hu, Hy, !Rmult_1_r, pow1, Rmult_1_r, (Rabs_pos_eq s) in M by exact Hs.
    specialize (M (Rle_refl _)). replace (Z.to_nat (2 * n)) with N in M by (unfold N; lia). eapply Rle_trans; [|exact M]. apply (vn_el n (fun k => Yr (padd y (pscal s u)) n k - Yr y n k)%C m Hm). }
  pose (psi := fun s => Cmod V * ((1 + s) ^ N - 1) - (Re V * (Re (Yr (g s) n m) - Re (Yr y n m)) + Im V * (Im (Yr (g s) n m) - Im (Yr y n m)))).
  assert (DP : is_derive psi 0 (Cmod V * (INR N * 1) - (Re V * Re V + Im V * Im V))).
  { unfold psi. apply (is_derive_minus (V := R_NormedModule)).
    - apply is_derive_scal. replace (INR N * 1) with (INR N * 1 * (1 + 0) ^ pred N - 0) by (rewrite Rplus_0_r, pow1; ring).
      apply (is_derive_minus (V := R_NormedModule)); [|apply (is_derive_const (V := R_NormedModule))]. apply (is_derive_pow (fun s => 1 + s) N 0 1).
      auto_derive; auto; ring.
    - apply (is_derive_plus (V := R_NormedModule)); apply is_derive_scal.
      + replace (Re V) with (Re V - 0) by ring. apply (is_derive_minus (V := R_NormedModule)); [exact D1|apply (is_derive_const (V := R_NormedModule))].
      + replace (Im V) with (Im V - 0) by ring. apply (is_derive_minus (V := R_NormedModule)); [exact D2|apply (is_derive_const (V := R_NormedModule))]. }
  assert (P0 : psi 0 = 0). { unfold psi. rewrite G0, Rplus_0_r, pow1. ring. }
  assert (PP : forall s, 0 <= s -> 0 <= psi s).
  { intros s Hs. assert (Q := B s Hs). unfold psi. set (d := (Yr (g s) n m - Yr y n m)%C) in *.
    replace (Re V * (Re (Yr (g s) n m) - Re (Yr y n m)) + Im V * (Im (Yr (g s) n m) - Im (Yr y n m))) with (Re (Cconj V * d)%C).
    2:{ unfold d, Re, Im, Cconj. cbn. ring. }
    assert (R1 := Rle_trans _ _ _ (Rle_abs _) (Re_le_Cmod (Cconj V * d)%C)). rewrite Cmod_mult in R1.
    assert (CV : Cmod (Cconj V) = Cmod V) by (unfold Cmod, Cconj; cbn [fst snd]; f_equal; ring). rewrite CV in R1.
    assert (R2 := Rmult_le_compat_l _ _ _ (Cmod_ge_0 V) Q). lra. }
  assert (F := derive_right psi _ DP P0 PP).
  assert (CC : Cmod V * Cmod V = Re V * Re V + Im V * Im V). { unfold Cmod. rewrite sqrt_sqrt; [unfold Re, Im; ring|]. apply Rplus_le_le_0_compat; apply pow2_ge_0. }
  assert (EN : INR N = 2 * IZR n). { unfold N. rewrite mult_INR, (INR_IZR_INZ (Z.to_nat n)), Z2Nat.id by lia. cbn. ring. }
  assert (P := Cmod_ge_0 V). destruct (Req_dec (Cmod V) 0) as [E|NE]; [rewrite E; assert (0 <= IZR n) by (apply IZR_le; lia); lra|].
  rewrite EN in F. nra.
Qed.
