(** Error bounds of the force fields of the two-dimensional expansions against the direct force field. *)
From Coq Require Import Reals List Arith Lra Lia.
From Coquelicot Require Import Coquelicot.
From Verif Require Import Num Outcome Vec VecProofs Tables Expansion2D CAux TableProofs Exp2Proofs M2LError Exp2Local
  Fields FieldSpec FieldProofs Exp2Errors Exp2Forces.
Import ListNotations.
Local Open Scope C_scope.

(** *** Complex derivatives, through curves *)
Definition cd (f : C -> C) (z v : C) : Prop := forall g t u, cdc g t u -> g t = z -> cdc (fun s => f (g s)) t (v * u).

Lemma cdc_eq g t u v : cdc g t u -> u = v -> cdc g t v.
Proof. intros H <-. exact H. Qed.
Lemma cd_eq f z u v : cd f z u -> u = v -> cd f z v.
Proof. intros H <-. exact H. Qed.
Lemma cd_const c z : cd (fun _ => c) z (RtoC 0).
Proof. intros g t u _ _. eapply cdc_eq; [apply cdc_const|ring]. Qed.
Lemma cd_id z : cd (fun w => w) z (RtoC 1).
Proof. intros g t u H _. eapply cdc_eq; [exact H|ring]. Qed.
Lemma cd_plus f g z u v : cd f z u -> cd g z v -> cd (fun w => f w + g w) z (u + v).
Proof. intros A B h t w H E. eapply cdc_eq; [apply cdc_plus; [apply A; eassumption|apply B; eassumption]|ring]. Qed.
Lemma cd_mult f g z u v : cd f z u -> cd g z v -> cd (fun w => f w * g w) z (u * g z + f z * v).
Proof.
  intros A B h t w H E. eapply cdc_eq; [apply (cdc_mult (fun s => f (h s)) (fun s => g (h s))); [apply A; eassumption|apply B; eassumption]|].
  rewrite E. ring.
Qed.
Lemma cd_scal c f z v : cd f z v -> cd (fun w => c * f w) z (c * v).
Proof. intros A. eapply cd_eq; [apply cd_mult; [apply cd_const|exact A]|cbn; ring]. Qed.
Lemma cd_comp f g z u v : cd g z u -> cd f (g z) v -> cd (fun w => f (g w)) z (v * u).
Proof.
  intros A B h t w H E. eapply cdc_eq; [apply (B (fun s => g (h s)) t (u * w)); [apply A; assumption|rewrite E; reflexivity]|ring].
Qed.
Lemma cd_pow n z : cd (fun w => Cpow w n) z (RtoC (INR n) * Cpow z (n - 1)).
Proof.
  induction n as [|n IH].
  - cbn [Cpow INR]. eapply cd_eq; [apply cd_const|ring].
  - eapply cd_eq; [apply (cd_mult (fun w => w) (fun w => Cpow w n)); [apply cd_id|exact IH]|].
    rewrite S_INR, RtoC_plus. replace (S n - 1)%nat with n by lia. destruct n as [|n]; [cbn [Cpow INR]; ring|].
    replace (S n - 1)%nat with n by lia. cbn [Cpow]. ring.
Qed.
Lemma cd_lsum {A} (f : A -> C -> C) (v : A -> C) z l : (forall a, In a l -> cd (f a) z (v a)) -> cd (fun w => lsum (fun a => f a w) l) z (lsum v l).
Proof.
  induction l as [|a l IH]; intros H; cbn [lsum fold_right].
  - apply cd_const.
  - apply (cd_plus (f a)); [apply H; left; reflexivity|]. apply IH. intros; apply H; right; assumption.
Qed.
Lemma cd_affine a b z : cd (fun w => (w - a) / b) z (/ b).
Proof.
  eapply cd_eq; [apply (cd_mult (fun w => w - a) (fun _ => / b)); [apply (cd_plus (fun w => w)); [apply cd_id|apply cd_const]|apply cd_const]|ring].
Qed.
Lemma cd_inv z : z <> RtoC 0 -> cd (fun w => / w) z (- / (z * z)).
Proof.
  intros Hz g t u H E. eapply cdc_eq; [apply cdc_inv; [exact H|rewrite E; exact Hz]|]. rewrite E. field. exact Hz.
Qed.
Lemma cd_ext f g z v : (forall w, f w = g w) -> cd f z v -> cd g z v.
Proof.
  intros E H h t u Hh Eh. destruct (H h t u Hh Eh) as [A B]. split.
  - eapply is_derive_ext; [|exact A]. intros s. cbv beta. rewrite E. reflexivity.
  - eapply is_derive_ext; [|exact B]. intros s. cbv beta. rewrite E. reflexivity.
Qed.
Lemma cdc_unique g t u v : cdc g t u -> cdc g t v -> u = v.
Proof.
  intros [A B] [A' B']. destruct u as [a b], v as [c d]. cbn [Re Im fst snd] in *.
  apply is_derive_unique in A. apply is_derive_unique in A'. apply is_derive_unique in B. apply is_derive_unique in B'.
  rewrite A in A'. rewrite B in B'. congruence.
Qed.
Lemma cd_unique f z u v : cd f z u -> cd f z v -> u = v.
Proof.
  intros A B. destruct z as [x y].
  assert (H := cdc_x (RtoC 0) x y). assert (E : (cplx [x; y] - RtoC 0) = (x, y)) by (unfold cplx, vget; cbn; apply injective_projections; cbn; ring).
  assert (A1 := A _ _ _ H E). assert (B1 := B _ _ _ H E). assert (G := cdc_unique _ _ _ _ A1 B1).
  replace u with (u * RtoC 1) by ring. rewrite G. ring.
Qed.

(** Derivative of the partial sums of the logarithm. *)
Lemma cd_log_poly p w : cd (fun w => log_poly w p) w (lsum (Cpow w) (seq 0 p)).
Proof.
  unfold log_poly. eapply cd_eq; [apply (cd_lsum (fun k w => Cpow w k / RtoC (INR k)) (fun k => Cpow w (k - 1)))|].
  - intros k Hk. apply in_seq in Hk. eapply cd_eq; [apply (cd_mult (fun w => Cpow w k) (fun _ => / RtoC (INR k))); [apply cd_pow|apply cd_const]|].
    cbv beta. field. apply CINR_nz. lia.
  - rewrite <- seq_shift, lsum_map. apply lsum_ext. intros k _. f_equal. lia.
Qed.

(** *** Multipole-to-local conversion: derivative of the polynomial *)
Section DM2L.
Variables (y s : C) (p M : nat).
Hypothesis Hp : (1 <= p)%nat.
Hypothesis HM : (p <= M)%nat.
Definition dT (l k : nat) : C := match l with O => RtoC 0 | S l' => RtoC (INR (choose (l' + k) k)) * (Cpow y l' * Cpow s k) end.
Lemma choose_absorb_l l k : (INR (S l) * INR (choose (S l + k) k) = INR (S l + k) * INR (choose (l + k) k))%R.
Proof.
  rewrite <- !mult_INR. f_equal.
  assert (A := choose_fact (S l + k) k ltac:(lia)). assert (B := choose_fact (l + k) k ltac:(lia)).
  replace (S l + k - k)%nat with (S l) in A by lia. replace (l + k - k)%nat with l in B by lia.
  change (fact (S l + k)) with ((S l + k) * fact (l + k))%nat in A. change (fact (S l)) with (S l * fact l)%nat in A.
  assert (N : (fact k * fact l <> 0)%nat) by (apply Nat.neq_mul_0; split; apply fact_neq_0).
  apply (Nat.mul_cancel_r _ _ (fact k * fact l)); [exact N|]. nia.
Qed.
Lemma cd_T l k : cd (fun y => m2l_T y s l k) y (dT l k).
Proof.
  unfold m2l_T, dT. destruct l as [|l].
  - cbn [Nat.add]. destruct k as [|k]; [apply cd_const|]. apply (cd_ext (fun _ => RtoC (INR (choose (S k) (S k)) / INR (S k)) * (RtoC 1 * Cpow s (S k)))); [intros; reflexivity|apply cd_const].
  - cbn [Nat.add]. change (S (l + k)) with (S l + k)%nat.
    eapply cd_eq; [apply cd_scal; apply (cd_mult (fun y => Cpow y (S l)) (fun _ => Cpow s k)); [apply cd_pow|apply cd_const]|].
    cbv beta. replace (S l - 1)%nat with l by lia.
    transitivity (RtoC (INR (choose (S l + k) k) / INR (S l + k) * INR (S l)) * (Cpow y l * Cpow s k)).
    + rewrite RtoC_mult. ring.
    + f_equal. f_equal. assert (H := choose_absorb_l l k). assert (N : INR (S l + k) <> 0%R) by (apply not_0_INR; lia).
      apply (Rmult_eq_reg_l (INR (S l + k))); [|exact N]. rewrite <- H. field. exact N.
Qed.
Definition dG (l k : nat) : C := if m2l_chi p M l k then RtoC 0 else dT l k.
Lemma cd_G l k : cd (fun y => m2l_G y s p M l k) y (dG l k).
Proof. unfold m2l_G, dG. destruct (m2l_chi p M l k); [apply cd_const|apply cd_T]. Qed.
Definition dm2l : C := lsum (Cpow (y + s)) (seq 0 (2 * p)) - lsum (fun n => lsum (fun k => dG (n - k)%nat k) (seq 0 (S n))) (seq 1 (2 * p)).
Lemma cd_m2l : cd (fun y => m2l_poly y s p M) y dm2l.
Proof.
  apply (cd_ext (fun y => log_poly (y + s) (2 * p) + (- RtoC 1) * lsum (fun n => lsum (fun k => m2l_G y s p M (n - k)%nat k) (seq 0 (S n))) (seq 1 (2 * p)))).
  { intros w. rewrite (m2l_split w s p M Hp HM). ring. }
  eapply cd_eq; [apply cd_plus|].
  - apply (cd_comp (fun w => log_poly w (2 * p)) (fun y => y + s)); [apply cd_plus; [apply cd_id|apply cd_const]|apply cd_log_poly].
  - apply cd_scal. apply (cd_lsum (fun n y => lsum (fun k => m2l_G y s p M (n - k)%nat k) (seq 0 (S n)))). intros n _.
    apply (cd_lsum (fun k y => m2l_G y s p M (n - k)%nat k)). intros k _. apply cd_G.
  - unfold dm2l. ring.
Qed.

Variable rho : R.
Hypothesis Hrho : (Cmod y + Cmod s <= rho)%R.
Hypothesis Hrho1 : (rho < 1)%R.
Lemma dG_row n : (1 <= n)%nat ->
  (Cmod (lsum (fun k => dG (n - k)%nat k) (seq 0 (S n))) <= (if (n <=? p)%nat then 0 else rho ^ (n - 1)))%R.
Proof.
  intros Hn. destruct (Nat.leb_spec n p) as [L|L].
  - rewrite (lsum_ext _ (fun _ => RtoC 0)).
    + rewrite lsum_zero, Cmod_0. lra.
    + intros k Hk. apply in_seq in Hk. unfold dG. rewrite chi_low by lia. reflexivity.
  - eapply Rle_trans; [apply lsum_Cmod|]. destruct n as [|n]; [lia|]. replace (S n - 1)%nat with n by lia.
    apply Rle_trans with ((Cmod y + Cmod s) ^ n)%R.
    + rewrite Rbinomial. rewrite rsum_seq_S. cbn [Nat.add]. rewrite Nat.sub_diag.
      assert (E0 : Cmod (dG 0 (S n)) = 0%R) by (unfold dG; destruct (m2l_chi _ _ _ _); cbn [dT]; apply Cmod_0). rewrite E0, Rplus_0_r.
      apply rsum_le. intros k Hk. apply in_seq in Hk.
      assert (0 <= INR (choose n k) * Cmod y ^ (n - k) * Cmod s ^ k)%R as Hpos.
      { apply Rmult_le_pos; [apply Rmult_le_pos; [apply pos_INR|]|]; apply pow_le; apply Cmod_ge_0. }
      unfold dG. destruct (m2l_chi p M (S n - k) k).
      * rewrite Cmod_0. exact Hpos.
      * replace (S n - k)%nat with (S (n - k)) by lia. cbn [dT]. replace (n - k + k)%nat with n by lia.
        rewrite !Cmod_mult, !Cmod_pow, Cmod_RtoC_nonneg by apply pos_INR. right. ring.
    + apply pow_incr. split; [|exact Hrho]. apply Rplus_le_le_0_compat; apply Cmod_ge_0.
Qed.
Lemma dG_total : (Cmod (lsum (fun n => lsum (fun k => dG (n - k)%nat k) (seq 0 (S n))) (seq 1 (2 * p)))
   <= rho ^ p * rsum (fun i => rho ^ i) (seq 0 p))%R.
Proof.
  replace (2 * p)%nat with (p + p)%nat by lia. rewrite seq_app, lsum_app.
  rewrite (lsum_ext _ (fun _ => RtoC 0) (seq 1 p)).
  2:{ intros n Hn. apply in_seq in Hn. rewrite (lsum_ext _ (fun _ => RtoC 0)); [apply lsum_zero|].
      intros k Hk. apply in_seq in Hk. unfold dG. rewrite chi_low by lia. reflexivity. }
  rewrite lsum_zero, Cplus_0_l. eapply Rle_trans; [apply lsum_Cmod|].
  rewrite <- rsum_scal.
  replace (seq (1 + p) p) with (map (fun i => (S p + i)%nat) (seq 0 p)).
  2:{ rewrite map_add_seq. f_equal. lia. }
  rewrite rsum_map. apply rsum_le. intros i Hi. apply in_seq in Hi.
  eapply Rle_trans; [apply dG_row; lia|].
  destruct (Nat.leb_spec (S p + i) p) as [L|L]; [lia|].
  replace (S p + i - 1)%nat with (p + i)%nat by lia. rewrite pow_add. lra.
Qed.
Lemma dm2l_error : (Cmod (/ (1 - (y + s)) - dm2l)%C <= rho ^ p / (1 - rho))%R.
Proof.
  pose proof (rho0 y s rho Hrho) as Hr0.
  assert (Hw : (Cmod (y + s)%C <= rho)%R) by (eapply Rle_trans; [apply Cmod_triangle|exact Hrho]).
  assert (N : 1 - (y + s) <> RtoC 0).
  { intros E. assert (y + s = RtoC 1) by (replace (y + s) with (1 - (1 - (y + s))) by ring; rewrite E; ring). rewrite H, Cmod_1 in Hw. lra. }
  assert (N1 : (1 - rho <= Cmod (1 - (y + s))%C)%R).
  { assert (TR := Cmod_triangle (1 - (y + s)) (y + s)). replace (1 - (y + s) + (y + s)) with (RtoC 1) in TR by ring. rewrite Cmod_1 in TR. lra. }
  assert (EQ : / (1 - (y + s)) - dm2l = Cpow (y + s) (2 * p) / (1 - (y + s)) + lsum (fun n => lsum (fun k => dG (n - k)%nat k) (seq 0 (S n))) (seq 1 (2 * p))).
  { unfold dm2l. assert (GE := geom_C (y + s) (2 * p)).
    assert (lsum (Cpow (y + s)) (seq 0 (2 * p)) = (1 - Cpow (y + s) (2 * p)) / (1 - (y + s))) as -> by (rewrite <- GE; field; exact N).
    field. exact N. }
  rewrite EQ. eapply Rle_trans; [apply Cmod_triangle|].
  assert (B1 : (Cmod (Cpow (y + s) (2 * p) / (1 - (y + s)))%C <= rho ^ (2 * p) / (1 - rho))%R).
  { apply Cmod_ratio; [lra| |exact N1]. rewrite Cmod_pow. apply pow_incr. split; [apply Cmod_ge_0|exact Hw]. }
  assert (B2 := dG_total).
  assert (Hsum : (rsum (fun i => rho ^ i) (seq 0 p) = (1 - rho ^ p) / (1 - rho))%R).
  { pose proof (geom_R rho p) as Hg. rewrite <- Hg. field. lra. }
  rewrite Hsum in B2. replace (2 * p)%nat with (p + p)%nat in B1 at 2 by lia. rewrite pow_add in B1.
  assert (Hfin : (rho ^ p * rho ^ p / (1 - rho) + rho ^ p * ((1 - rho ^ p) / (1 - rho)) = rho ^ p / (1 - rho))%R) by (field; lra).
  lra.
Qed.
End DM2L.

(** *** From the potential to the force *)
(** The complex field of the direct force: [x] component minus the real part, [y] component the imaginary part. *)
Lemma force_on_field s x : length (ps_pos s) = 2%nat -> length x = 2%nat -> ps_pos s <> x ->
  force_on 2 true 0 s x 0 = (ps_q s * - Re (/ (cplx x - cplx (ps_pos s)))%C)%R /\
  force_on 2 true 0 s x 1 = (ps_q s * Im (/ (cplx x - cplx (ps_pos s)))%C)%R.
Proof.
  intros Hs Hx Hne. assert (DP := dist_pos (ps_pos s) x ltac:(congruence) Hne). unfold force_on, force_den, field_sign. cbn [Nat.eqb].
  assert (E : (dist (ps_pos s) x ^ 2 = (nth 0 x 0 - nth 0 (ps_pos s) 0) * (nth 0 x 0 - nth 0 (ps_pos s) 0) + (nth 1 x 0 - nth 1 (ps_pos s) 0) * (nth 1 x 0 - nth 1 (ps_pos s) 0))%R).
  { unfold dist. rewrite pow2_sqrt, Hs. 
    - cbn [seq rsum fold_right]. ring.
    - apply rsum_nonneg. intros; apply pow2_ge_0. }
  destruct (ps_pos s) as [|a [|b [|]]]; try discriminate. destruct x as [|a' [|b' [|]]]; try discriminate.
  cbn [nth] in *. unfold cplx, vget; cbn [nth]. unfold Cinv, Cminus, Cplus, Copp, Re, Im; cbn [fst snd].
  assert (P : (0 < (a' - a) * (a' - a) + (b' - b) * (b' - b))%R) by (rewrite <- E; apply pow_lt; exact DP). rewrite E.
  replace ((a' + - a) ^ 2 + (b' + - b) ^ 2)%R with ((a' - a) * (a' - a) + (b' - b) * (b' - b))%R by ring.
  rewrite Rplus_0_r. split; field; lra.
Qed.
Lemma locally_nz (g : R -> C) t u : cdc g t u -> g t <> RtoC 0 -> locally t (fun s => g s <> RtoC 0).
Proof.
  intros H Hz. pose proof (nrm2_deriv g t u H) as HN. pose proof (nrm2_pos _ Hz) as HP.
  assert (Hc : continuous (fun s : R => nrm2 (g s)) t) by (apply (ex_derive_continuous (V := R_NormedModule) (fun s : R => nrm2 (g s))); eexists; exact HN).
  assert (HU : locally (nrm2 (g t)) (fun r => 0 < r)%R) by (apply (open_gt 0); exact HP).
  pose proof (Hc _ HU) as HU'. unfold filtermap in HU'. refine (filter_imp _ _ _ HU').
  intros s Hs E. cbv beta in Hs. rewrite E in Hs. unfold nrm2 in Hs; simpl in Hs. lra.
Qed.
Lemma is_derive_rsum {A} (f : A -> R -> R) (v : A -> R) t l : (forall a, In a l -> is_derive (f a) t (v a)) ->
  is_derive (fun s => rsum (fun a => f a s) l) t (rsum v l).
Proof.
  induction l as [|a l IH]; intros H; cbn [rsum fold_right].
  - apply (is_derive_const (V := R_NormedModule)).
  - apply (is_derive_plus (V := R_NormedModule) (f a)); [apply H; left; reflexivity|]. apply IH. intros; apply H; right; assumption.
Qed.
(** A real potential [sum q (K - Re f)] with [f] differentiable. *)
Lemma pot_deriv (srcs : list (psrc R)) (K : psrc R -> R) (f : psrc R -> C -> C) (v : psrc R -> C) g t u : cdc g t u ->
  (forall s, In s srcs -> cd (f s) (g t) (v s)) ->
  is_derive (fun s0 => rsum (fun s => ps_q s * (K s - Re (f s (g s0))))%R srcs) t (rsum (fun s => ps_q s * - Re (v s * u)%C)%R srcs).
Proof.
  intros Hg Hf. apply (is_derive_rsum (fun s s0 => ps_q s * (K s - Re (f s (g s0))))%R). intros s Hs.
  apply (is_derive_scal (fun s0 => K s - Re (f s (g s0)))%R).
  destruct (Hf s Hs g t u Hg eq_refl) as [A _].
  replace (- Re (v s * u)%C)%R with (minus 0%R (Re (v s * u)%C)) by (unfold minus, plus, opp; simpl; ring).
  apply (is_derive_minus (V := R_NormedModule) (fun _ => K s)); [apply (is_derive_const (V := R_NormedModule))|exact A].
Qed.
Lemma le2_force_sum e srcs K f v a b : se_co e <> [] ->
  (forall a' b', le2_pot e [a'; b'] = rsum (fun s => ps_q s * (K s - Re (f s (cplx [a'; b']))))%R srcs) ->
  (forall s, In s srcs -> cd (f s) (cplx [a; b]) (v s)) ->
  le2_force e [a; b] = [rsum (fun s => ps_q s * Re (v s))%R srcs; rsum (fun s => ps_q s * - Im (v s))%R srcs].
Proof.
  intros He HP Hf. destruct (le2_force_gradient e a b He) as [Gx Gy].
  assert (LF : exists f0 f1, le2_force e [a; b] = [f0; f1]) by (rewrite le2_force_dpeval by exact He; eauto).
  destruct LF as (f0 & f1 & E). rewrite E in *. cbn [nth] in Gx, Gy.
  assert (CX := cdc_x (RtoC 0) a b). assert (CY := cdc_y (RtoC 0) a b).
  assert (Z : forall a b, cplx [a; b] - RtoC 0 = cplx [a; b]) by (intros; ring).
  assert (DX : is_derive (fun t => le2_pot e [t; b]) a (rsum (fun s => ps_q s * - Re (v s * RtoC 1)%C)%R srcs)).
  { eapply is_derive_ext; [intros t; symmetry; apply HP|].
    eapply is_derive_ext; [intros t; rewrite <- (Z t b); reflexivity|].
    apply (pot_deriv srcs K f v _ _ _ CX). intros s Hs. rewrite Z. apply Hf. exact Hs. }
  assert (DY : is_derive (fun t => le2_pot e [a; t]) b (rsum (fun s => ps_q s * - Re (v s * Ci)%C)%R srcs)).
  { eapply is_derive_ext; [intros t; symmetry; apply HP|].
    eapply is_derive_ext; [intros t; rewrite <- (Z a t); reflexivity|].
    apply (pot_deriv srcs K f v _ _ _ CY). intros s Hs. rewrite Z. apply Hf. exact Hs. }
  apply is_derive_unique in Gx. apply is_derive_unique in Gy. apply is_derive_unique in DX. apply is_derive_unique in DY.
  pose proof (eq_trans (eq_sym Gx) DX) as EX. pose proof (eq_trans (eq_sym Gy) DY) as EY. f_equal; [|f_equal].
  - replace f0 with (- - f0)%R by ring. rewrite EX, <- rsum_opp. apply rsum_ext. intros s _. unfold Re; simpl. ring.
  - replace f1 with (- - f1)%R by ring. rewrite EY, <- rsum_opp. apply rsum_ext. intros s _. unfold Re, Im; simpl. ring.
Qed.

(** Componentwise error of a superposition. *)
Lemma field_error srcs x (F : list R) (v : psrc R -> C) B : length x = 2%nat -> same_dim 2 srcs ->
  (forall s, In s srcs -> ps_pos s <> x) -> (0 <= B)%R ->
  F = [rsum (fun s => ps_q s * Re (v s))%R srcs; rsum (fun s => ps_q s * - Im (v s))%R srcs] ->
  (forall s, In s srcs -> (Cmod (- v s - / (cplx x - cplx (ps_pos s)))%C <= B)%R) ->
  forall k, (k < 2)%nat -> (Rabs (nth k F 0 - rsum (fun s => force_on 2 true 0 s x k) srcs) <= abs_charge srcs * B)%R.
Proof.
  intros Hx Hs Hne HB -> HE k Hk. unfold abs_charge.
  assert (HF : forall s, In s srcs -> _) by (intros s Hin; exact (force_on_field s x (Hs s Hin) Hx (Hne s Hin))).
  destruct k as [|[|]]; [| |lia]; cbn [nth].
  - rewrite (rsum_ext (fun s => force_on 2 true 0 s x 0) (fun s => ps_q s * - Re (/ (cplx x - cplx (ps_pos s)))%C)%R) by (intros s Hin; apply HF; exact Hin).
    apply weighted_error; [|exact HB]. intros s Hin. eapply Rle_trans; [|apply HE; exact Hin].
    replace (Re (v s) - - Re (/ (cplx x - cplx (ps_pos s)))%C)%R with (- Re (- v s - / (cplx x - cplx (ps_pos s)))%C)%R by (unfold Re; simpl; ring).
    rewrite Rabs_Ropp. apply Re_le_Cmod.
  - rewrite (rsum_ext (fun s => force_on 2 true 0 s x 1) (fun s => ps_q s * Im (/ (cplx x - cplx (ps_pos s)))%C)%R) by (intros s Hin; apply HF; exact Hin).
    apply weighted_error; [|exact HB]. intros s Hin. eapply Rle_trans; [|apply HE; exact Hin].
    replace (- Im (v s) - Im (/ (cplx x - cplx (ps_pos s)))%C)%R with (Im (- v s - / (cplx x - cplx (ps_pos s)))%C)%R by (unfold Im; simpl; ring).
    apply Im_le_Cmod.
Qed.
Lemma vec2 (x : list R) : length x = 2%nat -> exists a b, x = [a; b].
Proof. destruct x as [|a [|b [|]]]; try discriminate. eauto. Qed.
Lemma Cmod_diff_lower (z w : C) a b : (a <= Cmod z)%R -> (Cmod w <= b)%R -> (a - b <= Cmod (z - w)%C)%R.
Proof. intros H1 H2. assert (TR := Cmod_triangle (z - w) w). replace (z - w + w) with z in TR by ring. lra. Qed.
Lemma co_nonempty e : wf_se e -> se_co e <> [].
Proof. unfold wf_se. destruct (se_co e); [discriminate|congruence]. Qed.

Lemma Copp_nz (z : C) : z <> RtoC 0 -> - z <> RtoC 0.
Proof. intros H E. apply H. replace z with (- - z) by ring. rewrite E. ring. Qed.
Lemma inv_aux (z0 t m : C) : z0 <> RtoC 0 -> t <> RtoC 0 -> - (m * / z0) - / - (z0 * t) = (/ t - m) / z0.
Proof.
  intros H1 H2. field. repeat split; try assumption. apply Copp_nz. apply Cmult_neq_0; assumption.
Qed.
(** Multipole-to-local conversion. *)
Theorem m2l2_force_error tb center c p srcs x r1 r2 D e : bt_ok tb -> (1 <= p)%nat ->
  length center = 2%nat -> length c = 2%nat -> length x = 2%nat -> same_dim 2 srcs ->
  (0 <= r1)%R -> (0 <= r2)%R -> (r1 + r2 < D)%R -> (D <= dist c center)%R ->
  (forall s, In s srcs -> dist (ps_pos s) c <= r2)%R -> (dist x center <= r1)%R ->
  le2_m2l tb center (me2_sources c p srcs) = Ok (e, se_table tb p) ->
  forall k, (k < 2)%nat -> (Rabs (nth k (le2_force e x) 0 - rsum (fun s => force_on 2 true 0 s x k) srcs)
    <= abs_charge srcs * (((r1 + r2) / D) ^ p / (D - (r1 + r2))))%R.
Proof.
  intros Hok Hp Hce Hc Hx Hs H1 H2 H12 HD Hrad Hd He.
  assert (Hz0 : (D <= Cmod (cplx c - cplx center)%C)%R) by (rewrite <- dist_Cmod by assumption; exact HD).
  assert (Hz : cplx c - cplx center <> RtoC 0) by (apply Cmod_gt_0; lra).
  set (z0 := cplx c - cplx center) in *.
  assert (Wf : wf_se e) by (destruct (m2l_sources_pot tb p center c srcs x Hok Hp Hz) as [e' [He' [_ [_ [W _]]]]]; rewrite He in He'; injection He' as <-; exact W).
  set (u := fun s : psrc R => - src_at (cplx c) s / z0). set (y := (cplx x - cplx center) / z0).
  assert (HM : (p <= bt_max (se_table tb p))%nat) by (rewrite se_table_max; lia).
  set (M := bt_max (se_table tb p)) in *.
  assert (Hq : (0 <= (r1 + r2) / D < 1)%R).
  { split; [apply Rmult_le_pos; [lra|left; apply Rinv_0_lt_compat; lra]|]. apply (Rmult_lt_reg_r D); [lra|]. unfold Rdiv.
    rewrite Rmult_assoc, Rinv_l by lra. lra. }
  assert (Hy : (Cmod y <= r1 / D)%R).
  { apply Cmod_ratio; [lra| |exact Hz0]. rewrite <- dist_Cmod by assumption. exact Hd. }
  assert (Hu : forall s, In s srcs -> (Cmod (u s) <= r2 / D)%R).
  { intros s Hin. apply Cmod_ratio; [lra| |exact Hz0]. rewrite Cmod_opp. unfold src_at. rewrite <- dist_Cmod by (try exact Hc; apply Hs; exact Hin). apply Hrad. exact Hin. }
  assert (Hzw : forall s, In s srcs -> cplx x - cplx (ps_pos s) = - (z0 * (1 - (y + u s)))).
  { intros s Hin. replace (- (z0 * (1 - (y + u s)))) with (z0 * y + z0 * u s - z0) by ring.
    replace (z0 * y) with (cplx x - cplx center) by (unfold y; field; exact Hz).
    replace (z0 * u s) with (- src_at (cplx c) s) by (unfold u; field; exact Hz). unfold z0, src_at. ring. }
  assert (H1w : forall s, In s srcs -> (Cmod y + Cmod (u s) <= (r1 + r2) / D)%R).
  { intros s Hin. specialize (Hu s Hin). unfold Rdiv in *. lra. }
  assert (Hnz : forall s, In s srcs -> 1 - (y + u s) <> RtoC 0).
  { intros s Hin E. specialize (H1w s Hin). assert (TR := Cmod_triangle y (u s)).
    replace (y + u s) with (RtoC 1) in TR by (replace (y + u s) with (1 - (1 - (y + u s))) by ring; rewrite E; ring). rewrite Cmod_1 in TR. lra. }
  apply (field_error srcs x (le2_force e x) (fun s => dm2l y (u s) p M * / z0)).
  - exact Hx.
  - exact Hs.
  - intros s Hin E. assert (X := Hzw s Hin). rewrite E in X. replace (cplx x - cplx x) with (RtoC 0) in X by ring.
    apply (Hnz s Hin). replace (1 - (y + u s)) with (- (- (z0 * (1 - (y + u s)))) / z0) by (field; exact Hz). rewrite <- X. field. exact Hz.
  - apply Rmult_le_pos; [apply pow_le; apply Hq|]. left. apply Rinv_0_lt_compat. lra.
  - destruct (vec2 x Hx) as (a & b & ->). 
    apply (le2_force_sum e srcs (fun _ => ln (Cmod z0)) (fun s w => m2l_poly ((w - cplx center) / z0) (u s) p M)).
    + apply co_nonempty. exact Wf.
    + intros a' b'. destruct (m2l_sources_pot tb p center c srcs [a'; b'] Hok Hp Hz) as [e' [He' [_ [_ [_ V]]]]].
      rewrite He in He'; injection He' as <-. exact V.
    + intros s Hin. apply (cd_comp (fun y => m2l_poly y (u s) p M) (fun w => (w - cplx center) / z0)); [apply cd_affine|]. apply cd_m2l; assumption.
  - intros s Hin. rewrite Hzw by exact Hin. assert (N := Hnz s Hin).
    assert (DE := dm2l_error y (u s) p M Hp HM ((r1 + r2) / D)%R (H1w s Hin) (proj2 Hq)).
    replace (- (dm2l y (u s) p M * / z0) - / - (z0 * (1 - (y + u s)))) with ((/ (1 - (y + u s)) - dm2l y (u s) p M) / z0).
    2:{ symmetry. apply inv_aux; assumption. }
    eapply Rle_trans; [apply (Cmod_ratio _ _ _ D ltac:(lra) DE Hz0)|]. right. field. lra.
Qed.

(** Local expansion of distant sources. *)
Theorem le2_force_error center p srcs x rad r e : length center = 2%nat -> length x = 2%nat -> same_dim 2 srcs ->
  (0 <= rad < r)%R -> (forall s, In s srcs -> r <= dist (ps_pos s) center)%R -> (dist x center <= rad)%R ->
  le2_sources center p srcs = Ok e ->
  forall k, (k < 2)%nat -> (Rabs (nth k (le2_force e x) 0 - rsum (fun s => force_on 2 true 0 s x k) srcs)
    <= abs_charge srcs * ((rad / r) ^ p / (r - rad)))%R.
Proof.
  intros Hc Hx Hs [H0 Hr] Hrad Hd He.
  destruct (le2_sources_pot center p srcs x e He) as (_ & Hnz & Wf & _).
  assert (Hw : forall s, In s srcs -> (r <= Cmod (src_at (cplx center) s))%R).
  { intros s Hin. unfold src_at. rewrite <- dist_Cmod by (try exact Hc; apply Hs; exact Hin). apply Hrad. exact Hin. }
  assert (Hz : (Cmod (cplx x - cplx center)%C <= rad)%R) by (rewrite <- dist_Cmod by assumption; exact Hd).
  set (z := cplx x - cplx center) in *.
  assert (Hzw : forall s, cplx x - cplx (ps_pos s) = - (src_at (cplx center) s - z)) by (intros s; unfold z, src_at; ring).
  assert (HL : forall s, In s srcs -> (r - rad <= Cmod (src_at (cplx center) s - z)%C)%R) by (intros s Hin; apply Cmod_diff_lower; [apply Hw; exact Hin|exact Hz]).
  assert (HN : forall s, In s srcs -> src_at (cplx center) s - z <> RtoC 0) by (intros s Hin; apply Cmod_gt_0; specialize (HL s Hin); lra).
  apply (field_error srcs x (le2_force e x) (fun s => lsum (Cpow (z / src_at (cplx center) s)) (seq 0 p) * / src_at (cplx center) s)).
  - exact Hx.
  - exact Hs.
  - intros s Hin E. apply (HN s Hin). assert (X := Hzw s). rewrite E in X. replace (cplx x - cplx x) with (RtoC 0) in X by ring.
    replace (src_at (cplx center) s - z) with (- - (src_at (cplx center) s - z)) by ring. rewrite <- X. ring.
  - apply Rmult_le_pos; [apply pow_le; apply Rmult_le_pos; [exact H0|]|]; left; apply Rinv_0_lt_compat; lra.
  - destruct (vec2 x Hx) as (a & b & ->).
    apply (le2_force_sum e srcs (fun s => ln (Cmod (src_at (cplx center) s))) (fun s w => log_poly ((w - cplx center) / src_at (cplx center) s) p)).
    + apply co_nonempty. exact Wf.
    + intros a' b'. apply (le2_sources_pot center p srcs [a'; b'] e He).
    + intros s Hin. apply (cd_comp (fun y => log_poly y p) (fun w => (w - cplx center) / src_at (cplx center) s)); [apply cd_affine|apply cd_log_poly].
  - intros s Hin. rewrite Hzw. set (w := src_at (cplx center) s) in *. assert (Nw : w <> RtoC 0) by (apply Hnz; exact Hin). assert (N := HN s Hin). fold w in N.
    assert (N1 : 1 - z / w <> RtoC 0). { intros E. apply N. replace (w - z) with (w * (1 - z / w)) by (field; exact Nw). rewrite E. ring. }
    assert (GE := geom_C (z / w) p).
    assert (EL : lsum (Cpow (z / w)) (seq 0 p) = (1 - Cpow (z / w) p) / (1 - z / w)) by (rewrite <- GE; field; split; [exact Nw|exact N]).
    rewrite EL. replace (- ((1 - Cpow (z / w) p) / (1 - z / w) * / w) - / - (w - z)) with (Cpow (z / w) p / (w - z)) by (field; repeat split; try assumption; apply Copp_nz; assumption).
    apply Cmod_ratio; [lra| |apply HL; exact Hin]. rewrite Cmod_pow. apply pow_incr. split; [apply Cmod_ge_0|].
    apply Cmod_ratio; [lra|exact Hz|apply Hw; exact Hin].
Qed.

(** Multipole expansion. *)
Theorem me2_force_error center p srcs x rad r : length center = 2%nat -> length x = 2%nat -> same_dim 2 srcs ->
  (0 <= rad < r)%R -> (forall s, In s srcs -> dist (ps_pos s) center <= rad)%R -> (r <= dist x center)%R ->
  exists F, me2_force (me2_sources center p srcs) x = Ok F /\ length F = 2%nat /\
  forall k, (k < 2)%nat -> (Rabs (nth k F 0 - rsum (fun s => force_on 2 true 0 s x k) srcs)
    <= abs_charge srcs * ((rad / r) ^ S p / (r - rad)))%R.
Proof.
  intros Hc Hx Hs [H0 Hr] Hrad Hd.
  assert (Hw : forall s, In s srcs -> (Cmod (src_at (cplx center) s) <= rad)%R).
  { intros s Hin. unfold src_at. rewrite <- dist_Cmod by (try exact Hc; apply Hs; exact Hin). apply Hrad. exact Hin. }
  assert (Hz : (r <= Cmod (cplx x - cplx center)%C)%R) by (rewrite <- dist_Cmod by assumption; exact Hd).
  set (e := me2_sources center p srcs).
  assert (Ec : se_ctr e = cplx center) by reflexivity.
  assert (He : se_co e <> []). { apply co_nonempty. unfold e. rewrite me2_sources_map. unfold wf_se; cbn [se_co se_ord]. rewrite map_length, seq_length. reflexivity. }
  set (z := cplx x - cplx center) in *. assert (Nz : z <> RtoC 0) by (apply Cmod_gt_0; lra).
  exists [(- Re (me_res e z))%R; Im (me_res e z)]. split; [apply (me2_force_res e x He); rewrite Ec; exact Nz|]. split; [reflexivity|].
  assert (Hzw : forall s, cplx x - cplx (ps_pos s) = z - src_at (cplx center) s) by (intros s; unfold z, src_at; ring).
  assert (HL : forall s, In s srcs -> (r - rad <= Cmod (z - src_at (cplx center) s)%C)%R) by (intros s Hin; apply Cmod_diff_lower; [exact Hz|apply Hw; exact Hin]).
  assert (HN : forall s, In s srcs -> z - src_at (cplx center) s <> RtoC 0) by (intros s Hin; apply Cmod_gt_0; specialize (HL s Hin); lra).
  (* the residue as a sum over the sources *)
  set (v := fun s => lsum (Cpow (src_at (cplx center) s / z)) (seq 0 p) * (src_at (cplx center) s * - / (z * z)) - / z).
  assert (Hval : forall w, w <> RtoC 0 -> me_val e w = rsum (fun s => ps_q s * (ln (Cmod w) - Re (log_poly (src_at (cplx center) s * / w)%C p)))%R srcs).
  { intros w Nw. set (X := [(Re w + nth 0 center 0)%R; (Im w + nth 1 center 0)%R]).
    assert (EX : cplx X - cplx center = w).
    { destruct (vec2 center Hc) as (c0 & c1 & ->). unfold X, cplx, vget; cbn [nth]. destruct w as [w0 w1]; unfold Re, Im, Cminus, Cplus, Copp; cbn [fst snd]. f_equal; ring. }
    assert (A := me2_pot_val e X He). rewrite Ec, EX in A. specialize (A Nw).
    assert (B := me2_sources_pot center p srcs X). cbv zeta in B. rewrite EX in B. specialize (B Nw). fold e in B. rewrite A in B. injection B as B. exact B. }
  assert (HD : forall g t u, cdc g t u -> g t = z -> Re (me_res e z * u)%C = rsum (fun s => ps_q s * - Re (v s * u)%C)%R srcs).
  { intros g t u Hg Eg. assert (Ng : g t <> RtoC 0) by (rewrite Eg; exact Nz).
    assert (D1 := me_val_deriv e g t u Hg Ng). rewrite Eg in D1.
    assert (D2 : is_derive (fun s0 => me_val e (g s0)) t (rsum (fun s => ps_q s * - Re (v s * u)%C)%R srcs)).
    { apply (is_derive_ext_loc (fun s0 => rsum (fun s => ps_q s * (ln (Cmod (g s0)) - Re (log_poly (src_at (cplx center) s * / g s0)%C p)))%R srcs)).
      { refine (filter_imp _ _ _ (locally_nz g t u Hg Ng)). intros s0 N0. symmetry. apply Hval. exact N0. }
      apply (is_derive_rsum (fun s s0 => ps_q s * (ln (Cmod (g s0)) - Re (log_poly (src_at (cplx center) s * / g s0)%C p)))%R). intros s Hin.
      apply (is_derive_scal (fun s0 => ln (Cmod (g s0)) - Re (log_poly (src_at (cplx center) s * / g s0)%C p))%R).
      assert (CDF : cd (fun w => log_poly (src_at (cplx center) s * / w)%C p) z (lsum (Cpow (src_at (cplx center) s / z)) (seq 0 p) * (src_at (cplx center) s * - / (z * z)))).
      { apply (cd_comp (fun y => log_poly y p) (fun w => src_at (cplx center) s * / w)); [apply cd_scal; apply cd_inv; exact Nz|apply cd_log_poly]. }
      destruct (CDF g t u Hg Eg) as [A _]. assert (B := cdc_ln g t u Hg Ng). rewrite Eg in B.
      assert (GG := is_derive_minus (V := R_NormedModule) _ _ t _ _ B A).
      match goal with |- is_derive _ _ ?d => match type of GG with is_derive _ _ ?d' => replace d with d'; [exact GG|] end end.
      unfold minus, plus, opp; cbn. unfold v. set (q := lsum (Cpow (src_at (cplx center) s / z)) (seq 0 p) * (src_at (cplx center) s * - / (z * z))).
      replace (Re ((q - / z) * u)) with (Re (q * u) - Re (u / z))%R by (unfold Cdiv; rewrite (Cmult_comm u); unfold Re; simpl; ring). ring. }
    apply is_derive_unique in D1. apply is_derive_unique in D2. exact (eq_trans (eq_sym D1) D2). }
  destruct (vec2 x Hx) as (a & b & Ex).
  assert (Zx : cplx [a; b] - cplx center = z) by (unfold z; rewrite Ex; reflexivity).
  assert (HX := HD _ _ _ (cdc_x (cplx center) a b) Zx). assert (HY := HD _ _ _ (cdc_y (cplx center) a b) Zx).
  apply (field_error srcs x _ v).
  - exact Hx.
  - exact Hs.
  - intros s Hin E. apply (HN s Hin). assert (X := Hzw s). rewrite E in X. rewrite <- X. ring.
  - apply Rmult_le_pos; [apply pow_le; apply Rmult_le_pos; [exact H0|]|]; left; apply Rinv_0_lt_compat; lra.
  - f_equal; [|f_equal].
    + replace (Re (me_res e z)) with (Re (me_res e z * RtoC 1)%C) by (unfold Re; simpl; ring). rewrite HX, <- rsum_opp. apply rsum_ext. intros s _. unfold Re; simpl; ring.
    + replace (Im (me_res e z)) with (- Re (me_res e z * Ci)%C)%R by (unfold Re, Im; simpl; ring). rewrite HY, <- rsum_opp. apply rsum_ext. intros s _. unfold Re, Im; simpl; ring.
  - intros s Hin. rewrite Hzw. unfold v. set (w := src_at (cplx center) s) in *. assert (N := HN s Hin). fold w in N.
    assert (N1 : 1 - w / z <> RtoC 0). { intros E. apply N. replace (z - w) with (z * (1 - w / z)) by (field; exact Nz). rewrite E. ring. }
    assert (GE := geom_C (w / z) p).
    assert (EL : lsum (Cpow (w / z)) (seq 0 p) = (1 - Cpow (w / z) p) / (1 - w / z)) by (rewrite <- GE; field; split; [exact Nz|exact N]).
    rewrite EL.
    replace (- ((1 - Cpow (w / z) p) / (1 - w / z) * (w * - / (z * z)) - / z) - / (z - w)) with (- (Cpow (w / z) (S p) / (z - w))) by (cbn [Cpow]; field; repeat split; try assumption).
    rewrite Cmod_opp. apply Cmod_ratio; [lra| |apply HL; exact Hin]. rewrite Cmod_pow. apply pow_incr. split; [apply Cmod_ge_0|].
    apply Cmod_ratio; [lra|apply Hw; exact Hin|exact Hz].
Qed.
