(** Derivatives of the solid harmonics, and the derivatives of the surface harmonics with respect to the angles. *)
From Coq Require Import Reals List Arith ZArith Lia Lra.
From Coquelicot Require Import Coquelicot.
From Verif Require Import Num Outcome Vec Tables CAux TableProofs Tables3D Table3DProofs Exp2Forces Exp2ForceErrors SolidHarmonics Zonal HarmonicBounds Kernel3 Harmonics3D.
Import ListNotations.
Local Open Scope R_scope.
Local Open Scope C_scope.

(** ** Curves in space *)
Definition dp3 (g : R -> P3) (t : R) (u : P3) : Prop :=
  is_derive (fun s => c1 (g s)) t (c1 u) /\ is_derive (fun s => c2 (g s)) t (c2 u) /\ is_derive (fun s => c3 (g s)) t (c3 u).

Lemma cdc_scal c f t v : cdc f t v -> cdc (fun s => c * f s) t (c * v).
Proof.
  intros H. pose proof (cdc_mult _ _ t _ _ (cdc_const c t) H) as G. refine (cdc_eq _ _ _ _ G _). cbv beta. ring.
Qed.
Lemma cdc_ext_loc f g t v : locally t (fun s => f s = g s) -> cdc f t v -> cdc g t v.
Proof.
  intros L [A B]. split.
  - eapply is_derive_ext_loc; [|exact A]. refine (filter_imp _ _ _ L). intros s ->. reflexivity.
  - eapply is_derive_ext_loc; [|exact B]. refine (filter_imp _ _ _ L). intros s ->. reflexivity.
Qed.
Lemma cdc_ext f g t v : (forall s, f s = g s) -> cdc f t v -> cdc g t v.
Proof. intros E. apply cdc_ext_loc. apply filter_forall. exact E. Qed.
Lemma cdc_lsum {A} (f : A -> R -> C) (v : A -> C) t l : (forall a, In a l -> cdc (f a) t (v a)) -> cdc (fun s => lsum (fun a => f a s) l) t (lsum v l).
Proof.
  induction l as [|a l IH]; intros H.
  - rewrite lsum_nil. refine (cdc_ext (fun _ => RtoC 0) _ t _ _ (cdc_const _ t)). intros s. now rewrite lsum_nil.
  - rewrite lsum_cons. assert (G := cdc_plus _ _ t _ _ (H a (or_introl eq_refl)) (IH (fun b Hb => H b (or_intror Hb)))).
    destruct G as [G1 G2]. split.
    + eapply is_derive_ext; [|exact G1]. intros s. rewrite lsum_cons. reflexivity.
    + eapply is_derive_ext; [|exact G2]. intros s. rewrite lsum_cons. reflexivity.
Qed.
Lemma cdc_real (f : R -> R) t v : is_derive f t v -> cdc (fun s => RtoC (f s)) t (RtoC v).
Proof.
  intros H. split; [exact H|]. change (is_derive (fun _ : R => 0%R) t 0%R). apply (is_derive_const (K := R_AbsRing) (V := R_NormedModule) 0%R t).
Qed.

Lemma dp3_hz g t u : dp3 g t u -> cdc (fun s => hz (H3 (g s))) t (hz (H3 u)).
Proof. intros (_ & _ & H). apply (cdc_real (fun s => c3 (g s))). exact H. Qed.
Lemma half_derive (f : R -> R) t v : is_derive f t v -> is_derive (fun s => f s / 2)%R t (v / 2)%R.
Proof.
  intros H. apply (is_derive_ext (fun s => / 2 * f s)%R); [intros; unfold Rdiv; apply Rmult_comm|].
  replace (v / 2)%R with (scal (/ 2)%R v) by (unfold scal; simpl; unfold mult; simpl; field). apply (is_derive_scal f). exact H.
Qed.
Lemma opp_derive (f : R -> R) t v : is_derive f t v -> is_derive (fun s => - f s)%R t (- v)%R.
Proof. intros H. apply (is_derive_opp (V := R_NormedModule) f). exact H. Qed.
Lemma dp3_hp g t u : dp3 g t u -> cdc (fun s => hp (H3 (g s))) t (hp (H3 u)).
Proof.
  intros (A & B & _). split.
  - apply (half_derive (fun s => c2 (g s))). exact B.
  - apply (half_derive (fun s => - c1 (g s))%R). apply opp_derive. exact A.
Qed.
Lemma dp3_hq g t u : dp3 g t u -> cdc (fun s => hq (H3 (g s))) t (hq (H3 u)).
Proof.
  intros (A & B & _). split.
  - apply (half_derive (fun s => - c2 (g s))%R). apply opp_derive. exact B.
  - apply (half_derive (fun s => - c1 (g s))%R). apply opp_derive. exact A.
Qed.

(** ** The derivative of [sh] in direction [u] *)
Definition dsh (u w : hpt) (n : nat) (m : Z) : C :=
  match n with
  | O => 0
  | S k => hz u * sh w k m + hp u * sh w k (m - 1) + hq u * sh w k (m + 1)
  end.
Lemma dsh_A u w n m : hz w * dsh u w n m + hp w * dsh u w n (m - 1) + hq w * dsh u w n (m + 1) = Cn n * (hz u * sh w n m + hp u * sh w n (m - 1) + hq u * sh w n (m + 1)).
Proof.
  destruct n as [|k]; [unfold dsh; rewrite Cn_0; ring|]. unfold dsh.
  transitivity (hz u * (Cn (S k) * sh w (S k) m) + hp u * (Cn (S k) * sh w (S k) (m - 1)) + hq u * (Cn (S k) * sh w (S k) (m + 1))); [|ring].
  rewrite !sh_A. replace (m - 1 + 1)%Z with m by lia. replace (m + 1 - 1)%Z with m by lia. ring.
Qed.
Theorem sh_derive g t u n : dp3 g t u -> forall m, cdc (fun s => sh (H3 (g s)) n m) t (dsh (H3 u) (H3 (g t)) n m).
Proof.
  intros Hg. assert (Hz := dp3_hz g t u Hg). assert (Hp := dp3_hp g t u Hg). assert (Hq := dp3_hq g t u Hg).
  induction n as [|n IH]; intros m.
  - cbn [sh dsh]. apply cdc_const.
  - cbn [sh].
    assert (A := cdc_mult _ _ t _ _ Hz (IH m)). assert (B := cdc_mult _ _ t _ _ Hp (IH (m - 1)%Z)). assert (D := cdc_mult _ _ t _ _ Hq (IH (m + 1)%Z)).
    assert (G := cdc_scal (/ Cn (S n)) _ t _ (cdc_plus _ _ t _ _ (cdc_plus _ _ t _ _ A B) D)). cbv beta in G.
    eapply cdc_ext; [|eapply cdc_eq; [exact G|]].
    + intros s. cbv beta. unfold Cdiv. ring.
    + cbv beta. set (w := H3 (g t)). set (uu := H3 u). pose proof (dsh_A uu w n m) as E. cbn [dsh].
      transitivity (/ Cn (S n) * ((hz uu * sh w n m + hp uu * sh w n (m - 1) + hq uu * sh w n (m + 1)) + (hz w * dsh uu w n m + hp w * dsh uu w n (m - 1) + hq w * dsh uu w n (m + 1)))); [ring|].
      rewrite E, Cn_S. field. rewrite <- Cn_S. apply Cn_S_nz.
Qed.

(** Linear in the direction; homogeneous in the point. *)
Lemma dsh_add u u' w n m : dsh (hadd u u') w n m = dsh u w n m + dsh u' w n m.
Proof. destruct n; unfold dsh, hadd; cbn [hz hp hq]; ring. Qed.
Lemma dsh_scal s u w n m : dsh (hscal s u) w n m = s * dsh u w n m.
Proof. destruct n; unfold dsh, hscal; cbn [hz hp hq]; ring. Qed.
Lemma dsh_point s u w n m : dsh u (hscal s w) n m = Cpow s (n - 1) * dsh u w n m.
Proof.
  destruct n as [|k]; [unfold dsh; ring|]. unfold dsh. rewrite !sh_scal. replace (S k - 1)%nat with k by lia. ring.
Qed.
(** Euler's formula and the rotation about the vertical axis. *)
Lemma dsh_radial w n m : dsh w w n m = Cn n * sh w n m.
Proof. destruct n as [|k]; [unfold dsh; rewrite Cn_0; ring|]. rewrite sh_A. reflexivity. Qed.
Lemma dsh_azimuth w n m : dsh (mkh 0 (Ci * hp w) (- Ci * hq w)) w n m = Ci * Cz m * sh w n m.
Proof.
  destruct n as [|k].
  - unfold dsh. cbn [sh]. destruct (Z.eqb_spec m 0) as [->|]; [rewrite Cz_0|]; ring.
  - transitivity (Ci * (Cz m * sh w (S k) m)); [|ring]. rewrite sh_B. unfold dsh. cbn [hz hp hq]. ring.
Qed.

(** ** The normalised harmonics *)
Definition dYr (u v : P3) (n m : Z) : C := ipow (- Z.abs m) * RtoC (a_val n m) * dsh (H3 u) (H3 v) (Z.to_nat n) m.
Lemma Yr_derive g t u n m : dp3 g t u -> cdc (fun s => Yr (g s) n m) t (dYr u (g t) n m).
Proof. intros H. unfold Yr, dYr. apply cdc_scal. now apply sh_derive. Qed.
Lemma dYr_add u u' v n m : dYr (padd u u') v n m = dYr u v n m + dYr u' v n m.
Proof. unfold dYr. rewrite H3_add, dsh_add. ring. Qed.
Lemma dYr_scal s u v n m : dYr (pscal s u) v n m = RtoC s * dYr u v n m.
Proof. unfold dYr. rewrite H3_scal, dsh_scal. ring. Qed.
Lemma dYr_point s u v n m : dYr u (pscal s v) n m = RtoC (s ^ (Z.to_nat n - 1)) * dYr u v n m.
Proof. unfold dYr. rewrite H3_scal, dsh_point, Cpow_RtoC. ring. Qed.

(** The unit vectors of spherical coordinates. *)
Definition e_r (th ph : R) : P3 := polar 1 th ph.
Definition e_th (th ph : R) : P3 := (cos th * cos ph, cos th * sin ph, - sin th)%R.
Definition e_ph (ph : R) : P3 := (- sin ph, cos ph, 0)%R.
Lemma dYr_er th ph n m : (0 <= n)%Z -> dYr (e_r th ph) (polar 1 th ph) n m = RtoC (IZR n) * Yr (polar 1 th ph) n m.
Proof.
  intros Hn. unfold dYr, Yr, e_r. rewrite dsh_radial. unfold Cn. replace (INR (Z.to_nat n)) with (IZR n) by (rewrite INR_IZR_INZ, Z2Nat.id; auto). ring.
Qed.
Lemma dYr_eph th ph n m : RtoC (sin th) * dYr (e_ph ph) (polar 1 th ph) n m = Ci * RtoC (IZR m) * Yr (polar 1 th ph) n m.
Proof.
  rewrite <- dYr_scal. unfold dYr, Yr.
  replace (H3 (pscal (sin th) (e_ph ph))) with (mkh 0 (Ci * hp (H3 (polar 1 th ph))) (- Ci * hq (H3 (polar 1 th ph)))).
  - rewrite dsh_azimuth. unfold Cz. ring.
  - unfold H3, hR, polar, e_ph, pscal, c1, c2, c3; cbn [fst snd hz hp hq].
    f_equal; apply injective_projections; simpl; field.
Qed.
Lemma polar_th_derive ph th : dp3 (fun t => polar 1 t ph) th (e_th th ph).
Proof.
  unfold dp3, polar, e_th, c1, c2, c3; cbn [fst snd]. split; [|split]; auto_derive; auto; ring.
Qed.

Lemma locally_sin th : (0 < sin th)%R -> locally th (fun t => 0 <= sin t)%R.
Proof.
  intros H. assert (Hc : continuous sin th) by apply continuous_sin.
  assert (HU : locally (sin th) (fun r => 0 < r)%R) by (apply (open_gt 0); exact H).
  pose proof (Hc _ HU) as HU'. unfold filtermap in HU'. refine (filter_imp _ _ _ HU'). intros s Hs. lra.
Qed.
Lemma RtoC_factor (f : R -> R) (c : C) t v : c <> 0 -> cdc (fun s => RtoC (f s) * c) t v -> exists f', is_derive f t f' /\ v = RtoC f' * c.
Proof.
  intros Hc H. assert (G := cdc_scal (/ c) _ t _ H). exists (Re (/ c * v)). destruct G as [G1 G2].
  assert (E1 : forall s, Re (/ c * (RtoC (f s) * c)) = f s).
  { intros s. transitivity (Re (RtoC (f s))); [|reflexivity]. f_equal. field. exact Hc. }
  assert (E2 : forall s, Im (/ c * (RtoC (f s) * c)) = 0%R).
  { intros s. transitivity (Im (RtoC (f s))); [|reflexivity]. f_equal. field. exact Hc. }
  split.
  - eapply is_derive_ext; [exact E1|exact G1].
  - assert (I0 : Im (/ c * v) = 0%R).
    { assert (G3 : is_derive (fun _ : R => 0%R) t (Im (/ c * v))) by (eapply is_derive_ext; [exact E2|exact G2]).
      apply is_derive_unique in G3. rewrite Derive_const in G3. symmetry. exact G3. }
    assert (E : RtoC (Re (/ c * v)) = / c * v) by (destruct (/ c * v) as [a b]; cbn in *; rewrite I0; reflexivity).
    rewrite E. field. exact Hc.
Qed.
Lemma expi_pow_nz ph m : Cpow (expi ph) m <> 0.
Proof. intros E. assert (G : Cmod (Cpow (expi ph) m) = 1%R) by (rewrite Cmod_pow, expi_Cmod; apply pow1). rewrite E, Cmod_0 in G. lra. Qed.
Lemma sqrt2_nz : RtoC (sqrt 2) <> 0.
Proof. intros E. apply RtoC_inj in E. assert (0 < sqrt 2)%R by (apply sqrt_lt_R0; lra). lra. Qed.

(** The derivatives stored for m >= 0. *)
Lemma ylm_dvalue l m th ph : (0 < sin th)%R -> (m <= l)%nat ->
  (match m with O => RtoC (schmidt_dtheta l 0 th) | _ => RtoC (schmidt_dtheta l m th) * Cpow (expi ph) m / RtoC (sqrt 2) end)
  = dYr (e_th th ph) (polar 1 th ph) (Z.of_nat l) (Z.of_nat m).
Proof.
  intros Hs Hm. assert (D := Yr_derive _ _ _ (Z.of_nat l) (Z.of_nat m) (polar_th_derive ph th)). cbv beta in D.
  assert (L := locally_sin th Hs).
  set (c := match m with O => RtoC 1 | _ => Cpow (expi ph) m / RtoC (sqrt 2) end).
  assert (Hc : c <> 0).
  { unfold c. destruct m; [intros E; apply RtoC_inj in E; lra|]. intros E. apply (expi_pow_nz ph (S m)).
    transitivity (Cpow (expi ph) (S m) / RtoC (sqrt 2) * RtoC (sqrt 2)); [field; apply sqrt2_nz|]. rewrite E. ring. }
  assert (G : cdc (fun t => RtoC (schmidt l m (cos t)) * c) th (dYr (e_th th ph) (polar 1 th ph) (Z.of_nat l) (Z.of_nat m))).
  { eapply cdc_ext_loc; [|exact D]. refine (filter_imp _ _ _ L). intros t Ht. rewrite <- (ylm_value l m t ph Ht Hm). unfold c.
    destruct m; [now rewrite Cmult_1_r|]. unfold Cdiv. ring. }
  destruct (RtoC_factor _ _ _ _ Hc G) as (f' & F1 & F2). rewrite F2. unfold schmidt_dtheta, c.
  destruct m; rewrite (is_derive_unique _ _ _ F1); [now rewrite Cmult_1_r|]. unfold Cdiv. ring.
Qed.
Lemma dYr_conj u v n m : Cconj (dYr u v n m) = dYr u v n (- m).
Proof.
  assert (Hl : dp3 (fun t => padd v (pscal t u)) 0 u).
  { unfold dp3, padd, pscal, c1, c2, c3; cbn [fst snd]. split; [|split]; auto_derive; auto; ring. }
  assert (E0 : padd v (pscal 0 u) = v).
  { destruct v as [[a b] c0], u as [[a' b'] c']. unfold padd, pscal, c1, c2, c3; cbn [fst snd]. f_equal; [f_equal|]; ring. }
  assert (A := Yr_derive _ _ _ n m Hl). assert (B := Yr_derive _ _ _ n (- m)%Z Hl). cbv beta in A, B. rewrite E0 in A, B.
  eapply cdc_unique; [|exact B]. destruct A as [A1 A2]. split.
  - eapply is_derive_ext; [|exact A1]. intros s. rewrite <- Yr_conj. reflexivity.
  - eapply is_derive_ext; [|apply (opp_derive (fun s => Im (Yr (padd v (pscal s u)) n m))); exact A2]. intros s. rewrite <- Yr_conj. reflexivity.
Qed.
