(** Accuracy of the table of the derivatives of the spherical harmonics in rounded arithmetic. *)
From Coq Require Import Reals List Arith ZArith Lia Lra.
From Coquelicot Require Import Rcomplements Complex.
From Verif Require Import Num Outcome Vec Tables TableProofs Tables3D Table3DProofs CAux SolidHarmonics Zonal HarmonicBounds Kernel3 Expansion2D Spherical SphericalProofs Harmonics3D Gradient3 GradientBounds3 CoefNorms RoundedExpansion2D RoundedExpansion3D
  RoundedComplexSpec ApproxC RoundedHarmonicSpec RoundedHarmonics RoundedHarmonicTable RoundedTableSpec RoundedTable RoundedForce3D RoundedForceSpec3.
Import ListNotations.
Local Open Scope R_scope.
Arguments Cmod x%C.
Arguments ap w n%nat x'%C x%C X%R.

Section Table.
Variable w : R.
Hypothesis Hw : 0 <= w <= 1 / 2.
Variables ky kl : nat.
Variable G : garith.
Hypothesis HG : accurate_gradient w ky kl G.
Notation ap := (ap w).
Notation Y := (g_y G).
Notation B := (h_c (g_h G)).
Let HB : accurate_complex w B := ah_c _ _ _ (ag_h _ _ _ _ HG).
Let HY : accurate_table w kl Y := ag_y _ _ _ _ HG.

Definition gentry (L : nat -> nat -> R) (ph : R) (l m : Z) : C :=
  match Z.abs_nat m with
  | O => RtoC (L (Z.to_nat l) 0%nat)
  | S k => let y := c_divr B (c_scale B (L (Z.to_nat l) (S k)) (gpow (RtoC 1) (c_mul B) (y_exp Y ph) (S k))) (y_sqrt2 Y) in if (m <? 0)%Z then Cconj y else y
  end.
Lemma gentry_pos L ph l m : (0 < m)%Z -> gentry L ph l m =
  c_divr B (c_scale B (L (Z.to_nat l) (Z.to_nat m)) (gpow (RtoC 1) (c_mul B) (y_exp Y ph) (Z.to_nat m))) (y_sqrt2 Y).
Proof.
  intros Hm. unfold gentry. replace (Z.abs_nat m) with (Z.to_nat m) by lia. destruct (Z.to_nat m) as [|k] eqn:E; [lia|].
  replace (m <? 0)%Z with false by (symmetry; apply Z.ltb_ge; lia). reflexivity.
Qed.
Lemma gentry_neg L ph l m : (0 < m)%Z -> gentry L ph l (- m) = Cconj (gentry L ph l m).
Proof.
  intros Hm. unfold gentry. replace (Z.abs_nat (- m)) with (Z.abs_nat m) by lia. destruct (Z.abs_nat m) as [|k] eqn:E; [lia|].
  replace (m <? 0)%Z with false by (symmetry; apply Z.ltb_ge; lia). replace (- m <? 0)%Z with true by (symmetry; apply Z.ltb_lt; lia). reflexivity.
Qed.
Lemma deriv_table_r_ok p th ph : Rabs (y_cos Y th) <> 1 -> (0 <= p)%Z ->
  exists ty td, ylm_deriv_table_r G p th ph = Ok (ty, td) /\
    (forall l m, (Z.abs m <= l)%Z -> (l <= p)%Z -> ylm_get ty l m = Ok (gentry (fun l m => y_leg Y l m (y_cos Y th)) ph l m)) /\
    (forall l m, (Z.abs m <= l)%Z -> (l <= p)%Z -> ylm_get td l m = Ok (gentry (fun l m => g_dleg G l m (y_cos Y th)) ph l m)).
Proof.
  intros Hs Hp. unfold ylm_deriv_table_r. destruct (Req_EM_T (Rabs (y_cos Y th)) 1) as [E0|_]; [contradiction|]. set (tab0 := repeat (RtoC 0) _).
  assert (Hlen : Z.of_nat (length tab0) = ((p + 1) * (p + 1))%Z) by (unfold tab0; rewrite repeat_length; nia).
  set (V := gentry (fun l m => y_leg Y l m (y_cos Y th)) ph). set (W := gentry (fun l m => g_dleg G l m (y_cos Y th)) ph).
  match goal with |- exists ty td, ofold ?f _ _ = _ /\ _ =>
    destruct (loop f 0 p (fun i t => length (fst t) = length tab0 /\ length (snd t) = length tab0 /\
      forall l m, (Z.abs m <= l)%Z -> (l < i)%Z -> zget (fst t) (sh_index l m) = Ok (V l m) /\ zget (snd t) (sh_index l m) = Ok (W l m)) (tab0, tab0)) as [t' [E [_ [_ H]]]] end.
  - lia.
  - split; [reflexivity|]. split; [reflexivity|]. intros; lia.
  - intros l [ty td] Hl [Ht [Htd Hold]]. cbn [fst snd] in *.
    pose proof (sh_index_bound l 0 p ltac:(lia) ltac:(lia)) as Hb.
    rewrite zset_ok by (rewrite Ht, Hlen; lia). cbn [bind]. rewrite zset_ok by (rewrite Htd, Hlen; lia). cbn [bind].
    match goal with |- exists s, ofold ?f _ ?s0 = _ /\ _ =>
      destruct (loop f 1 l (fun i st => length (fst st) = length tab0 /\ length (snd st) = length tab0 /\
         (forall l' m', (Z.abs m' <= l')%Z -> (l' < l)%Z -> zget (fst st) (sh_index l' m') = Ok (V l' m') /\ zget (snd st) (sh_index l' m') = Ok (W l' m')) /\
         (forall m', (Z.abs m' < i)%Z -> (Z.abs m' <= l)%Z -> zget (fst st) (sh_index l m') = Ok (V l m') /\ zget (snd st) (sh_index l m') = Ok (W l m'))) s0) as [st2 [E2 [L2 [M2 [O2 N2]]]]] end.
    + lia.
    + cbn [fst snd]. rewrite !lset_length. split; [assumption|]. split; [assumption|]. split.
      * intros l' m' Hm' Hl'. destruct (Hold l' m' Hm' Hl') as [P1 P2]. pose proof (sh_index_bound l' m' l' ltac:(lia) ltac:(lia)).
        assert (sh_index l' m' <> sh_index l 0) by (intros E'; apply sh_index_inj in E'; lia).
        split; rewrite zget_other; try assumption; lia.
      * intros m' Hm' Hml. replace m' with 0%Z by lia. split.
        -- rewrite zget_same by (rewrite Ht, Hlen; lia). reflexivity.
        -- rewrite zget_same by (rewrite Htd, Hlen; lia). reflexivity.
    + intros m [t1 d1] Hm [L1 [M1 [O1 N1]]]. cbn [fst snd] in *.
      pose proof (sh_index_bound l m p ltac:(lia) ltac:(lia)) as B1.
      pose proof (sh_index_bound l (- m) p ltac:(lia) ltac:(lia)) as B2.
      rewrite pow_table_get by lia. cbn [bind].
      match goal with |- context [zset t1 (sh_index l m) ?y0] => set (y := y0) end.
      match goal with |- context [zset d1 (sh_index l m) ?y0] => set (dy := y0) end.
      assert (Ey : y = V l m) by (unfold V; rewrite gentry_pos by lia; reflexivity).
      assert (Edy : dy = W l m) by (unfold W; rewrite gentry_pos by lia; reflexivity).
      rewrite zset_ok by (rewrite L1, Hlen; lia). cbn [bind].
      rewrite zset_ok by (rewrite lset_length, L1, Hlen; lia). cbn [bind].
      rewrite zset_ok by (rewrite M1, Hlen; lia). cbn [bind].
      rewrite zset_ok by (rewrite lset_length, M1, Hlen; lia). cbn [bind].
      eexists. split; [reflexivity|]. cbn [fst snd]. rewrite !lset_length. split; [assumption|]. split; [assumption|].
      split.
      * intros l' m' Hm' Hl'. destruct (O1 l' m' Hm' Hl') as [P1 P2].
        pose proof (sh_index_bound l' m' l' ltac:(lia) ltac:(lia)).
        assert (D1 : sh_index l' m' <> sh_index l (- m)) by (intros E'; apply sh_index_inj in E'; lia).
        assert (D2 : sh_index l' m' <> sh_index l m) by (intros E'; apply sh_index_inj in E'; lia).
        rewrite !zget_other by (try assumption; lia). split; assumption.
      * intros m' Hm' Hml.
        pose proof (sh_index_bound l m' p ltac:(lia) ltac:(lia)).
        destruct (Z.eq_dec m' (- m)) as [->|Hne].
        -- rewrite !zget_same by (rewrite lset_length, ?L1, ?M1, Hlen; lia). split; f_equal.
           ++ rewrite Ey. unfold V. rewrite gentry_neg by lia. reflexivity.
           ++ rewrite Edy. unfold W. rewrite gentry_neg by lia. reflexivity.
        -- assert (sh_index l m' <> sh_index l (- m)) by (intros E'; apply sh_index_inj in E'; lia).
           rewrite (zget_other _ (sh_index l (- m))) by (try assumption; lia). rewrite (zget_other _ (sh_index l (- m)) _ (Cconj dy)) by (try assumption; lia).
           destruct (Z.eq_dec m' m) as [->|Hne2].
           ++ rewrite !zget_same by (rewrite ?L1, ?M1, Hlen; lia). rewrite Ey, Edy. split; reflexivity.
           ++ assert (sh_index l m' <> sh_index l m) by (intros E'; apply sh_index_inj in E'; lia).
              rewrite !zget_other by (try assumption; lia). apply N1; lia.
    + rewrite E2. eexists. split; [reflexivity|]. split; [assumption|]. split; [assumption|].
      intros l' m' Hm' Hl'. destruct (Z.eq_dec l' l) as [->|Hne]; [apply N2; lia|apply O2; lia].
  - destruct t' as [ty td]. exists ty, td. split; [exact E|]. split; intros l m Hm Hl'; apply H; lia.
Qed.

(** ** Entries *)
Lemma gpow_ap ph m : ap (2 * m) (gpow (RtoC 1) (c_mul B) (y_exp Y ph) m) (Cpow (expi ph) m) 1.
Proof.
  assert (B0 : ap 1 (y_exp Y ph) (expi ph) 1).
  { split; [rewrite Cmod_expi; lra|]. eapply Rle_trans; [apply (at_exp _ _ _ HY)|]. rewrite pow_1. lra. }
  induction m as [|m IH].
  - apply ap_exact; [exact Hw|]. cbn. rewrite Cmod_1. lra.
  - cbn [gpow]. replace (2 * S m)%nat with (S (2 * m + 1)) by lia. rewrite Cpow_S, (Cmult_comm (expi ph)).
    assert (Q := op_mul w Hw B HB _ _ _ _ _ _ _ _ IH B0). rewrite Rmult_1_r in Q. exact Q.
Qed.
Definition gref (L : nat -> nat -> R) (ph : R) (l m : nat) : C :=
  match m with O => RtoC (L l 0%nat) | _ => (RtoC (L l m) * Cpow (expi ph) m / RtoC (sqrt 2))%C end.
Lemma gentry_ap (L L' : nat -> nat -> R) (V : Z -> Z -> C) ph l m a M : (Z.abs m <= l)%Z -> (forall k, (k <= Z.to_nat l)%nat -> gref L ph (Z.to_nat l) k = V l (Z.of_nat k)) ->
  (forall k, V l (- k)%Z = Cconj (V l k)) -> (forall k, (Z.abs k <= l)%Z -> Cmod (V l k) <= M) ->
  (forall k, (k <= Z.to_nat l)%nat -> Rabs (L' (Z.to_nat l) k - L (Z.to_nat l) k) <= ((1 + w) ^ a - 1) * M) ->
  ap (a + 2 * Z.to_nat l + 4) (gentry L' ph l m) (V l m) M.
Proof.
  intros Hm HV HC HM HL. assert (PM : 0 <= M) by (eapply Rle_trans; [apply Cmod_ge_0|apply (HM 0%Z); lia]).
  assert (N1 : (Z.abs_nat m <= Z.to_nat l)%nat) by lia. unfold gentry. destruct (Z.abs_nat m) as [|k] eqn:Em.
  - replace m with 0%Z by lia. specialize (HV 0%nat ltac:(lia)). cbn [gref] in HV. change (Z.of_nat 0) with 0%Z in HV. rewrite <- HV.
    eapply (ap_weaken w Hw a _ _ _ M); [split|lia|apply Rle_refl].
    + rewrite HV. apply HM. lia.
    + rewrite <- RtoC_minus, Cmod_R. apply HL. lia.
  - assert (S2 : 0 < sqrt 2) by (apply sqrt_lt_R0; lra). assert (S22 : sqrt 2 * sqrt 2 = 2) by (apply sqrt_sqrt; lra). assert (S1 : 1 <= sqrt 2) by nra.
    specialize (HV (S k) ltac:(lia)). cbn [gref] in HV. assert (U := HM (Z.of_nat (S k)) ltac:(lia)). rewrite <- HV in U.
    assert (SM : Rabs (L (Z.to_nat l) (S k)) <= sqrt 2 * M).
    { rewrite Cmod_div, Cmod_mult, Cmod_R, Cmod_pow, Cmod_expi, pow1, Cmod_R, (Rabs_pos_eq (sqrt 2)), Rmult_1_r in U; [|lra|intros Z; apply RtoC_inj in Z; lra].
      unfold Rdiv in U. apply (Rmult_le_reg_r (/ sqrt 2)); [apply Rinv_0_lt_compat; exact S2|]. replace (sqrt 2 * M * / sqrt 2) with M by (field; lra). exact U. }
    assert (Q1 : ap a (RtoC (L' (Z.to_nat l) (S k))) (RtoC (L (Z.to_nat l) (S k))) (sqrt 2 * M)).
    { split; [rewrite Cmod_R; exact SM|]. rewrite <- RtoC_minus, Cmod_R. eapply Rle_trans; [apply HL; lia|]. assert (X := pw_ge1 w Hw a). apply Rmult_le_compat_l; [lra|nra]. }
    assert (Q2 := op_scale_ap w Hw B HB _ _ _ _ _ _ _ _ Q1 (gpow_ap ph (S k))).
    assert (NZ : y_sqrt2 Y <> 0). { assert (X := at_sqrt2 _ _ _ HY). unfold close in X. rewrite (Rabs_pos_eq (sqrt 2)) in X by lra. apply Rabs_le_between in X. nra. }
    set (y := c_divr B (c_scale B (L' (Z.to_nat l) (S k)) (gpow (RtoC 1) (c_mul B) (y_exp Y ph) (S k))) (y_sqrt2 Y)).
    assert (Q3 : ap (a + 2 * Z.to_nat l + 4) y (V l (Z.of_nat (S k))) M).
    { rewrite <- HV. eapply ap_weaken; [exact Hw| | |].
      - apply (ap_div w Hw _ _ _ _ (RtoC (y_sqrt2 Y)) (RtoC (sqrt 2)) (sqrt 2) y Q2).
        + unfold close_norm. rewrite <- RtoC_minus, !Cmod_R. apply (at_sqrt2 _ _ _ HY).
        + rewrite Cmod_R, Rabs_pos_eq by lra. split; [exact S2|apply Rle_refl].
        + apply comps_norm; [lra|]. apply (ac_divr _ _ HB). exact NZ.
      - lia.
      - right. field. lra. }
    destruct (Z.ltb_spec m 0).
    + replace m with (- Z.of_nat (S k))%Z by lia. rewrite HC. destruct Q3 as [A1 A2]. split; [rewrite conj_norm; exact A1|].
      match goal with |- Cmod ?z <= _ => replace z with (Cconj (y - V l (Z.of_nat (S k))))%C end; [rewrite conj_norm; exact A2|].
      unfold Cconj, Cminus, Cplus, Copp. cbn [fst snd]. f_equal. ring.
    + replace m with (Z.of_nat (S k)) by lia. exact Q3.
Qed.
Lemma e_th_unit t ph : pn (e_th t ph) = 1.
Proof.
  rewrite <- sqrt_1. unfold pn, nrm, e_th, c1, c2, c3; cbn [fst snd]. f_equal. assert (A := sin2_cos2 t). assert (A2 := sin2_cos2 ph). unfold Rsqr in *.
  transitivity (cos t * cos t * (sin ph * sin ph + cos ph * cos ph) + sin t * sin t); [ring|]. rewrite A2. lra.
Qed.
Lemma Y_entry th ph t l m : 0 < sin t -> cos t = y_cos Y th -> (Z.abs m <= l)%Z ->
  ap ((kl + 6) * (Z.to_nat l + 1)) (gentry (fun l m => y_leg Y l m (y_cos Y th)) ph l m) (Yr (polar 1 t ph) l m) 1.
Proof.
  intros Hs Hc Hm. assert (D : -1 <= y_cos Y th <= 1) by apply (at_cos _ _ _ HY).
  eapply (ap_weaken w Hw (kl * (Z.to_nat l + 1) + 2 * Z.to_nat l + 4) _ _ _ 1); [|nia|lra].
  apply (gentry_ap (fun l m => schmidt l m (cos t)) _ (Yr (polar 1 t ph))); [exact Hm| | | |].
  - intros k Hk. assert (Q := ylm_value (Z.to_nat l) k t ph ltac:(lra) Hk). rewrite Z2Nat.id in Q by lia. rewrite <- Q. unfold gref. destruct k; reflexivity.
  - intros k. symmetry. apply Yr_conj.
  - intros k Hk. eapply Rle_trans; [apply Yr_pt; lia|]. rewrite polar_pn by lra. rewrite pow1. lra.
  - intros k Hk. rewrite Hc, Rmult_1_r. apply (at_leg _ _ _ HY); assumption.
Qed.
Lemma dY_entry th ph t l m : 0 < sin t -> 0 <= t <= PI -> cos t = y_cos Y th -> (Z.abs m <= l)%Z ->
  ap ((kl + 6) * (Z.to_nat l + 1)) (gentry (fun l m => g_dleg G l m (y_cos Y th)) ph l m) (dYr (e_th t ph) (polar 1 t ph) l m) (2 * IZR l).
Proof.
  intros Hs Ht Hc Hm. assert (D : -1 <= y_cos Y th <= 1) by apply (at_cos _ _ _ HY).
  assert (D' : -1 < y_cos Y th < 1). { rewrite <- Hc in *. assert (Q := sin2_cos2 t). unfold Rsqr in Q. nra. }
  eapply (ap_weaken w Hw (kl * (Z.to_nat l + 1) + 2 * Z.to_nat l + 4) _ _ _ (2 * IZR l)); [|nia|lra].
  apply (gentry_ap (fun l m => schmidt_dtheta l m t) _ (dYr (e_th t ph) (polar 1 t ph))); [exact Hm| | | |].
  - intros k Hk. assert (Q := ylm_dvalue (Z.to_nat l) k t ph Hs Hk). rewrite Z2Nat.id in Q by lia. rewrite <- Q. unfold gref. destruct k; reflexivity.
  - intros k. symmetry. apply dYr_conj.
  - intros k Hk. apply dYr_bound; [exact Hk|apply e_th_unit|apply polar_pn; lra].
  - intros k Hk. assert (X := ag_dleg _ _ _ _ HG (Z.to_nat l) k _ Hk D'). rewrite <- Hc in X. rewrite acos_cos in X by exact Ht. rewrite Hc in X. eapply Rle_trans; [exact X|].
    rewrite INR_IZR_INZ, Z2Nat.id by lia. assert (P := pw_ge1 w Hw (kl * (Z.to_nat l + 1))). assert (Pl : 0 <= IZR l) by (apply IZR_le; lia). nra.
Qed.
End Table.
