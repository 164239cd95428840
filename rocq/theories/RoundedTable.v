(** Accuracy of the table of spherical harmonics in rounded arithmetic. *)
From Coq Require Import Reals List Arith ZArith Lia Lra.
From Coquelicot Require Import Rcomplements Complex.
From Verif Require Import Num Outcome Vec Tables TableProofs Tables3D Table3DProofs CAux Kernel3 Expansion2D Spherical SphericalProofs Harmonics3D CoefNorms RoundedExpansion2D RoundedExpansion3D
  RoundedComplexSpec ApproxC RoundedHarmonicSpec RoundedHarmonics RoundedHarmonicTable RoundedTableSpec.
Import ListNotations.
Local Open Scope R_scope.

(** ** Angles *)
Lemma sin_abs x : Rabs (sin x) <= Rabs x.
Proof.
  assert (G : forall y, 0 < y -> Rabs (sin y) <= y).
  { intros y Hy. assert (A := sin_lt_x y Hy). assert (B := SIN_bound y). destruct (Rle_lt_dec y PI) as [L|L].
    - rewrite Rabs_pos_eq; [lra|]. apply sin_ge_0; lra.
    - assert (P := PI2_1). unfold PI2 in P. apply Rabs_le. lra. }
  destruct (Rtotal_order x 0) as [H|[->|H]].
  - rewrite <- (Rabs_Ropp x), (Rabs_pos_eq (- x)) by lra. rewrite <- Rabs_Ropp, <- sin_neg. apply G. lra.
  - rewrite sin_0, Rabs_R0. lra.
  - rewrite (Rabs_pos_eq x) by lra. apply G, H.
Qed.
Lemma chord a b : Cmod (expi a - expi b)%C <= Rabs (a - b).
Proof.
  apply Rsqr_incr_0; [|apply Cmod_ge_0|apply Rabs_pos]. unfold Rsqr. rewrite <- Rabs_mult, (Rabs_pos_eq ((a - b) * (a - b))) by apply Rle_0_sqr.
  replace (Cmod (expi a - expi b)%C * Cmod (expi a - expi b)%C) with ((cos a - cos b) * (cos a - cos b) + (sin a - sin b) * (sin a - sin b)).
  2:{ unfold Cmod. rewrite sqrt_sqrt; [cbn; ring|]. apply Rplus_le_le_0_compat; apply pow2_ge_0. }
  assert (E := cos_minus a b). assert (H := cos_2a_sin ((a - b) / 2)). replace (2 * ((a - b) / 2)) with (a - b) in H by field.
  assert (S1 := sin2_cos2 a). assert (S2 := sin2_cos2 b). unfold Rsqr in *.
  assert (Q := sin_abs ((a - b) / 2)). assert (Q2 : sin ((a - b) / 2) * sin ((a - b) / 2) <= (a - b) / 2 * ((a - b) / 2)).
  { apply (Rsqr_le_abs_1 _ _ Q). }
  nra.
Qed.
Lemma cos_move a b : Rabs (cos a - cos b) <= Rabs (a - b).
Proof.
  eapply Rle_trans; [|apply chord]. eapply Rle_trans; [|apply Re_le_Cmod]. apply Req_le. reflexivity.
Qed.

(** The cosine of the angle of (h, z) when the first component is perturbed. *)
Lemma angle_move w h h' z : 0 <= w <= 1 / 2 -> 0 <= h -> Rabs (h' - h) <= w * h -> Rabs (cos (atan2 h' z) - cos (atan2 h z)) <= 2 * w.
Proof.
  intros Hw Hh Hd. assert (P0 := proj1 (atan2_polar h z)). assert (P1 := proj1 (atan2_polar h' z)).
  assert (H' : 0 <= h') by (apply Rabs_le_between in Hd; nra).
  set (N := sqrt (z * z + h * h)) in *. set (N' := sqrt (z * z + h' * h')) in *. set (c := cos (atan2 h z)) in *. set (c' := cos (atan2 h' z)) in *.
  assert (PN : 0 <= N) by apply sqrt_pos. assert (PN' : 0 <= N') by apply sqrt_pos.
  assert (SN : N * N = z * z + h * h) by (apply sqrt_sqrt; nra). assert (SN' : N' * N' = z * z + h' * h') by (apply sqrt_sqrt; nra).
  assert (LN : h <= N) by nra. assert (LN' : h' <= N') by nra.
  destruct (Req_dec h 0) as [Z|NZ].
  - assert (E : h' = h). { rewrite Z, Rmult_0_r in Hd. assert (X := Rabs_pos (h' - 0)). assert (Y : h' - 0 = 0) by (apply Rabs_eq_0; lra). lra. }
    unfold c, c'. rewrite E, Rminus_eq_0, Rabs_R0. lra.
  - assert (PP : 0 < N) by lra. apply Rabs_le_between in Hd. assert (PP' : 0 < N') by nra.
    assert (D : Rabs (N' - N) <= w * N).
    { apply (Rmult_le_reg_r (N' + N)); [lra|]. rewrite <- (Rabs_pos_eq (N' + N)) at 1 by lra. rewrite <- Rabs_mult.
      replace ((N' - N) * (N' + N)) with ((h' - h) * (h' + h)) by nra. rewrite Rabs_mult, (Rabs_pos_eq (h' + h)) by lra.
      apply Rmult_le_compat; [apply Rabs_pos|lra| |lra]. apply Rabs_le. nra. }
    assert (B := COS_bound (atan2 h z)). fold c in B. apply Rabs_le_between in D.
    assert (E : N' * (c' - c) = (N - N') * c) by nra.
    apply (Rmult_le_reg_l N'); [exact PP'|]. rewrite <- (Rabs_pos_eq N') at 1 by exact PN'. rewrite <- Rabs_mult, E, Rabs_mult.
    assert (C1 : Rabs c <= 1) by (apply Rabs_le; lra). assert (C2 : Rabs (N - N') <= w * N) by (apply Rabs_le; lra).
    assert (Q := Rmult_le_compat _ _ _ _ (Rabs_pos (N - N')) (Rabs_pos c) C2 C1). nra.
Qed.

(** ** Directions *)
Lemma dir_turn th ph ph' : 0 <= sin th -> pn (psub (polar 1 th ph') (polar 1 th ph)) <= Rabs (ph' - ph).
Proof.
  intros Hs. apply Rsqr_incr_0; [|apply pn_nonneg|apply Rabs_pos]. unfold Rsqr. rewrite pn_sq.
  assert (Q := chord ph' ph). assert (S := SIN_bound th). assert (P := Cmod_ge_0 (expi ph' - expi ph)%C).
  assert (M : Cmod (expi ph' - expi ph)%C * Cmod (expi ph' - expi ph)%C = (cos ph' - cos ph) * (cos ph' - cos ph) + (sin ph' - sin ph) * (sin ph' - sin ph)).
  { unfold Cmod. rewrite sqrt_sqrt; [cbn; ring|]. apply Rplus_le_le_0_compat; apply pow2_ge_0. }
  assert (M2 : Cmod (expi ph' - expi ph)%C * Cmod (expi ph' - expi ph)%C <= Rabs (ph' - ph) * Rabs (ph' - ph)) by (apply Rmult_le_compat; assumption).
  eapply Rle_trans; [|exact M2]. rewrite M. unfold pdot, psub, polar, c1, c2, c3; cbn [fst snd].
  set (X := (cos ph' - cos ph) * (cos ph' - cos ph) + (sin ph' - sin ph) * (sin ph' - sin ph)).
  match goal with |- ?l <= _ => replace l with (sin th * sin th * X) by (unfold X; ring) end.
  assert (PX : 0 <= X) by (unfold X; apply Rplus_le_le_0_compat; apply Rle_0_sqr).
  assert (T : sin th * sin th <= 1) by (clear - Hs S; nra). rewrite <- (Rmult_1_l X) at 2. apply Rmult_le_compat_r; assumption.
Qed.
Lemma dir_tilt th th' ph : let e := Rabs (cos th' - cos th) in
  pn (psub (polar 1 th' ph) (polar 1 th ph)) * pn (psub (polar 1 th' ph) (polar 1 th ph)) = e * e + (sin th' - sin th) * (sin th' - sin th).
Proof.
  intros e. rewrite pn_sq. unfold e. rewrite <- Rabs_mult, (Rabs_pos_eq (_ * _)) by apply Rle_0_sqr.
  unfold pdot, psub, polar, c1, c2, c3; cbn [fst snd]. assert (S := sin2_cos2 ph). unfold Rsqr in S.
  replace (1 * sin th' * cos ph - 1 * sin th * cos ph) with ((sin th' - sin th) * cos ph) by ring. replace (1 * sin th' * sin ph - 1 * sin th * sin ph) with ((sin th' - sin th) * sin ph) by ring.
  set (X := sin th' - sin th). transitivity (X * X * (sin ph * sin ph + cos ph * cos ph) + (cos th' - cos th) * (cos th' - cos th)); [ring|]. rewrite S. ring.
Qed.
Lemma sin_by_cos th th' : 0 <= sin th -> 0 <= sin th' -> let e := Rabs (cos th' - cos th) in
  (sin th' - sin th) * (sin th' - sin th) <= 2 * e /\ (0 < sin th -> Rabs (sin th' - sin th) <= 2 * e / sin th).
Proof.
  intros S0 S1 e. assert (A := sin2_cos2 th). assert (B := sin2_cos2 th'). unfold Rsqr in *. assert (C0 := COS_bound th). assert (C1 := COS_bound th').
  assert (E : (sin th' - sin th) * (sin th' + sin th) = (cos th - cos th') * (cos th + cos th')) by nra.
  assert (K : Rabs ((sin th' - sin th) * (sin th' + sin th)) <= 2 * e).
  { rewrite E, Rabs_mult, (Rabs_minus_sym (cos th)). fold e. rewrite Rmult_comm. apply Rmult_le_compat_r; [apply Rabs_pos|]. apply Rabs_le. lra. }
  rewrite Rabs_mult, (Rabs_pos_eq (sin th' + sin th)) in K by lra. assert (Pe : 0 <= e) by apply Rabs_pos. split.
  - eapply Rle_trans; [|exact K]. rewrite <- (Rabs_pos_eq ((sin th' - sin th) * (sin th' - sin th))) by apply Rle_0_sqr. rewrite Rabs_mult.
    apply Rmult_le_compat_l; [apply Rabs_pos|]. apply Rabs_le. lra.
  - intros P. apply (Rmult_le_reg_r (sin th)); [exact P|]. unfold Rdiv. rewrite Rmult_assoc, Rinv_l, Rmult_1_r by lra.
    eapply Rle_trans; [|exact K]. apply Rmult_le_compat_l; [apply Rabs_pos|]. lra.
Qed.

Lemma poly_bern w n : 0 <= w -> 1 + INR n * w <= (1 + w) ^ n.
Proof.
  intros Hw. induction n as [|n IH]; [cbn; lra|]. rewrite S_INR. cbn [pow]. assert (P := pos_INR n). nra.
Qed.

(** ** The table *)
Section Table.
Variable w : R.
Hypothesis Hw : 0 <= w <= 1 / 2.
Variable kl : nat.
Variable Y : yarith.
Hypothesis HY : accurate_table w kl Y.
Notation ap := (ap w).
Notation rap := (rap w).
Notation B := (y_c Y).
Let HB : accurate_complex w B := at_c _ _ _ HY.

(** The powers of the exponential, and the entries. *)
Fixpoint epow (ph : R) (m : nat) : C := match m with O => y_exp Y ph | S m' => c_mul B (epow ph m') (y_exp Y ph) end.
Definition entry (th ph : R) (l m : Z) : C :=
  match Z.abs_nat m with
  | O => RtoC (y_leg Y (Z.to_nat l) 0 (y_cos Y th))
  | S k => let y := c_divr B (c_scale B (y_leg Y (Z.to_nat l) (S k) (y_cos Y th)) (epow ph k)) (y_sqrt2 Y) in if (m <? 0)%Z then Cconj y else y
  end.
Lemma table_r_ok p th ph : (0 <= p)%Z ->
  exists tab, ylm_table_r Y p th ph = Ok tab /\ forall l m, (Z.abs m <= l)%Z -> (l <= p)%Z -> ylm_get tab l m = Ok (entry th ph l m).
Proof.
  intros Hp. unfold ylm_table_r. set (tab0 := repeat (RtoC 0) _).
  assert (Hlen : Z.of_nat (length tab0) = ((p + 1) * (p + 1))%Z) by (unfold tab0; rewrite repeat_length; nia).
  set (V := entry th ph).
  match goal with |- exists tab, ofold ?f _ _ = _ /\ _ =>
    destruct (loop f 0 p (fun i t => length t = length tab0 /\ forall l m, (Z.abs m <= l)%Z -> (l < i)%Z -> zget t (sh_index l m) = Ok (V l m)) tab0) as [t' [E [Hl H]]] end.
  - lia.
  - split; [reflexivity|]. intros; lia.
  - intros l t Hl [Ht Hold].
    pose proof (sh_index_bound l 0 p ltac:(lia) ltac:(lia)) as Hb.
    rewrite zset_ok by (rewrite Ht, Hlen; lia). cbn [bind].
    match goal with |- exists s, omap fst (ofold ?f _ ?s0) = _ /\ _ =>
      destruct (loop f 1 l (fun i st => length (fst st) = length tab0 /\ snd st = epow ph (Z.to_nat (i - 1)) /\
         (forall l' m', (Z.abs m' <= l')%Z -> (l' < l)%Z -> zget (fst st) (sh_index l' m') = Ok (V l' m')) /\
         (forall m', (Z.abs m' < i)%Z -> (Z.abs m' <= l)%Z -> zget (fst st) (sh_index l m') = Ok (V l m'))) s0) as [st2 [E2 [L2 [P2 [O2 N2]]]]] end.
    + lia.
    + cbn [fst snd]. rewrite lset_length. split; [assumption|]. split; [reflexivity|]. split.
      * intros l' m' Hm' Hl'. rewrite zget_other; [now apply Hold|lia| |].
        -- pose proof (sh_index_bound l' m' l'). lia.
        -- intros E'. apply sh_index_inj in E'; lia.
      * intros m' Hm' Hml. replace m' with 0%Z by lia. rewrite zget_same by (rewrite Ht, Hlen; lia). reflexivity.
    + intros m [t1 em] Hm [L1 [P1 [O1 N1]]]. cbn [fst snd] in *.
      pose proof (sh_index_bound l m p ltac:(lia) ltac:(lia)) as B1.
      pose proof (sh_index_bound l (- m) p ltac:(lia) ltac:(lia)) as B2.
      match goal with |- context [zset t1 (sh_index l m) ?y0] => set (y := y0) end.
      assert (Ey : y = V l m).
      { unfold y, V, entry. replace (Z.abs_nat m) with (Z.to_nat m) by lia. destruct (Z.to_nat m) as [|k] eqn:Em; [lia|].
        replace (m <? 0)%Z with false by (symmetry; apply Z.ltb_ge; lia). rewrite P1. replace (Z.to_nat (m - 1)) with k by lia. reflexivity. }
      assert (Ec : Cconj y = V l (- m)%Z).
      { rewrite Ey. unfold V, entry. replace (Z.abs_nat (- m)) with (Z.abs_nat m) by lia. destruct (Z.abs_nat m) as [|k] eqn:Em; [lia|].
        replace (m <? 0)%Z with false by (symmetry; apply Z.ltb_ge; lia). replace (- m <? 0)%Z with true by (symmetry; apply Z.ltb_lt; lia). reflexivity. }
      rewrite zset_ok by (rewrite L1, Hlen; lia). cbn [bind].
      rewrite zset_ok by (rewrite lset_length, L1, Hlen; lia). cbn [bind].
      eexists. split; [reflexivity|]. cbn [fst snd]. rewrite !lset_length. split; [assumption|]. split.
      { replace (Z.to_nat (m + 1 - 1)) with (S (Z.to_nat (m - 1))) by lia. rewrite P1. reflexivity. }
      split.
      * intros l' m' Hm' Hl'.
        pose proof (sh_index_bound l' m' l' ltac:(lia) ltac:(lia)).
        assert (D1 : sh_index l' m' <> sh_index l (- m)) by (intros E'; apply sh_index_inj in E'; lia).
        assert (D2 : sh_index l' m' <> sh_index l m) by (intros E'; apply sh_index_inj in E'; lia).
        rewrite zget_other by (try assumption; lia). rewrite zget_other by (try assumption; lia). now apply O1.
      * intros m' Hm' Hml.
        pose proof (sh_index_bound l m' p ltac:(lia) ltac:(lia)).
        destruct (Z.eq_dec m' (- m)) as [->|Hne].
        -- rewrite zget_same by (rewrite lset_length, L1, Hlen; lia). f_equal. exact Ec.
        -- rewrite zget_other by (try (intros E'; apply sh_index_inj in E'); lia).
           destruct (Z.eq_dec m' m) as [->|Hne2].
           ++ rewrite zget_same by (rewrite L1, Hlen; lia). now rewrite Ey.
           ++ rewrite zget_other by (try (intros E'; apply sh_index_inj in E'); lia). apply N1; lia.
    + rewrite E2. eexists. split; [reflexivity|]. split; [assumption|].
      intros l' m' Hm' Hl'. destruct (Z.eq_dec l' l) as [->|Hne]; [apply N2; lia|apply O2; lia].
  - exists t'. split; [exact E|]. intros l m Hm Hl'. apply H; lia.
Qed.
Lemma harmonic_entry v l m : (Z.abs m <= l)%Z -> harmonic_r Y v l m = entry (fst (angles_r Y v)) (snd (angles_r Y v)) l m.
Proof.
  intros Hm. unfold harmonic_r. destruct (table_r_ok l (fst (angles_r Y v)) (snd (angles_r Y v)) ltac:(lia)) as (tab & -> & H). rewrite H by lia. reflexivity.
Qed.

Lemma conj_norm z : Cmod (Cconj z) = Cmod z.
Proof. unfold Cmod, Cconj. cbn [fst snd]. f_equal. ring. Qed.
Lemma Cmod_expi t : Cmod (expi t) = 1.
Proof. unfold Cmod, expi. cbn [fst snd]. rewrite <- sqrt_1. f_equal. assert (H := sin2_cos2 t). unfold Rsqr in H. cbn. lra. Qed.
Lemma epow_ap ph m : ap (2 * m + 1) (epow ph m) (Cpow (expi ph) (S m)) 1.
Proof.
  assert (B0 : ap 1 (y_exp Y ph) (expi ph) 1).
  { split; [rewrite Cmod_expi; lra|]. eapply Rle_trans; [apply (at_exp _ _ _ HY)|]. rewrite pow_1. lra. }
  induction m as [|m IH]; cbn [epow].
  - cbn [Nat.mul Nat.add]. replace (Cpow (expi ph) 1) with (expi ph) by (symmetry; apply Cpow_1). exact B0.
  - replace (2 * S m + 1)%nat with (S (2 * m + 1 + 1)) by lia. rewrite (Cpow_S _ (S m)), (Cmult_comm (expi ph)). rewrite <- (Rmult_1_r 1). apply (op_mul w Hw B HB); assumption.
Qed.
(** An entry, for the angle whose cosine the code computed. *)
Lemma entry_ap th ph t l m : 0 <= sin t -> cos t = y_cos Y th -> (Z.abs m <= l)%Z ->
  ap ((kl + 4) * (Z.to_nat l + 1)) (entry th ph l m) (Yr (polar 1 t ph) l m) 1.
Proof.
  intros Hs Hc Hm. assert (D : -1 <= y_cos Y th <= 1) by apply (at_cos _ _ _ HY).
  assert (L : forall k, (k <= Z.to_nat l)%nat -> Rabs (y_leg Y (Z.to_nat l) k (y_cos Y th) - schmidt (Z.to_nat l) k (cos t)) <= (1 + w) ^ (kl * (Z.to_nat l + 1)) - 1).
  { intros k Hk. rewrite Hc. apply (at_leg _ _ _ HY); assumption. }
  assert (YV := fun k Hk => ylm_value (Z.to_nat l) k t ph Hs Hk).
  assert (U : forall k, (k <= Z.to_nat l)%nat -> Cmod (Yr (polar 1 t ph) (Z.of_nat (Z.to_nat l)) (Z.of_nat k)) <= 1).
  { intros k Hk. eapply Rle_trans; [apply Yr_pt; lia|]. rewrite polar_pn by lra. rewrite pow1. lra. }
  assert (N1 : (Z.abs_nat m <= Z.to_nat l)%nat) by lia.
  unfold entry. destruct (Z.abs_nat m) as [|k] eqn:Em.
  - replace m with 0%Z by lia. specialize (YV 0%nat ltac:(lia)). cbv beta iota in YV. specialize (U 0%nat ltac:(lia)). rewrite <- YV in U. rewrite Z2Nat.id in YV by lia.
    change (Z.of_nat 0) with 0%Z in YV. rewrite <- YV. eapply (ap_weaken w Hw (kl * (Z.to_nat l + 1)) _ _ _ 1); [split; [exact U|]|nia|lra].
    rewrite <- RtoC_minus, Cmod_R, Rmult_1_r. apply L. lia.
  - assert (S2 : 0 < sqrt 2) by (apply sqrt_lt_R0; lra). assert (S22 : sqrt 2 * sqrt 2 = 2) by (apply sqrt_sqrt; lra). assert (S1 : 1 <= sqrt 2) by nra.
    specialize (YV (S k) ltac:(lia)). cbv beta iota in YV. specialize (U (S k) ltac:(lia)). rewrite <- YV in U.
    assert (SM : Rabs (schmidt (Z.to_nat l) (S k) (cos t)) <= sqrt 2).
    { rewrite Cmod_div, Cmod_mult, Cmod_R, Cmod_pow, Cmod_expi, pow1, Cmod_R, (Rabs_pos_eq (sqrt 2)), Rmult_1_r in U; [|lra|intros Z; apply RtoC_inj in Z; lra].
      apply (Rmult_le_reg_r (/ sqrt 2)); [apply Rinv_0_lt_compat; exact S2|]. unfold Rdiv in U. rewrite Rinv_r by lra. exact U. }
    assert (Q1 : ap (kl * (Z.to_nat l + 1)) (RtoC (y_leg Y (Z.to_nat l) (S k) (y_cos Y th))) (RtoC (schmidt (Z.to_nat l) (S k) (cos t))) (sqrt 2)).
    { split; [rewrite Cmod_R; exact SM|]. rewrite <- RtoC_minus, Cmod_R. assert (X := L (S k) ltac:(lia)). assert (P := Rabs_pos (y_leg Y (Z.to_nat l) (S k) (y_cos Y th) - schmidt (Z.to_nat l) (S k) (cos t))). nra. }
    assert (Q2 := op_scale_ap w Hw B HB _ _ _ _ _ _ _ _ Q1 (epow_ap ph k)).
    assert (NZ : y_sqrt2 Y <> 0). { assert (X := at_sqrt2 _ _ _ HY). unfold close in X. rewrite (Rabs_pos_eq (sqrt 2)) in X by lra. apply Rabs_le_between in X. nra. }
    set (y := c_divr B (c_scale B (y_leg Y (Z.to_nat l) (S k) (y_cos Y th)) (epow ph k)) (y_sqrt2 Y)).
    assert (Q3 : ap ((kl + 4) * (Z.to_nat l + 1)) y (Yr (polar 1 t ph) l (Z.of_nat (S k))) 1).
    { rewrite Z2Nat.id in YV by lia. rewrite <- YV. eapply ap_weaken; [exact Hw| | |].
      - apply (ap_div w Hw _ _ _ _ (RtoC (y_sqrt2 Y)) (RtoC (sqrt 2)) (sqrt 2) y Q2).
        + unfold close_norm. rewrite <- RtoC_minus, !Cmod_R. apply (at_sqrt2 _ _ _ HY).
        + rewrite Cmod_R, Rabs_pos_eq by lra. split; [exact S2|apply Rle_refl].
        + apply comps_norm; [lra|]. apply (ac_divr _ _ HB). exact NZ.
      - nia.
      - right. field. lra. }
    destruct (Z.ltb_spec m 0).
    + replace m with (- Z.of_nat (S k))%Z by lia. rewrite <- Yr_conj. destruct Q3 as [A1 A2]. split; [rewrite conj_norm; exact A1|].
      match goal with |- Cmod ?z <= _ => replace z with (Cconj (y - Yr (polar 1 t ph) l (Z.of_nat (S k))))%C end; [rewrite conj_norm; exact A2|].
      unfold Cconj, Cminus, Cplus, Copp. cbn [fst snd]. f_equal. ring.
    + replace m with (Z.of_nat (S k)) by lia. exact Q3.
Qed.

(** ** The angles of a vector *)
Lemma cos_error x y z : Rabs (y_cos Y (fst (angles_r Y [x; y; z])) - cos (atan2 (sqrt (x * x + y * y)) z)) <= 7 * w.
Proof.
  unfold angles_r. cbn [vget nth fst]. set (h := sqrt (x * x + y * y)). set (h' := y_hyp Y x y).
  assert (Ph : 0 <= h) by apply sqrt_pos. assert (Hh : Rabs (h' - h) <= w * h). { assert (A := at_hyp _ _ _ HY x y). unfold close in A. fold h h' in A. rewrite (Rabs_pos_eq h) in A by exact Ph. exact A. }
  assert (M := angle_move w h h' z Hw Ph Hh). assert (T := at_atan2 _ _ _ HY h' z). unfold close in T.
  assert (R := atan2_range h' z). assert (P4 := PI_4). assert (TB : Rabs (atan2 h' z) <= 4) by (apply Rabs_le; lra).
  assert (C := proj1 (at_cos _ _ _ HY (y_atan2 Y h' z))). unfold close in C.
  assert (CB : Rabs (cos (y_atan2 Y h' z)) <= 1) by (apply Rabs_le; apply COS_bound).
  assert (CM := cos_move (y_atan2 Y h' z) (atan2 h' z)).
  replace (y_cos Y (y_atan2 Y h' z) - cos (atan2 h z)) with
    ((y_cos Y (y_atan2 Y h' z) - cos (y_atan2 Y h' z)) + ((cos (y_atan2 Y h' z) - cos (atan2 h' z)) + (cos (atan2 h' z) - cos (atan2 h z)))) by ring.
  eapply Rle_trans; [apply Rabs_triang|]. eapply Rle_trans; [apply Rplus_le_compat_l, Rabs_triang|].
  assert (T2 : w * Rabs (atan2 h' z) <= w * 4) by (apply Rmult_le_compat_l; lra). assert (C2 : w * Rabs (cos (y_atan2 Y h' z)) <= w * 1) by (apply Rmult_le_compat_l; lra). lra.
Qed.
Lemma turn_error x y z : Rabs (snd (angles_r Y [x; y; z]) - atan2 y x) <= 4 * w.
Proof.
  unfold angles_r. cbn [vget nth snd]. assert (T := at_atan2 _ _ _ HY y x). unfold close in T. assert (R := atan2_range y x). assert (P4 := PI_4).
  assert (TB : Rabs (atan2 y x) <= 4) by (apply Rabs_le; lra). assert (T2 : w * Rabs (atan2 y x) <= w * 4) by (apply Rmult_le_compat_l; lra). lra.
Qed.
(** The computed direction: the angle with the computed cosine. *)
Definition seen (v : list R) : P3 := polar 1 (acos (y_cos Y (fst (angles_r Y v)))) (snd (angles_r Y v)).
Lemma seen_angle v : cos (acos (y_cos Y (fst (angles_r Y v)))) = y_cos Y (fst (angles_r Y v)) /\ 0 <= sin (acos (y_cos Y (fst (angles_r Y v)))).
Proof.
  set (c := y_cos Y (fst (angles_r Y v))). assert (D : -1 <= c <= 1) by apply (at_cos _ _ _ HY). split; [apply cos_acos; exact D|].
  assert (Q := acos_bound c). apply sin_ge_0; lra.
Qed.
Lemma seen_close x y z : let th := atan2 (sqrt (x * x + y * y)) z in let ph := atan2 y x in
  pn (psub (seen [x; y; z]) (polar 1 th ph)) <= sqrt (49 * (w * w) + 14 * w) + 4 * w /\
  (0 < sin th -> pn (psub (seen [x; y; z]) (polar 1 th ph)) <= 25 * w / sin th).
Proof.
  intros th ph. destruct (seen_angle [x; y; z]) as [C S]. unfold seen. set (t := acos _) in *. set (ph' := snd (angles_r Y [x; y; z])).
  assert (S0 : 0 <= sin th). { unfold th. assert (A := atan2_nonneg (sqrt (x * x + y * y)) z (sqrt_pos _)). assert (B0 := atan2_range (sqrt (x * x + y * y)) z). apply sin_ge_0; lra. }
  assert (CE := cos_error x y z). fold th in CE. rewrite <- C in CE. set (e := Rabs (cos t - cos th)) in *.
  assert (TE := turn_error x y z). fold ph ph' in TE.
  assert (SP : psub (polar 1 t ph') (polar 1 th ph) = padd (psub (polar 1 t ph') (polar 1 th ph')) (psub (polar 1 th ph') (polar 1 th ph))).
  { unfold psub, padd, polar, c1, c2, c3; cbn [fst snd]. f_equal; [f_equal|]; ring. }
  rewrite SP. assert (PA := pn_add (psub (polar 1 t ph') (polar 1 th ph')) (psub (polar 1 th ph') (polar 1 th ph))). assert (DT := dir_turn th ph ph' S0).
  assert (DL := dir_tilt th t ph'). cbv zeta in DL. fold e in DL. assert (Pe : 0 <= e) by apply Rabs_pos.
  destruct (sin_by_cos th t S0 S) as [G1 G2]. fold e in G1, G2. set (u := pn (psub (polar 1 t ph') (polar 1 th ph'))) in *. assert (Pu : 0 <= u) by apply pn_nonneg. split.
  - assert (U : u <= sqrt (49 * (w * w) + 14 * w)); [|lra].
    rewrite <- (sqrt_square u) by exact Pu. apply sqrt_le_1_alt. rewrite DL. assert (e * e <= 7 * w * (7 * w)) by (apply Rmult_le_compat; lra). lra.
  - intros Sp. specialize (G2 Sp). set (s := Rabs (sin t - sin th)) in *. assert (Ps : 0 <= s) by apply Rabs_pos.
    assert (U : u <= e + s).
    { apply Rsqr_incr_0_var; [|lra]. unfold Rsqr. rewrite DL. replace ((sin t - sin th) * (sin t - sin th)) with (s * s); [nra|].
      unfold s. rewrite <- Rabs_mult. apply Rabs_pos_eq. apply Rle_0_sqr. }
    assert (SB := SIN_bound th). assert (I1 : 1 <= / sin th). { rewrite <- Rinv_1. apply Rinv_le_contravar; lra. }
    assert (K : 2 * e / sin th <= 14 * w / sin th). { unfold Rdiv. apply Rmult_le_compat_r; [left; apply Rinv_0_lt_compat; exact Sp|lra]. }
    assert (K2 : 11 * w <= 11 * w / sin th) by (unfold Rdiv; nra). replace (25 * w / sin th) with (11 * w / sin th + 14 * w / sin th) by (field; lra). lra.
Qed.
(** The error of an entry, when the computed direction is within [x0] of the right one. *)
Lemma harmonic_error x y z l m x0 : let th := atan2 (sqrt (x * x + y * y)) z in let ph := atan2 y x in (Z.abs m <= l)%Z -> 0 <= x0 ->
  pn (psub (seen [x; y; z]) (polar 1 th ph)) <= x0 ->
  Cmod (harmonic_r Y [x; y; z] l m - Yr (polar 1 th ph) l m)%C <= ((1 + w) ^ ((kl + 4) * (Z.to_nat l + 1)) - 1) + ((1 + x0) ^ (2 * Z.to_nat l) - 1).
Proof.
  intros th ph Hm Hx HS. rewrite harmonic_entry by exact Hm. destruct (seen_angle [x; y; z]) as [C S].
  assert (E := proj2 (entry_ap _ (snd (angles_r Y [x; y; z])) _ l m S C Hm)). fold (seen [x; y; z]) in E. rewrite Rmult_1_r in E.
  set (d' := seen [x; y; z]) in *. set (d := polar 1 th ph) in *. assert (D1 : pn d = 1) by (apply polar_pn; lra).
  assert (M := Yr_move d (psub d' d) x0 l ltac:(lia) Hx ltac:(rewrite D1, Rmult_1_r; exact HS)). rewrite padd_psub, D1, pow1, Rmult_1_r in M.
  assert (M' := Rle_trans _ _ _ (vn_el l (fun k => Yr d' l k - Yr d l k)%C m Hm) M). cbv beta in M'.
  replace (Z.to_nat (2 * l)) with (2 * Z.to_nat l)%nat in M' by lia.
  match goal with |- Cmod (?a - ?b) <= _ => replace (a - b)%C with ((a - Yr d' l m) + (Yr d' l m - b))%C by ring end.
  eapply Rle_trans; [apply Cmod_triangle|]. apply Rplus_le_compat; assumption.
Qed.
Lemma half_digits : w <= 1 / 25 -> sqrt (49 * (w * w) + 14 * w) + 4 * w <= 5 * sqrt w.
Proof.
  intros H. assert (P := sqrt_pos w). assert (S := sqrt_sqrt w (proj1 Hw)).
  assert (A : sqrt (49 * (w * w) + 14 * w) <= 4 * sqrt w).
  { rewrite <- (sqrt_square (4 * sqrt w)) by lra. apply sqrt_le_1_alt. nra. }
  assert (B0 : sqrt w <= 1 / 5) by (apply Rsqr_incr_0; unfold Rsqr; lra). nra.
Qed.
Theorem harmonic_accuracy x y z r th ph lmax tab l m V : w <= 1 / 25 -> to_spherical 3 [x; y; z] = Ok [r; th; ph] -> ylm_table lmax th ph = Ok tab ->
  (Z.abs m <= l <= lmax)%Z -> ylm_get tab l m = Ok V ->
  Cmod (harmonic_r Y [x; y; z] l m - V)%C <= ((1 + w) ^ ((kl + 4) * (Z.to_nat l + 1)) - 1) + ((1 + 5 * sqrt w) ^ (2 * Z.to_nat l) - 1) /\
  (0 < sin th -> Cmod (harmonic_r Y [x; y; z] l m - V)%C <= ((1 + w) ^ ((kl + 4) * (Z.to_nat l + 1)) - 1) + ((1 + 25 * w / sin th) ^ (2 * Z.to_nat l) - 1)).
Proof.
  intros H25 ET HT Hl HV.
  destruct (spherical_ok [x; y; z] eq_refl) as (r' & th' & ph' & T' & _ & _ & _ & S). rewrite ET in T'. injection T' as <- <- <-.
  destruct (ylm_table_ok lmax th ph S ltac:(lia)) as (tab' & HT' & HV'). rewrite HT in HT'. injection HT' as <-.
  rewrite HV' in HV by lia. injection HV as <-. unfold to_spherical in ET. cbn [vget nth] in ET. injection ET as _ <- <-.
  destruct (seen_close x y z) as [A1 A2]. assert (H2 := half_digits H25). split.
  - apply harmonic_error; [lia|assert (P := sqrt_pos w); lra|lra].
  - intros Sp. apply harmonic_error; [lia| |apply A2; exact Sp].
    apply Rmult_le_pos; [lra|left; apply Rinv_0_lt_compat; exact Sp].
Qed.
Theorem table_entries v l m lmax : (Z.abs m <= l <= lmax)%Z -> exists tab, ylm_table_r Y lmax (fst (angles_r Y v)) (snd (angles_r Y v)) = Ok tab /\
  ylm_get tab l m = Ok (harmonic_r Y v l m).
Proof.
  intros H. destruct (table_r_ok lmax (fst (angles_r Y v)) (snd (angles_r Y v)) ltac:(lia)) as (tab & E & HE). exists tab. split; [exact E|].
  rewrite HE, harmonic_entry by lia. reflexivity.
Qed.
(** The table meets the requirement of the expansions. *)
Theorem table_accurate K rnd dif norm alm : w <= 1 / 25 -> 5 * sqrt w <= INR K * w -> (forall x, close w (rnd x) x) -> (forall a b, close w (dif a b) (a - b)) ->
  (forall x y z, close w (norm [x; y; z]) (sqrt (x * x + y * y + z * z))) -> (forall n m a, close w (alm n m a) a) ->
  accurate_harmonics w (kl + 4 + 2 * K) (table_harith Y rnd dif norm alm).
Proof.
  intros H25 HK Hr Hd Hn Ha. constructor; cbn [table_harith h_c h_rnd h_dif h_norm h_ylm h_alm]; [exact HB|exact Hr|exact Hd|exact Hn| |exact Ha].
  intros x y z r th ph lmax tab l m V ET HT Hl HV. destruct (harmonic_accuracy x y z r th ph lmax tab l m V H25 ET HT Hl HV) as [A _]. eapply Rle_trans; [exact A|].
  replace ((kl + 4 + 2 * K) * (Z.to_nat l + 1))%nat with ((kl + 4) * (Z.to_nat l + 1) + (K * (2 * (Z.to_nat l + 1))))%nat by ring.
  assert (Q : (1 + 5 * sqrt w) ^ (2 * Z.to_nat l) <= (1 + w) ^ (K * (2 * (Z.to_nat l + 1)))).
  { rewrite (pow_mult (1 + w) K). assert (Bn : 1 + 5 * sqrt w <= (1 + w) ^ K). { eapply Rle_trans; [apply Rplus_le_compat_l; exact HK|]. apply poly_bern. lra. }
    assert (P := sqrt_pos w). eapply Rle_trans; [apply pow_incr; split; [lra|exact Bn]|]. apply Rle_pow; [lra|lia]. }
  rewrite pow_add. assert (G1 := pow_R1_Rle (1 + w) ((kl + 4) * (Z.to_nat l + 1)) ltac:(lra)). assert (G2 := pow_R1_Rle (1 + w) (K * (2 * (Z.to_nat l + 1))) ltac:(lra)).
  set (a := (1 + w) ^ ((kl + 4) * (Z.to_nat l + 1))) in *. set (b := (1 + w) ^ (K * (2 * (Z.to_nat l + 1)))) in *.
  assert (GG : 0 <= (a - 1) * (b - 1)) by (apply Rmult_le_pos; lra). lra.
Qed.
End Table.
