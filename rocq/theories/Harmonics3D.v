(** The spherical harmonics table of the code holds the solid harmonics of [SolidHarmonics] on the unit sphere. *)
From Coq Require Import Reals List Arith ZArith Lia Lra.
From Coquelicot Require Import Coquelicot.
From Verif Require Import Num Outcome Vec Fields Tables CAux TableProofs Tables3D Table3DProofs SolidHarmonics Zonal HarmonicBounds Kernel3 Spherical SphericalProofs.
Import ListNotations.
Local Open Scope R_scope.
Local Open Scope C_scope.

(** ** Associated Legendre functions *)
Section Legendre.
Variables (r th ph : R).
Hypothesis Hs : (0 <= sin th)%R.
Let w := H3 (polar r th ph).
Let x := cos th.

Lemma sqrt_sin : sqrt (1 - x * x) = sin th.
Proof.
  unfold x. replace (1 - cos th * cos th)%R with (sin th * sin th)%R by (pose proof (sin2_cos2 th) as E; unfold Rsqr in E; lra).
  apply sqrt_square. assumption.
Qed.
Lemma polar_hz : hz w = RtoC (r * x). Proof. reflexivity. Qed.
Lemma polar_hp : (1 + 1) * hp w = - Ci * RtoC (r * sin th) * expi ph.
Proof. unfold w, H3, hR, polar, c1, c2, expi; apply injective_projections; simpl; field. Qed.
Lemma polar_hsq : hsq w = RtoC (r * r).
Proof.
  unfold w. rewrite H3_sq. f_equal. unfold pdot, polar, c1, c2, c3; simpl.
  pose proof (sin2_cos2 th) as E1. pose proof (sin2_cos2 ph) as E2. unfold Rsqr in *.
  replace (r * sin th * cos ph * (r * sin th * cos ph) + r * sin th * sin ph * (r * sin th * sin ph) + r * cos th * (r * cos th))%R
    with (r * r * ((sin th * sin th) * (sin ph * sin ph + cos ph * cos ph) + cos th * cos th))%R by ring.
  rewrite E2. replace (sin th * sin th * 1 + cos th * cos th)%R with 1%R by lra. ring.
Qed.

Definition pre (m : nat) : C := Cpow (- Ci) m * Cpow (expi ph) m.

Lemma sh_diag m : sh w m (Z.of_nat m) * Cn (fact (2 * m)) = pre m * RtoC (r ^ m * legPmm m x).
Proof.
  induction m as [|m IH].
  - unfold pre. simpl. unfold Cn. simpl. apply injective_projections; simpl; ring.
  - pose proof (sh_plus w m (Z.of_nat (S m))) as E. rewrite (sh_out w m (Z.of_nat (S m))) in E by lia.
    replace (Z.of_nat (S m) - 1)%Z with (Z.of_nat m) in E by lia.
    rewrite polar_hp in E.
    replace (2 * S m)%nat with (S (S (2 * m))) by lia. rewrite !fact_simpl.
    assert (EF : Cn (S (S (2 * m)) * (S (2 * m) * fact (2 * m))) = (Cn (S m) + Cn (S m)) * ((Cn m + Cn m + 1) * Cn (fact (2 * m)))).
    { unfold Cn. rewrite !mult_INR. rewrite <- !RtoC_plus, <- !RtoC_mult. f_equal. rewrite !S_INR, mult_INR. simpl. ring. }
    rewrite EF. rewrite <- Cn_z in E.
    replace (legPmm (S m) x) with ((2 * INR m + 1) * sqrt (1 - x * x) * legPmm m x)%R by reflexivity. rewrite sqrt_sin.
    transitivity (((Cn (S m) + Cn (S m)) * sh w (S m) (Z.of_nat (S m))) * (Cn m + Cn m + 1) * Cn (fact (2 * m))); [ring|].
    rewrite E. rewrite Cmult_0_r, Cplus_0_l.
    transitivity (- Ci * RtoC (r * sin th) * expi ph * (Cn m + Cn m + 1) * (sh w m (Z.of_nat m) * Cn (fact (2 * m)))); [ring|].
    rewrite IH. unfold pre. rewrite !Cpow_S. replace (r ^ S m)%R with (r * r ^ m)%R by reflexivity. unfold Cn.
    replace (2 * INR m + 1)%R with (INR m + INR m + 1)%R by ring. rewrite !RtoC_mult, !RtoC_plus. ring.
Qed.

Lemma legP2_snd m k y : snd (legP2 m (S k) y) = fst (legP2 m k y).
Proof. simpl. destruct (legP2 m k y). reflexivity. Qed.
Lemma legP2_1 m y : fst (legP2 m 1 y) = ((2 * INR m + 1) * y * legPmm m y)%R.
Proof. simpl. rewrite Nat.add_0_r, Rmult_0_r. field. Qed.
Lemma legP2_SS m k y : fst (legP2 m (S (S k)) y) =
  (((2 * INR (m + S k) + 1) * y * fst (legP2 m (S k) y) - INR (2 * m + S k) * fst (legP2 m k y)) / INR (S (S k)))%R.
Proof.
  change (legP2 m (S (S k)) y) with (let (a, b) := legP2 m (S k) y in
    (((2 * INR (m + S k) + 1) * y * a - (INR (2 * m + S k)) * b) / INR (S (S k)), a)%R).
  rewrite <- (legP2_snd m k). destruct (legP2 m (S k) y) as [a b]. reflexivity.
Qed.

Definition leg_ok (m k : nat) : Prop :=
  sh w (m + k) (Z.of_nat m) * Cn (fact (2 * m + k)) = pre m * RtoC (r ^ (m + k) * fst (legP2 m k x)).

Lemma sh_legendre2 m k : leg_ok m k /\ leg_ok m (S k).
Proof.
  induction k as [|k [IH0 IH1]].
  - split.
    + unfold leg_ok. rewrite !Nat.add_0_r. apply sh_diag.
    + unfold leg_ok. rewrite legP2_1. pose proof (sh_minus w m (Z.of_nat m)) as E.
      rewrite (sh_out w m (Z.of_nat m + 1)) in E by lia. rewrite polar_hz in E.
      replace (m + 1)%nat with (S m) by lia. replace (2 * m + 1)%nat with (S (2 * m)) by lia. rewrite fact_simpl.
      pose proof (sh_diag m) as D. rewrite Cn_S, Cn_z in E.
      assert (E' : sh w (S m) (Z.of_nat m) = RtoC (r * x) * sh w m (Z.of_nat m)) by (lin (dif E)).
      rewrite E'.
      replace (Cn (S (2 * m) * fact (2 * m))) with ((Cn m + Cn m + 1) * Cn (fact (2 * m))).
      2:{ unfold Cn. rewrite <- !RtoC_plus, <- RtoC_mult. f_equal. rewrite mult_INR, S_INR, mult_INR. simpl INR. ring. }
      transitivity (RtoC (r * x) * (Cn m + Cn m + 1) * (sh w m (Z.of_nat m) * Cn (fact (2 * m)))); [ring|]. rewrite D.
      unfold Cn. simpl pow. replace (2 * INR m + 1)%R with (INR m + INR m + 1)%R by ring. rewrite !RtoC_mult, !RtoC_plus. ring.
  - split; [assumption|]. unfold leg_ok in *. rewrite legP2_SS.
    pose proof (sh_rec_z w (m + k) (Z.of_nat m)) as E. rewrite polar_hz, polar_hsq in E.
    replace (m + S k)%nat with (S (m + k)) in * by lia. replace (m + S (S k))%nat with (S (S (m + k))) by lia.
    replace (2 * m + S k)%nat with (S (2 * m + k)) in * by lia. replace (2 * m + S (S k))%nat with (S (S (2 * m + k))) by lia.
    rewrite !fact_simpl in *.
    set (F := fact (2 * m + k)) in *. set (a := fst (legP2 m k x)) in *. set (b := fst (legP2 m (S k) x)) in *.
    set (s0 := sh w (m + k) (Z.of_nat m)) in *. set (s1 := sh w (S (m + k)) (Z.of_nat m)) in *. set (s2 := sh w (S (S (m + k))) (Z.of_nat m)) in *.
    assert (K0 : Cn (S (S k)) <> 0) by apply Cn_S_nz.
    apply (Creg_l (Cn (S (S k)))); [assumption|].
    assert (C1 : Cn (S (S (m + k))) - Cz (Z.of_nat m) = Cn (S (S k))).
    { rewrite <- Cn_z. unfold Cn. rewrite <- RtoC_minus. f_equal. rewrite !S_INR, plus_INR. ring. }
    assert (C2 : Cn (S (S (m + k))) + Cz (Z.of_nat m) = Cn (S (S (2 * m + k)))).
    { rewrite <- Cn_z. unfold Cn. rewrite <- RtoC_plus. f_equal. rewrite !S_INR, !plus_INR, mult_INR. simpl. ring. }
    rewrite C1, C2 in E.
    assert (C3 : forall u v, Cn (u * v) = Cn u * Cn v) by (intros; unfold Cn; rewrite mult_INR, RtoC_mult; reflexivity).
    rewrite !C3 in *.
    transitivity ((Cn (S (S k)) * Cn (S (S (2 * m + k))) * s2) * (Cn (S (2 * m + k)) * Cn F)); [ring|].
    replace (Cn (S (S k)) * Cn (S (S (2 * m + k))) * s2) with
      ((Cn (m + k) + Cn (m + k) + 1 + 1 + 1) * (RtoC (r * x) * s1) - RtoC (r * r) * s0) by (rewrite E; ring).
    transitivity ((Cn (m + k) + Cn (m + k) + 1 + 1 + 1) * RtoC (r * x) * (s1 * (Cn (S (2 * m + k)) * Cn F)) - RtoC (r * r) * Cn (S (2 * m + k)) * (s0 * Cn F)); [ring|].
    rewrite IH1, IH0. clear IH1 IH0 E.
    replace (Cn (S (S k)) * (pre m * RtoC (r ^ S (S (m + k)) * (((2 * INR (S (m + k)) + 1) * x * b - INR (S (2 * m + k)) * a) / INR (S (S k))))))
      with (pre m * RtoC (r ^ S (S (m + k)) * ((2 * INR (S (m + k)) + 1) * x * b - INR (S (2 * m + k)) * a))).
    2:{ transitivity (pre m * (Cn (S (S k)) * RtoC (r ^ S (S (m + k)) * (((2 * INR (S (m + k)) + 1) * x * b - INR (S (2 * m + k)) * a) / INR (S (S k)))))); [|ring].
        f_equal. unfold Cn. rewrite <- RtoC_mult. f_equal. field. apply not_0_INR. lia. }
    transitivity (pre m * RtoC ((INR (m + k) + INR (m + k) + 1 + 1 + 1) * (r * x) * (r ^ S (m + k) * b) - r * r * INR (S (2 * m + k)) * (r ^ (m + k) * a))%R).
    + unfold Cn. rewrite RtoC_minus, !RtoC_mult, !RtoC_plus. ring.
    + f_equal. f_equal. rewrite (S_INR (m + k)). simpl pow. ring.
Qed.

Lemma sh_legendre n m : (m <= n)%nat ->
  sh w n (Z.of_nat m) * Cn (fact (n + m)) = pre m * RtoC (r ^ n * legP n m x).
Proof.
  intros H. destruct (sh_legendre2 m (n - m)) as [E _]. unfold leg_ok in E.
  replace (m + (n - m))%nat with n in E by lia. replace (2 * m + (n - m))%nat with (n + m)%nat in E by lia. exact E.
Qed.
End Legendre.

(** ** The regular solid harmonics r^n Y_n^m *)
Definition Yr (v : P3) (n m : Z) : C := ipow (- Z.abs m) * RtoC (a_val n m) * sh (H3 v) (Z.to_nat n) m.

Lemma Yr_scal r v n m : (0 <= n)%Z -> Yr (pscal r v) n m = RtoC (r ^ Z.to_nat n) * Yr v n m.
Proof. intros Hn. unfold Yr. rewrite H3_scal, sh_scal, Cpow_RtoC. ring. Qed.
Lemma polar_scal r th ph : polar r th ph = pscal r (polar 1 th ph).
Proof. unfold polar, pscal, c1, c2, c3; simpl. f_equal; [f_equal|]; ring. Qed.

Lemma ipow_neg_conj m : Cconj (ipow m) = ipow (- m).
Proof.
  unfold ipow. assert (0 <= m mod 4 < 4)%Z by (apply Z.mod_pos_bound; lia).
  destruct (m mod 4)%Z as [|[q|[q|q|]|]|q] eqn:E; try lia; try (destruct q; lia).
  - rewrite Z.mod_opp_l_z by lia. apply injective_projections; simpl; ring.
  - assert (q = 1%positive) as -> by lia. rewrite Z.mod_opp_l_nz by (try rewrite E; lia). rewrite E. simpl. apply injective_projections; simpl; ring.
  - rewrite Z.mod_opp_l_nz by (try rewrite E; lia). rewrite E. simpl. apply injective_projections; simpl; ring.
  - rewrite Z.mod_opp_l_nz by (try rewrite E; lia). rewrite E. simpl. apply injective_projections; simpl; ring.
Qed.
Lemma ipow_pow m : Cpow (- Ci) m = ipow (- Z.of_nat m).
Proof.
  induction m as [|m IH]; [reflexivity|].
  rewrite Cpow_S, IH. replace (- Z.of_nat (S m))%Z with (-1 + - Z.of_nat m)%Z by lia. rewrite ipow_add. f_equal.
Qed.
Lemma ipow_2 k : ipow (2 * k) = sg k. Proof. apply ipow_even. Qed.

Lemma Yr_conj v n m : Cconj (Yr v n m) = Yr v n (- m).
Proof.
  unfold Yr. rewrite !Cconj_mult, Cconj_R, sh_conj_R, ipow_neg_conj, a_val_opp, Z.abs_opp.
  replace (- - Z.abs m)%Z with (2 * Z.abs m + - Z.abs m)%Z by lia. rewrite ipow_add, ipow_2.
  replace (sg (Z.abs m)) with (sg m) by (destruct (Z.abs_spec m) as [[_ ->]|[_ ->]]; [reflexivity|now rewrite sg_opp]).
  transitivity ((sg m * sg m) * (ipow (- Z.abs m) * RtoC (a_val n m) * sh (H3 v) (Z.to_nat n) (- m))); [ring|]. rewrite sg_sq. ring.
Qed.

(** The value stored for m >= 0. *)
Lemma ylm_value l m th ph : (0 <= sin th)%R -> (m <= l)%nat ->
  (match m with O => RtoC (schmidt l 0 (cos th)) | _ => RtoC (schmidt l m (cos th)) * Cpow (expi ph) m / RtoC (sqrt 2) end)
  = Yr (polar 1 th ph) (Z.of_nat l) (Z.of_nat m).
Proof.
  intros Hs Hm. pose proof (sh_legendre 1 th ph Hs l m Hm) as E.
  unfold Yr. rewrite Nat2Z.id, Z.abs_eq by lia. rewrite pow1, Rmult_1_l in E.
  set (s := sh (H3 (polar 1 th ph)) l (Z.of_nat m)) in *.
  assert (Fp : (0 < INR (fact (l + m)))%R) by apply INR_fact_pos.
  assert (Fm : (0 < INR (fact (l - m)))%R) by apply INR_fact_pos.
  assert (Ha : a_val (Z.of_nat l) (Z.of_nat m) = sqrt (INR (fact (l - m)) * INR (fact (l + m)))).
  { unfold a_val. do 4 f_equal; lia. }
  rewrite Ha.
  assert (Es : s = pre ph m * RtoC (legP l m (cos th) / INR (fact (l + m)))).
  { apply (Creg_l (Cn (fact (l + m)))).
    - unfold Cn. intros Q. apply RtoC_inj in Q. lra.
    - rewrite (Cmult_comm _ s), E. transitivity (pre ph m * (Cn (fact (l + m)) * RtoC (legP l m (cos th) / INR (fact (l + m))))); [|ring].
      f_equal. unfold Cn. rewrite <- RtoC_mult. f_equal. field. lra. }
  rewrite Es. unfold pre. rewrite ipow_pow.
  transitivity (ipow (2 * - Z.of_nat m) * Cpow (expi ph) m * RtoC (sqrt (INR (fact (l - m)) * INR (fact (l + m))) * (legP l m (cos th) / INR (fact (l + m))))).
  2:{ replace (2 * - Z.of_nat m)%Z with (- Z.of_nat m + - Z.of_nat m)%Z by lia. rewrite ipow_add, RtoC_mult. ring. }
  rewrite ipow_2, sg_opp.
  assert (Er : (sqrt (INR (fact (l - m)) * INR (fact (l + m))) * (legP l m (cos th) / INR (fact (l + m))) =
               sqrt (INR (fact (l - m)) / INR (fact (l + m))) * legP l m (cos th))%R).
  { rewrite sqrt_div_alt by lra. rewrite sqrt_mult by lra.
    assert (S0 : sqrt (INR (fact (l + m))) <> 0%R) by (apply Rgt_not_eq; now apply sqrt_lt_R0).
    replace (INR (fact (l + m))) with (sqrt (INR (fact (l + m))) * sqrt (INR (fact (l + m))))%R at 2 by (apply sqrt_sqrt; lra).
    field. assumption. }
  rewrite Er. destruct m as [|m].
  - unfold schmidt. replace (INR (fact (l - 0)) / INR (fact (l + 0)))%R with 1%R.
    + rewrite sqrt_1. simpl Cpow. change (sg (Z.of_nat 0)) with (RtoC 1). rewrite <- !RtoC_mult. f_equal. ring.
    + rewrite Nat.sub_0_r, Nat.add_0_r in *. field. lra.
  - unfold schmidt.
    assert (Esg : sg (Z.of_nat (S m)) = RtoC ((-1) ^ S m)).
    { clear. induction m as [|m IH]; [unfold sg; simpl; f_equal; ring|]. replace (Z.of_nat (S (S m))) with (Z.of_nat (S m) + 1)%Z by lia.
      rewrite sg_succ, IH. change ((-1) ^ S (S m))%R with (-1 * (-1) ^ S m)%R. rewrite RtoC_mult. apply injective_projections; simpl; ring. }
    rewrite Esg.
    replace (2 * INR (fact (l - S m)) / INR (fact (l + S m)))%R with (2 * (INR (fact (l - S m)) / INR (fact (l + S m))))%R by (field; lra).
    assert (0 <= INR (fact (l - S m)) / INR (fact (l + S m)))%R by (apply Rmult_le_pos; [lra|left; now apply Rinv_0_lt_compat]).
    rewrite sqrt_mult by lra.
    assert (S2 : sqrt 2 <> 0%R) by (apply Rgt_not_eq, sqrt_lt_R0; lra).
    unfold Cdiv. rewrite <- RtoC_inv by assumption. rewrite !RtoC_mult.
    transitivity (RtoC ((-1) ^ S m) * Cpow (expi ph) (S m) * (RtoC (sqrt (INR (fact (l - S m)) / INR (fact (l + S m)))) * RtoC (legP l (S m) (cos th))) * (RtoC (sqrt 2) * RtoC (/ sqrt 2))); [ring|].
    rewrite <- (RtoC_mult (sqrt 2)), Rinv_r by assumption. ring.
Qed.

(** The table. *)
Lemma ylm_table_ok p th ph : (0 <= sin th)%R -> (0 <= p)%Z ->
  exists tab, ylm_table p th ph = Ok tab /\
    forall l m, (Z.abs m <= l)%Z -> (l <= p)%Z -> ylm_get tab l m = Ok (Yr (polar 1 th ph) l m).
Proof.
  intros Hs Hp. unfold ylm_table. set (tab0 := repeat (RtoC 0) _).
  assert (Hlen : Z.of_nat (length tab0) = ((p + 1) * (p + 1))%Z) by (unfold tab0; rewrite repeat_length; nia).
  set (V := Yr (polar 1 th ph)).
  match goal with |- exists tab, ofold ?f _ _ = _ /\ _ =>
    destruct (loop f 0 p (fun i t => length t = length tab0 /\ forall l m, (Z.abs m <= l)%Z -> (l < i)%Z -> zget t (sh_index l m) = Ok (V l m)) tab0) as [t' [E [Hl H]]] end.
  - lia.
  - split; [reflexivity|]. intros; lia.
  - intros l t Hl [Ht Hold].
    pose proof (sh_index_bound l 0 p ltac:(lia) ltac:(lia)) as Hb.
    rewrite zset_ok by (rewrite Ht, Hlen; lia). cbn [bind].
    match goal with |- exists s, omap fst (ofold ?f _ ?s0) = _ /\ _ =>
      destruct (loop f 1 l (fun i st => length (fst st) = length tab0 /\ snd st = Cpow (expi ph) (Z.to_nat i) /\
         (forall l' m', (Z.abs m' <= l')%Z -> (l' < l)%Z -> zget (fst st) (sh_index l' m') = Ok (V l' m')) /\
         (forall m', (Z.abs m' < i)%Z -> (Z.abs m' <= l)%Z -> zget (fst st) (sh_index l m') = Ok (V l m'))) s0) as [st2 [E2 [L2 [P2 [O2 N2]]]]] end.
    + lia.
    + cbn [fst snd]. rewrite lset_length. split; [assumption|]. split; [symmetry; apply Cpow_1|]. split.
      * intros l' m' Hm' Hl'. rewrite zget_other; [now apply Hold|lia| |].
        -- pose proof (sh_index_bound l' m' l'). lia.
        -- intros E'. apply sh_index_inj in E'; lia.
      * intros m' Hm' Hml. replace m' with 0%Z by lia. rewrite zget_same by (rewrite Ht, Hlen; lia). f_equal.
        pose proof (ylm_value (Z.to_nat l) 0 th ph Hs ltac:(lia)) as Q. rewrite Z2Nat.id in Q by lia. exact Q.
    + intros m [t1 em] Hm [L1 [P1 [O1 N1]]]. cbn [fst snd] in *.
      pose proof (sh_index_bound l m p ltac:(lia) ltac:(lia)) as B1.
      pose proof (sh_index_bound l (- m) p ltac:(lia) ltac:(lia)) as B2.
      set (y := (RtoC (schmidt (Z.to_nat l) (Z.to_nat m) (cos th)) * em / RtoC (sqrt 2))).
      assert (Ey : y = V l m).
      { pose proof (ylm_value (Z.to_nat l) (Z.to_nat m) th ph Hs ltac:(lia)) as Q. rewrite !Z2Nat.id in Q by lia.
        unfold V. rewrite <- Q. destruct (Z.to_nat m) eqn:Em; [lia|]. unfold y. rewrite P1. reflexivity. }
      rewrite zset_ok by (rewrite L1, Hlen; lia). cbn [bind].
      rewrite zset_ok by (rewrite lset_length, L1, Hlen; lia). cbn [bind].
      eexists. split; [reflexivity|]. cbn [fst snd]. rewrite !lset_length. split; [assumption|]. split.
      { replace (Z.to_nat (m + 1)) with (S (Z.to_nat m)) by lia. rewrite Cpow_S, P1. ring. }
      split.
      * intros l' m' Hm' Hl'.
        pose proof (sh_index_bound l' m' l' ltac:(lia) ltac:(lia)).
        assert (D1 : sh_index l' m' <> sh_index l (- m)) by (intros E'; apply sh_index_inj in E'; lia).
        assert (D2 : sh_index l' m' <> sh_index l m) by (intros E'; apply sh_index_inj in E'; lia).
        rewrite zget_other by (try assumption; lia). rewrite zget_other by (try assumption; lia). now apply O1.
      * intros m' Hm' Hml.
        pose proof (sh_index_bound l m' p ltac:(lia) ltac:(lia)).
        destruct (Z.eq_dec m' (- m)) as [->|Hne].
        -- rewrite zget_same by (rewrite lset_length, L1, Hlen; lia). f_equal. rewrite Ey. unfold V. apply Yr_conj.
        -- rewrite zget_other by (try (intros E'; apply sh_index_inj in E'); lia).
           destruct (Z.eq_dec m' m) as [->|Hne2].
           ++ rewrite zget_same by (rewrite L1, Hlen; lia). now rewrite Ey.
           ++ rewrite zget_other by (try (intros E'; apply sh_index_inj in E'); lia). apply N1; lia.
    + rewrite E2. eexists. split; [reflexivity|]. split; [assumption|].
      intros l' m' Hm' Hl'. destruct (Z.eq_dec l' l) as [->|Hne]; [apply N2; lia|apply O2; lia].
  - exists t'. split; [exact E|]. intros l m Hm Hl'. apply H; lia.
Qed.

(** ** Points *)
Definition p3 (v : list R) : P3 := (vget v 0, vget v 1, vget v 2).

Lemma spherical_ok v : length v = 3%nat ->
  exists r th ph, to_spherical 3 v = Ok [r; th; ph] /\ p3 v = polar r th ph /\ r = pn (p3 v) /\ (0 <= r)%R /\ (0 <= sin th)%R.
Proof.
  intros Hv. destruct (spherical_round_trip v Hv) as [r [th [ph [E [C0 [Er [Hr [Ht _]]]]]]]].
  exists r, th, ph. split; [assumption|].
  assert (Ep : p3 v = polar r th ph).
  { destruct (list3 v Hv) as [x [y [z ->]]]. unfold to_cartesian in C0. cbn [vget nth] in C0. unfold p3, polar. cbn [vget nth].
    assert (Q := f_equal (fun o => match o with Ok l => l | _ => [] end) C0). cbn beta iota in Q. injection Q as -> -> ->. reflexivity. }
  split; [assumption|]. split; [rewrite Ep; symmetry; now apply polar_pn|]. split; [assumption|]. apply sin_ge_0; lra.
Qed.

(** The start of every routine: the table of the direction [v], and its relation to the solid harmonics at [v]. *)
Lemma direction_ok v p : length v = 3%nat -> (0 <= p)%Z ->
  exists r th ph tab, to_spherical 3 v = Ok [r; th; ph] /\ ylm_table p th ph = Ok tab /\ r = pn (p3 v) /\ (0 <= r)%R /\
    p3 v = polar r th ph /\ (0 <= sin th)%R /\
    forall l m, (Z.abs m <= l)%Z -> (l <= p)%Z -> exists y, ylm_get tab l m = Ok y /\ RtoC (r ^ Z.to_nat l) * y = Yr (p3 v) l m.
Proof.
  intros Hv Hp. destruct (spherical_ok v Hv) as [r [th [ph [E [Ep [Er [Hr Hs]]]]]]].
  destruct (ylm_table_ok p th ph Hs Hp) as [tab [Et Ht]].
  exists r, th, ph, tab. split; [assumption|]. split; [assumption|]. split; [assumption|]. split; [assumption|].
  split; [assumption|]. split; [assumption|].
  intros l m Hm Hl. exists (Yr (polar 1 th ph) l m). split; [now apply Ht|].
  rewrite Ep, (polar_scal r), Yr_scal by lia. reflexivity.
Qed.
