(** Zonal sums of solid harmonics: the addition theorem of Legendre polynomials in homogeneous form. *)
From Coq Require Import Reals List Arith ZArith Lia Lra.
From Coquelicot Require Import Coquelicot.
From Verif Require Import Outcome Tables CAux TableProofs Tables3D Table3DProofs SolidHarmonics.
Import ListNotations.
Local Open Scope R_scope.
Local Open Scope C_scope.

(** k! for an integer k. *)
Definition facZ (k : Z) : C := Cn (fact (Z.to_nat k)).
Lemma facZ_S k : (0 <= k)%Z -> facZ (k + 1) = Cz (k + 1) * facZ k.
Proof.
  intros H. unfold facZ. replace (Z.to_nat (k + 1)) with (S (Z.to_nat k)) by lia.
  rewrite fact_simpl. unfold Cn. rewrite mult_INR, RtoC_mult. f_equal. unfold Cz. f_equal.
  rewrite INR_IZR_INZ. f_equal. lia.
Qed.
Lemma facZ_0 : facZ 0 = 1. Proof. reflexivity. Qed.
Lemma facZ_nz k : facZ k <> 0.
Proof. unfold facZ, Cn. apply CINR_nz. apply lt_O_fact. Qed.

(** (n-m)! (n+m)! for |m| <= n, and 0 otherwise. *)
Definition wt (n m : Z) : C := if (Z.abs m <=? n)%Z then facZ (n - m) * facZ (n + m) else 0.

Lemma wt_in n m : (Z.abs m <= n)%Z -> wt n m = facZ (n - m) * facZ (n + m).
Proof. intros H. unfold wt. destruct (Z.leb_spec (Z.abs m) n); [reflexivity|lia]. Qed.
Lemma wt_out n m : (n < Z.abs m)%Z -> wt n m = 0.
Proof. intros H. unfold wt. destruct (Z.leb_spec (Z.abs m) n); [lia|reflexivity]. Qed.

(** Raising the degree by one. *)
Lemma wt_up n m : (Z.abs m <= n)%Z -> wt (n + 1) m = Cz (n + 1 - m) * Cz (n + 1 + m) * wt n m.
Proof.
  intros H. rewrite !wt_in by lia.
  replace (n + 1 - m)%Z with (n - m + 1)%Z by lia. replace (n + 1 + m)%Z with (n + m + 1)%Z by lia.
  rewrite !facZ_S by lia. ring.
Qed.
Lemma wt_up_p n m : (Z.abs (m + 1) <= n)%Z -> (Z.abs m <= n + 1)%Z ->
  wt (n + 1) m = Cz (n - m) * Cz (n + 1 - m) * wt n (m + 1).
Proof.
  intros H H'. rewrite !wt_in by lia.
  replace (n + 1 - m)%Z with (n - (m + 1) + 1 + 1)%Z by lia. rewrite !facZ_S by lia.
  replace (n - (m + 1) + 1)%Z with (n - m)%Z by lia. replace (n + (m + 1))%Z with (n + 1 + m)%Z by lia. ring.
Qed.
Lemma wt_up_m n m : (Z.abs (m - 1) <= n)%Z -> (Z.abs m <= n + 1)%Z ->
  wt (n + 1) m = Cz (n + m) * Cz (n + 1 + m) * wt n (m - 1).
Proof.
  intros H H'. rewrite !wt_in by lia.
  replace (n + 1 + m)%Z with (n + (m - 1) + 1 + 1)%Z by lia. rewrite !facZ_S by lia.
  replace (n + (m - 1) + 1)%Z with (n + m)%Z by lia. replace (n - (m - 1))%Z with (n + 1 - m)%Z by lia. ring.
Qed.

(** With one more factor the relations hold up to the boundary. *)
Lemma wt_up2 n m : (0 <= n)%Z -> (Z.abs m <= n + 1)%Z ->
  Cz (n + 1 - m) * Cz (n + 1 + m) * (Cz (n + 1 - m) * Cz (n + 1 + m)) * wt n m =
  Cz (n + 1 - m) * Cz (n + 1 + m) * wt (n + 1) m.
Proof.
  intros Hn H. destruct (Z_le_gt_dec (Z.abs m) n) as [Hm|Hm].
  - rewrite wt_up by assumption. ring.
  - assert (Hz : Cz (n + 1 - m) * Cz (n + 1 + m) = 0).
    { assert (m = n + 1 \/ m = - (n + 1))%Z as [->| ->] by lia.
      - replace (n + 1 - (n + 1))%Z with 0%Z by lia. rewrite Cz_0. ring.
      - replace (n + 1 + - (n + 1))%Z with 0%Z by lia. rewrite Cz_0. ring. }
    rewrite Hz. ring.
Qed.
Lemma wt_up2_p n m : (0 <= n)%Z -> (Z.abs m <= n + 1)%Z ->
  Cz (n - m) * Cz (n + 1 - m) * (Cz (n - m) * Cz (n + 1 - m)) * wt n (m + 1) =
  Cz (n - m) * Cz (n + 1 - m) * wt (n + 1) m.
Proof.
  intros Hn H. destruct (Z_le_gt_dec (Z.abs (m + 1)) n) as [Hm|Hm].
  - rewrite wt_up_p by assumption. ring.
  - assert (Hz : Cz (n - m) * Cz (n + 1 - m) = 0).
    { assert (m = n + 1 \/ m = n)%Z as [->| ->] by lia.
      - replace (n + 1 - (n + 1))%Z with 0%Z by lia. rewrite Cz_0. ring.
      - replace (n - n)%Z with 0%Z by lia. rewrite Cz_0. ring. }
    rewrite Hz. ring.
Qed.
Lemma wt_up2_m n m : (0 <= n)%Z -> (Z.abs m <= n + 1)%Z ->
  Cz (n + m) * Cz (n + 1 + m) * (Cz (n + m) * Cz (n + 1 + m)) * wt n (m - 1) =
  Cz (n + m) * Cz (n + 1 + m) * wt (n + 1) m.
Proof.
  intros Hn H. destruct (Z_le_gt_dec (Z.abs (m - 1)) n) as [Hm|Hm].
  - rewrite wt_up_m by assumption. ring.
  - assert (Hz : Cz (n + m) * Cz (n + 1 + m) = 0).
    { assert (m = - n \/ m = - (n + 1))%Z as [->| ->] by lia.
      - replace (n + - n)%Z with 0%Z by lia. rewrite Cz_0. ring.
      - replace (n + 1 + - (n + 1))%Z with 0%Z by lia. rewrite Cz_0. ring. }
    rewrite Hz. ring.
Qed.

(** The zonal sum of degree n. *)
Definition zon (v w : hpt) (n : nat) : C :=
  zsum (Z.of_nat n) (fun m => sg m * wt (Z.of_nat n) m * sh v n (- m) * sh w n m).
Lemma zon_wide v w n K : (Z.of_nat n <= K)%Z ->
  zon v w n = zsum K (fun m => sg m * wt (Z.of_nat n) m * sh v n (- m) * sh w n m).
Proof.
  intros H. unfold zon. symmetry. apply zsum_larger; [lia|]. intros m Hm. rewrite wt_out by lia. ring.
Qed.

Lemma zon_0 v w : zon v w 0 = 1.
Proof.
  unfold zon, zsum. change (zrange (- Z.of_nat 0) (Z.of_nat 0)) with [0%Z]. rewrite lsum_cons, lsum_nil.
  rewrite wt_in by lia. change (facZ (Z.of_nat 0 - 0)) with (RtoC 1). change (facZ (Z.of_nat 0 + 0)) with (RtoC 1). rewrite sg_0. simpl. ring.
Qed.
Lemma zon_1 v w : zon v w 1 = hdot v w.
Proof.
  unfold zon, zsum. change (zrange (- Z.of_nat 1) (Z.of_nat 1)) with [(-1)%Z; 0%Z; 1%Z]. rewrite !lsum_cons, lsum_nil.
  rewrite !wt_in by lia.
  change (facZ (Z.of_nat 1 - -1)) with (RtoC (1 + 1)). change (facZ (Z.of_nat 1 + -1)) with (RtoC 1).
  change (facZ (Z.of_nat 1 - 0)) with (RtoC 1). change (facZ (Z.of_nat 1 + 0)) with (RtoC 1).
  change (facZ (Z.of_nat 1 - 1)) with (RtoC 1). change (facZ (Z.of_nat 1 + 1)) with (RtoC (1 + 1)).
  change (sg (-1)) with (RtoC (-1)). change (sg 1) with (RtoC (-1)). rewrite sg_0.
  unfold hdot. change (Z.opp (-1)) with 1%Z. change (Z.opp 0) with 0%Z. change (Z.opp 1) with (-1)%Z. simpl sh.
  change (Cn 1) with (RtoC 1). rewrite RtoC_plus. replace (RtoC (-1)) with (- RtoC 1) by (rewrite <- RtoC_opp; f_equal; ring).
  field. apply C1_nz.
Qed.

Section Rec.
Variables v w : hpt.
Variable n : nat.
Let N := Z.of_nat (S n).
Let c := Cn n + Cn n + 1 + 1 + 1.
Let U := sh v (S (S n)).
Let U' := sh w (S (S n)).
Let V := sh v n.
Let V' := sh w n.

Let al m := Cz (N + 1 - m) * Cz (N + 1 + m).
Let be m := Cz (N - m) * Cz (N + 1 - m).       (* factor of the term shifted from m + 1 *)
Let ga m := Cz (N + m) * Cz (N + 1 + m).       (* factor of the term shifted from m - 1 *)
Let t0 m := sg m * wt N m * ((al m * U (- m)%Z + hsq v * V (- m)%Z) * (al m * U' m + hsq w * V' m)).
Let tp m := sg m * wt N (m + 1) * ((be m * U (- m)%Z - hsq v * V (- m)%Z) * (be m * U' m - hsq w * V' m)).
Let tm m := sg m * wt N (m - 1) * ((ga m * U (- m)%Z - hsq v * V (- m)%Z) * (ga m * U' m - hsq w * V' m)).

Lemma CnN : Cn (S (S n)) = Cz (N + 1).
Proof. rewrite Cn_z. f_equal. unfold N. lia. Qed.

Lemma expand_z : c * c * (hz v * hz w) * zon v w (S n) = zsum (N + 2) t0.
Proof.
  rewrite (zon_wide _ _ _ (N + 2)) by lia. rewrite <- zsum_scal. apply zsum_ext. intros m _. unfold t0, al, U, U', V, V'.
  pose proof (sh_rec_z v n (- m)) as H1. pose proof (sh_rec_z w n m) as H2. fold c in H1, H2.
  rewrite CnN, Cz_opp in H1. rewrite CnN in H2. fold N. 
  rewrite !(Cz_sub (N + 1)), !(Cz_add (N + 1)).
  replace (c * c * (hz v * hz w) * (sg m * wt N m * sh v (S n) (- m) * sh w (S n) m)) with
    (sg m * wt N m * ((c * (hz v * sh v (S n) (- m))) * (c * (hz w * sh w (S n) m)))) by ring.
  rewrite H1, H2. ring.
Qed.
Lemma expand_p : (1 + 1) * c * ((1 + 1) * c) * (hp v * hq w) * zon v w (S n) = zsum (N + 2) (fun m => - tp m).
Proof.
  rewrite (zon_wide _ _ _ (N + 2)) by lia. rewrite <- zsum_scal.
  transitivity (zsum (N + 2) (fun m => (fun k => - tp k) (m + -1)%Z)).
  - apply zsum_ext. intros m _. cbv beta. unfold tp, be, U, U', V, V'.
    pose proof (sh_rec_p v n (- m)) as H1. pose proof (sh_rec_q w n m) as H2. fold c in H1, H2.
    rewrite CnN, Cz_opp in H1. rewrite CnN in H2. fold N.
    replace (m + -1)%Z with (m - 1)%Z by lia. rewrite sg_pred.
    replace (m - 1 + 1)%Z with m by lia. replace (- m + 1)%Z with (- (m - 1))%Z in H1 by lia.
    replace (N - (m - 1))%Z with (N + 1 - m)%Z by lia. replace (N + 1 - (m - 1))%Z with (N + 1 - m + 1)%Z by lia.
    rewrite !(Cz_add (N + 1 - m)), !(Cz_sub (N + 1)), Cz_1.
    replace ((1 + 1) * c * ((1 + 1) * c) * (hp v * hq w) * (sg m * wt N m * sh v (S n) (- m) * sh w (S n) m)) with
      (sg m * wt N m * (((1 + 1) * c * (hp v * sh v (S n) (- m))) * ((1 + 1) * c * (hq w * sh w (S n) m)))) by ring.
    rewrite H1, H2. ring.
  - apply (zsum_shift_in (fun k => - tp k)); [lia| |lia]. intros m Hm. unfold tp, U, U', V, V'.
    rewrite !(sh_out w) by lia. ring.
Qed.
Lemma expand_m : (1 + 1) * c * ((1 + 1) * c) * (hq v * hp w) * zon v w (S n) = zsum (N + 2) (fun m => - tm m).
Proof.
  rewrite (zon_wide _ _ _ (N + 2)) by lia. rewrite <- zsum_scal.
  transitivity (zsum (N + 2) (fun m => (fun k => - tm k) (m + 1)%Z)).
  - apply zsum_ext. intros m _. cbv beta. unfold tm, ga, U, U', V, V'.
    pose proof (sh_rec_q v n (- m)) as H1. pose proof (sh_rec_p w n m) as H2. fold c in H1, H2.
    rewrite CnN, Cz_opp in H1. rewrite CnN in H2. fold N.
    rewrite sg_succ.
    replace (m + 1 - 1)%Z with m by lia. replace (- m - 1)%Z with (- (m + 1))%Z in H1 by lia.
    replace (N + (m + 1))%Z with (N + 1 + m)%Z by lia. replace (N + 1 + (m + 1))%Z with (N + 1 + m + 1)%Z by lia.
    rewrite !(Cz_add (N + 1 + m)), !(Cz_add (N + 1) m), Cz_1.
    replace ((1 + 1) * c * ((1 + 1) * c) * (hq v * hp w) * (sg m * wt N m * sh v (S n) (- m) * sh w (S n) m)) with
      (sg m * wt N m * (((1 + 1) * c * (hq v * sh v (S n) (- m))) * ((1 + 1) * c * (hp w * sh w (S n) m)))) by ring.
    rewrite H1, H2. ring.
  - apply (zsum_shift_in (fun k => - tm k)); [lia| |lia]. intros m Hm. unfold tm, U, U', V, V'.
    rewrite !(sh_out w) by lia. ring.
Qed.

Lemma cN : c = (1 + 1) * Cz N + 1.
Proof. unfold c, N. rewrite <- Cn_z, Cn_S. ring. Qed.

Lemma point_sum m : (1 + 1) * t0 m + tp m + tm m =
  (1 + 1) * c * (Cz (N + 1) * (sg m * wt (N + 1) m * U (- m)%Z * U' m)
               + Cz N * (hsq v * hsq w) * (sg m * wt (N - 1) m * V (- m)%Z * V' m)).
Proof.
  assert (HN : (0 <= N - 1)%Z) by (unfold N; lia).
  destruct (Z_le_gt_dec (Z.abs m) (N + 1)) as [Hm|Hm].
  - pose proof (wt_up2 N m ltac:(lia) Hm) as W0. pose proof (wt_up2_p N m ltac:(lia) Hm) as Wp.
    pose proof (wt_up2_m N m ltac:(lia) Hm) as Wm.
    fold (al m) in W0. fold (be m) in Wp. fold (ga m) in Wm.
    assert (W1 : (1 + 1) * (al m * al m * wt N m) + be m * be m * wt N (m + 1) + ga m * ga m * wt N (m - 1)
                 = (1 + 1) * c * Cz (N + 1) * wt (N + 1) m).
    { rewrite W0, Wp, Wm. unfold al, be, ga. rewrite cN.
      rewrite !Cz_sub, !Cz_add, !Cz_1. ring. }
    destruct (Z_le_gt_dec (Z.abs m) (N - 1)) as [Hi|Hi].
    + assert (E0 : wt N m = Cz (N - m) * Cz (N + m) * wt (N - 1) m).
      { pose proof (wt_up (N - 1) m Hi) as E. replace (N - 1 + 1)%Z with N in E by lia. exact E. }
      assert (Ep : wt N (m + 1) = Cz (N + m) * Cz (N + m + 1) * wt (N - 1) m).
      { pose proof (wt_up_m (N - 1) (m + 1)) as E. replace (N - 1 + 1)%Z with N in E by lia.
        replace (m + 1 - 1)%Z with m in E by lia. rewrite E by lia.
        replace (N - 1 + (m + 1))%Z with (N + m)%Z by lia. replace (N + (m + 1))%Z with (N + m + 1)%Z by lia. reflexivity. }
      assert (Em : wt N (m - 1) = Cz (N - m) * Cz (N - m + 1) * wt (N - 1) m).
      { pose proof (wt_up_p (N - 1) (m - 1)) as E. replace (N - 1 + 1)%Z with N in E by lia.
        replace (m - 1 + 1)%Z with m in E by lia. rewrite E by lia.
        replace (N - 1 - (m - 1))%Z with (N - m)%Z by lia. replace (N - (m - 1))%Z with (N - m + 1)%Z by lia. reflexivity. }
      assert (W2 : (1 + 1) * wt N m + wt N (m + 1) + wt N (m - 1) = (1 + 1) * c * Cz N * wt (N - 1) m).
      { rewrite E0, Ep, Em, cN. rewrite !Cz_add, !Cz_sub, Cz_1. ring. }
      assert (W3 : (1 + 1) * (al m * wt N m) - be m * wt N (m + 1) - ga m * wt N (m - 1) = 0).
      { rewrite E0, Ep, Em. unfold al, be, ga. rewrite !Cz_add, !Cz_sub, !Cz_add, Cz_1. ring. }
      unfold t0, tp, tm.
      lin (sg m * U (- m)%Z * U' m * dif W1 + sg m * V (- m)%Z * V' m * (hsq v * hsq w) * dif W2
           + sg m * (U (- m)%Z * V' m * hsq w + hsq v * V (- m)%Z * U' m) * dif W3).
    + assert (HV : V (- m)%Z = 0) by (unfold V; apply sh_out; unfold N in Hi; lia).
      assert (HV' : V' m = 0) by (unfold V'; apply sh_out; unfold N in Hi; lia).
      unfold t0, tp, tm. rewrite HV, HV'.
      lin (sg m * U (- m)%Z * U' m * dif W1).
  - assert (HU : U (- m)%Z = 0) by (unfold U; apply sh_out; unfold N in Hm; lia).
    assert (HV : V (- m)%Z = 0) by (unfold V; apply sh_out; unfold N in Hm; lia).
    unfold t0, tp, tm. rewrite HU, HV. ring.
Qed.

Theorem zon_rec : Cn (S (S n)) * zon v w (S (S n)) =
  (Cn n + Cn n + 1 + 1 + 1) * hdot v w * zon v w (S n) - Cn (S n) * (hsq v * hsq w) * zon v w n.
Proof.
  assert (Hc : c <> 0).
  { unfold c, Cn. rewrite <- !RtoC_plus. intros E. apply RtoC_inj in E. pose proof (pos_INR n). lra. }
  assert (H2 : (1 + 1 : C) <> 0).
  { rewrite <- RtoC_plus. intros E. apply RtoC_inj in E. lra. }
  apply (Creg_l ((1 + 1) * c)); [apply Cmult_neq_0; assumption|].
  fold c.
  assert (E : zsum (N + 2) (fun m => (1 + 1) * t0 m + tp m + tm m) =
              (1 + 1) * c * (Cn (S (S n)) * zon v w (S (S n)) + Cn (S n) * (hsq v * hsq w) * zon v w n)).
  { rewrite (zsum_ext _ _ _ (fun m _ => point_sum m)). rewrite zsum_scal, zsum_plus, !zsum_scal.
    rewrite (zon_wide v w (S (S n)) (N + 2)) by (unfold N; lia). rewrite (zon_wide v w n (N + 2)) by (unfold N; lia).
    rewrite CnN, Cn_z. fold N. replace (Z.of_nat (S (S n))) with (N + 1)%Z by (unfold N; lia).
    replace (Z.of_nat n) with (N - 1)%Z by (unfold N; lia). reflexivity. }
  rewrite !zsum_plus, zsum_scal in E. pose proof expand_z as Ez. pose proof expand_p as Ep. pose proof expand_m as Em.
  assert (Eop : forall f, zsum (N + 2) (fun m => - f m) = - zsum (N + 2) f) by (intros f; apply lsum_opp).
  rewrite Eop in Ep, Em. unfold hdot.
  lin (- dif E - (1 + 1) * dif Ez + dif Ep + dif Em).
Qed.
End Rec.

(** ** Sequences with the Legendre recurrence *)
Definition legendre_seq (a b : C) (f : nat -> C) : Prop :=
  f O = 1 /\ f 1%nat = a /\
  forall n, Cn (S (S n)) * f (S (S n)) = (Cn n + Cn n + 1 + 1 + 1) * a * f (S n) - Cn (S n) * b * f n.
Lemma legendre_unique a b f g : legendre_seq a b f -> legendre_seq a b g -> forall n, f n = g n.
Proof.
  intros [F0 [F1 F]] [G0 [G1 G]].
  assert (H : forall n, f n = g n /\ f (S n) = g (S n)).
  { induction n as [|n [IH1 IH2]]; [split; congruence|]. split; [assumption|].
    apply (Creg_l (Cn (S (S n)))); [apply Cn_S_nz|]. rewrite F, G, IH1, IH2. reflexivity. }
  intros n. apply H.
Qed.
Lemma zon_legendre v w : legendre_seq (hdot v w) (hsq v * hsq w) (zon v w).
Proof. split; [apply zon_0|]. split; [apply zon_1|]. intros n. rewrite zon_rec. ring. Qed.
Lemma axis_legendre d w : legendre_seq (d * hz w) (d * d * hsq w) (fun n => Cpow d n * (Cn (fact n) * sh w n 0)).
Proof.
  split; [|split].
  - simpl. change (Cn 1) with (RtoC 1). ring.
  - simpl. change (Cn 1) with (RtoC 1). field. apply C1_nz.
  - intros n. pose proof (sh_rec_z w n 0) as H. rewrite Cz_0 in H.
    rewrite !fact_simpl. 
    assert (M : forall a b, Cn (a * b) = Cn a * Cn b) by (intros; unfold Cn; rewrite mult_INR, RtoC_mult; reflexivity).
    rewrite !M. cbn [Cpow].
    lin (- d * d * Cpow d n * Cn (S n) * Cn (fact n) * dif H).
Qed.
(** The addition theorem: the zonal sum is the axial harmonic in a frame whose third axis is along the second point. *)
Theorem zon_frame v w d u : hdot v w = d * hz u -> hsq v * hsq w = d * d * hsq u ->
  forall n, zon v w n = Cpow d n * (Cn (fact n) * sh u n 0).
Proof.
  intros E1 E2. apply legendre_unique with (a := hdot v w) (b := hsq v * hsq w); [apply zon_legendre|].
  rewrite E1, E2. apply axis_legendre.
Qed.
