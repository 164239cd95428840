(** Accuracy of the three-dimensional force fields in rounded arithmetic. *)
From Coq Require Import Reals List Arith ZArith Lia Lra Psatz.
From Coquelicot Require Import Rcomplements Complex.
From Verif Require Import Num Outcome Vec VecProofs Tables TableProofs Tables3D Table3DProofs CAux SolidHarmonics Zonal HarmonicBounds Kernel3 Expansion2D Spherical SphericalProofs Harmonics3D Expansion3D Exp3Loops Exp3Forces Gradient3
  GradientBounds3 CoefNorms RoundedExpansion2D RoundedExpansion3D RoundedComplexSpec ApproxC RoundedHarmonicSpec RoundedHarmonics RoundedLoops3 RoundedHarmonicTable RoundedTableSpec RoundedTable
  RoundedForce3D RoundedForceSpec3 RoundedForceTable3.
Import ListNotations.
Local Open Scope R_scope.
Arguments Cmod x%C.
Arguments ap w n%nat x'%C x%C X%R.

Section Force.
Variable w : R.
Hypothesis Hw : 0 <= w <= 1 / 2.
Variables ky kl : nat.
Variable G : garith.
Hypothesis HG : accurate_gradient w ky kl G.
Notation ap := (ap w).
Notation rap := (rap w).
Notation H := (g_h G).
Notation Y := (g_y G).
Notation B := (h_c H).
Notation rnd := (h_rnd H).
Let HH : accurate_harmonics w ky H := ag_h _ _ _ _ HG.
Let HB : accurate_complex w B := ah_c _ _ _ HH.
Let HY : accurate_table w kl Y := ag_y _ _ _ _ HG.

(** ** Sums *)
Lemma rap_sum n x' x X y' y Z : rap n x' x X -> rap n y' y Z -> rap (S n) (rnd (x' + y')) (x + y) (X + Z).
Proof. intros Hx H2. apply (rnd_rap w Hw ky H HH). unfold RoundedHarmonics.rap. rewrite !RtoC_plus. apply ap_add; assumption. Qed.
Lemma rap_opp n x' x X : rap n x' x X -> rap n (- x') (- x) X.
Proof. intros Hx. unfold RoundedHarmonics.rap. rewrite !RtoC_opp. apply ap_opp; assumption. Qed.
Lemma rap_difference n x' x X y' y Z : rap n x' x X -> rap n y' y Z -> rap (S n) (rnd (x' - y')) (x - y) (X + Z).
Proof. intros Hx H2. apply rap_sum; [exact Hx|apply rap_opp, H2]. Qed.
Lemma rap_re n (z' z : C) Z : ap n z' z Z -> rap n (fst z') (Re z) Z.
Proof. intros Hx. exact (ap_re w n z' z Z Hx). Qed.
Lemma rap_prod n m k x' x X y' y Z : rap n x' x X -> rap m y' y Z -> (n + m + 1 <= k)%nat -> rap k (rnd (x' * y')) (x * y) (X * Z).
Proof. intros Hx H2 Hk. eapply (rap_weaken w Hw); [apply (rnd_rap w Hw ky H HH); apply (rap_mul w); eassumption|lia|apply Rle_refl]. Qed.
Lemma rap_sg sg n x' x X : sg = 1 \/ sg = -1 -> rap n x' x X -> rap n (sg * x') (sg * x) X.
Proof.
  intros [-> | ->] Hx; [rewrite !Rmult_1_l; exact Hx|]. replace (-1 * x') with (- x') by ring. replace (-1 * x) with (- x) by ring. apply rap_opp. exact Hx.
Qed.

Section Sum.
Variable p : Z.
Variables (c : list R) (f : Z -> Z -> C) (ty td : list C) (Y' dY' Y0 dY0 : Z -> Z -> C).
Variables (a cc K : nat) (th t : R) (n0 : Z) (acc : R -> R -> R) (sg : R) (wt : Z -> R) (next : R -> outcome R) (Rf g : nat -> R).
Hypothesis HY1 : forall n m, (Z.abs m <= n)%Z -> (n <= p)%Z -> ylm_get ty n m = Ok (Y' n m).
Hypothesis HY2 : forall n m, (Z.abs m <= n)%Z -> (n <= p)%Z -> ylm_get td n m = Ok (dY' n m).
Hypothesis HY3 : forall n m, (Z.abs m <= n)%Z -> (n <= p)%Z -> ap a (Y' n m) (Y0 n m) 1.
Hypothesis HY4 : forall n m, (Z.abs m <= n)%Z -> (n <= p)%Z -> ap a (dY' n m) (dY0 n m) (2 * IZR n).
Hypothesis Hs : g_sin G th <> 0.
Hypothesis Hi : rap K (/ g_sin G th) (/ sin t) (/ sin t).
Hypothesis Hst : 0 < sin t.
Hypothesis Hacc : forall x y, acc x y = x + sg * y.
Hypothesis Hsg : sg = 1 \/ sg = -1.
Hypothesis Hn : forall n, next (Rf n) = Ok (Rf (S n)).
Hypothesis Hg0 : forall n, 0 <= g n.
Hypothesis Hg : forall n, (n <= Z.to_nat p)%nat -> rap cc (Rf n) (g n) (g n).
Hypothesis Hwt : forall n, (n0 <= n)%Z -> 0 <= wt n.
Hypothesis Hp : (0 <= n0 <= p + 1)%Z.

Let N := (cc + a + K + 6)%nat.
Let G1 := fun n m => (RtoC (sg * wt n) * (f n m * Y0 n m))%C.
Let G2 := fun n m => (f n m * dY0 n m)%C.
Let G3 := fun n m => (f n m * (Ci * RtoC (IZR m) * Y0 n m) * RtoC (/ sin t))%C.
Let T (h : Z -> Z -> C) (b : Z) := lsum (fun n => lsum (fun m => RtoC (g (Z.to_nat (n - n0))) * h n m)%C (zrange (- n) n)) (zrange n0 b).
Let Z1 := fun (n m : Z) => g (Z.to_nat (n - n0)) * (wt n * Cmod (f n m)).
Let Z2 := fun (n m : Z) => g (Z.to_nat (n - n0)) * (2 * IZR n * Cmod (f n m)).
Let Z3 := fun (n m : Z) => g (Z.to_nat (n - n0)) * (IZR n * Cmod (f n m)) * / sin t.
Let TS (h : Z -> Z -> R) (b : Z) := rsum (fun n => rsum (fun m => h n m) (zrange (- n) n)) (zrange n0 b).

Lemma term1 n m : (Z.abs m <= n)%Z -> (n0 <= n <= p)%Z ->
  rap N (sg * rnd (rnd (Rf (Z.to_nat (n - n0)) * wt n) * fst (c_mul B (f n m) (Y' n m)))) (Re (RtoC (g (Z.to_nat (n - n0))) * G1 n m)%C) (Z1 n m).
Proof.
  intros Hm Hl. set (i := Z.to_nat (n - n0)). assert (R1 := Hg i ltac:(unfold i; lia)).
  assert (R2 : rap (cc + 1) (rnd (Rf i * wt n)) (g i * wt n) (g i * wt n)).
  { eapply (rap_prod cc 0); [exact R1|apply (rap_exact w Hw); rewrite Rabs_pos_eq; [apply Rle_refl|apply Hwt; lia]|lia]. }
  assert (R3 := op_mul w Hw B HB 0 a (f n m) (f n m) (Cmod (f n m)) _ _ _ (ap_exact w Hw 0 _ _ (Rle_refl _)) (HY3 n m Hm ltac:(lia))). apply rap_re in R3.
  assert (R4 := rap_prod _ _ N _ _ _ _ _ _ R2 R3 ltac:(unfold N; lia)). apply (rap_sg sg) in R4; [|exact Hsg].
  replace (Re (RtoC (g i) * G1 n m)%C) with (sg * (g i * wt n * Re (f n m * Y0 n m)%C)).
  2:{ unfold G1. destruct (f n m * Y0 n m)%C as [u v]. unfold Re. cbn. ring. }
  eapply (rap_weaken w Hw); [exact R4|lia|]. unfold Z1. fold i. right. ring.
Qed.
Lemma term2 n m : (Z.abs m <= n)%Z -> (n0 <= n <= p)%Z ->
  rap N (rnd (Rf (Z.to_nat (n - n0)) * fst (c_mul B (f n m) (dY' n m)))) (Re (RtoC (g (Z.to_nat (n - n0))) * G2 n m)%C) (Z2 n m).
Proof.
  intros Hm Hl. set (i := Z.to_nat (n - n0)). assert (R1 := Hg i ltac:(unfold i; lia)).
  assert (R3 := op_mul w Hw B HB 0 a (f n m) (f n m) (Cmod (f n m)) _ _ _ (ap_exact w Hw 0 _ _ (Rle_refl _)) (HY4 n m Hm ltac:(lia))). apply rap_re in R3.
  assert (R4 := rap_prod _ _ N _ _ _ _ _ _ R1 R3 ltac:(unfold N; lia)).
  replace (Re (RtoC (g i) * G2 n m)%C) with (g i * Re (f n m * dY0 n m)%C).
  2:{ unfold G2. destruct (f n m * dY0 n m)%C as [u v]. unfold Re. cbn. ring. }
  eapply (rap_weaken w Hw); [exact R4|lia|]. unfold Z2. fold i. right. ring.
Qed.
Lemma term3 n m : (Z.abs m <= n)%Z -> (n0 <= n <= p)%Z ->
  exists q, rquot_r H (rnd (Rf (Z.to_nat (n - n0)) * fst (c_mul B (f n m) (c_mul B (0, IZR m) (Y' n m))))) (g_sin G th) = Ok q /\
    rap N q (Re (RtoC (g (Z.to_nat (n - n0))) * G3 n m)%C) (Z3 n m).
Proof.
  intros Hm Hl. set (i := Z.to_nat (n - n0)). assert (R1 := Hg i ltac:(unfold i; lia)).
  assert (Im1 : ap 0 (0, IZR m) (0, IZR m) (IZR n)).
  { apply ap_exact; [exact Hw|]. unfold Cmod. cbn [fst snd]. replace (0 ^ 2 + IZR m ^ 2) with (IZR m * IZR m) by ring. change (IZR m * IZR m) with (Rsqr (IZR m)). rewrite sqrt_Rsqr_abs.
    rewrite <- abs_IZR. apply IZR_le. lia. }
  assert (R2 := op_mul w Hw B HB 0 a _ _ _ _ _ _ Im1 (HY3 n m Hm ltac:(lia))).
  assert (R3 := op_mul w Hw B HB 0 _ (f n m) (f n m) (Cmod (f n m)) _ _ _ (ap_exact w Hw 0 _ _ (Rle_refl _)) R2). apply rap_re in R3.
  assert (R4 := rap_prod _ _ (cc + a + 4) _ _ _ _ _ _ R1 R3 ltac:(lia)).
  unfold rquot_r. destruct (Req_EM_T (g_sin G th) 0) as [E|_]; [contradiction|]. eexists. split; [reflexivity|].
  assert (R5 := rap_prod _ _ N _ _ _ _ _ _ R4 Hi ltac:(unfold N; lia)).
  replace (Re (RtoC (g i) * G3 n m)%C) with (g i * Re (f n m * ((0, IZR m) * Y0 n m))%C * / sin t).
  2:{ unfold G3. replace ((0, IZR m) : C) with (Ci * RtoC (IZR m))%C by (unfold Ci, RtoC, Cmult; cbn; f_equal; ring). destruct (f n m * (Ci * RtoC (IZR m) * Y0 n m))%C as [u v]. unfold Re. cbn. ring. }
  eapply (rap_weaken w Hw); [exact R5|lia|]. unfold Z3. fold i. right. ring.
Qed.
Lemma add_step k x' (x : C) X y' (y : C) Z : rap (N + k) x' (Re x) X -> rap N y' (Re y) Z -> rap (N + S k) (rnd (x' + y')) (Re (x + y)%C) (X + Z).
Proof.
  intros Hx H2. replace (Re (x + y)%C) with (Re x + Re y) by reflexivity. replace (N + S k)%nat with (S (N + k)) by lia.
  apply rap_sum; [exact Hx|]. eapply (rap_weaken w Hw); [exact H2|lia|apply Rle_refl].
Qed.
Lemma force_sum_r_ok : exists F1 F2 F3, force_sum_r G (s3_of p c f) (ty, td) th n0 acc wt (Rf 0%nat) next = Ok (F1, F2, F3) /\
  rap (N + Z.to_nat ((p + 1) * (p + 1))) F1 (Re (T G1 p)) (TS Z1 p) /\ rap (N + Z.to_nat ((p + 1) * (p + 1))) F2 (Re (T G2 p)) (TS Z2 p) /\
  rap (N + Z.to_nat ((p + 1) * (p + 1))) F3 (Re (T G3 p)) (TS Z3 p).
Proof.
  unfold force_sum_r. cbn [s3_ord s3_of fst snd].
  assert (E0 : forall h, T h (n0 - 1) = RtoC 0) by (intros h; unfold T; rewrite zrange_empty by lia; reflexivity).
  assert (E1 : forall h, TS h (n0 - 1) = 0) by (intros h; unfold TS; rewrite zrange_empty by lia; reflexivity).
  match goal with |- exists F1 F2 F3, omap fst (ofold ?F _ ?s0) = _ /\ _ =>
    destruct (loop F n0 p (fun i st => snd st = Rf (Z.to_nat (i - n0)) /\
      rap (N + Z.to_nat (i * i)) (fst (fst (fst st))) (Re (T G1 (i - 1))) (TS Z1 (i - 1)) /\
      rap (N + Z.to_nat (i * i)) (snd (fst (fst st))) (Re (T G2 (i - 1))) (TS Z2 (i - 1)) /\
      rap (N + Z.to_nat (i * i)) (snd (fst st)) (Re (T G3 (i - 1))) (TS Z3 (i - 1))) s0) as [st [E [_ (H1 & H2 & H3)]]] end.
  - lia.
  - rewrite Z.sub_diag, !E0, !E1. cbn [fst snd]. assert (Z : rap (N + Z.to_nat (n0 * n0)) 0 (Re (RtoC 0)) 0) by (apply (rap_exact w Hw); cbn; rewrite Rabs_R0; lra).
    split; [reflexivity|]. split; [exact Z|]. split; exact Z.
  - intros n [[[x1 x2] x3] rp] Hl (Er & I1 & I2 & I3). cbn [fst snd] in *. subst rp.
    pose (Q := fun (h : Z -> Z -> C) b => lsum (fun m => RtoC (g (Z.to_nat (n - n0))) * h n m)%C (zrange (- n) b)).
    pose (QS := fun (h : Z -> Z -> R) b => rsum (fun m => h n m) (zrange (- n) b)).
    match goal with |- exists s, bind (ofold ?F _ _) _ = _ /\ _ =>
      destruct (loop F (- n) n (fun i s =>
        rap (N + (Z.to_nat (n * n) + Z.to_nat (i + n))) (fst (fst s)) (Re (T G1 (n - 1) + Q G1 (i - 1)%Z)%C) (TS Z1 (n - 1)%Z + QS Z1 (i - 1)%Z) /\
        rap (N + (Z.to_nat (n * n) + Z.to_nat (i + n))) (snd (fst s)) (Re (T G2 (n - 1) + Q G2 (i - 1)%Z)%C) (TS Z2 (n - 1)%Z + QS Z2 (i - 1)%Z) /\
        rap (N + (Z.to_nat (n * n) + Z.to_nat (i + n))) (snd s) (Re (T G3 (n - 1) + Q G3 (i - 1)%Z)%C) (TS Z3 (n - 1)%Z + QS Z3 (i - 1)%Z)) (x1, x2, x3)) as [s2 [Es (J1 & J2 & J3)]] end.
    + lia.
    + assert (F0 : forall h, Q h (- n - 1)%Z = RtoC 0) by (intros h; unfold Q; rewrite zrange_empty by lia; reflexivity).
      assert (F1 : forall h, QS h (- n - 1)%Z = 0) by (intros h; unfold QS; rewrite zrange_empty by lia; reflexivity).
      rewrite !F0, !F1, !Cplus_0_r, !Rplus_0_r. cbn [fst snd]. replace (Z.to_nat (n * n) + Z.to_nat (- n + n))%nat with (Z.to_nat (n * n)) by lia.
      split; [exact I1|]. split; [exact I2|exact I3].
    + intros m [[z1 z2] z3] Hm (J1 & J2 & J3). cbn [fst snd] in *. fold (s3_of p c f). rewrite s3_of_get by lia. cbn [bind]. rewrite HY1, HY2 by lia. cbn [bind].
      destruct (term3 n m ltac:(lia) ltac:(lia)) as (q & Eq & Hq). rewrite Eq. cbn [bind]. eexists. split; [reflexivity|]. cbn [fst snd].
      assert (EQ : forall h, Q h (m + 1 - 1)%Z = (Q h (m - 1)%Z + RtoC (g (Z.to_nat (n - n0))) * h n m)%C).
      { intros h. unfold Q. replace (m + 1 - 1)%Z with ((m - 1) + 1)%Z by lia. rewrite zrange_snoc by lia. rewrite lsum_snoc. replace (m - 1 + 1)%Z with m by lia. reflexivity. }
      assert (EQS : forall h, QS h (m + 1 - 1)%Z = QS h (m - 1)%Z + h n m).
      { intros h. unfold QS. replace (m + 1 - 1)%Z with ((m - 1) + 1)%Z by lia. rewrite zrange_snoc by lia. rewrite rsum_snoc. replace (m - 1 + 1)%Z with m by lia. reflexivity. }
      rewrite !EQ, !EQS, !Cplus_assoc, <- !Rplus_assoc. replace (Z.to_nat (n * n) + Z.to_nat (m + 1 + n))%nat with (S (Z.to_nat (n * n) + Z.to_nat (m + n))) by lia.
      split; [|split].
      * rewrite Hacc. apply add_step; [exact J1|apply term1; lia].
      * apply add_step; [exact J2|apply term2; lia].
      * apply add_step; [exact J3|exact Hq].
    + rewrite Es. cbn [bind]. rewrite Hn. cbn [bind]. eexists. split; [reflexivity|]. cbn [fst snd]. split.
      * f_equal. lia.
      * assert (ET : forall h, T h (n + 1 - 1)%Z = (T h (n - 1)%Z + Q h (n + 1 - 1)%Z)%C).
        { intros h. unfold T, Q. replace (n + 1 - 1)%Z with ((n - 1) + 1)%Z by lia. rewrite zrange_snoc by lia. rewrite lsum_snoc. replace (n - 1 + 1)%Z with n by lia. reflexivity. }
        assert (ETS : forall h, TS h (n + 1 - 1)%Z = TS h (n - 1)%Z + QS h (n + 1 - 1)%Z).
        { intros h. unfold TS, QS. replace (n + 1 - 1)%Z with ((n - 1) + 1)%Z by lia. rewrite zrange_snoc by lia. rewrite rsum_snoc. replace (n - 1 + 1)%Z with n by lia. reflexivity. }
        rewrite !ET, !ETS. destruct s2 as [[y1 y2] y3]. cbn [fst snd] in *.
        assert (LE : (N + (Z.to_nat (n * n) + Z.to_nat (n + 1 + n)) <= N + Z.to_nat ((n + 1) * (n + 1)))%nat) by nia.
        split; [|split]; (eapply (rap_weaken w Hw); [eassumption|exact LE|apply Rle_refl]).
  - destruct st as [[[y1 y2] y3] rp]. cbn [fst snd] in *. exists y1, y2, y3. rewrite E. unfold omap. cbn [bind]. split; [reflexivity|].
    replace (p + 1 - 1)%Z with p in * by lia. split; [exact H1|]. split; [exact H2|exact H3].
Qed.
End Sum.
End Force.
