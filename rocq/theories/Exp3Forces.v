(** The three-dimensional force fields are minus the gradients of the potentials, off the vertical axis. *)
From Coq Require Import Reals List Arith ZArith Lia Lra.
From Coquelicot Require Import Coquelicot.
From Verif Require Import Num Outcome Vec VecProofs Fields Tables CAux TableProofs Tables3D Expansion3D Table3DProofs Exp2Forces Exp2ForceErrors SolidHarmonics Zonal HarmonicBounds Kernel3
  Expansion2D Spherical SphericalProofs Harmonics3D Exp3Loops Gradient3.
Import ListNotations.
Local Open Scope R_scope.
Local Open Scope C_scope.

(** ** The tables *)
Lemma ylm_deriv_ok p th ph : (0 < sin th)%R -> (0 <= p)%Z ->
  exists ty td, ylm_deriv_table p th ph = Ok (ty, td) /\
    (forall l m, (Z.abs m <= l)%Z -> (l <= p)%Z -> ylm_get ty l m = Ok (Yr (polar 1 th ph) l m)) /\
    (forall l m, (Z.abs m <= l)%Z -> (l <= p)%Z -> ylm_get td l m = Ok (dYr (e_th th ph) (polar 1 th ph) l m)).
Proof.
  intros Hs Hp. unfold ylm_deriv_table. destruct (Req_EM_T (sin th) 0) as [E0|_]; [lra|]. set (tab0 := repeat (RtoC 0) _).
  assert (Hlen : Z.of_nat (length tab0) = ((p + 1) * (p + 1))%Z) by (unfold tab0; rewrite repeat_length; nia).
  set (V := Yr (polar 1 th ph)). set (W := dYr (e_th th ph) (polar 1 th ph)).
  match goal with |- exists ty td, ofold ?f _ _ = _ /\ _ =>
    destruct (loop f 0 p (fun i t => length (fst t) = length tab0 /\ length (snd t) = length tab0 /\
      forall l m, (Z.abs m <= l)%Z -> (l < i)%Z -> zget (fst t) (sh_index l m) = Ok (V l m) /\ zget (snd t) (sh_index l m) = Ok (W l m)) (tab0, tab0)) as [t' [E [_ [_ H]]]] end.
  - lia.
  - split; [reflexivity|]. split; [reflexivity|]. intros; lia.
  - intros l [ty td] Hl [Ht [Htd Hold]]. cbn [fst snd] in *.
    pose proof (sh_index_bound l 0 p ltac:(lia) ltac:(lia)) as Hb.
    rewrite zset_ok by (rewrite Ht, Hlen; lia). cbn [bind]. rewrite zset_ok by (rewrite Htd, Hlen; lia). cbn [bind].
    match goal with |- exists s, ofold ?f _ ?s0 = _ /\ _ =>
      destruct (loop f 1 l (fun i st => length (fst st) = length tab0 /\ length (snd st) = length tab0 /\
         (forall l' m', (Z.abs m' <= l')%Z -> (l' < l)%Z -> zget (fst st) (sh_index l' m') = Ok (V l' m') /\ zget (snd st) (sh_index l' m') = Ok (W l' m')) /\
         (forall m', (Z.abs m' < i)%Z -> (Z.abs m' <= l)%Z -> zget (fst st) (sh_index l m') = Ok (V l m') /\ zget (snd st) (sh_index l m') = Ok (W l m'))) s0) as [st2 [E2 [L2 [M2 [O2 N2]]]]] end.
    + lia.
    + cbn [fst snd]. rewrite !lset_length. split; [assumption|]. split; [assumption|]. split.
      * intros l' m' Hm' Hl'. destruct (Hold l' m' Hm' Hl') as [A B]. pose proof (sh_index_bound l' m' l' ltac:(lia) ltac:(lia)).
        assert (sh_index l' m' <> sh_index l 0) by (intros E'; apply sh_index_inj in E'; lia).
        split; rewrite zget_other; try assumption; lia.
      * intros m' Hm' Hml. replace m' with 0%Z by lia. split.
        -- rewrite zget_same by (rewrite Ht, Hlen; lia). f_equal.
           pose proof (ylm_value (Z.to_nat l) 0 th ph (Rlt_le _ _ Hs) ltac:(lia)) as Q. rewrite Z2Nat.id in Q by lia. exact Q.
        -- rewrite zget_same by (rewrite Htd, Hlen; lia). f_equal.
           pose proof (ylm_dvalue (Z.to_nat l) 0 th ph Hs ltac:(lia)) as Q. rewrite Z2Nat.id in Q by lia. exact Q.
    + intros m [t1 d1] Hm [L1 [M1 [O1 N1]]]. cbn [fst snd] in *.
      pose proof (sh_index_bound l m p ltac:(lia) ltac:(lia)) as B1.
      pose proof (sh_index_bound l (- m) p ltac:(lia) ltac:(lia)) as B2.
      rewrite pow_table_get by lia. cbn [bind]. rewrite gpow_C.
      set (y := (RtoC (schmidt (Z.to_nat l) (Z.to_nat m) (cos th)) * Cpow (expi ph) (Z.to_nat m) / RtoC (sqrt 2))).
      set (dy := (RtoC (schmidt_dtheta (Z.to_nat l) (Z.to_nat m) th) * Cpow (expi ph) (Z.to_nat m) / RtoC (sqrt 2))).
      assert (Ey : y = V l m).
      { pose proof (ylm_value (Z.to_nat l) (Z.to_nat m) th ph (Rlt_le _ _ Hs) ltac:(lia)) as Q. rewrite !Z2Nat.id in Q by lia.
        unfold V. rewrite <- Q. unfold y. destruct (Z.to_nat m) eqn:Em; [lia|]. reflexivity. }
      assert (Edy : dy = W l m).
      { pose proof (ylm_dvalue (Z.to_nat l) (Z.to_nat m) th ph Hs ltac:(lia)) as Q. rewrite !Z2Nat.id in Q by lia.
        unfold W. rewrite <- Q. unfold dy. destruct (Z.to_nat m) eqn:Em; [lia|]. reflexivity. }
      rewrite zset_ok by (rewrite L1, Hlen; lia). cbn [bind].
      rewrite zset_ok by (rewrite lset_length, L1, Hlen; lia). cbn [bind].
      rewrite zset_ok by (rewrite M1, Hlen; lia). cbn [bind].
      rewrite zset_ok by (rewrite lset_length, M1, Hlen; lia). cbn [bind].
      eexists. split; [reflexivity|]. cbn [fst snd]. rewrite !lset_length. split; [assumption|]. split; [assumption|].
      split.
      * intros l' m' Hm' Hl'. destruct (O1 l' m' Hm' Hl') as [A B].
        pose proof (sh_index_bound l' m' l' ltac:(lia) ltac:(lia)).
        assert (D1 : sh_index l' m' <> sh_index l (- m)) by (intros E'; apply sh_index_inj in E'; lia).
        assert (D2 : sh_index l' m' <> sh_index l m) by (intros E'; apply sh_index_inj in E'; lia).
        rewrite !zget_other by (try assumption; lia). split; assumption.
      * intros m' Hm' Hml.
        pose proof (sh_index_bound l m' p ltac:(lia) ltac:(lia)).
        destruct (Z.eq_dec m' (- m)) as [->|Hne].
        -- rewrite !zget_same by (rewrite lset_length, ?L1, ?M1, Hlen; lia). split; f_equal.
           ++ rewrite Ey. unfold V. apply Yr_conj.
           ++ rewrite Edy. unfold W. apply dYr_conj.
        -- assert (sh_index l m' <> sh_index l (- m)) by (intros E'; apply sh_index_inj in E'; lia).
           rewrite (zget_other _ (sh_index l (- m))) by (try assumption; lia). rewrite (zget_other _ (sh_index l (- m)) _ (Cconj dy)) by (try assumption; lia).
           destruct (Z.eq_dec m' m) as [->|Hne2].
           ++ rewrite !zget_same by (rewrite ?L1, ?M1, Hlen; lia). rewrite Ey, Edy. split; reflexivity.
           ++ assert (sh_index l m' <> sh_index l m) by (intros E'; apply sh_index_inj in E'; lia).
              rewrite !zget_other by (try assumption; lia). apply N1; lia.
    + rewrite E2. eexists. split; [reflexivity|]. split; [assumption|]. split; [assumption|].
      intros l' m' Hm' Hl'. destruct (Z.eq_dec l' l) as [->|Hne]; [apply N2; lia|apply O2; lia].
  - destruct t' as [ty td]. exists ty, td. split; [exact E|]. split; intros l m Hm Hl'; apply H; lia.
Qed.

(** ** The loops *)
Lemma zrange_empty a b : (b < a)%Z -> zrange a b = [].
Proof. intros H. unfold zrange. replace (Z.to_nat (b - a + 1)) with 0%nat by lia. reflexivity. Qed.
Lemma force_sum_ok p c f ty td (Y dY : Z -> Z -> C) th n0 wt r0 rn : (n0 <= p + 1)%Z -> (0 <= n0)%Z ->
  (forall n m, (Z.abs m <= n)%Z -> (n <= p)%Z -> ylm_get ty n m = Ok (Y n m)) ->
  (forall n m, (Z.abs m <= n)%Z -> (n <= p)%Z -> ylm_get td n m = Ok (dY n m)) ->
  let S (g : Z -> Z -> C) := lsum (fun n => lsum (fun m => RtoC (r0 * rn ^ Z.to_nat (n - n0)) * g n m) (zrange (- n) n)) (zrange n0 p) in
  force_sum (s3_of p c f) (ty, td) th n0 wt r0 rn =
    Ok (Re (S (fun n m => RtoC (wt n) * (f n m * Y n m))), Re (S (fun n m => f n m * dY n m)),
        Re (S (fun n m => f n m * (Ci * RtoC (IZR m) * Y n m) * RtoC (/ sin th)))).
Proof.
  intros Hp H0 HY HdY S. unfold force_sum. cbn [s3_ord s3_of fst snd].
  set (G1 := fun n m => RtoC (wt n) * (f n m * Y n m)). set (G2 := fun n m => f n m * dY n m).
  set (G3 := fun n m => f n m * (Ci * RtoC (IZR m) * Y n m) * RtoC (/ sin th)).
  pose (T := fun (g : Z -> Z -> C) b => lsum (fun n => lsum (fun m => RtoC (r0 * rn ^ Z.to_nat (n - n0)) * g n m) (zrange (- n) n)) (zrange n0 b)).
  match goal with |- omap fst (ofold ?F _ ?s0) = _ =>
    destruct (loop F n0 p (fun i st => snd st = (r0 * rn ^ Z.to_nat (i - n0))%R /\ fst st = (Re (T G1 (i - 1)%Z), Re (T G2 (i - 1)%Z), Re (T G3 (i - 1)%Z))) s0) as [st [E [_ H]]] end.
  - lia.
  - rewrite Z.sub_diag. split; [simpl; ring|]. unfold T. rewrite zrange_empty by lia. reflexivity.
  - intros n [fo rp] Hn [Er Ef]. cbn [fst snd] in *.
    pose (Q := fun (g : Z -> Z -> C) b => lsum (fun m => RtoC (r0 * rn ^ Z.to_nat (n - n0)) * g n m) (zrange (- n) b)).
    match goal with |- exists s, bind (ofold ?F _ _) _ = _ /\ _ =>
      destruct (loop F (- n) n (fun i t => t = (Re (T G1 (n - 1)%Z + Q G1 (i - 1)%Z), Re (T G2 (n - 1)%Z + Q G2 (i - 1)%Z), Re (T G3 (n - 1)%Z + Q G3 (i - 1)%Z))) fo) as [t2 [E2 H2]] end.
    + lia.
    + rewrite Ef. unfold Q. rewrite zrange_empty by lia. rewrite !lsum_nil, !Cplus_0_r. reflexivity.
    + intros m t Hm Ht. rewrite s3_of_get by lia. cbn [bind]. rewrite HY, HdY by lia. cbn [bind]. eexists. split; [reflexivity|].
      rewrite Ht, Er. cbn [fst snd].
      assert (EQ : forall g, Q g (m + 1 - 1)%Z = Q g (m - 1)%Z + RtoC (r0 * rn ^ Z.to_nat (n - n0)) * g n m).
      { intros g. unfold Q. replace (m + 1 - 1)%Z with ((m - 1) + 1)%Z by lia. rewrite zrange_snoc by lia. rewrite lsum_snoc.
        replace (m - 1 + 1)%Z with m by lia. reflexivity. }
      rewrite !EQ. set (rr := (r0 * rn ^ Z.to_nat (n - n0))%R). unfold G1, G2, G3.
      f_equal; [f_equal|].
      * rewrite Cplus_assoc. generalize (T (fun n m => RtoC (wt n) * (f n m * Y n m)) (n - 1)%Z + Q (fun n m => RtoC (wt n) * (f n m * Y n m)) (m - 1)%Z). intros [a b].
        destruct (f n m * Y n m) as [a' b']. unfold Re. simpl. ring.
      * rewrite Cplus_assoc. generalize (T (fun n m => f n m * dY n m) (n - 1)%Z + Q (fun n m => f n m * dY n m) (m - 1)%Z). intros [a b].
        destruct (f n m * dY n m) as [a' b']. unfold Re. simpl. ring.
      * rewrite Cplus_assoc. match goal with |- context [Re (?a + ?b)] => generalize a; intros [a1 b1] end.
        destruct (f n m * (Ci * RtoC (IZR m) * Y n m)) as [a' b']. unfold Re, Rdiv. simpl. ring.
    + rewrite E2. cbn [bind]. eexists. split; [reflexivity|]. cbn [fst snd]. split.
      * rewrite Er. replace (Z.to_nat (n + 1 - n0)) with (Datatypes.S (Z.to_nat (n - n0))) by lia. simpl. ring.
      * rewrite H2. assert (ET : forall g, T g (n + 1 - 1)%Z = T g (n - 1)%Z + Q g (n + 1 - 1)%Z).
        { intros g. unfold T. replace (n + 1 - 1)%Z with ((n - 1) + 1)%Z by lia. rewrite zrange_snoc by lia. rewrite lsum_snoc.
          replace (n - 1 + 1)%Z with n by lia. reflexivity. }
        rewrite !ET. reflexivity.
  - rewrite E. unfold omap. cbn [bind]. rewrite H. replace (p + 1 - 1)%Z with p by lia. reflexivity.
Qed.

(** ** The gradients *)
Definition cp (k : nat) (v : P3) : R := match k with 0%nat => c1 v | 1%nat => c2 v | _ => c3 v end.
Definition bv (k : nat) : P3 := match k with 0%nat => (1, 0, 0)%R | 1%nat => (0, 1, 0)%R | _ => (0, 0, 1)%R end.
Definition lgrad3 (p : Z) (f : Z -> Z -> C) (u X : P3) : C := lsum2 (fun n m => f n m * dYr u X n m) p.
Definition dM (u X : P3) (n m : Z) : C :=
  RtoC (/ pn X ^ (2 * Z.to_nat n + 1)) * dYr u X n m - RtoC (INR (2 * Z.to_nat n + 1) * pdot X u / pn X ^ (2 * Z.to_nat n + 3)) * Yr X n m.
Definition mgrad3 (p : Z) (f : Z -> Z -> C) (u X : P3) : C := lsum2 (fun n m => f n m * dM u X n m) p.

Lemma bv_frame k th ph : bv k = padd (padd (pscal (cp k (e_r th ph)) (e_r th ph)) (pscal (cp k (e_th th ph)) (e_th th ph))) (pscal (cp k (e_ph ph)) (e_ph ph)).
Proof.
  assert (A : (sin th * sin th = 1 - cos th * cos th)%R) by (pose proof (sin2_cos2 th) as Q; unfold Rsqr in Q; lra).
  assert (B : (sin ph * sin ph = 1 - cos ph * cos ph)%R) by (pose proof (sin2_cos2 ph) as Q; unfold Rsqr in Q; lra).
  unfold bv, cp, e_r, e_th, e_ph, polar, padd, pscal, c1, c2, c3. destruct k as [|[|k]]; cbn [fst snd]; f_equal; try f_equal; ring [A B].
Qed.
Lemma dYr_zero u X m : dYr u X 0 m = 0.
Proof. unfold dYr, dsh. cbn. ring. Qed.
(** The derivative in a coordinate direction in terms of the tables. *)
Lemma dYr_frame k th ph r n m : (0 < sin th)%R -> (0 <= n)%Z ->
  dYr (bv k) (polar r th ph) n m = RtoC (r ^ (Z.to_nat n - 1)) *
    (RtoC (cp k (e_r th ph)) * (RtoC (IZR n) * Yr (polar 1 th ph) n m) + RtoC (cp k (e_th th ph)) * dYr (e_th th ph) (polar 1 th ph) n m +
     RtoC (cp k (e_ph ph)) * (Ci * RtoC (IZR m) * Yr (polar 1 th ph) n m * RtoC (/ sin th))).
Proof.
  intros Hs Hn. rewrite (polar_scal r), dYr_point. f_equal. rewrite (bv_frame k th ph), !dYr_add, !dYr_scal, dYr_er by assumption.
  f_equal. f_equal. rewrite <- dYr_eph. rewrite RtoC_inv by lra. field. intros E. apply RtoC_inj in E. lra.
Qed.
Lemma zrange_cons a b : (a <= b)%Z -> zrange a b = a :: zrange (a + 1) b.
Proof.
  intros H. rewrite (zrange_app a a b) by lia. f_equal. unfold zrange. replace (Z.to_nat (a - a + 1)) with 1%nat by lia. simpl. f_equal. lia.
Qed.
Lemma basis_k (F1 F2 F3 th ph : R) : to_cartesian_basis 3 [F1; F2; F3] th ph =
  Ok (map (fun k => F1 * cp k (e_r th ph) + F2 * cp k (e_th th ph) + F3 * cp k (e_ph ph))%R (seq 0 3)).
Proof.
  unfold to_cartesian_basis. f_equal. cbn [map seq vget nth cp]. unfold e_r, e_th, e_ph, polar, c1, c2, c3. cbn [fst snd]. f_equal; [ring|f_equal; [ring|f_equal; ring]].
Qed.
Lemma Re_scal a z : Re (RtoC a * z) = (a * Re z)%R.
Proof. destruct z. unfold Re. simpl. ring. Qed.
Lemma Re_plus z w : Re (z + w) = (Re z + Re w)%R. Proof. reflexivity. Qed.

(** A direction off the vertical axis. *)
Definition off_axis (X : P3) : Prop := c1 X <> 0%R \/ c2 X <> 0%R.
Lemma off_axis_sin r th ph X : X = polar r th ph -> (0 <= r)%R -> (0 <= sin th)%R -> off_axis X -> (0 < r)%R /\ (0 < sin th)%R.
Proof.
  intros -> Hr Hs H. assert (r <> 0)%R. { intros ->. unfold off_axis, polar, c1, c2 in H; cbn [fst snd] in H. destruct H as [H|H]; apply H; ring. }
  assert (sin th <> 0)%R. { intros E. unfold off_axis, polar, c1, c2 in H; cbn [fst snd] in H. rewrite E in H. destruct H as [H|H]; apply H; ring. }
  lra.
Qed.
Lemma on_axis_sin r th ph X : X = polar r th ph -> ~ off_axis X -> r = 0%R \/ sin th = 0%R.
Proof.
  intros -> H. unfold off_axis, polar, c1, c2 in H; cbn [fst snd] in H.
  destruct (Req_EM_T (r * sin th * cos ph) 0) as [A|A]; [|exfalso; apply H; now left].
  destruct (Req_EM_T (r * sin th * sin ph) 0) as [B|B]; [|exfalso; apply H; now right].
  pose proof (sin2_cos2 ph) as C0. unfold Rsqr in C0.
  assert (r * sin th = 0)%R by (transitivity (r * sin th * (sin ph * sin ph + cos ph * cos ph))%R; [rewrite C0; ring|]; transitivity ((r * sin th * sin ph) * sin ph + (r * sin th * cos ph) * cos ph)%R; [ring|rewrite A, B; ring]).
  now apply Rmult_integral.
Qed.

Theorem le3_force_ok p c f x : (0 <= p)%Z -> length c = 3%nat -> length x = 3%nat -> off_axis (p3 (vsub x c)) ->
  le3_force (s3_of p c f) x = Ok (map (fun k => Re (lgrad3 p f (bv k) (p3 (vsub x c)))) (seq 0 3)).
Proof.
  intros Hp Hc Hx Hoff. unfold le3_force. cbn [s3_ctr s3_ord s3_of].
  destruct (spherical_ok (vsub x c) (len3_vsub _ _ Hx Hc)) as [r [th [ph [E [Ep [Er [Hr Hs]]]]]]].
  destruct (off_axis_sin r th ph _ Ep Hr Hs Hoff) as [Pr Ps].
  destruct (ylm_deriv_ok p th ph Ps Hp) as [ty [td [Et [HY HdY]]]].
  rewrite E. cbn [bind vget nth]. rewrite Et. cbn [bind]. fold (s3_of p c f).
  rewrite (force_sum_ok p c f ty td _ _ th 1 IZR 1 r ltac:(lia) ltac:(lia) HY HdY). cbn [bind fst snd].
  rewrite basis_k. f_equal. apply map_ext_in. intros k _. rewrite Ep.
  unfold lgrad3, lsum2. rewrite (zrange_cons 0 p) by lia. rewrite lsum_cons.
  replace (lsum (fun m => f 0%Z m * dYr (bv k) (polar r th ph) 0 m) (zrange (- 0) 0)) with (RtoC 0).
  2:{ symmetry. apply lsum_all_zero. intros m _. rewrite dYr_zero. ring. }
  rewrite Cplus_0_l. change (0 + 1)%Z with 1%Z. rewrite !(Rmult_comm (Re _)), <- !Re_scal, <- !Re_plus. f_equal.
  rewrite <- !lsum_scal, <- !lsum_plus. apply lsum_ext. intros n Hn. apply in_zrange in Hn.
  rewrite <- !lsum_scal, <- !lsum_plus. apply lsum_ext. intros m Hm. rewrite dYr_frame by (try assumption; lia).
  replace (Z.to_nat (n - 1)) with (Z.to_nat n - 1)%nat by lia. rewrite Rmult_1_l. ring.
Qed.

Lemma dM_frame k th ph r n m : (0 < sin th)%R -> (0 < r)%R -> (0 <= n)%Z ->
  dM (bv k) (polar r th ph) n m = RtoC (/ r * / r * (/ r) ^ (Z.to_nat n)) *
    (RtoC (cp k (e_r th ph)) * (RtoC (- IZR (n + 1)) * Yr (polar 1 th ph) n m) + RtoC (cp k (e_th th ph)) * dYr (e_th th ph) (polar 1 th ph) n m +
     RtoC (cp k (e_ph ph)) * (Ci * RtoC (IZR m) * Yr (polar 1 th ph) n m * RtoC (/ sin th))).
Proof.
  intros Hs Hr Hn. unfold dM. rewrite polar_pn by lra. rewrite dYr_frame by assumption. rewrite (polar_scal r), Yr_scal by assumption.
  replace (pdot (pscal r (polar 1 th ph)) (bv k)) with (r * cp k (e_r th ph))%R.
  2:{ unfold pdot, pscal, bv, cp, e_r, polar, c1, c2, c3. destruct k as [|[|k]]; cbn [fst snd]; ring. }
  assert (Rn : forall j, RtoC (r ^ j) <> 0) by (intros j Q; apply RtoC_inj in Q; pose proof (pow_lt r j Hr); lra).
  assert (Er : RtoC r <> 0) by (intros Q; apply RtoC_inj in Q; lra).
  assert (Es : RtoC (sin th) <> 0) by (intros Q; apply RtoC_inj in Q; lra).
  rewrite pow_inv. set (N := Z.to_nat n). assert (EN : IZR n = INR N) by (unfold N; rewrite INR_IZR_INZ, Z2Nat.id; auto).
  assert (P1 : (/ r ^ (2 * N + 3) = / r ^ N * / r ^ N * / r * / r * / r)%R).
  { replace (2 * N + 3)%nat with (N + N + 3)%nat by lia. rewrite !pow_add. simpl. field. split; [lra|]. apply pow_nonzero. lra. }
  assert (P2 : (/ r ^ (2 * N + 1) = / r ^ N * / r ^ N * / r)%R).
  { replace (2 * N + 1)%nat with (N + N + 1)%nat by lia. rewrite !pow_add. simpl. field. split; [lra|]. apply pow_nonzero. lra. }
  assert (rN : (r ^ N <> 0)%R) by (apply pow_nonzero; lra).
  rewrite plus_IZR, EN. rewrite plus_INR, mult_INR. simpl (INR 2). simpl (INR 1). unfold Rdiv. rewrite P1, P2.
  destruct (Nat.eq_dec N 0) as [E0|N0].
  - assert (n = 0%Z) as -> by (unfold N in E0; lia). rewrite E0. rewrite dYr_zero.
    destruct (Z.eq_dec m 0) as [->|Hm].
    + simpl (INR 0). simpl pow. replace ((1 + 1) * 0 + 1)%R with 1%R by ring. replace (- (0 + 1))%R with (- (1))%R by ring.
      rewrite !Rinv_1, !Rmult_1_l, !Rmult_1_r. rewrite !RtoC_mult, RtoC_opp. rewrite !RtoC_inv by lra. field. split; [exact Es|exact Er].
    + assert (Yr (polar 1 th ph) 0 m = 0) as ->.
      { unfold Yr. change (Z.to_nat 0) with 0%nat. rewrite sh_out by (simpl; lia). ring. }
      ring.
  - assert (P3 : (r ^ (N - 1) = r ^ N * / r)%R). { replace N with (S (N - 1)) at 2 by lia. simpl. field. lra. }
    rewrite P3. replace (- (INR N + 1))%R with (INR N - ((1 + 1) * INR N + 1))%R by ring.
    rewrite !RtoC_mult, RtoC_minus, !RtoC_inv by assumption || lra. field. repeat split; try assumption; apply Rn.
Qed.

Theorem me3_force_ok p c f x : (0 <= p)%Z -> length c = 3%nat -> length x = 3%nat -> off_axis (p3 (vsub x c)) ->
  me3_force (s3_of p c f) x = Ok (map (fun k => Re (mgrad3 p f (bv k) (p3 (vsub x c)))) (seq 0 3)).
Proof.
  intros Hp Hc Hx Hoff. unfold me3_force. cbn [s3_ctr s3_ord s3_of].
  destruct (spherical_ok (vsub x c) (len3_vsub _ _ Hx Hc)) as [r [th [ph [E [Ep [Er [Hr Hs]]]]]]].
  destruct (off_axis_sin r th ph _ Ep Hr Hs Hoff) as [Pr Ps].
  destruct (ylm_deriv_ok p th ph Ps Hp) as [ty [td [Et [HY HdY]]]].
  rewrite E. cbn [bind vget nth]. rewrite Et. cbn [bind]. rewrite rinv_ok by lra. cbn [bind]. fold (s3_of p c f).
  rewrite (force_sum_ok p c f ty td _ _ th 0 _ _ _ ltac:(lia) ltac:(lia) HY HdY). cbn [bind fst snd].
  rewrite basis_k. f_equal. apply map_ext_in. intros k _. rewrite Ep.
  unfold mgrad3, lsum2. rewrite !(Rmult_comm (Re _)), <- !Re_scal, <- !Re_plus. f_equal.
  rewrite <- !lsum_scal, <- !lsum_plus. apply lsum_ext. intros n Hn. apply in_zrange in Hn.
  rewrite <- !lsum_scal, <- !lsum_plus. apply lsum_ext. intros m Hm. rewrite dM_frame by (try assumption; lia).
  rewrite Z.sub_0_r. ring.
Qed.

(** ** On the axis *)
Lemma axis_theta v : length v = 3%nat -> ~ off_axis (p3 v) -> exists r th ph, to_spherical 3 v = Ok [r; th; ph] /\ sin th = 0%R.
Proof.
  intros Hv Hon. destruct (list3 v Hv) as [x [y [z ->]]]. unfold off_axis, p3, c1, c2 in Hon. cbn [fst snd vget nth] in Hon.
  destruct (Req_EM_T x 0) as [->|]; [|exfalso; apply Hon; now left]. destruct (Req_EM_T y 0) as [->|]; [|exfalso; apply Hon; now right].
  unfold to_spherical. do 3 eexists. split; [reflexivity|]. cbn [vget nth].
  replace (0 * 0 + 0 * 0)%R with 0%R by ring. rewrite sqrt_0. unfold atan2.
  destruct (Rlt_dec 0 z) as [P|P]; [|destruct (Rlt_dec z 0) as [N|N]].
  - unfold Rdiv. rewrite Rmult_0_l, atan_0. apply sin_0.
  - destruct (Rle_dec 0 0) as [_|N0]; [|exfalso; apply N0; lra]. unfold Rdiv. rewrite Rmult_0_l, atan_0, Rplus_0_l. apply sin_PI.
  - destruct (Rlt_dec 0 0) as [N0|_]; [lra|]. try (destruct (Rlt_dec 0 0) as [N0|_]; [lra|]). apply sin_0.
Qed.
Theorem le3_force_axis e x : length (s3_ctr e) = 3%nat -> length x = 3%nat -> ~ off_axis (p3 (vsub x (s3_ctr e))) -> le3_force e x = NonFinite.
Proof.
  intros Hc Hx Hon. unfold le3_force. destruct (axis_theta _ (len3_vsub _ _ Hx Hc) Hon) as [r [th [ph [E Hs]]]].
  rewrite E. cbn [bind vget nth]. unfold ylm_deriv_table. destruct (Req_EM_T (sin th) 0); [reflexivity|contradiction].
Qed.
Theorem me3_force_axis e x : length (s3_ctr e) = 3%nat -> length x = 3%nat -> ~ off_axis (p3 (vsub x (s3_ctr e))) -> me3_force e x = NonFinite.
Proof.
  intros Hc Hx Hon. unfold me3_force. destruct (axis_theta _ (len3_vsub _ _ Hx Hc) Hon) as [r [th [ph [E Hs]]]].
  rewrite E. cbn [bind vget nth]. unfold ylm_deriv_table. destruct (Req_EM_T (sin th) 0); [reflexivity|contradiction].
Qed.

(** ** The gradients are the derivatives of the values *)
Lemma lval3_derive p f g t u : dp3 g t u -> cdc (fun s => lval3 p f (g s)) t (lgrad3 p f u (g t)).
Proof.
  intros H. unfold lval3, lgrad3, lsum2. apply cdc_lsum. intros n _. apply cdc_lsum. intros m _. apply cdc_scal. now apply Yr_derive.
Qed.
Lemma pdot_derive g t u : dp3 g t u -> is_derive (fun s => pdot (g s) (g s)) t (2 * pdot (g t) u)%R.
Proof.
  intros (A & B & D). unfold pdot.
  pose proof (is_derive_mult _ _ t _ _ A A Rmult_comm) as AA. pose proof (is_derive_mult _ _ t _ _ B B Rmult_comm) as BB.
  pose proof (is_derive_mult _ _ t _ _ D D Rmult_comm) as DD.
  pose proof (is_derive_plus (V := R_NormedModule) _ _ t _ _ (is_derive_plus (V := R_NormedModule) _ _ t _ _ AA BB) DD) as S.
  match type of S with is_derive _ _ ?v => replace (2 * (c1 (g t) * c1 u + c2 (g t) * c2 u + c3 (g t) * c3 u))%R with v end; [exact S|].
  unfold plus, mult; simpl. ring.
Qed.
Lemma pn_eq_sqrt v : pn v = sqrt (pdot v v).
Proof. reflexivity. Qed.
Lemma pn_pos_dot v : pn v <> 0%R -> (0 < pdot v v)%R.
Proof. intros H. rewrite <- pn_sq. pose proof (pn_nonneg v). nra. Qed.
Lemma pn_derive g t u : dp3 g t u -> pn (g t) <> 0%R -> is_derive (fun s => pn (g s)) t (pdot (g t) u / pn (g t))%R.
Proof.
  intros H Hnz. pose proof (pdot_derive g t u H) as D. pose proof (pn_pos_dot _ Hnz) as P.
  assert (G := is_derive_sqrt _ t _ D P).
  match type of G with is_derive _ _ ?v => replace (pdot (g t) u / pn (g t))%R with v end; [exact G|].
  rewrite <- pn_eq_sqrt. field. exact Hnz.
Qed.
Lemma inv_pow_derive (h : R -> R) t v N : is_derive h t v -> h t <> 0%R -> is_derive (fun s => / h s ^ N)%R t (- (INR N * v / h t ^ (N + 1)))%R.
Proof.
  intros H Hnz. pose proof (is_derive_pow h N t v H) as D. pose proof (is_derive_inv _ t _ D (pow_nonzero _ N Hnz)) as G.
  match type of G with is_derive _ _ ?w => replace (- (INR N * v / h t ^ (N + 1)))%R with w end; [exact G|].
  destruct N as [|N]; [simpl; field; exact Hnz|]. replace (S N + 1)%nat with (S (S N)) by lia. simpl pred. simpl pow.
  field. split; [now apply pow_nonzero|exact Hnz].
Qed.
Lemma mval3_derive p f g t u : dp3 g t u -> pn (g t) <> 0%R -> cdc (fun s => mval3 p f (g s)) t (mgrad3 p f u (g t)).
Proof.
  intros H Hnz. unfold mval3, mgrad3, lsum2. apply cdc_lsum. intros n _. apply cdc_lsum. intros m _.
  pose proof (inv_pow_derive _ t _ (2 * Z.to_nat n + 1) (pn_derive g t u H Hnz) Hnz) as D.
  pose proof (cdc_mult _ _ t _ _ (cdc_real _ t _ D) (cdc_scal (f n m) _ t _ (Yr_derive g t u n m H))) as G. cbv beta in G.
  refine (cdc_eq _ _ _ _ G _). unfold dM. set (N := (2 * Z.to_nat n + 1)%nat). replace (2 * Z.to_nat n + 3)%nat with (N + 2)%nat by (unfold N; lia).
  replace (- (INR N * (pdot (g t) u / pn (g t)) / pn (g t) ^ (N + 1)))%R with (- (INR N * pdot (g t) u / pn (g t) ^ (N + 2)))%R.
  - rewrite RtoC_opp. ring.
  - rewrite !pow_add. simpl. field. split; [exact Hnz|]. now apply pow_nonzero.
Qed.
