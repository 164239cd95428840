(** The three-dimensional translations in terms of solid harmonics: both shifts are exact, the conversion and the two
    evaluations are truncated expansions of the inverse distance. *)
From Coq Require Import Reals List Arith ZArith Lia Lra.
From Coquelicot Require Import Coquelicot.
From Verif Require Import Num Outcome Vec VecProofs Fields Tables CAux TableProofs Tables3D Expansion3D Table3DProofs SolidHarmonics Zonal HarmonicBounds NewtonSeries
  Kernel3 KernelBounds3 Spherical SphericalProofs Harmonics3D Exp3Loops.
Import ListNotations.
Local Open Scope R_scope.
Local Open Scope C_scope.

(** ** Auxiliary *)
Lemma lsum_z0 (f : Z -> C) p : (0 <= p)%Z -> lsum f (zrange 0 p) = lsum (fun i => f (Z.of_nat i)) (seq 0 (S (Z.to_nat p))).
Proof.
  intros Hp. unfold zrange. rewrite lsum_map. replace (Z.to_nat (p - 0 + 1)) with (S (Z.to_nat p)) by lia.
  apply lsum_ext. intros i _. reflexivity.
Qed.
Lemma A_val_opp n m : A_val n (- m) = A_val n m.
Proof. unfold A_val. now rewrite a_val_opp. Qed.
Lemma sg_abs m : sg (Z.abs m) = sg m.
Proof. destruct (Z.abs_spec m) as [[_ ->]|[_ ->]]; [reflexivity|apply sg_opp]. Qed.
Lemma RtoC_nz x : x <> 0%R -> RtoC x <> 0.
Proof. intros H E. apply RtoC_inj in E. contradiction. Qed.
Lemma A_split n m : RtoC (A_val n m) = sg n / RtoC (a_val n m).
Proof. unfold A_val, Rdiv. rewrite RtoC_mult, RtoC_inv by (apply Rgt_not_eq, a_val_pos). reflexivity. Qed.
Lemma a_nz n m : RtoC (a_val n m) <> 0.
Proof. apply RtoC_nz, Rgt_not_eq, a_val_pos. Qed.
Lemma sg_nz n : sg n <> 0.
Proof. unfold sg. apply RtoC_nz. destruct (Z.odd n); lra. Qed.
Lemma sg_inv n : / sg n = sg n.
Proof. apply (Creg_l (sg n)); [apply sg_nz|]. rewrite sg_sq, Cinv_r by apply sg_nz. reflexivity. Qed.
Lemma AY v n m : RtoC (A_val n m) * Yr v n m = sg n * ipow (- Z.abs m) * sh (H3 v) (Z.to_nat n) m.
Proof. rewrite A_split. unfold Yr. field. apply a_nz. Qed.
Lemma a_sq n m : (Z.abs m <= n)%Z -> RtoC (a_val n m) * RtoC (a_val n m) = wt n m.
Proof.
  intros Hm. rewrite wt_in by assumption. unfold a_val, facZ, Cn. rewrite <- !RtoC_mult. f_equal.
  apply sqrt_sqrt. apply Rmult_le_pos; apply pos_INR.
Qed.
Lemma YA v n m : (Z.abs m <= n)%Z -> Yr v n m / RtoC (A_val n m) = sg n * ipow (- Z.abs m) * wt n m * sh (H3 v) (Z.to_nat n) m.
Proof.
  intros Hm. rewrite A_split, <- a_sq by assumption. unfold Yr, Cdiv.
  replace (/ (sg n * / RtoC (a_val n m))) with (sg n * RtoC (a_val n m)).
  - ring.
  - rewrite <- (sg_inv n) at 1. field. split; [apply a_nz|apply sg_nz].
Qed.
Lemma YY v w n m : (Z.abs m <= n)%Z -> Yr v n (- m) * Yr w n m = sg m * wt n m * sh (H3 v) (Z.to_nat n) (- m) * sh (H3 w) (Z.to_nat n) m.
Proof.
  intros Hm. rewrite <- a_sq by assumption. unfold Yr. rewrite a_val_opp, Z.abs_opp.
  replace (sg m) with (ipow (- Z.abs m) * ipow (- Z.abs m)).
  - ring.
  - rewrite <- ipow_add. replace (- Z.abs m + - Z.abs m)%Z with (2 * - Z.abs m)%Z by lia. rewrite ipow_2, sg_opp. apply sg_abs.
Qed.
Definition pneg (v : P3) : P3 := pscal (-1) v.
Lemma sh_pneg v n m : sh (H3 (pneg v)) n m = sg (Z.of_nat n) * sh (H3 v) n m.
Proof.
  unfold pneg. rewrite H3_scal, sh_scal, Cpow_RtoC. f_equal.
  induction n as [|n IH]; [reflexivity|]. replace (Z.of_nat (S n)) with (Z.of_nat n + 1)%Z by lia. rewrite sg_succ, <- IH.
  change ((-1) ^ S n)%R with (-1 * (-1) ^ n)%R. rewrite RtoC_mult. apply injective_projections; simpl; ring.
Qed.
Lemma zon_sym v w n : zon v w n = zon w v n.
Proof.
  unfold zon. rewrite <- zsum_opp. apply zsum_ext. intros m _. rewrite sg_opp, wt_opp, Z.opp_involutive. ring.
Qed.

(** ** Shifting a multipole expansion *)
Lemma m2m_one q y S j k : (0 <= j)%Z -> (Z.abs k <= j)%Z ->
  m2m_coef (fun n m => RtoC q * Yr y n (- m)) S j k = RtoC q * Yr (padd y S) j (- k).
Proof.
  intros Hj Hk. unfold m2m_coef.
  assert (E : lsum (fun n => lsum (fun m => ipow (exp1 k m) * RtoC (A_val n m * A_val (j - n) (k - m)) * (RtoC q * Yr y (j - n) (- (k - m)) * Yr S n (- m)))
      (zrange (Z.max (- n) (n + k - j)) (Z.min n (j + k - n)))) (zrange 0 j)
    = RtoC q * sg j * ipow (- Z.abs k) * sh (H3 (padd y S)) (Z.to_nat j) (- k)).
  { replace (H3 (padd y S)) with (hadd (H3 S) (H3 y)).
    2:{ rewrite <- H3_add. f_equal. unfold padd. f_equal; [f_equal|]; ring. }
    rewrite sh_addition, <- lsum_scal, (lsum_z0 _ j Hj). apply lsum_ext. intros n Hn. apply in_seq in Hn.
    unfold cv, zsum.
    rewrite (lsum_ext _ (fun m => (RtoC q * sg j * ipow (- Z.abs k)) * (sh (H3 S) n (- m) * sh (H3 y) (Z.to_nat j - n) (- k - - m)))).
    - rewrite lsum_scal. f_equal.
      rewrite <- (zsum_widen (fun m => sh (H3 S) n (- m) * sh (H3 y) (Z.to_nat j - n) (- k - - m)) _ _ (- Z.of_nat n) (Z.of_nat n)); [|lia|lia|lia|].
      + apply (zsum_opp (Z.of_nat n) (fun l => sh (H3 S) n l * sh (H3 y) (Z.to_nat j - n) (- k - l))).
      + intros m Hm. rewrite (sh_out (H3 y)) by lia. ring.
    - intros m Hm. apply in_zrange in Hm.
      replace (Z.to_nat j - n)%nat with (Z.to_nat (j - Z.of_nat n)) by lia. replace (- k - - m)%Z with (- (k - m))%Z by lia.
      transitivity (ipow (exp1 k m) * RtoC q * (RtoC (A_val (Z.of_nat n) (- m)) * Yr S (Z.of_nat n) (- m)) *
        (RtoC (A_val (j - Z.of_nat n) (- (k - m))) * Yr y (j - Z.of_nat n) (- (k - m)))).
      { rewrite !A_val_opp, RtoC_mult. ring. }
      rewrite !AY, !Z.abs_opp, Nat2Z.id.
      replace (RtoC q * sg j * ipow (- Z.abs k)) with (RtoC q * (sg (Z.of_nat n) * sg (j - Z.of_nat n)) * (ipow (exp1 k m) * ipow (- Z.abs m) * ipow (- Z.abs (k - m)))).
      + ring.
      + rewrite <- sg_add. replace (Z.of_nat n + (j - Z.of_nat n))%Z with j by lia.
        rewrite <- !ipow_add. f_equal. unfold exp1.
        replace (Z.abs k - Z.abs m - Z.abs (k - m) + - Z.abs m + - Z.abs (k - m))%Z with (2 * (Z.abs k + - Z.abs m + - Z.abs (k - m)) + - Z.abs k)%Z by lia.
        rewrite ipow_add, ipow_2, !sg_add, !sg_opp, !sg_abs, <- !sg_add.
        replace (k + m + (k - m))%Z with (2 * k)%Z by lia. unfold sg. rewrite Z.odd_mul. simpl. ring. }
  cbn beta. rewrite E. rewrite A_split. unfold Yr. rewrite a_val_opp, Z.abs_opp.
  field. split; first [apply a_nz | apply sg_nz].
Qed.
Lemma m2m_lsum {A} (L : list A) (g : A -> Z -> Z -> C) S j k :
  m2m_coef (fun n m => lsum (fun a => g a n m) L) S j k = lsum (fun a => m2m_coef (g a) S j k) L.
Proof.
  unfold m2m_coef, Cdiv. rewrite (lsum_scal_r (/ RtoC (A_val j k)) (fun a : A => lsum _ (zrange 0 j)) L). f_equal.
  rewrite lsum_swap. apply lsum_ext. intros n _. rewrite lsum_swap. apply lsum_ext. intros m _.
  rewrite <- lsum_scal_r, <- lsum_scal. reflexivity.
Qed.
Lemma m2m_ext f g S j k : (forall n m, (Z.abs m <= n)%Z -> (n <= j)%Z -> f n m = g n m) -> m2m_coef f S j k = m2m_coef g S j k.
Proof.
  intros H. unfold m2m_coef. f_equal. apply lsum_ext. intros n Hn. apply in_zrange in Hn. apply lsum_ext. intros m Hm. apply in_zrange in Hm.
  rewrite H by lia. reflexivity.
Qed.

Lemma p3_sub a b : length a = 3%nat -> length b = 3%nat -> p3 (vsub a b) = psub (p3 a) (p3 b).
Proof. intros Ha Hb. unfold p3, psub, c1, c2, c3. cbn [fst snd]. rewrite !vget_vsub by lia. reflexivity. Qed.
Lemma rel_shift s c c' : length (ps_pos s) = 3%nat -> length c = 3%nat -> length c' = 3%nat ->
  rel s c' = padd (rel s c) (p3 (vsub c c')).
Proof.
  intros Hs Hc Hc'. unfold rel. rewrite !p3_sub by assumption. unfold padd, psub, c1, c2, c3. cbn [fst snd]. f_equal; [f_equal|]; ring.
Qed.

Theorem m2m_exact c c' srcs j k : length c = 3%nat -> length c' = 3%nat -> (forall s, In s srcs -> length (ps_pos s) = 3%nat) ->
  (Z.abs k <= j)%Z -> m2m_coef (me_coef c srcs) (p3 (vsub c c')) j k = me_coef c' srcs j k.
Proof.
  intros Hc Hc' Hs Hk. unfold me_coef. rewrite m2m_lsum. apply lsum_ext. intros s Hin.
  rewrite m2m_one by lia. rewrite (rel_shift s c c') by auto. reflexivity.
Qed.

(** ** Shifting a local expansion *)
Theorem l2l_exact p f S X : (0 <= p)%Z -> lval3 p (l2l_coef p f S) X = lval3 p f (psub X S).
Proof.
  intros Hp. unfold lval3, lsum2.
  set (T := fun n m j k => if (j <=? n)%Z then f n m * (ipow (- Z.abs m) * RtoC (a_val n m)) * (sh (H3 X) (Z.to_nat j) k * sh (H3 (pneg S)) (Z.to_nat (n - j)) (m - k)) else RtoC 0).
  transitivity (lsum (fun j => lsum (fun k => lsum (fun n => lsum (fun m => T n m j k) (zrange (- n) n)) (zrange 0 p)) (zrange (- j) j)) (zrange 0 p)).
  - apply lsum_ext. intros j Hj. apply in_zrange in Hj. apply lsum_ext. intros k Hk. apply in_zrange in Hk.
    rewrite (zrange_app 0 (j - 1) p) by lia. rewrite lsum_app. rewrite (lsum_all_zero _ (zrange 0 (j - 1))).
    2:{ intros n Hn. apply in_zrange in Hn. apply lsum_all_zero. intros m _. unfold T. destruct (Z.leb_spec j n); [lia|reflexivity]. }
    rewrite Cplus_0_l. replace (j - 1 + 1)%Z with j by lia. unfold l2l_coef.
    rewrite (Cmult_comm (RtoC (A_val j k))), <- Cmult_assoc, (AY X j k), <- lsum_scal_r. apply lsum_ext. intros n Hn. apply in_zrange in Hn.
    rewrite <- lsum_scal_r.
    rewrite (zsum_widen (fun m => T n m j k) (Z.max (- n) (k + j - n)) (Z.min n (k + n - j)) (- n) n); [|lia|lia|lia|].
    + apply lsum_ext. intros m Hm. apply in_zrange in Hm. unfold T. destruct (Z.leb_spec j n); [|lia].
      rewrite sh_pneg, Z2Nat.id by lia.
      transitivity (sg (n + j) * ipow (exp3 k m) * (RtoC (A_val (n - j) (m - k)) * Yr S (n - j) (m - k)) * / RtoC (A_val n m) * f n m * (sg j * ipow (- Z.abs k) * sh (H3 X) (Z.to_nat j) k)).
      { unfold Rdiv. rewrite RtoC_mult, RtoC_inv by apply A_val_nz. ring. }
      rewrite AY.
      replace (/ RtoC (A_val n m)) with (sg n * RtoC (a_val n m)).
      2:{ rewrite A_split. rewrite <- (sg_inv n) at 1. field. split; [apply a_nz|apply sg_nz]. }
      replace (ipow (- Z.abs m)) with (ipow (exp3 k m) * ipow (- Z.abs (m - k)) * ipow (- Z.abs k)).
      * transitivity ((sg (n + j) * sg n * sg j) * (ipow (exp3 k m) * ipow (- Z.abs (m - k)) * ipow (- Z.abs k)) * RtoC (a_val n m) * f n m * sg (n - j) * sh (H3 S) (Z.to_nat (n - j)) (m - k) * sh (H3 X) (Z.to_nat j) k); [ring|].
        rewrite <- !sg_add. replace (n + j + n + j)%Z with (2 * (n + j))%Z by lia. unfold sg at 1. rewrite Z.odd_mul. simpl. ring.
      * rewrite <- !ipow_add. unfold exp3.
        replace (Z.abs m - Z.abs (m - k) - Z.abs k + - Z.abs (m - k) + - Z.abs k)%Z with (2 * (Z.abs m + - Z.abs (m - k) + - Z.abs k) + - Z.abs m)%Z by lia.
        rewrite ipow_add, ipow_2, !sg_add, !sg_opp, !sg_abs, <- !sg_add.
        replace (m + (m - k) + k)%Z with (2 * m)%Z by lia. unfold sg. rewrite Z.odd_mul. simpl. ring.
    + intros m Hm. unfold T. destruct (Z.leb_spec j n); [|lia]. rewrite (sh_out (H3 (pneg S))) by lia. ring.
  - transitivity (lsum (fun n => lsum (fun m => lsum (fun j => lsum (fun k => T n m j k) (zrange (- j) j)) (zrange 0 p)) (zrange (- n) n)) (zrange 0 p)).
    + rewrite (lsum_ext _ (fun j => lsum (fun n => lsum (fun m => lsum (fun k => T n m j k) (zrange (- j) j)) (zrange (- n) n)) (zrange 0 p))).
      * rewrite lsum_swap. apply lsum_ext. intros n _. apply lsum_swap.
      * intros j _. rewrite lsum_swap. apply lsum_ext. intros n _. apply lsum_swap.
    + apply lsum_ext. intros n Hn. apply in_zrange in Hn. apply lsum_ext. intros m Hm. apply in_zrange in Hm.
      rewrite (zrange_app 0 n p) by lia. rewrite lsum_app. rewrite (lsum_all_zero _ (zrange (n + 1) p)).
      2:{ intros j Hj. apply in_zrange in Hj. apply lsum_all_zero. intros k _. unfold T. destruct (Z.leb_spec j n); [lia|reflexivity]. }
      rewrite Cplus_0_r. unfold Yr.
      replace (H3 (psub X S)) with (hadd (H3 X) (H3 (pneg S))).
      2:{ rewrite <- H3_add. f_equal. unfold padd, psub, pneg, pscal, c1, c2, c3. cbn [fst snd]. f_equal; [f_equal|]; ring. }
      rewrite sh_addition. rewrite Cmult_assoc, <- lsum_scal. rewrite (lsum_z0 _ n) by lia. apply lsum_ext. intros j Hj. apply in_seq in Hj.
      unfold cv, zsum. rewrite <- lsum_scal. apply lsum_ext. intros k Hk. unfold T. destruct (Z.leb_spec (Z.of_nat j) n); [|lia].
      rewrite Nat2Z.id. replace (Z.to_nat (n - Z.of_nat j)) with (Z.to_nat n - j)%nat by lia. ring.
Qed.

(** ** Evaluating a multipole expansion *)
Lemma mval_one p q y X : (0 <= p)%Z ->
  mval3 p (fun n m => RtoC q * Yr y n (- m)) X =
  RtoC q * lsum (fun n => zon (H3 y) (H3 X) n * RtoC (/ pn X ^ (2 * n + 1))) (seq 0 (S (Z.to_nat p))).
Proof.
  intros Hp. unfold mval3, lsum2. rewrite (lsum_z0 _ p Hp), <- lsum_scal. apply lsum_ext. intros n _.
  unfold zon, zsum. rewrite <- lsum_scal_r, <- lsum_scal. apply lsum_ext. intros m Hm. apply in_zrange in Hm. rewrite Nat2Z.id.
  transitivity (RtoC (/ pn X ^ (2 * n + 1)) * RtoC q * (Yr y (Z.of_nat n) (- m) * Yr X (Z.of_nat n) m)); [ring|].
  rewrite YY, Nat2Z.id by lia. ring.
Qed.
Lemma mval_lsum {A} p (L : list A) (g : A -> Z -> Z -> C) X :
  mval3 p (fun n m => lsum (fun a => g a n m) L) X = lsum (fun a => mval3 p (g a) X) L.
Proof.
  unfold mval3, lsum2. rewrite lsum_swap. apply lsum_ext. intros n _. rewrite lsum_swap. apply lsum_ext. intros m _.
  rewrite <- lsum_scal_r, <- lsum_scal. reflexivity.
Qed.
Lemma lval_lsum {A} p (L : list A) (g : A -> Z -> Z -> C) X :
  lval3 p (fun n m => lsum (fun a => g a n m) L) X = lsum (fun a => lval3 p (g a) X) L.
Proof.
  unfold lval3, lsum2. rewrite lsum_swap. apply lsum_ext. intros n _. rewrite lsum_swap. apply lsum_ext. intros m _.
  rewrite <- lsum_scal_r. reflexivity.
Qed.
Lemma lval_ext p f g X : (forall n m, (Z.abs m <= n)%Z -> (n <= p)%Z -> f n m = g n m) -> lval3 p f X = lval3 p g X.
Proof. intros H. apply lsum2_ext. intros n m Hm Hn. now rewrite H. Qed.
Lemma lval_plus p f g X : lval3 p (fun n m => f n m + g n m) X = lval3 p f X + lval3 p g X.
Proof.
  unfold lval3, lsum2. rewrite <- lsum_plus. apply lsum_ext. intros n _. rewrite <- lsum_plus. apply lsum_ext. intros m _. ring.
Qed.
Lemma lval_zero p X : lval3 p (fun _ _ => RtoC 0) X = 0.
Proof. apply lsum_all_zero. intros n _. apply lsum_all_zero. intros m _. ring. Qed.

(** ** The local expansion of a source *)
Lemma lval_source p q D X : (0 <= p)%Z ->
  lval3 p (fun n m => RtoC (q * / pn D ^ (2 * Z.to_nat n + 1)) * Yr D n (- m)) X =
  RtoC q * lsum (fun n => zon (H3 X) (H3 D) n * RtoC (/ pn D ^ (2 * n + 1))) (seq 0 (S (Z.to_nat p))).
Proof.
  intros Hp. unfold lval3, lsum2. rewrite (lsum_z0 _ p Hp), <- lsum_scal. apply lsum_ext. intros n _.
  rewrite zon_sym. unfold zon, zsum. rewrite <- lsum_scal_r, <- lsum_scal. apply lsum_ext. intros m Hm. apply in_zrange in Hm. rewrite Nat2Z.id.
  transitivity (RtoC (q * / pn D ^ (2 * n + 1)) * (Yr D (Z.of_nat n) (- m) * Yr X (Z.of_nat n) m)); [ring|].
  rewrite YY, Nat2Z.id by lia. rewrite RtoC_mult. ring.
Qed.

(** ** The conversion *)
Lemma bic_alt v w D n j :
  bic v w D n j = lsum (fun k => lsum (fun m => sg (m - k) * wt (Z.of_nat (n + j)) (m - k) * (sh v n (- m) * sh w j k) * sh D (n + j) (m - k)) (zrange (- Z.of_nat n) (Z.of_nat n)))
    (zrange (- Z.of_nat j) (Z.of_nat j)).
Proof.
  unfold bic, zsum. set (N := Z.of_nat (n + j)).
  transitivity (lsum (fun l => lsum (fun M => sg M * wt N M * (sh v n l * sh w j (- M - l)) * sh D (n + j) M) (zrange (- N) N)) (zrange (- Z.of_nat n) (Z.of_nat n))).
  - rewrite lsum_swap. apply lsum_ext. intros M _. unfold cv, zsum. rewrite <- lsum_scal, <- lsum_scal_r. reflexivity.
  - match goal with |- lsum ?F _ = _ => change (zsum (Z.of_nat n) F = lsum (fun k => lsum (fun m => sg (m - k) * wt N (m - k) * (sh v n (- m) * sh w j k) * sh D (n + j) (m - k)) (zrange (- Z.of_nat n) (Z.of_nat n)))
    (zrange (- Z.of_nat j) (Z.of_nat j))); rewrite <- (zsum_opp (Z.of_nat n) F) end.
    unfold zsum. rewrite (lsum_swap _ (zrange (- Z.of_nat j) (Z.of_nat j))). apply lsum_ext. intros m Hm. apply in_zrange in Hm.
    rewrite (zsum_widen _ (m - Z.of_nat j) (m + Z.of_nat j) (- N) N); [|lia|lia|lia|].
    + replace (m - Z.of_nat j)%Z with (- Z.of_nat j + m)%Z by lia. replace (m + Z.of_nat j)%Z with (Z.of_nat j + m)%Z by lia.
      rewrite <- zsum_shift. match goal with |- lsum ?F _ = _ => change (lsum F (zrange (- Z.of_nat j) (Z.of_nat j))) with (zsum (Z.of_nat j) F); rewrite <- (zsum_opp (Z.of_nat j) F) end.
      unfold zsum. apply lsum_ext. intros k _.
      replace (- k + m)%Z with (m - k)%Z by lia. replace (- (m - k) - - m)%Z with k by lia. reflexivity.
    + intros M HM. rewrite (sh_out w) by lia. ring.
Qed.

Lemma m2l_one p q y D X : (0 <= p)%Z ->
  lval3 p (m2l_coef p (fun n m => RtoC q * Yr y n (- m)) D) X =
  RtoC q * lsum (fun n => lsum (fun j => bic (H3 (pneg y)) (H3 X) (H3 D) n j * RtoC (/ pn D ^ (2 * (n + j) + 1))) (seq 0 (S (Z.to_nat p)))) (seq 0 (S (Z.to_nat p))).
Proof.
  intros Hp. unfold lval3, lsum2. rewrite (lsum_z0 _ p Hp). rewrite <- lsum_scal.
  rewrite (lsum_ext (fun n => RtoC q * lsum _ _) (fun n => lsum (fun j => RtoC q * (bic (H3 (pneg y)) (H3 X) (H3 D) n j * RtoC (/ pn D ^ (2 * (n + j) + 1)))) (seq 0 (S (Z.to_nat p)))))
    by (intros; rewrite <- lsum_scal; reflexivity).
  rewrite lsum_swap. apply lsum_ext. intros j _.
  rewrite (lsum_ext _ (fun k => lsum (fun n => lsum (fun m => RtoC q * RtoC (/ pn D ^ (2 * (n + j) + 1)) *
     (sg (m - k) * wt (Z.of_nat (n + j)) (m - k) * (sh (H3 (pneg y)) n (- m) * sh (H3 X) j k) * sh (H3 D) (n + j) (m - k)))
     (zrange (- Z.of_nat n) (Z.of_nat n))) (seq 0 (S (Z.to_nat p))))).
  - rewrite lsum_swap. apply lsum_ext. intros n _. rewrite bic_alt.
    transitivity (RtoC q * RtoC (/ pn D ^ (2 * (n + j) + 1)) * lsum (fun k => lsum (fun m => sg (m - k) * wt (Z.of_nat (n + j)) (m - k) * (sh (H3 (pneg y)) n (- m) * sh (H3 X) j k) * sh (H3 D) (n + j) (m - k)) (zrange (- Z.of_nat n) (Z.of_nat n)))
      (zrange (- Z.of_nat j) (Z.of_nat j))); [|ring].
    rewrite <- lsum_scal. apply lsum_ext. intros k _. rewrite <- lsum_scal. reflexivity.
  - intros k Hk. apply in_zrange in Hk. unfold m2l_coef.
    rewrite <- Cmult_assoc, (AY X), <- lsum_scal_r, (lsum_z0 _ p Hp). apply lsum_ext. intros n _. rewrite <- lsum_scal_r.
    apply lsum_ext. intros m Hm. apply in_zrange in Hm. rewrite Nat2Z.id.
    replace (Z.of_nat j + Z.of_nat n)%Z with (Z.of_nat (n + j)) by lia. rewrite Nat2Z.id.
    rewrite sh_pneg. unfold Rdiv.
    transitivity (sg (Z.of_nat n) * ipow (exp2 k m) * RtoC q * RtoC (/ pn D ^ (2 * (n + j) + 1)) *
      (RtoC (A_val (Z.of_nat n) (- m)) * Yr y (Z.of_nat n) (- m)) * (Yr D (Z.of_nat (n + j)) (m - k) / RtoC (A_val (Z.of_nat (n + j)) (m - k))) *
      (sg (Z.of_nat j) * ipow (- Z.abs k) * sh (H3 X) j k)).
    { rewrite A_val_opp, !RtoC_mult, (RtoC_inv (A_val _ _)) by apply A_val_nz. unfold Cdiv. ring. }
    rewrite AY, YA, Z.abs_opp, !Nat2Z.id by lia.
    replace (sg (m - k)) with (ipow (exp2 k m) * ipow (- Z.abs m) * ipow (- Z.abs (m - k)) * ipow (- Z.abs k)).
    + transitivity ((sg (Z.of_nat n) * sg (Z.of_nat n)) * (sg (Z.of_nat (n + j)) * sg (Z.of_nat j)) * (ipow (exp2 k m) * ipow (- Z.abs m) * ipow (- Z.abs (m - k)) * ipow (- Z.abs k)) *
        RtoC q * RtoC (/ pn D ^ (2 * (n + j) + 1)) * sh (H3 y) n (- m) * wt (Z.of_nat (n + j)) (m - k) * sh (H3 D) (n + j) (m - k) * sh (H3 X) j k); [ring|].
      rewrite sg_sq. rewrite <- sg_add. replace (Z.of_nat (n + j) + Z.of_nat j)%Z with (Z.of_nat n + 2 * Z.of_nat j)%Z by lia.
      rewrite sg_add. unfold sg at 2. rewrite Z.odd_mul. simpl Z.odd. cbn [andb]. ring.
    + rewrite <- !ipow_add. unfold exp2. replace (Z.abs (m - k)) with (Z.abs (k - m)) by lia.
      replace (Z.abs (k - m) - Z.abs k - Z.abs m + - Z.abs m + - Z.abs (k - m) + - Z.abs k)%Z with (2 * (- Z.abs m + - Z.abs k))%Z by lia.
      rewrite ipow_2, sg_add, !sg_opp, !sg_abs. replace (m - k)%Z with (m + - k)%Z by lia. rewrite sg_add, sg_opp. reflexivity.
Qed.
Lemma m2l_lsum {A} p (L : list A) (g : A -> Z -> Z -> C) D j k :
  m2l_coef p (fun n m => lsum (fun a => g a n m) L) D j k = lsum (fun a => m2l_coef p (g a) D j k) L.
Proof.
  unfold m2l_coef. rewrite (lsum_scal_r (RtoC (A_val j k)) (fun a : A => lsum _ (zrange 0 p)) L). f_equal.
  rewrite lsum_swap. apply lsum_ext. intros n _. rewrite lsum_swap. apply lsum_ext. intros m _.
  rewrite <- lsum_scal_r, <- lsum_scal. reflexivity.
Qed.
