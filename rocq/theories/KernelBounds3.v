(** Truncation bounds for the expansions of the inverse distance in three dimensions. *)
From Coq Require Import Reals List Arith ZArith Lia Lra.
From Coquelicot Require Import Coquelicot.
From Verif Require Import Outcome Tables CAux TableProofs Tables3D Table3DProofs SolidHarmonics Zonal HarmonicBounds NewtonSeries Kernel3.
Import ListNotations.
Local Open Scope R_scope.
Local Open Scope C_scope.

Lemma pow2_pos r n : (0 < r)%R -> (0 < r ^ n)%R.
Proof. intros H. now apply pow_lt. Qed.

(** ** One center *)
Section One.
Variables (r th ph : R) (w : P3).
Hypothesis Hr : (0 < r)%R.
Hypothesis Hw : (pn w < r)%R.
Let D := polar r th ph.
Let term (n : nat) : C := zon (H3 w) (H3 D) n * RtoC (/ r ^ (2 * n + 1)).
Let Zs (n : nat) : R := (Re (zon (H3 w) (H3 D) n) / r ^ (2 * n))%R.

Lemma D_norm : pn D = r. Proof. apply polar_pn. lra. Qed.
Lemma zon_Re n : zon (H3 w) (H3 D) n = RtoC (Re (zon (H3 w) (H3 D) n)).
Proof. apply conj_real. apply zon_real. Qed.

Lemma dist_sq : (pn (psub D w) * pn (psub D w) = r * r - 2 * pdot w D + pn w * pn w)%R.
Proof.
  rewrite !pn_sq. rewrite <- D_norm at 1 2. rewrite pn_sq. unfold pdot, psub, c1, c2, c3; simpl. ring.
Qed.
Lemma dist_pos : (r - pn w <= pn (psub D w))%R.
Proof.
  pose proof (pn_nonneg w). apply Rsqr_incr_0_var; [|apply pn_nonneg]. unfold Rsqr. rewrite dist_sq.
  pose proof (cauchy w D) as C0. rewrite D_norm in C0. nra.
Qed.

Theorem newton_one Q :
  (Cmod (RtoC (/ pn (psub D w)) - lsum term (seq 0 (S Q))) <= (pn w / r) ^ (S Q) / (r - pn w))%R.
Proof.
  pose proof (pn_nonneg w) as Hn.
  assert (Hrn : forall n, (0 < r ^ n)%R) by (intros; now apply pow_lt).
  assert (N := newton_series (pdot w D / (r * r)) (pn w * pn w / (r * r)) (pn w / r) Zs).
  assert (HZ0 : Zs 0%nat = 1%R) by (unfold Zs; rewrite zon_0; simpl; field).
  assert (HZ1 : Zs 1%nat = (pdot w D / (r * r))%R).
  { unfold Zs. rewrite zon_1, H3_dot. simpl. field. lra. }
  assert (HZr : forall n, ((INR n + 2) * Zs (S (S n)) = (2 * INR n + 3) * (pdot w D / (r * r)) * Zs (S n) - (INR n + 1) * (pn w * pn w / (r * r)) * Zs n)%R).
  { intros n. pose proof (zon_rec (H3 w) (H3 D) n) as E.
    rewrite (zon_Re (S (S n))), (zon_Re (S n)), (zon_Re n), H3_dot, !H3_sq in E.
    rewrite <- !pn_sq, D_norm in E. unfold Cn in E. rewrite <- !RtoC_plus, <- !RtoC_mult, <- RtoC_minus in E. apply RtoC_inj in E.
    rewrite !S_INR in E. unfold Zs.
    replace (2 * S (S n))%nat with (4 + 2 * n)%nat by lia. replace (2 * S n)%nat with (2 + 2 * n)%nat by lia.
    rewrite !pow_add. specialize (Hrn (2 * n)%nat). set (rn := (r ^ (2 * n))%R) in *. simpl.
    apply Rmult_eq_reg_r with (r * r * r * r * rn)%R; [|apply Rgt_not_eq; repeat apply Rmult_lt_0_compat; assumption].
    transitivity ((INR n + 2) * Re (zon (H3 w) (H3 D) (S (S n))))%R; [field; lra|].
    replace (INR n + 2)%R with (INR n + 1 + 1)%R by ring. rewrite E. field. lra. }
  assert (Hrr : (0 <= pn w / r < 1)%R).
  { split; [apply Rmult_le_pos; [lra|left; now apply Rinv_0_lt_compat]|].
    apply Rmult_lt_reg_r with r; [assumption|]. unfold Rdiv. rewrite Rmult_assoc, Rinv_l by lra. lra. }
  assert (HZb : forall n, (Rabs (Zs n) <= (pn w / r) ^ n)%R).
  { intros n. unfold Zs, Rdiv. rewrite Rabs_mult, Rabs_inv, (Rabs_pos_eq (r ^ (2 * n))) by (left; apply Hrn).
    rewrite Rpow_mult_distr, pow_inv.
    apply Rle_trans with (r ^ n * pn w ^ n * / r ^ (2 * n))%R.
    - apply Rmult_le_compat_r; [left; apply Rinv_0_lt_compat; apply Hrn|].
      eapply Rle_trans; [apply Re_le_Cmod|]. apply zon_bound. lra.
    - right. replace (2 * n)%nat with (n + n)%nat by lia. rewrite pow_add. field. apply Rgt_not_eq, Hrn. }
  assert (HP : forall t, (0 <= t <= 1)%R -> (0 < 1 - 2 * (pdot w D / (r * r)) * t + pn w * pn w / (r * r) * t * t)%R).
  { intros t Ht. pose proof (cauchy w D) as C0. rewrite D_norm in C0.
    set (u := (pn w / r)%R) in *.
    assert (E1 : (pn w * pn w / (r * r) = u * u)%R) by (unfold u; field; lra). rewrite E1.
    assert (E2 : (pdot w D / (r * r) <= u)%R).
    { unfold u. apply Rmult_le_reg_r with (r * r)%R; [nra|]. unfold Rdiv. rewrite Rmult_assoc, Rinv_l by nra.
      replace (pn w * / r * (r * r))%R with (pn w * r)%R by (field; lra). lra. }
    assert (E3 : (0 <= u * t <= u)%R) by nra. nra. }
  specialize (N HZ0 HZ1 HZr Hrr HZb HP Q).
  assert (Esum : lsum term (seq 0 (S Q)) = RtoC (/ r * rsum Zs (seq 0 (S Q)))).
  { rewrite <- rsum_scal, RtoC_rsum. apply lsum_ext. intros n _. unfold term, Zs. rewrite zon_Re at 1. rewrite <- RtoC_mult. f_equal.
    rewrite pow_add. simpl (r ^ 1)%R. field. repeat split; try (apply Rgt_not_eq, Hrn); try lra. }
  assert (Edist : (/ pn (psub D w) = / r * / sqrt (1 - 2 * (pdot w D / (r * r)) + pn w * pn w / (r * r)))%R).
  { rewrite <- Rinv_mult. f_equal. apply Rsqr_inj.
    - apply pn_nonneg.
    - apply Rmult_le_pos; [lra|apply sqrt_pos].
    - unfold Rsqr. rewrite dist_sq.
      specialize (HP 1%R ltac:(lra)). rewrite !Rmult_1_r in HP.
      transitivity (r * r * (sqrt (1 - 2 * (pdot w D / (r * r)) + pn w * pn w / (r * r)) * sqrt (1 - 2 * (pdot w D / (r * r)) + pn w * pn w / (r * r))))%R; [|ring].
      rewrite sqrt_sqrt by lra. field. lra. }
  rewrite Esum, Edist, <- RtoC_minus, Cmod_R, <- Rmult_minus_distr_l, Rabs_mult, Rabs_inv, (Rabs_pos_eq r) by lra.
  apply Rle_trans with (/ r * ((pn w / r) ^ S Q / (1 - pn w / r)))%R.
  - apply Rmult_le_compat_l; [left; now apply Rinv_0_lt_compat|exact N].
  - right. field. repeat split; lra.
Qed.
End One.

(** ** Sums over triangles and squares *)
Lemma lsum_seq_support (f : nat -> C) a b : (a <= b)%nat -> (forall i, (a <= i)%nat -> f i = 0) -> lsum f (seq 0 b) = lsum f (seq 0 a).
Proof.
  intros H Hz. replace b with (a + (b - a))%nat by lia. rewrite seq_app, lsum_app. rewrite (lsum_all_zero f (seq (0 + a) (b - a))); [ring|].
  intros i Hi. apply in_seq in Hi. apply Hz. lia.
Qed.
Lemma triangle (f : nat -> nat -> C) Q :
  lsum (fun N => lsum (fun n => f n (N - n)%nat) (seq 0 (S N))) (seq 0 (S Q)) = lsum (fun n => lsum (f n) (seq 0 (S (Q - n)))) (seq 0 (S Q)).
Proof.
  induction Q as [|Q IH]; [reflexivity|].
  rewrite lsum_seq_S, IH. rewrite (lsum_seq_S (fun n => lsum (f n) (seq 0 (S (S Q - n)))) 0 (S Q)).
  rewrite (lsum_seq_S (fun n => f n (0 + S Q - n)%nat) 0 (0 + S Q)). simpl (0 + S Q)%nat.
  replace (S Q - S Q)%nat with O by lia.
  rewrite (lsum_ext (fun n => lsum (f n) (seq 0 (S (S Q - n)))) (fun n => lsum (f n) (seq 0 (S (Q - n))) + f n (S Q - n)%nat)).
  - rewrite lsum_plus. change (seq 0 1) with [0%nat]. rewrite (lsum_cons (f (S Q))), lsum_nil.
    rewrite !Nat.add_0_l. replace (S Q - S Q)%nat with O by lia. ring.
  - intros n Hn. apply in_seq in Hn. replace (S Q - n)%nat with (S (Q - n)) by lia.
    rewrite (lsum_seq_S (f n) 0 (S (Q - n))). reflexivity.
Qed.

Lemma negbin_step n u J :
  ((1 - u) * rsum (fun j => INR (choose (S n + j) (S n)) * u ^ j) (seq 0 (S J)) =
   rsum (fun j => INR (choose (n + j) n) * u ^ j) (seq 0 (S J)) - INR (choose (S n + J) (S n)) * u ^ (S J))%R.
Proof.
  induction J as [|J IH].
  - simpl seq. rewrite !rsum_cons. unfold rsum; simpl fold_right. rewrite !Nat.add_0_r, !choose_diag. simpl. ring.
  - rewrite !(rsum_seq_S _ 0 (S J)), Rmult_plus_distr_l, IH. simpl (0 + S J)%nat.
    replace (S n + S J)%nat with (S (n + S J)) by lia. rewrite (choose_SS (n + S J) n), plus_INR.
    replace (n + S J)%nat with (S n + J)%nat by lia. simpl (u ^ S (S J))%R. simpl (u ^ S J)%R. ring.
Qed.
Lemma negbin n u J : (0 <= u < 1)%R ->
  (rsum (fun j => INR (choose (n + j) n) * u ^ j) (seq 0 (S J)) <= / (1 - u) ^ (S n))%R.
Proof.
  intros Hu. induction n as [|n IH].
  - rewrite (rsum_ext _ (fun j => u ^ j)%R) by (intros j _; rewrite choose_0; simpl; ring).
    pose proof (geom_R u (S J)) as G. apply Rmult_le_reg_l with (1 - u)%R; [lra|]. rewrite G. simpl. rewrite Rmult_1_r, Rinv_r by lra.
    pose proof (pow_le u (S J) (proj1 Hu)) as P. simpl in P. lra.
  - pose proof (negbin_step n u J) as E. apply Rmult_le_reg_l with (1 - u)%R; [lra|]. rewrite E.
    replace ((1 - u) * / (1 - u) ^ S (S n))%R with (/ (1 - u) ^ S n)%R.
    + pose proof (pow_le u (S J) (proj1 Hu)) as P. pose proof (pos_INR (choose (S n + J) (S n))) as P2.
      pose proof (Rmult_le_pos _ _ P2 P). lra.
    + assert ((1 - u) ^ n <> 0)%R by (apply pow_nonzero; lra). simpl. field. split; [assumption|lra].
Qed.
Lemma geom_tail u p Q : (0 <= u < 1)%R -> (rsum (fun n => if (n <=? p)%nat then 0 else u ^ n)%R (seq 0 (S Q)) <= u ^ (S p) / (1 - u))%R.
Proof.
  intros Hu. apply Rle_trans with (u ^ (S p) * rsum (fun n => u ^ n)%R (seq 0 (S Q)))%R.
  - assert (G : forall Q, (rsum (fun n => if (n <=? p)%nat then 0 else u ^ n)%R (seq 0 (S p + Q)) = u ^ (S p) * rsum (fun n => u ^ n)%R (seq 0 Q))%R).
    { intros k. rewrite seq_app, rsum_app. rewrite (rsum_ext _ (fun _ => 0%R)).
      - rewrite rsum_zero, Rplus_0_l. rewrite <- rsum_scal. simpl (0 + S p)%nat.
        assert (GG : forall k st, rsum (fun n => if (n <=? p)%nat then 0 else u ^ n)%R (seq (S p + st) k) = rsum (fun a => u ^ S p * u ^ a)%R (seq st k)).
        { clear k. induction k as [|k IH]; intros st; [reflexivity|]. cbn [seq]. rewrite !rsum_cons.
          rewrite <- Nat.add_succ_r, IH. f_equal. destruct (Nat.leb_spec (S p + st) p); [lia|]. rewrite <- pow_add. reflexivity. }
        rewrite <- (Nat.add_0_r (S p)) at 1. apply GG.
      - intros i Hi. apply in_seq in Hi. destruct (Nat.leb_spec i p); [reflexivity|lia]. }
    destruct (le_lt_dec (S Q) (S p)) as [Hle|Hgt].
    + rewrite (rsum_ext _ (fun _ => 0%R)).
      * rewrite rsum_zero. apply Rmult_le_pos; [apply pow_le; lra|apply rsum_nonneg; intros; apply pow_le; lra].
      * intros i Hi. apply in_seq in Hi. destruct (Nat.leb_spec i p); [reflexivity|lia].
    + replace (S Q) with (S p + (S Q - S p))%nat at 1 by lia. rewrite G. apply Rmult_le_compat_l; [apply pow_le; lra|].
      replace (S Q) with ((S Q - S p) + S p)%nat at 2 by lia. rewrite seq_app, rsum_app.
      assert (0 <= rsum (fun n => u ^ n)%R (seq (0 + (S Q - S p)) (S p)))%R by (apply rsum_nonneg; intros; apply pow_le; lra). lra.
  - unfold Rdiv. apply Rmult_le_compat_l; [apply pow_le; lra|]. pose proof (geom_R u (S Q)) as G.
    apply Rmult_le_reg_l with (1 - u)%R; [lra|]. rewrite G, Rinv_r by lra. pose proof (pow_le u (S Q) (proj1 Hu)). lra.
Qed.

(** ** Two centers *)
Section Two.
Variables (r th ph : R) (v w : P3) (X Y : R) (p : nat).
Hypothesis Hv : (pn v <= Y)%R.
Hypothesis Hw : (pn w <= X)%R.
Hypothesis HXY : (X + Y < r)%R.
Let D := polar r th ph.
Let kap (n j : nat) : C := bic (H3 v) (H3 w) (H3 D) n j * RtoC (/ r ^ (2 * (n + j) + 1)).
Let Bd (n j : nat) : R := (INR (choose (n + j) n) * Y ^ n * X ^ j / r ^ (n + j + 1))%R.

Lemma X_nonneg : (0 <= X)%R. Proof. pose proof (pn_nonneg w). lra. Qed.
Lemma Y_nonneg : (0 <= Y)%R. Proof. pose proof (pn_nonneg v). lra. Qed.
Lemma r_pos : (0 < r)%R. Proof. pose proof X_nonneg. pose proof Y_nonneg. lra. Qed.

Lemma kap_bound n j : (Cmod (kap n j) <= Bd n j)%R.
Proof.
  pose proof r_pos as Hr. unfold kap, Bd. rewrite Cmod_mult, Cmod_R, Rabs_inv, (Rabs_pos_eq (r ^ _)) by (left; now apply pow_lt).
  assert (Hp : forall k, (0 < r ^ k)%R) by (intros; now apply pow_lt).
  eapply Rle_trans; [apply Rmult_le_compat_r; [left; apply Rinv_0_lt_compat, Hp|apply bic_bound; lra]|].
  replace (2 * (n + j) + 1)%nat with ((n + j) + (n + j + 1))%nat by lia. rewrite (pow_add r (n + j)).
  replace (r ^ (n + j) * INR (choose (n + j) n) * pn v ^ n * pn w ^ j * / (r ^ (n + j) * r ^ (n + j + 1)))%R with
    (INR (choose (n + j) n) * (pn v ^ n * pn w ^ j) * / r ^ (n + j + 1))%R by (field; split; apply Rgt_not_eq, Hp).
  unfold Rdiv. apply Rmult_le_compat_r; [left; apply Rinv_0_lt_compat, Hp|]. rewrite !Rmult_assoc.
  apply Rmult_le_compat_l; [apply pos_INR|]. apply Rmult_le_compat; try (apply pow_le; apply pn_nonneg).
  - apply pow_incr. split; [apply pn_nonneg|assumption].
  - apply pow_incr. split; [apply pn_nonneg|assumption].
Qed.

Lemma Bd_nonneg n j : (0 <= Bd n j)%R.
Proof.
  unfold Bd. pose proof r_pos. apply Rmult_le_pos; [|left; apply Rinv_0_lt_compat; now apply pow_lt].
  apply Rmult_le_pos; [apply Rmult_le_pos; [apply pos_INR|]|]; apply pow_le; [apply Y_nonneg|apply X_nonneg].
Qed.
(** Sum of a row of the bounds. *)
Lemma row_bound n J : (rsum (Bd n) (seq 0 (S J)) <= (Y / (r - X)) ^ n / (r - X))%R.
Proof.
  pose proof r_pos as Hr. pose proof X_nonneg as HX. pose proof Y_nonneg as HY.
  assert (Hu : (0 <= X / r < 1)%R).
  { split; [apply Rmult_le_pos; [lra|left; now apply Rinv_0_lt_compat]|].
    apply Rmult_lt_reg_r with r; [assumption|]. unfold Rdiv. rewrite Rmult_assoc, Rinv_l by lra. lra. }
  pose proof (negbin n (X / r) J Hu) as NB.
  assert (Hp : forall k, (0 < r ^ k)%R) by (intros; now apply pow_lt).
  rewrite (rsum_ext _ (fun j => Y ^ n / r ^ (n + 1) * (INR (choose (n + j) n) * (X / r) ^ j))%R).
  - rewrite rsum_scal. eapply Rle_trans; [apply Rmult_le_compat_l; [|exact NB]|].
    + apply Rmult_le_pos; [now apply pow_le|left; apply Rinv_0_lt_compat, Hp].
    + right. replace (1 - X / r)%R with ((r - X) / r)%R by (field; lra).
      unfold Rdiv. rewrite !Rpow_mult_distr, !pow_inv. replace (n + 1)%nat with (S n) by lia. simpl.
      assert ((r - X) ^ n <> 0)%R by (apply pow_nonzero; lra). assert (r ^ n <> 0)%R by (apply Rgt_not_eq, Hp). field. repeat split; try assumption; lra.
  - intros j _. unfold Bd. unfold Rdiv. rewrite Rpow_mult_distr, pow_inv. replace (n + j + 1)%nat with (n + 1 + j)%nat by lia.
    rewrite (pow_add r (n + 1)). field. split; apply Rgt_not_eq, Hp.
Qed.
End Two.

Section Two'.
Variables (r th ph : R) (v w : P3) (X Y : R) (p : nat).
Hypothesis Hv : (pn v <= Y)%R.
Hypothesis Hw : (pn w <= X)%R.
Hypothesis HXY : (X + Y < r)%R.
Let D := polar r th ph.
Let kap (n j : nat) : C := bic (H3 v) (H3 w) (H3 D) n j * RtoC (/ r ^ (2 * (n + j) + 1)).
Let Bd (n j : nat) : R := (INR (choose (n + j) n) * Y ^ n * X ^ j / r ^ (n + j + 1))%R.

Lemma choose_sym_add n j : choose (n + j) n = choose (j + n) j.
Proof.
  pose proof (choose_fact (n + j) n ltac:(lia)) as A. pose proof (choose_fact (j + n) j ltac:(lia)) as B.
  replace (n + j - n)%nat with j in A by lia. replace (j + n - j)%nat with n in B by lia.
  replace (j + n)%nat with (n + j)%nat in * by lia.
  assert (E : (choose (n + j) n * (fact n * fact j) = choose (n + j) j * (fact n * fact j))%nat) by lia.
  apply Nat.mul_cancel_r in E; [assumption|]. pose proof (lt_O_fact n). pose proof (lt_O_fact j). nia.
Qed.

(** The sum of the bounds outside the square. *)
Lemma outside_bound Q :
  (rsum (fun n => rsum (fun j => if (andb (n <=? p)%nat (j <=? p)%nat) then 0 else Bd n j)%R (seq 0 (S Q))) (seq 0 (S Q))
   <= ((Y / (r - X)) ^ (S p) + (X / (r - Y)) ^ (S p)) / (r - X - Y))%R.
Proof.
  pose proof (r_pos r v w X Y Hv Hw HXY) as Hr. pose proof (X_nonneg w X Hw) as HX. pose proof (Y_nonneg v Y Hv) as HY.
  assert (B0 : forall n j, (0 <= Bd n j)%R) by (intros; apply (Bd_nonneg r v w X Y Hv Hw HXY)).
  apply Rle_trans with
    (rsum (fun n => if (n <=? p)%nat then 0 else rsum (Bd n) (seq 0 (S Q)))%R (seq 0 (S Q)) +
     rsum (fun j => if (j <=? p)%nat then 0 else rsum (fun n => Bd n j) (seq 0 (S Q)))%R (seq 0 (S Q)))%R.
  - rewrite (rsum_ext (fun j => if (j <=? p)%nat then 0%R else rsum (fun n => Bd n j) (seq 0 (S Q))) (fun j => rsum (fun n => if (j <=? p)%nat then 0%R else Bd n j) (seq 0 (S Q)))).
    + rewrite (rsum_swap (fun j n => if (j <=? p)%nat then 0%R else Bd n j)). rewrite <- rsum_plus. apply rsum_le. intros n _.
      destruct (n <=? p)%nat eqn:En.
      * rewrite Rplus_0_l. apply rsum_le. intros j _. destruct (j <=? p)%nat; simpl; lra.
      * match goal with |- (_ <= _ + ?s)%R => assert (Hs : (0 <= s)%R) end.
        { apply rsum_nonneg. intros j _. destruct (j <=? p)%nat; [lra|apply B0]. }
        match goal with |- (?a <= ?b + _)%R => assert (Ha : a = b) by (apply rsum_ext; intros; reflexivity) end.
        rewrite Ha. lra.
    + intros j _. destruct (j <=? p)%nat; [|reflexivity]. rewrite rsum_zero. reflexivity.
  - assert (U1 : (0 <= Y / (r - X) < 1)%R).
    { split; [apply Rmult_le_pos; [lra|left; apply Rinv_0_lt_compat; lra]|].
      apply Rmult_lt_reg_r with (r - X)%R; [lra|]. unfold Rdiv. rewrite Rmult_assoc, Rinv_l by lra. lra. }
    assert (U2 : (0 <= X / (r - Y) < 1)%R).
    { split; [apply Rmult_le_pos; [lra|left; apply Rinv_0_lt_compat; lra]|].
      apply Rmult_lt_reg_r with (r - Y)%R; [lra|]. unfold Rdiv. rewrite Rmult_assoc, Rinv_l by lra. lra. }
    assert (T : forall A B (U : (0 <= A / (r - B) < 1)%R), (0 < r - B)%R -> (A + B < r)%R ->
       (/ (r - B) * ((A / (r - B)) ^ S p / (1 - A / (r - B))) = (A / (r - B)) ^ S p / (r - A - B))%R).
    { intros A B U HB HAB. set (q := ((A / (r - B)) ^ S p)%R). replace (1 - A / (r - B))%R with ((r - A - B) / (r - B))%R by (field; lra). field. lra. }
    replace (((Y / (r - X)) ^ S p + (X / (r - Y)) ^ S p) / (r - X - Y))%R with
      (/ (r - X) * ((Y / (r - X)) ^ S p / (1 - Y / (r - X))) + / (r - Y) * ((X / (r - Y)) ^ S p / (1 - X / (r - Y))))%R.
    + apply Rplus_le_compat.
      * eapply Rle_trans; [|apply Rmult_le_compat_l; [left; apply Rinv_0_lt_compat; lra|apply (geom_tail _ p Q U1)]].
        rewrite <- rsum_scal. apply rsum_le. intros n _. destruct (n <=? p)%nat; [lra|].
        eapply Rle_trans; [apply (row_bound r v w X Y Hv Hw HXY)|]. right. field. lra.
      * eapply Rle_trans; [|apply Rmult_le_compat_l; [left; apply Rinv_0_lt_compat; lra|apply (geom_tail _ p Q U2)]].
        rewrite <- rsum_scal. apply rsum_le. intros n _. destruct (n <=? p)%nat; [lra|].
        eapply Rle_trans; [|apply Req_le; apply Rmult_comm].
        eapply Rle_trans; [|apply (row_bound r w v Y X Hw Hv ltac:(lra) n Q)]. right.
        apply rsum_ext. intros j _. unfold Bd. rewrite choose_sym_add. replace (j + n)%nat with (n + j)%nat by lia. f_equal. ring.
    + rewrite (T Y X U1), (T X Y U2) by lra. replace (r - Y - X)%R with (r - X - Y)%R by ring. field. lra.
Qed.

Theorem newton_two :
  (Cmod (RtoC (/ pn (psub D (padd v w))) - lsum (fun n => lsum (kap n) (seq 0 (S p))) (seq 0 (S p)))
   <= ((Y / (r - X)) ^ (S p) + (X / (r - Y)) ^ (S p)) / (r - X - Y))%R.
Proof.
  pose proof (r_pos r v w X Y Hv Hw HXY) as Hr. pose proof (X_nonneg w X Hw) as HX. pose proof (Y_nonneg v Y Hv) as HY.
  set (A := (((Y / (r - X)) ^ (S p) + (X / (r - Y)) ^ (S p)) / (r - X - Y))%R).
  assert (Hsum : (pn (padd v w) < r)%R) by (pose proof (pn_add v w); lra).
  set (rho := (pn (padd v w) / r)%R).
  assert (Hrho : (0 <= rho < 1)%R).
  { unfold rho. split; [apply Rmult_le_pos; [apply pn_nonneg|left; now apply Rinv_0_lt_compat]|].
    apply Rmult_lt_reg_r with r; [assumption|]. unfold Rdiv. rewrite Rmult_assoc, Rinv_l by lra. lra. }
  assert (G : forall Q, (2 * p <= Q)%nat ->
    (Cmod (RtoC (/ pn (psub D (padd v w))) - lsum (fun n => lsum (kap n) (seq 0 (S p))) (seq 0 (S p))) <= A + rho ^ (S Q) / (r - pn (padd v w)))%R).
  { intros Q HQ.
    set (box := fun n j => if (andb (n <=? p)%nat (j <=? p)%nat) then kap n j else 0).
    set (out := fun n j => if (andb (n <=? p)%nat (j <=? p)%nat) then RtoC 0 else kap n j).
    pose proof (newton_one r th ph (padd v w) Hr Hsum Q) as N1. fold D in N1. fold rho in N1.
    assert (E1 : lsum (fun n => zon (H3 (padd v w)) (H3 D) n * RtoC (/ r ^ (2 * n + 1))) (seq 0 (S Q)) =
                 lsum (fun n => lsum (kap n) (seq 0 (S (Q - n)))) (seq 0 (S Q))).
    { rewrite <- triangle. apply lsum_ext. intros N _. rewrite H3_add, zon_split, <- lsum_scal_r. apply lsum_ext. intros n Hn.
      apply in_seq in Hn. unfold kap. replace (n + (N - n))%nat with N by lia. reflexivity. }
    rewrite E1 in N1.
    assert (E2 : lsum (fun n => lsum (kap n) (seq 0 (S (Q - n)))) (seq 0 (S Q)) =
                 lsum (fun n => lsum (kap n) (seq 0 (S p))) (seq 0 (S p)) + lsum (fun n => lsum (out n) (seq 0 (S (Q - n)))) (seq 0 (S Q))).
    { rewrite (lsum_ext _ (fun n => lsum (box n) (seq 0 (S (Q - n))) + lsum (out n) (seq 0 (S (Q - n))))).
      - rewrite lsum_plus. f_equal. rewrite (lsum_seq_support _ (S p)); [|lia|].
        + apply lsum_ext. intros n Hn. apply in_seq in Hn. rewrite (lsum_seq_support _ (S p)); [|lia|].
          * apply lsum_ext. intros j Hj. apply in_seq in Hj. unfold box.
            destruct (Nat.leb_spec n p); [|lia]. destruct (Nat.leb_spec j p); [|lia]. reflexivity.
          * intros j Hj. unfold box. destruct (Nat.leb_spec j p); [lia|]. rewrite Bool.andb_false_r. reflexivity.
        + intros n Hn. apply lsum_all_zero. intros j _. unfold box. destruct (Nat.leb_spec n p); [lia|]. reflexivity.
      - intros n _. rewrite <- lsum_plus. apply lsum_ext. intros j _. unfold box, out. destruct (andb (n <=? p)%nat (j <=? p)%nat); ring. }
    rewrite E2 in N1.
    assert (B : (Cmod (lsum (fun n => lsum (out n) (seq 0 (S (Q - n)))) (seq 0 (S Q))) <= A)%R).
    { eapply Rle_trans; [|apply (outside_bound Q)]. eapply Rle_trans; [apply lsum_Cmod|]. apply rsum_le. intros n Hn. apply in_seq in Hn.
      eapply Rle_trans; [apply lsum_Cmod|].
      replace (S Q) with (S (Q - n) + n)%nat by lia. rewrite (seq_app (S (Q - n))), rsum_app.
      rewrite <- (Rplus_0_r (rsum (fun a => Cmod (out n a)) _)). apply Rplus_le_compat.
      - apply rsum_le. intros j _. unfold out. destruct (andb (n <=? p)%nat (j <=? p)%nat); [rewrite Cmod_0; lra|].
        apply (kap_bound r th ph v w X Y Hv Hw HXY).
      - apply rsum_nonneg. intros j _. destruct (andb (n <=? p)%nat (j <=? p)%nat); [lra|]. apply (Bd_nonneg r v w X Y Hv Hw HXY). }
    set (T := lsum (fun n => lsum (out n) (seq 0 (S (Q - n)))) (seq 0 (S Q))) in *.
    set (K0 := lsum (fun n => lsum (kap n) (seq 0 (S p))) (seq 0 (S p))) in *.
    replace (RtoC (/ pn (psub D (padd v w))) - K0) with ((RtoC (/ pn (psub D (padd v w))) - (K0 + T)) + T) by ring.
    eapply Rle_trans; [apply Cmod_triangle|]. lra. }
  apply le_epsilon. intros eps Heps.
  assert (Hc : (0 < r - pn (padd v w))%R) by lra.
  destruct (pow_lt_1_zero rho ltac:(rewrite Rabs_pos_eq; lra) (eps * (r - pn (padd v w)))%R ltac:(apply Rmult_lt_0_compat; lra)) as [N HN].
  specialize (G (N + 2 * p)%nat ltac:(lia)). specialize (HN (S (N + 2 * p)) ltac:(lia)).
  rewrite Rabs_pos_eq in HN by (apply pow_le; lra).
  assert ((rho ^ S (N + 2 * p) / (r - pn (padd v w)) <= eps)%R).
  { apply Rmult_le_reg_r with (r - pn (padd v w))%R; [assumption|]. unfold Rdiv. rewrite Rmult_assoc, Rinv_l by lra. lra. }
  lra.
Qed.
End Two'.
