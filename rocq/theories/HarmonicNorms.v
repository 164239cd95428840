(** Sums of squares over the orders m of one degree, and how the weights of the translations of spherical harmonics act on
    them. *)
From Coq Require Import Reals List Arith ZArith Lia Lra Psatz Permutation.
From Coquelicot Require Import Coquelicot.
From Verif Require Import Tables CAux Tables3D Table3DProofs SolidHarmonics Zonal HarmonicBounds Kernel3 Harmonics3D Exp3Proofs.
Import ListNotations.
Local Open Scope R_scope.

(** ** Euclidean norms over lists *)
Definition rn {A} (x : A -> R) (l : list A) : R := sqrt (rsum (fun a => x a * x a) l).
Section Lists.
  Context {A : Type}.
  Implicit Types (x y : A -> R) (l : list A).
  Lemma sq_nonneg x l : 0 <= rsum (fun a => x a * x a) l.
  Proof. apply rsum_nonneg. intros. nra. Qed.
  Lemma rn_nonneg x l : 0 <= rn x l.
  Proof. apply sqrt_pos. Qed.
  Lemma rn_sq x l : rn x l * rn x l = rsum (fun a => x a * x a) l.
  Proof. apply sqrt_sqrt, sq_nonneg. Qed.
  Lemma rn_ext x y l : (forall a, In a l -> x a = y a) -> rn x l = rn y l.
  Proof. intros H. unfold rn. f_equal. apply rsum_ext. intros a Ha. now rewrite H. Qed.
  Lemma rn_le x y l : (forall a, In a l -> 0 <= x a <= y a) -> rn x l <= rn y l.
  Proof. intros H. apply sqrt_le_1_alt. apply rsum_le. intros a Ha. specialize (H a Ha). nra. Qed.
  Lemma rn_bound x l B : 0 <= B -> rsum (fun a => x a * x a) l <= B * B -> rn x l <= B.
  Proof.
    intros HB H. rewrite <- (sqrt_square B) by assumption. now apply sqrt_le_1_alt.
  Qed.
  Lemma cauchy x y l : (rsum (fun a => x a * y a) l) * (rsum (fun a => x a * y a) l) <=
    rsum (fun a => x a * x a) l * rsum (fun a => y a * y a) l.
  Proof.
    induction l as [|a l IH]; [simpl; lra|]. rewrite !rsum_cons.
    pose proof (rn_sq x l) as HX. pose proof (rn_sq y l) as HY. pose proof (rn_nonneg x l). pose proof (rn_nonneg y l).
    set (S := rsum (fun a0 => x a0 * y a0) l) in *. rewrite <- HX, <- HY in *. set (X := rn x l) in *. set (Y := rn y l) in *.
    assert (HS : Rabs S <= X * Y).
    { apply Rsqr_incr_0_var; [|nra]. rewrite <- Rsqr_abs. unfold Rsqr. nra. }
    apply Rabs_le_between in HS. set (u := x a) in *. set (v := y a) in *.
    assert (2 * (u * v) * S <= u * u * (Y * Y) + v * v * (X * X)).
    { destruct (Rle_dec 0 (u * v)).
      - apply Rle_trans with (2 * (u * v) * (X * Y)); [nra|]. pose proof (Rle_0_sqr (u * Y - v * X)) as Q. unfold Rsqr in Q. nra.
      - apply Rle_trans with (2 * (u * v) * (- (X * Y))); [nra|]. pose proof (Rle_0_sqr (u * Y + v * X)) as Q. unfold Rsqr in Q. nra. }
    nra.
  Qed.
  Lemma cauchy_rn x y l : Rabs (rsum (fun a => x a * y a) l) <= rn x l * rn y l.
  Proof.
    apply Rsqr_incr_0_var; [|apply Rmult_le_pos; apply rn_nonneg]. rewrite <- Rsqr_abs. unfold Rsqr.
    replace (rn x l * rn y l * (rn x l * rn y l)) with ((rn x l * rn x l) * (rn y l * rn y l)) by ring. rewrite !rn_sq. apply cauchy.
  Qed.
  Lemma rn_plus x y l : rn (fun a => x a + y a) l <= rn x l + rn y l.
  Proof.
    apply rn_bound; [apply Rplus_le_le_0_compat; apply rn_nonneg|].
    replace (rsum (fun a => (x a + y a) * (x a + y a)) l) with
      (rsum (fun a => x a * x a) l + 2 * rsum (fun a => x a * y a) l + rsum (fun a => y a * y a) l).
    2:{ rewrite <- rsum_scal, <- !rsum_plus. apply rsum_ext. intros. ring. }
    pose proof (cauchy_rn x y l) as C. apply Rabs_le_between in C. rewrite <- !rn_sq. nra.
  Qed.
  Lemma rn_scal c x l : rn (fun a => c * x a) l = Rabs c * rn x l.
  Proof.
    unfold rn. replace (rsum (fun a => c * x a * (c * x a)) l) with (c * c * rsum (fun a => x a * x a) l).
    - rewrite sqrt_mult_alt by nra. f_equal. rewrite <- sqrt_Rsqr_abs. reflexivity.
    - rewrite <- rsum_scal. apply rsum_ext. intros; ring.
  Qed.
  Lemma rn_zero l : rn (fun _ : A => 0) l = 0.
  Proof. unfold rn. rewrite (rsum_ext _ (fun _ => 0)) by (intros; ring). rewrite rsum_zero. apply sqrt_0. Qed.
  Lemma rn_sum {B} (f : B -> A -> R) (L : list B) l : rn (fun a => rsum (fun b => f b a) L) l <= rsum (fun b => rn (f b) l) L.
  Proof.
    induction L as [|b L IH].
    - simpl. rewrite rn_zero. lra.
    - rewrite rsum_cons. eapply Rle_trans; [|apply Rplus_le_compat_l, IH].
      rewrite (rn_ext _ (fun a => f b a + rsum (fun b0 => f b0 a) L)) by reflexivity. apply rn_plus.
  Qed.
  Lemma rn_el x l a : In a l -> Rabs (x a) <= rn x l.
  Proof.
    intros H. rewrite <- sqrt_Rsqr_abs. apply sqrt_le_1_alt. unfold Rsqr. induction l as [|b l IH]; [contradiction|].
    rewrite rsum_cons. pose proof (sq_nonneg x l). destruct H as [->|H]; [nra|]. specialize (IH H). nra.
  Qed.
  (** A sum of nonnegative terms over a list whose nonzero terms all lie in another list. *)
  Lemma rsum_incl (f : A -> R) l1 l2 : NoDup l1 -> (forall a, 0 <= f a) -> (forall a, In a l1 -> f a = 0 \/ In a l2) ->
    rsum f l1 <= rsum f l2.
  Proof.
    intros N P. revert l2. induction N as [|a l1 Na N IH]; intros l2 H.
    - apply rsum_nonneg. auto.
    - rewrite rsum_cons. destruct (H a (or_introl eq_refl)) as [E|Hin].
      + rewrite E, Rplus_0_l. apply IH. intros b Hb. apply H. now right.
      + apply in_split in Hin. destruct Hin as (u & v & ->). rewrite rsum_app, rsum_cons.
        assert (rsum f l1 <= rsum f (u ++ v)).
        { apply IH. intros b Hb. destruct (H b (or_intror Hb)) as [E|Hb2]; [now left|]. right.
          apply in_app_iff in Hb2. apply in_app_iff. destruct Hb2 as [Hb2|[->|Hb2]]; [now left|contradiction|now right]. }
        rewrite rsum_app in H0. lra.
  Qed.
End Lists.

(** ** Binomial coefficients *)
Lemma choose_0_S k : choose 0 (S k) = 0%nat. Proof. reflexivity. Qed.
Lemma vandermonde P : forall Q n, rsum (fun i => INR (choose P i) * INR (choose Q (n - i))) (seq 0 (S n)) = INR (choose (P + Q) n).
Proof.
  induction P as [|P IH]; intros Q n.
  - change (seq 0 (S n)) with (0%nat :: seq 1 n). rewrite rsum_cons, rsum_seq_shift.
    rewrite (rsum_ext _ (fun _ => 0)) by (intros; rewrite choose_0_S; simpl; ring). rewrite rsum_zero, choose_0, Nat.sub_0_r. simpl. ring.
  - destruct n as [|n].
    + simpl. rewrite !choose_0. simpl. ring.
    + replace (S P + Q)%nat with (S (P + Q)) by lia. rewrite choose_SS, plus_INR, <- (IH Q n), <- (IH Q (S n)).
      change (seq 0 (S (S n))) with (0%nat :: seq 1 (S n)). rewrite !rsum_cons, !rsum_seq_shift, !choose_0.
      rewrite (rsum_ext (fun i => INR (choose (S P) (S i)) * INR (choose Q (S n - S i)))
        (fun i => INR (choose P i) * INR (choose Q (n - i)) + INR (choose P (S i)) * INR (choose Q (S n - S i)))).
      * rewrite rsum_plus. ring.
      * intros i _. rewrite choose_SS, plus_INR. replace (S n - S i)%nat with (n - i)%nat by lia. ring.
Qed.
Lemma choose_term x y n k : 0 <= x -> 0 <= y -> (k <= n)%nat -> INR (choose n k) * x ^ (n - k) * y ^ k <= (x + y) ^ n.
Proof.
  intros Hx Hy Hk. rewrite Rbinomial.
  rewrite <- (Rplus_0_r (INR (choose n k) * x ^ (n - k) * y ^ k)).
  change (INR (choose n k) * x ^ (n - k) * y ^ k + 0) with (rsum (fun k => INR (choose n k) * x ^ (n - k) * y ^ k) [k]).
  apply rsum_incl.
  - constructor; [intros []|constructor].
  - intros a. apply Rmult_le_pos; [apply Rmult_le_pos; [apply pos_INR|now apply pow_le]|now apply pow_le].
  - intros a [<-|[]]. right. apply in_seq. lia.
Qed.
(** [chz N n]: the binomial coefficient of 2N over 2n. *)
Definition chz (N n : Z) : R := INR (choose (Z.to_nat (2 * N)) (Z.to_nat (2 * n))).
Lemma chz_nonneg N n : 0 <= chz N n. Proof. apply pos_INR. Qed.
Lemma chz_pow a b n j : 0 <= a -> 0 <= b -> (0 <= n)%Z -> (0 <= j)%Z ->
  sqrt (chz (j + n) n) * a ^ Z.to_nat n * b ^ Z.to_nat j <= (a + b) ^ Z.to_nat (j + n).
Proof.
  intros Ha Hb Hn Hj. pose proof (choose_term b a (Z.to_nat (2 * (j + n))) (Z.to_nat (2 * n)) Hb Ha ltac:(lia)) as T.
  replace (Z.to_nat (2 * (j + n)) - Z.to_nat (2 * n))%nat with (2 * Z.to_nat j)%nat in T by lia.
  replace (Z.to_nat (2 * n)) with (2 * Z.to_nat n)%nat in T by lia.
  replace (Z.to_nat (2 * (j + n))) with (2 * Z.to_nat (j + n))%nat in T by lia.
  rewrite <- (sqrt_square ((a + b) ^ Z.to_nat (j + n))) by (apply pow_le; lra).
  rewrite <- (sqrt_square (a ^ Z.to_nat n)), <- (sqrt_square (b ^ Z.to_nat j)) by now apply pow_le.
  rewrite <- !sqrt_mult_alt by (try apply Rmult_le_pos; try apply chz_nonneg; try apply Rmult_le_pos; now apply pow_le).
  apply sqrt_le_1_alt. unfold chz. replace (Z.to_nat (2 * (j + n))) with (2 * Z.to_nat (j + n))%nat by lia.
  replace (Z.to_nat (2 * n)) with (2 * Z.to_nat n)%nat by lia.
  rewrite !(Nat.mul_comm 2), !pow_mult in T.
  replace (b ^ Z.to_nat j * b ^ Z.to_nat j) with ((b ^ Z.to_nat j) ^ 2) by ring.
  replace (a ^ Z.to_nat n * a ^ Z.to_nat n) with ((a ^ Z.to_nat n) ^ 2) by ring.
  replace ((a + b) ^ Z.to_nat (j + n) * (a + b) ^ Z.to_nat (j + n)) with (((a + b) ^ Z.to_nat (j + n)) ^ 2) by ring.
  rewrite (Nat.mul_comm 2 (Z.to_nat (j + n))), (Nat.mul_comm 2 (Z.to_nat n)).
  rewrite (Rplus_comm b a) in T. nra.
Qed.

(** ** The weights of the translations *)
Definition wgt (a b al be : Z) : R := a_val (a + b) (al + be) / (a_val a al * a_val b be).
Lemma wgt_pos a b al be : 0 < wgt a b al be.
Proof.
  apply Rdiv_lt_0_compat; [apply a_val_pos|]. apply Rmult_lt_0_compat; apply a_val_pos.
Qed.
Lemma choose_quot n k : (k <= n)%nat -> INR (choose n k) = INR (fact n) / (INR (fact k) * INR (fact (n - k))).
Proof.
  intros H. pose proof (choose_fact n k H) as E. apply (f_equal INR) in E. rewrite !mult_INR in E. rewrite <- E. field.
  split; apply INR_fact_neq_0.
Qed.
Lemma a_val_sq n m : a_val n m * a_val n m = INR (fact (Z.to_nat (n - m))) * INR (fact (Z.to_nat (n + m))).
Proof. unfold a_val. apply sqrt_sqrt. apply Rmult_le_pos; apply pos_INR. Qed.
Lemma wgt_sq a b al be : (Z.abs al <= a)%Z -> (Z.abs be <= b)%Z ->
  wgt a b al be * wgt a b al be =
  INR (choose (Z.to_nat (a + b + (al + be))) (Z.to_nat (a + al))) * INR (choose (Z.to_nat (a + b - (al + be))) (Z.to_nat (a - al))).
Proof.
  intros Ha Hb. rewrite !choose_quot by lia.
  replace (Z.to_nat (a + b + (al + be)) - Z.to_nat (a + al))%nat with (Z.to_nat (b + be)) by lia.
  replace (Z.to_nat (a + b - (al + be)) - Z.to_nat (a - al))%nat with (Z.to_nat (b - be)) by lia.
  unfold wgt. pose proof (a_val_pos a al). pose proof (a_val_pos b be).
  replace (a_val (a + b) (al + be) / (a_val a al * a_val b be) * (a_val (a + b) (al + be) / (a_val a al * a_val b be)))
    with ((a_val (a + b) (al + be) * a_val (a + b) (al + be)) / ((a_val a al * a_val a al) * (a_val b be * a_val b be))) by (field; lra).
  rewrite !a_val_sq. field. repeat split; apply INR_fact_neq_0.
Qed.
Definition irange (a b g : Z) : list Z := zrange (Z.max (- a) (g - b)) (Z.min a (g + b)).
Lemma in_irange a b g m : In m (irange a b g) <-> (Z.abs m <= a)%Z /\ (Z.abs (g - m) <= b)%Z.
Proof. unfold irange. rewrite in_zrange. lia. Qed.
Lemma wgt_sum a b g : (0 <= a)%Z -> (0 <= b)%Z -> (Z.abs g <= a + b)%Z ->
  rsum (fun m => wgt a b m (g - m) * wgt a b m (g - m)) (irange a b g) <= chz (a + b) a.
Proof.
  intros Ha Hb Hg.
  rewrite (rsum_ext _ (fun m => INR (choose (Z.to_nat (a + b + g)) (Z.to_nat (a + m))) * INR (choose (Z.to_nat (a + b - g)) (Z.to_nat (a - m))))).
  2:{ intros m Hm. apply in_irange in Hm. rewrite wgt_sq by lia. do 4 f_equal; lia. }
  apply Rle_trans with (rsum (fun m => INR (choose (Z.to_nat (a + b + g)) (Z.to_nat (a + m))) * INR (choose (Z.to_nat (a + b - g)) (Z.to_nat (a - m)))) (zrange (- a) a)).
  - apply rsum_incl; [apply zrange_nodup|intros; apply Rmult_le_pos; apply pos_INR|]. intros m Hm. right. apply in_irange in Hm. apply in_zrange. lia.
  - right. unfold zrange. rewrite rsum_map. unfold chz.
    replace (Z.to_nat (2 * (a + b))) with (Z.to_nat (a + b + g) + Z.to_nat (a + b - g))%nat by lia. rewrite <- vandermonde.
    replace (Z.to_nat (a - - a + 1)) with (S (Z.to_nat (2 * a))) by lia. apply rsum_ext. intros i Hi. apply in_seq in Hi.
    do 4 f_equal; lia.
Qed.

Definition ind (b m : Z) : R := if (Z.abs m <=? b)%Z then 1 else 0.
Lemma ind_in b m : (Z.abs m <= b)%Z -> ind b m = 1.
Proof. intros H. unfold ind. destruct (Z.leb_spec (Z.abs m) b); [reflexivity|lia]. Qed.
Lemma ind_out b m : (b < Z.abs m)%Z -> ind b m = 0.
Proof. intros H. unfold ind. destruct (Z.leb_spec (Z.abs m) b); [lia|reflexivity]. Qed.
Lemma ind_nonneg b m : 0 <= ind b m.
Proof. unfold ind. destruct (Z.abs m <=? b)%Z; lra. Qed.
Lemma shift_nodup l c : NoDup l -> NoDup (map (fun k => k - c)%Z l).
Proof. intros. apply FinFun.Injective_map_NoDup; [|assumption]. intros x y. lia. Qed.
(** The sum of squares of a shifted family. *)
Lemma shift_sum (y : Z -> R) b c l : NoDup l ->
  rsum (fun k => ind b (k - c) * (y (k - c)%Z * y (k - c)%Z)) l <= rsum (fun m => y m * y m) (zrange (- b) b).
Proof.
  intros N. rewrite <- (rsum_map (fun k => k - c)%Z (fun m => ind b m * (y m * y m))).
  apply Rle_trans with (rsum (fun m => ind b m * (y m * y m)) (zrange (- b) b)).
  - apply rsum_incl; [now apply shift_nodup|intros; apply Rmult_le_pos; [apply ind_nonneg|nra]|].
    intros m _. destruct (Z_le_gt_dec (Z.abs m) b); [right; apply in_zrange; lia|left; rewrite ind_out by lia; ring].
  - right. apply rsum_ext. intros m Hm. apply in_zrange in Hm. rewrite ind_in by lia. ring.
Qed.

(** Products of two families of degrees a and b. *)
Lemma conv_norm a b (x y : Z -> R) : (0 <= a)%Z -> (0 <= b)%Z ->
  rn (fun k => rsum (fun m => wgt a b m (k - m) * (x m * y (k - m)%Z)) (irange a b k)) (zrange (- (a + b)) (a + b)) <=
  sqrt (chz (a + b) a) * (rn x (zrange (- a) a) * rn y (zrange (- b) b)).
Proof.
  intros Ha Hb. pose proof (rn_nonneg x (zrange (- a) a)). pose proof (rn_nonneg y (zrange (- b) b)).
  apply rn_bound; [apply Rmult_le_pos; [apply sqrt_pos|now apply Rmult_le_pos]|].
  replace (sqrt (chz (a + b) a) * (rn x (zrange (- a) a) * rn y (zrange (- b) b)) * (sqrt (chz (a + b) a) * (rn x (zrange (- a) a) * rn y (zrange (- b) b))))
    with ((sqrt (chz (a + b) a) * sqrt (chz (a + b) a)) * ((rn x (zrange (- a) a) * rn x (zrange (- a) a)) * (rn y (zrange (- b) b) * rn y (zrange (- b) b)))) by ring.
  rewrite sqrt_sqrt by apply chz_nonneg. rewrite !rn_sq.
  eapply Rle_trans. { apply rsum_le. intros k Hk. apply cauchy. }
  eapply Rle_trans.
  { apply rsum_le. intros k Hk. apply in_zrange in Hk. apply Rmult_le_compat_r; [apply sq_nonneg|]. apply wgt_sum; lia. }
  rewrite rsum_scal. apply Rmult_le_compat_l; [apply chz_nonneg|].
  apply Rle_trans with (rsum (fun k => rsum (fun m => x m * x m * (ind b (k - m) * (y (k - m)%Z * y (k - m)%Z))) (zrange (- a) a)) (zrange (- (a + b)) (a + b))).
  - apply rsum_le. intros k _.
    rewrite (rsum_ext _ (fun m => x m * x m * (ind b (k - m) * (y (k - m)%Z * y (k - m)%Z)))).
    + apply rsum_incl; [apply zrange_nodup| |].
      * intros m. apply Rmult_le_pos; [nra|]. apply Rmult_le_pos; [apply ind_nonneg|nra].
      * intros m Hm. apply in_irange in Hm. right. apply in_zrange. lia.
    + intros m Hm. apply in_irange in Hm. rewrite ind_in by lia. ring.
  - rewrite rsum_swap. rewrite <- rsum_scal_r. apply rsum_le. intros m _. rewrite rsum_scal. apply Rmult_le_compat_l; [nra|].
    apply shift_sum, zrange_nodup.
Qed.

Lemma wgt_swap_sum j b (z : Z -> R) : (0 <= j)%Z -> (0 <= b)%Z ->
  rsum (fun k => rsum (fun m => ind b (m - k) * (wgt j b k (m - k) * wgt j b k (m - k) * (z m * z m))) (zrange (- (j + b)) (j + b))) (zrange (- j) j) <=
  chz (j + b) j * rsum (fun m => z m * z m) (zrange (- (j + b)) (j + b)).
Proof.
  intros Hj Hb. rewrite rsum_swap. rewrite <- rsum_scal. apply rsum_le. intros m Hm. apply in_zrange in Hm.
  rewrite (rsum_ext _ (fun k => ind b (m - k) * (wgt j b k (m - k) * wgt j b k (m - k)) * (z m * z m))) by (intros; ring).
  rewrite rsum_scal_r. apply Rmult_le_compat_r; [nra|].
  eapply Rle_trans; [|apply (wgt_sum j b m); lia].
  rewrite (rsum_ext (fun k => wgt j b k (m - k) * wgt j b k (m - k)) (fun k => ind b (m - k) * (wgt j b k (m - k) * wgt j b k (m - k))) (irange j b m)).
  - apply rsum_incl; [apply zrange_nodup| |].
    + intros k. apply Rmult_le_pos; [apply ind_nonneg|nra].
    + intros k Hk. apply in_zrange in Hk. destruct (Z_le_gt_dec (Z.abs (m - k)) b); [right; apply in_irange; lia|left; rewrite ind_out by lia; ring].
  - intros k Hk. apply in_irange in Hk. rewrite ind_in by lia. ring.
Qed.

(** Contraction of a family of degree j + b with one of degree b. *)
Lemma adj_norm j b (y z : Z -> R) : (0 <= j)%Z -> (0 <= b)%Z ->
  rn (fun k => rsum (fun m => wgt j b k (m - k) * (z m * y (m - k)%Z)) (irange (j + b) b k)) (zrange (- j) j) <=
  sqrt (chz (j + b) j) * (rn z (zrange (- (j + b)) (j + b)) * rn y (zrange (- b) b)).
Proof.
  intros Hj Hb. set (n := (j + b)%Z) in *. pose proof (rn_nonneg z (zrange (- n) n)). pose proof (rn_nonneg y (zrange (- b) b)).
  apply rn_bound; [apply Rmult_le_pos; [apply sqrt_pos|now apply Rmult_le_pos]|].
  replace (sqrt (chz n j) * (rn z (zrange (- n) n) * rn y (zrange (- b) b)) * (sqrt (chz n j) * (rn z (zrange (- n) n) * rn y (zrange (- b) b))))
    with ((sqrt (chz n j) * sqrt (chz n j)) * ((rn z (zrange (- n) n) * rn z (zrange (- n) n)) * (rn y (zrange (- b) b) * rn y (zrange (- b) b)))) by ring.
  rewrite sqrt_sqrt by apply chz_nonneg. rewrite !rn_sq.
  eapply Rle_trans.
  { apply rsum_le. intros k Hk. rewrite (rsum_ext _ (fun m => (wgt j b k (m - k) * z m) * y (m - k)%Z)) by (intros; ring). apply cauchy. }
  eapply Rle_trans.
  { apply rsum_le. intros k Hk. apply Rmult_le_compat_l; [apply sq_nonneg|].
    rewrite (rsum_ext _ (fun m => ind b (m - k) * (y (m - k)%Z * y (m - k)%Z))).
    - apply (shift_sum y b k), zrange_nodup.
    - intros m Hm. apply in_irange in Hm. rewrite ind_in by lia. ring. }
  rewrite rsum_scal_r, <- Rmult_assoc. apply Rmult_le_compat_r; [apply sq_nonneg|].
  eapply Rle_trans; [|apply (wgt_swap_sum j b z Hj Hb)]. fold n. apply rsum_le. intros k Hk.
  rewrite (rsum_ext _ (fun m => ind b (m - k) * (wgt j b k (m - k) * wgt j b k (m - k) * (z m * z m)))).
  - apply rsum_incl; [apply zrange_nodup| |].
    + intros m. apply Rmult_le_pos; [apply ind_nonneg|]. apply Rmult_le_pos; nra.
    + intros m Hm. apply in_irange in Hm. right. apply in_zrange. lia.
  - intros m Hm. apply in_irange in Hm. rewrite ind_in by lia. ring.
Qed.

Lemma opp_sum (f : Z -> R) K : rsum (fun k => f (- k)%Z) (zrange (- K) K) = rsum f (zrange (- K) K).
Proof.
  rewrite <- (rsum_map Z.opp). rewrite <- (rsum_perm f (rev (zrange (- K) K)) (zrange (- K) K)) by (symmetry; apply Permutation_rev).
  rewrite zrange_rev. do 2 f_equal. f_equal. lia.
Qed.
Lemma rn_opp (f : Z -> R) K : rn (fun k => f (- k)%Z) (zrange (- K) K) = rn f (zrange (- K) K).
Proof. unfold rn. f_equal. apply (opp_sum (fun k => f k * f k)). Qed.

(** Contraction of a family of degree j + n with one of degree n, indexed by the second one. *)
Lemma con_norm j n (f T : Z -> R) : (0 <= j)%Z -> (0 <= n)%Z ->
  rn (fun k => rsum (fun m => wgt j n (- k) m * (f m * T (m - k)%Z)) (zrange (- n) n)) (zrange (- j) j) <=
  sqrt (chz (j + n) j) * (rn f (zrange (- n) n) * rn T (zrange (- (j + n)) (j + n))).
Proof.
  intros Hj Hn.
  rewrite (rn_ext _ (fun k => (fun al => rsum (fun m => wgt j n al m * (f m * T (m + al)%Z)) (zrange (- n) n)) (- k)%Z)).
  2:{ intros k _. apply rsum_ext. intros m _. reflexivity. }
  rewrite (rn_opp (fun al => rsum (fun m => wgt j n al m * (f m * T (m + al)%Z)) (zrange (- n) n))).
  apply Rle_trans with (rn (fun al => rsum (fun g => wgt j n al (g - al) * (T g * f (g - al)%Z)) (irange (j + n) n al)) (zrange (- j) j)).
  - right. apply rn_ext. intros al Hal. apply in_zrange in Hal.
    rewrite (rsum_perm _ (irange (j + n) n al) (map (fun m => m + al)%Z (zrange (- n) n))).
    + rewrite rsum_map. apply rsum_ext. intros m _. replace (m + al - al)%Z with m by lia. ring.
    + apply NoDup_Permutation; [apply zrange_nodup|apply FinFun.Injective_map_NoDup; [intros u v; lia|apply zrange_nodup]|].
      intros g. rewrite in_irange, in_map_iff. split.
      * intros [H1 H2]. exists (g - al)%Z. split; [lia|]. apply in_zrange. lia.
      * intros (m & <- & Hm). apply in_zrange in Hm. lia.
  - eapply Rle_trans; [apply (adj_norm j n f T Hj Hn)|]. right. ring.
Qed.
