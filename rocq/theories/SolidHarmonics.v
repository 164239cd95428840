(** Solid harmonics as coefficients of powers of z + p t + q / t: recurrences, addition theorem, zonal sums.

    [sh w n m] is the coefficient of t^m in (z + p t + q/t)^n / n!.  For a point (x1, x2, x3) of space with z = x3,
    p = -(i/2)(x1 + i x2), q = -(i/2)(x1 - i x2) it is a multiple of r^n Y_n^m (see Harmonics.v). *)
From Coq Require Import Reals List Arith ZArith Lia Lra.
From Coquelicot Require Import Coquelicot.
From Verif Require Import Outcome Tables CAux TableProofs Tables3D Table3DProofs.
Import ListNotations.
Local Open Scope R_scope.
Local Open Scope C_scope.

(** ** Linear combinations of equations *)
Definition dif {a b : C} (H : a = b) : C := a - b.
Lemma dif_0 {a b : C} (H : a = b) : dif H = 0.
Proof. unfold dif. rewrite H. ring. Qed.
Lemma Ceq_minus (a b : C) : a - b = 0 -> a = b.
Proof. intros H. replace a with (a - b + b) by ring. rewrite H. ring. Qed.
Ltac lin e := apply Ceq_minus; transitivity e; [unfold dif; ring | rewrite ?dif_0; ring].

(** ** Casts *)
Definition Cz (m : Z) : C := RtoC (IZR m).
Definition Cn (n : nat) : C := RtoC (INR n).
Lemma Cz_add a b : Cz (a + b)%Z = Cz a + Cz b.
Proof. unfold Cz. rewrite plus_IZR, RtoC_plus. reflexivity. Qed.
Lemma Cz_sub a b : Cz (a - b)%Z = Cz a - Cz b.
Proof. unfold Cz. rewrite minus_IZR, RtoC_minus. reflexivity. Qed.
Lemma Cz_opp a : Cz (- a)%Z = - Cz a.
Proof. unfold Cz. rewrite opp_IZR, RtoC_opp. reflexivity. Qed.
Lemma Cz_mul a b : Cz (a * b)%Z = Cz a * Cz b.
Proof. unfold Cz. rewrite mult_IZR, RtoC_mult. reflexivity. Qed.
Lemma Cz_0 : Cz 0%Z = 0. Proof. reflexivity. Qed.
Lemma Cz_1 : Cz 1%Z = 1. Proof. reflexivity. Qed.
Lemma Cn_S n : Cn (S n) = Cn n + 1.
Proof. unfold Cn. rewrite S_INR, RtoC_plus. reflexivity. Qed.
Lemma Cn_0 : Cn 0 = 0. Proof. reflexivity. Qed.
Lemma Cn_z n : Cn n = Cz (Z.of_nat n).
Proof. unfold Cn, Cz. rewrite INR_IZR_INZ. reflexivity. Qed.
Lemma Cn_S_nz n : Cn (S n) <> 0.
Proof. unfold Cn. apply CINR_nz. lia. Qed.
Lemma Cz_nz m : m <> 0%Z -> Cz m <> 0.
Proof. intros H E. apply RtoC_inj in E. apply H. now apply eq_IZR. Qed.
Lemma Creg_l (a b c : C) : a <> 0 -> a * b = a * c -> b = c.
Proof.
  intros Ha H. replace b with (/ a * (a * b)) by (field; assumption). rewrite H. field. assumption.
Qed.

(** ** Definition *)
Record hpt : Type := mkh { hz : C; hp : C; hq : C }.
Definition hadd (v w : hpt) : hpt := mkh (hz v + hz w) (hp v + hp w) (hq v + hq w).
Definition hscal (s : C) (w : hpt) : hpt := mkh (s * hz w) (s * hp w) (s * hq w).
(** The square of the norm. *)
Definition hsq (w : hpt) : C := hz w * hz w - (1 + 1) * (1 + 1) * hp w * hq w.
(** The scalar product. *)
Definition hdot (v w : hpt) : C := hz v * hz w - (1 + 1) * hp v * hq w - (1 + 1) * hq v * hp w.

Fixpoint sh (w : hpt) (n : nat) (m : Z) : C :=
  match n with
  | O => if Z.eqb m 0 then 1 else 0
  | S n' => (hz w * sh w n' m + hp w * sh w n' (m - 1)%Z + hq w * sh w n' (m + 1)%Z) / Cn (S n')
  end.

Section Recurrences.
Variable w : hpt.
Notation z := (hz w).
Notation p := (hp w).
Notation q := (hq w).
Notation Y := (sh w).

Lemma sh_A n m : Cn (S n) * Y (S n) m = z * Y n m + p * Y n (m - 1)%Z + q * Y n (m + 1)%Z.
Proof. simpl. field. apply Cn_S_nz. Qed.

Lemma sh_out n : forall m, (Z.of_nat n < Z.abs m)%Z -> Y n m = 0.
Proof.
  induction n as [|n IH]; intros m H.
  - simpl. destruct (Z.eqb_spec m 0); [lia|reflexivity].
  - apply (Creg_l (Cn (S n))); [apply Cn_S_nz|]. rewrite sh_A, !IH by lia. ring.
Qed.

Lemma sh_B n : forall m, Cz m * Y (S n) m = p * Y n (m - 1)%Z - q * Y n (m + 1)%Z.
Proof.
  induction n as [|k IH]; intros m.
  - apply (Creg_l (Cn 1)); [apply Cn_S_nz|].
    pose proof (sh_A 0 m) as HA. 
    assert (H0 : forall j, Cz j * Y 0 j = 0).
    { intros j. simpl. destruct (Z.eqb_spec j 0) as [->|]; [rewrite Cz_0; ring|ring]. }
    pose proof (H0 m) as E0. pose proof (H0 (m - 1)%Z) as E1. pose proof (H0 (m + 1)%Z) as E2.
    rewrite Cz_sub, Cz_1 in E1. rewrite Cz_add, Cz_1 in E2. rewrite Cn_S, Cn_0 in *.
    clear H0. revert HA E0 E1 E2. generalize (Y 1 m) (Y 0 m) (Y 0 (m - 1)%Z) (Y 0 (m + 1)%Z).
    intros a b c d HA E0 E1 E2.
    lin (Cz m * dif HA + z * dif E0 + p * dif E1 + q * dif E2).
  - apply (Creg_l (Cn (S (S k)))); [apply Cn_S_nz|].
    pose proof (sh_A (S k) m) as HA. pose proof (sh_A k (m - 1)%Z) as HA1. pose proof (sh_A k (m + 1)%Z) as HA2.
    pose proof (IH m) as B0. pose proof (IH (m - 1)%Z) as B1. pose proof (IH (m + 1)%Z) as B2.
    replace (m - 1 + 1)%Z with m in * by lia. replace (m + 1 - 1)%Z with m in * by lia.
    rewrite Cz_sub, Cz_1 in B1. rewrite Cz_add, Cz_1 in B2. rewrite (Cn_S (S k)) in *. 
    revert HA HA1 HA2 B0 B1 B2.
    generalize (Cn (S k)) (Y (S (S k)) m) (Y (S k) m) (Y (S k) (m - 1)%Z) (Y (S k) (m + 1)%Z)
      (Y k m) (Y k (m - 1)%Z) (Y k (m - 1 - 1)%Z) (Y k (m + 1)%Z) (Y k (m + 1 + 1)%Z).
    intros N u a b c d e f g h HA HA1 HA2 B0 B1 B2.
    lin (Cz m * dif HA + z * dif B0 + p * dif B1 + q * dif B2 - p * dif HA1 + q * dif HA2).
Qed.

Lemma sh_plus n m : (Cn (S n) + Cz m) * Y (S n) m = z * Y n m + (1 + 1) * p * Y n (m - 1)%Z.
Proof.
  pose proof (sh_A n m) as HA. pose proof (sh_B n m) as HB. lin (dif HA + dif HB).
Qed.
Lemma sh_minus n m : (Cn (S n) - Cz m) * Y (S n) m = z * Y n m + (1 + 1) * q * Y n (m + 1)%Z.
Proof.
  pose proof (sh_A n m) as HA. pose proof (sh_B n m) as HB. lin (dif HA - dif HB).
Qed.

(** The three-term recurrences, written for degrees n, n+1, n+2. *)
Lemma sh_rec_z n m :
  (Cn n + Cn n + 1 + 1 + 1) * (z * Y (S n) m) =
  (Cn (S (S n)) - Cz m) * (Cn (S (S n)) + Cz m) * Y (S (S n)) m + hsq w * Y n m.
Proof.
  pose proof (sh_plus (S n) m) as P1. pose proof (sh_minus n (m - 1)%Z) as M1. pose proof (sh_plus n m) as P0.
  replace (m - 1 + 1)%Z with m in * by lia. rewrite Cz_sub, Cz_1 in M1. rewrite !Cn_S in *. unfold hsq.
  revert P1 M1 P0.
  generalize (Y (S (S n)) m) (Y (S n) m) (Y (S n) (m - 1)%Z) (Y n m) (Y n (m - 1)%Z).
  intros a b c d e P1 M1 P0.
  lin (- (Cn n + 1 + 1 - Cz m) * dif P1 - (1 + 1) * p * dif M1 + z * dif P0).
Qed.
Lemma sh_rec_p n m :
  (1 + 1) * (Cn n + Cn n + 1 + 1 + 1) * (p * Y (S n) m) =
  (Cn (S (S n)) + Cz m) * (Cn (S (S n)) + Cz m + 1) * Y (S (S n)) (m + 1)%Z - hsq w * Y n (m + 1)%Z.
Proof.
  pose proof (sh_plus (S n) (m + 1)%Z) as P1. pose proof (sh_plus n (m + 1)%Z) as P2. pose proof (sh_minus n m) as M0.
  replace (m + 1 - 1)%Z with m in * by lia. rewrite Cz_add, Cz_1 in *. rewrite !Cn_S in *. unfold hsq.
  revert P1 P2 M0.
  generalize (Y (S (S n)) (m + 1)%Z) (Y (S n) (m + 1)%Z) (Y (S n) m) (Y n m) (Y n (m + 1)%Z).
  intros a b c d e P1 P2 M0.
  lin (- (Cn n + 1 + 1 + Cz m) * dif P1 - z * dif P2 + (1 + 1) * p * dif M0).
Qed.
Lemma sh_rec_q n m :
  (1 + 1) * (Cn n + Cn n + 1 + 1 + 1) * (q * Y (S n) m) =
  (Cn (S (S n)) - Cz m) * (Cn (S (S n)) - Cz m + 1) * Y (S (S n)) (m - 1)%Z - hsq w * Y n (m - 1)%Z.
Proof.
  pose proof (sh_minus (S n) (m - 1)%Z) as P1. pose proof (sh_minus n (m - 1)%Z) as P2. pose proof (sh_plus n m) as M0.
  replace (m - 1 + 1)%Z with m in * by lia. rewrite Cz_sub, Cz_1 in *. rewrite !Cn_S in *. unfold hsq.
  revert P1 P2 M0.
  generalize (Y (S (S n)) (m - 1)%Z) (Y (S n) (m - 1)%Z) (Y (S n) m) (Y n m) (Y n (m - 1)%Z).
  intros a b c d e P1 P2 M0.
  lin (- (Cn n + 1 + 1 - Cz m) * dif P1 - z * dif P2 + (1 + 1) * q * dif M0).
Qed.
End Recurrences.

(** ** Sums over integer ranges *)
Definition zsum (K : Z) (f : Z -> C) : C := lsum f (zrange (- K) K).

Lemma zrange_app a b c : (a <= b + 1)%Z -> (b <= c)%Z -> zrange a c = zrange a b ++ zrange (b + 1) c.
Proof.
  intros H1 H2. unfold zrange.
  replace (Z.to_nat (c - a + 1)) with (Z.to_nat (b - a + 1) + Z.to_nat (c - (b + 1) + 1))%nat by lia.
  rewrite seq_app, map_app. f_equal. rewrite Nat.add_0_l.
  rewrite <- (Nat.add_0_r (Z.to_nat (b - a + 1))) at 1.
  assert (G : forall n k st, map (fun i => a + Z.of_nat i)%Z (seq (k + st) n) = map (fun i => a + Z.of_nat k + Z.of_nat i)%Z (seq st n)).
  { induction n as [|n IH]; intros k st; simpl; [reflexivity|]. f_equal; [lia|]. rewrite <- IH. f_equal. f_equal. lia. }
  rewrite G. apply map_ext. intros i. lia.
Qed.
Lemma lsum_all_zero {A} (f : A -> C) l : (forall a, In a l -> f a = 0) -> lsum f l = 0.
Proof. intros H. rewrite (lsum_ext f (fun _ => RtoC 0)) by assumption. apply lsum_zero. Qed.
Lemma zsum_widen (f : Z -> C) a b a' b' : (a' <= a)%Z -> (b <= b')%Z -> (a <= b + 1)%Z ->
  (forall m, (a' <= m < a)%Z \/ (b < m <= b')%Z -> f m = 0) -> lsum f (zrange a' b') = lsum f (zrange a b).
Proof.
  intros Ha Hb Hab H.
  rewrite (zrange_app a' (a - 1) b') by lia. replace (a - 1 + 1)%Z with a by lia.
  rewrite (zrange_app a b b') by lia. rewrite !lsum_app.
  rewrite (lsum_all_zero f (zrange a' (a - 1))), (lsum_all_zero f (zrange (b + 1) b')); [ring| |];
    intros m Hm; apply in_zrange in Hm; apply H; lia.
Qed.
Lemma zsum_shift (f : Z -> C) a b c : lsum (fun m => f (m + c)%Z) (zrange a b) = lsum f (zrange (a + c) (b + c)).
Proof.
  rewrite <- (lsum_map (fun m => (m + c)%Z)). f_equal. unfold zrange. rewrite map_map.
  replace (b + c - (a + c) + 1)%Z with (b - a + 1)%Z by lia. apply map_ext. intros i. lia.
Qed.
(** Shifting a function with support strictly inside the range. *)
Lemma zsum_shift_in (f : Z -> C) K c : (0 <= K)%Z ->
  (forall m, (K - Z.abs c < Z.abs m)%Z -> f m = 0) -> (Z.abs c <= K)%Z -> zsum K (fun m => f (m + c)%Z) = zsum K f.
Proof.
  intros HK H Hc. unfold zsum. rewrite zsum_shift.
  rewrite (zsum_widen f (- (K - Z.abs c)) (K - Z.abs c) (- K + c) (K + c)); [| lia | lia | lia | intros m Hm; apply H; lia].
  rewrite (zsum_widen f (- (K - Z.abs c)) (K - Z.abs c) (- K) K); [reflexivity | lia | lia | lia | intros m Hm; apply H; lia].
Qed.
Lemma zsum_ext K (f g : Z -> C) : (forall m, (- K <= m <= K)%Z -> f m = g m) -> zsum K f = zsum K g.
Proof. intros H. apply lsum_ext. intros m Hm. apply H. now apply in_zrange. Qed.
Lemma zsum_plus K (f g : Z -> C) : zsum K (fun m => f m + g m) = zsum K f + zsum K g.
Proof. apply lsum_plus. Qed.
Lemma zsum_scal K (c : C) (f : Z -> C) : zsum K (fun m => c * f m) = c * zsum K f.
Proof. apply lsum_scal. Qed.
Lemma zsum_larger K K' (f : Z -> C) : (0 <= K <= K')%Z -> (forall m, (K < Z.abs m)%Z -> f m = 0) -> zsum K' f = zsum K f.
Proof. intros HK H. unfold zsum. apply zsum_widen; try lia. intros m Hm. apply H. lia. Qed.
Lemma zrange_rev a b : rev (zrange a b) = map Z.opp (zrange (- b) (- a)).
Proof.
  destruct (Z_lt_le_dec b a) as [H|H].
  { rewrite !zrange_nil by lia. reflexivity. }
  remember (Z.to_nat (b - a)) as n eqn:En. revert b H En. induction n as [|n IH]; intros b H En.
  - assert (b = a) by lia. subst b. rewrite (zrange_cons a a), (zrange_nil (a + 1)) by lia.
    rewrite (zrange_cons (- a)), (zrange_nil (- a + 1)) by lia. simpl. f_equal. lia.
  - replace b with (b - 1 + 1)%Z by lia. rewrite zrange_snoc, rev_app_distr by lia. simpl.
    rewrite IH by lia. rewrite (zrange_cons (- (b - 1 + 1))) by lia. simpl. f_equal; [lia|].
    do 2 f_equal. lia.
Qed.
Lemma lsum_rev {A} (f : A -> C) l : lsum f (rev l) = lsum f l.
Proof. apply lsum_perm. symmetry. apply Permutation.Permutation_rev. Qed.
Lemma zsum_opp K (f : Z -> C) : zsum K (fun m => f (- m)%Z) = zsum K f.
Proof.
  unfold zsum. rewrite <- (lsum_map Z.opp). rewrite <- (lsum_rev f (zrange (- K) K)), zrange_rev.
  do 2 f_equal. f_equal. lia.
Qed.

(** ** Products: [cv v w k j m] is the coefficient of t^m in f_v^k f_w^j / (k! j!). *)
Definition cv (v w : hpt) (k j : nat) (m : Z) : C := zsum (Z.of_nat k) (fun l => sh v k l * sh w j (m - l)%Z).

Lemma cv_wide v w k j m K : (Z.of_nat k <= K)%Z -> cv v w k j m = zsum K (fun l => sh v k l * sh w j (m - l)%Z).
Proof.
  intros H. unfold cv. symmetry. apply zsum_larger; [lia|]. intros l Hl. rewrite sh_out by lia. ring.
Qed.
Lemma cv_left v w k j m :
  Cn (S k) * cv v w (S k) j m = hz v * cv v w k j m + hp v * cv v w k j (m - 1)%Z + hq v * cv v w k j (m + 1)%Z.
Proof.
  set (K := (Z.of_nat k + 2)%Z).
  rewrite !(cv_wide _ _ _ _ _ K) by lia.
  rewrite <- !zsum_scal.
  transitivity (zsum K (fun l => hz v * (sh v k l * sh w j (m - l)%Z)) +
    zsum K (fun l => hp v * (sh v k (l + -1)%Z * sh w j (m - 1 - (l + -1))%Z)) +
    zsum K (fun l => hq v * (sh v k (l + 1)%Z * sh w j (m + 1 - (l + 1))%Z))).
  - rewrite <- !zsum_plus. apply zsum_ext. intros l _.
    replace (m - 1 - (l + -1))%Z with (m - l)%Z by lia. replace (m + 1 - (l + 1))%Z with (m - l)%Z by lia.
    replace (l + -1)%Z with (l - 1)%Z by lia.
    pose proof (sh_A v k l) as HA. lin (dif HA * sh w j (m - l)%Z).
  - rewrite (zsum_shift_in (fun l => hp v * (sh v k l * sh w j (m - 1 - l)%Z)) K (-1)),
      (zsum_shift_in (fun l => hq v * (sh v k l * sh w j (m + 1 - l)%Z)) K 1); [reflexivity| | | | | |];
      try lia; intros l Hl; rewrite (sh_out v) by lia; ring.
Qed.
Lemma cv_right v w k j m :
  Cn (S j) * cv v w k (S j) m = hz w * cv v w k j m + hp w * cv v w k j (m - 1)%Z + hq w * cv v w k j (m + 1)%Z.
Proof.
  unfold cv. rewrite <- !zsum_scal, <- !zsum_plus. apply zsum_ext. intros l _.
  pose proof (sh_A w j (m - l)%Z) as HA.
  replace (m - 1 - l)%Z with (m - l - 1)%Z by lia. replace (m + 1 - l)%Z with (m - l + 1)%Z by lia.
  lin (dif HA * sh v k l).
Qed.
Lemma cv_00 v w m : cv v w 0 0 m = if Z.eqb m 0 then 1 else 0.
Proof.
  unfold cv, zsum. change (zrange (- Z.of_nat 0) (Z.of_nat 0)) with [0%Z]. simpl.
  rewrite Z.sub_0_r. destruct (m =? 0)%Z; ring.
Qed.

(** The addition theorem. *)
Theorem sh_addition v w n : forall m, sh (hadd v w) n m = lsum (fun k => cv v w k (n - k) m) (seq 0 (S n)).
Proof.
  induction n as [|n IH]; intros m.
  - change (seq 0 1) with [0%nat]. simpl (lsum _ _). rewrite cv_00. simpl. ring.
  - apply (Creg_l (Cn (S n))); [apply Cn_S_nz|].
    rewrite sh_A, !IH. unfold hadd at 1 2 3; simpl hz; simpl hp; simpl hq.
    transitivity (lsum (fun k => Cn k * cv v w k (S n - k) m) (seq 0 (S (S n))) +
                  lsum (fun k => Cn (S n - k) * cv v w k (S n - k) m) (seq 0 (S (S n)))).
    + (* k-part: drop k = 0 and shift; the other part: drop k = n + 1 *)
      rewrite (lsum_seq_S (fun k => Cn (S n - k) * cv v w k (S n - k) m)).
      replace (Cn (S n - (0 + S n))) with (RtoC 0) by (replace (S n - (0 + S n))%nat with O by lia; reflexivity).
      change (seq 0 (S (S n))) with (0%nat :: seq 1 (S n)). rewrite lsum_cons. rewrite lsum_seq_shift.
      rewrite Cn_0.
      assert (E1 : lsum (fun k => Cn (S k) * cv v w (S k) (S n - S k) m) (seq 0 (S n)) =
                   lsum (fun k => hz v * cv v w k (n - k) m + hp v * cv v w k (n - k) (m - 1)%Z + hq v * cv v w k (n - k) (m + 1)%Z) (seq 0 (S n))).
      { apply lsum_ext. intros k Hk. rewrite cv_left. simpl (S n - S k)%nat. reflexivity. }
      assert (E2 : lsum (fun k => Cn (S n - k) * cv v w k (S n - k) m) (seq 0 (S n)) =
                   lsum (fun k => hz w * cv v w k (n - k) m + hp w * cv v w k (n - k) (m - 1)%Z + hq w * cv v w k (n - k) (m + 1)%Z) (seq 0 (S n))).
      { apply lsum_ext. intros k Hk. apply in_seq in Hk. replace (S n - k)%nat with (S (n - k)) by lia. apply cv_right. }
      rewrite E1, E2. rewrite !lsum_plus, !lsum_scal. ring.
    + rewrite <- lsum_plus, <- lsum_scal. apply lsum_ext. intros k Hk. apply in_seq in Hk.
      replace (Cn (S n)) with (Cn k + Cn (S n - k)); [ring|].
      unfold Cn. rewrite <- RtoC_plus, <- plus_INR. do 2 f_equal. lia.
Qed.

Lemma sh_scal s w n : forall m, sh (hscal s w) n m = Cpow s n * sh w n m.
Proof.
  induction n as [|n IH]; intros m.
  - simpl. ring.
  - apply (Creg_l (Cn (S n))); [apply Cn_S_nz|]. rewrite sh_A, !IH. simpl hz; simpl hp; simpl hq. simpl Cpow.
    pose proof (sh_A w n m) as HA. lin (- s * Cpow s n * dif HA).
Qed.
Lemma sh_swap z p q n : forall m, sh (mkh z q p) n m = sh (mkh z p q) n (- m)%Z.
Proof.
  induction n as [|n IH]; intros m.
  - simpl. destruct (Z.eqb_spec m 0), (Z.eqb_spec (- m) 0); try lia; reflexivity.
  - apply (Creg_l (Cn (S n))); [apply Cn_S_nz|]. rewrite !sh_A, !IH. simpl hz; simpl hp; simpl hq.
    replace (- (m - 1))%Z with (- m + 1)%Z by lia. replace (- (m + 1))%Z with (- m - 1)%Z by lia. ring.
Qed.
(** (-1)^m. *)
Definition sg (m : Z) : C := RtoC (if Z.odd m then -1 else 1).
Lemma sg_succ m : sg (m + 1) = - sg m.
Proof. unfold sg. rewrite Z.odd_add. change (Z.odd 1) with true. destruct (Z.odd m); simpl; rewrite <- RtoC_opp; f_equal; ring. Qed.
Lemma sg_pred m : sg (m - 1) = - sg m.
Proof. pose proof (sg_succ (m - 1)) as H. replace (m - 1 + 1)%Z with m in H by lia. rewrite H. ring. Qed.
Lemma sg_opp m : sg (- m) = sg m.
Proof. unfold sg. now rewrite Z.odd_opp. Qed.
Lemma sg_sq m : sg m * sg m = 1.
Proof. unfold sg. destruct (Z.odd m); rewrite <- RtoC_mult; f_equal; ring. Qed.
Lemma sg_add a b : sg (a + b) = sg a * sg b.
Proof. unfold sg. rewrite Z.odd_add. destruct (Z.odd a), (Z.odd b); simpl; rewrite <- RtoC_mult; f_equal; ring. Qed.
Lemma sg_0 : sg 0 = 1. Proof. reflexivity. Qed.
Lemma sh_neg z p q n : forall m, sh (mkh z (- p) (- q)) n m = sg m * sh (mkh z p q) n m.
Proof.
  induction n as [|n IH]; intros m.
  - simpl. destruct (Z.eqb_spec m 0) as [->|]; [rewrite sg_0|]; ring.
  - apply (Creg_l (Cn (S n))); [apply Cn_S_nz|]. rewrite !sh_A, !IH. simpl hz; simpl hp; simpl hq.
    rewrite sg_succ, sg_pred. pose proof (sh_A (mkh z p q) n m) as HA. simpl hz in HA; simpl hp in HA; simpl hq in HA.
    lin (- sg m * dif HA).
Qed.
Lemma Cn_conj n : Cconj (Cn n) = Cn n.
Proof. unfold Cn, Cconj, RtoC; simpl. f_equal. ring. Qed.
Lemma Cconj_plus a b : Cconj (a + b) = Cconj a + Cconj b.
Proof. apply injective_projections; simpl; ring. Qed.
Lemma Cconj_mult a b : Cconj (a * b) = Cconj a * Cconj b.
Proof. apply injective_projections; simpl; ring. Qed.
Lemma Cconj_R x : Cconj (RtoC x) = RtoC x.
Proof. apply injective_projections; simpl; ring. Qed.
Lemma sh_conj z p q n : forall m, Cconj (sh (mkh z p q) n m) = sh (mkh (Cconj z) (Cconj p) (Cconj q)) n m.
Proof.
  induction n as [|n IH]; intros m.
  - simpl. destruct (m =? 0)%Z; apply Cconj_R.
  - apply (Creg_l (Cn (S n))); [apply Cn_S_nz|]. rewrite sh_A, <- !IH. rewrite <- (Cn_conj (S n)), <- Cconj_mult, sh_A.
    rewrite !Cconj_plus, !Cconj_mult. reflexivity.
Qed.
