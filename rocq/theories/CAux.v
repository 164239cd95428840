(** Complex powers and finite sums, and the remainder of the logarithmic series. *)
From Coq Require Import Reals List Arith Lra Lia Permutation.
From Coquelicot Require Import Coquelicot.
From Verif Require Import Tables.
Import ListNotations.
Local Open Scope R_scope.
Local Open Scope C_scope.
Arguments Cmod x%C.
Arguments Re z%C.
Arguments Im z%C.

(** ** Powers *)
Fixpoint Cpow (z : C) (n : nat) : C :=
  match n with O => RtoC 1 | S m => z * Cpow z m end.

Lemma Cpow_S z n : Cpow z (S n) = z * Cpow z n.
Proof. reflexivity. Qed.
Lemma Cpow_1 z : Cpow z 1 = z.
Proof. simpl. ring. Qed.
Lemma Cpow_add (z : C) a b : Cpow z (a + b) = Cpow z a * Cpow z b.
Proof. induction a as [|a IH]; simpl; [ring|rewrite IH; ring]. Qed.
Lemma Cpow_mult (z : C) w n : Cpow (z * w) n = Cpow z n * Cpow w n.
Proof. induction n as [|n IH]; simpl; [ring|rewrite IH; ring]. Qed.
Lemma Cpow_nz (z : C) n : z <> RtoC 0 -> Cpow z n <> RtoC 0.
Proof.
  intros H; induction n as [|n IH]; simpl.
  - intros E; apply RtoC_inj in E; lra.
  - apply Cmult_neq_0; assumption.
Qed.
Lemma C1_nz : RtoC 1 <> RtoC 0.
Proof. intros E; apply RtoC_inj in E; lra. Qed.
Lemma Cinv_nz (z : C) : z <> RtoC 0 -> / z <> RtoC 0.
Proof.
  intros H E. assert (z * / z = 0) by (rewrite E; ring). rewrite Cinv_r in H0 by assumption. now apply C1_nz.
Qed.
Lemma Cpow_inv (z : C) n : z <> RtoC 0 -> Cpow (/ z) n = / Cpow z n.
Proof.
  intros H; induction n as [|n IH]; simpl.
  - field.
    intros E; apply RtoC_inj in E; lra.
  - rewrite IH. field. split; [apply Cpow_nz|]; assumption.
Qed.
Lemma Cpow_RtoC (x : R) n : Cpow (RtoC x) n = RtoC (x ^ n).
Proof. induction n as [|n IH]; simpl; [reflexivity|]. rewrite IH, <- RtoC_mult. reflexivity. Qed.
Lemma Cmod_pow (z : C) n : Cmod (Cpow z n) = (Cmod z ^ n)%R.
Proof. induction n as [|n IH]; simpl; [apply Cmod_1|]. rewrite Cmod_mult, IH. reflexivity. Qed.
Lemma Cpow_opp (z : C) n : Cpow (- z) n = RtoC ((-1) ^ n) * Cpow z n.
Proof.
  replace (- z) with (RtoC (-1) * z).
  - rewrite Cpow_mult, Cpow_RtoC. reflexivity.
  - apply injective_projections; simpl; ring.
Qed.
Lemma Cpow_1_l n : Cpow 1 n = 1.
Proof. induction n as [|n IH]; simpl; [reflexivity|rewrite IH; ring]. Qed.
Lemma Cpow_0_l n : (0 < n)%nat -> Cpow 0 n = 0.
Proof. destruct n; [lia|]. intros _. simpl. ring. Qed.

(** ** Real parts *)
Lemma Re_plus a b : Re (a + b) = (Re a + Re b)%R.
Proof. reflexivity. Qed.
Lemma Re_minus a b : Re (a - b) = (Re a - Re b)%R.
Proof. reflexivity. Qed.
Lemma Re_opp a : Re (- a) = (- Re a)%R.
Proof. reflexivity. Qed.
Lemma Re_scal (x : R) a : Re (RtoC x * a) = (x * Re a)%R.
Proof. unfold Re, RtoC, Cmult; simpl. ring. Qed.
Lemma Re_scal_r (x : R) a : Re (a * RtoC x) = (Re a * x)%R.
Proof. unfold Re, RtoC, Cmult; simpl. ring. Qed.
Lemma Re_RtoC x : Re (RtoC x) = x.
Proof. reflexivity. Qed.
Lemma Im_RtoC x : Im (RtoC x) = 0%R.
Proof. reflexivity. Qed.
Lemma Re_div_R a (x : R) : x <> 0%R -> Re (a / RtoC x) = (Re a / x)%R.
Proof. intros H. unfold Cdiv. rewrite <- RtoC_inv by assumption. rewrite Re_scal_r. reflexivity. Qed.
Lemma Re_le_Cmod (z : C) : (Rabs (Re z) <= Cmod z)%R.
Proof. pose proof (Rmax_Cmod z) as H. eapply Rle_trans; [apply Rmax_l|]. exact H. Qed.
Lemma Im_le_Cmod (z : C) : (Rabs (Im z) <= Cmod z)%R.
Proof. pose proof (Rmax_Cmod z) as H. eapply Rle_trans; [apply Rmax_r|]. exact H. Qed.
Lemma Cmod_minus_sym a b : Cmod (a - b) = Cmod (b - a).
Proof. rewrite <- Cmod_opp. f_equal. ring. Qed.
Lemma Cmod_pos (z : C) : z <> RtoC 0 -> (0 < Cmod z)%R.
Proof. apply Cmod_gt_0. Qed.
Lemma Cmod_nz (z : C) : (0 < Cmod z)%R -> z <> RtoC 0.
Proof. intros H E. rewrite E, Cmod_0 in H. lra. Qed.
Lemma INR_S_nz n : INR (S n) <> 0%R.
Proof. apply not_0_INR. lia. Qed.
Lemma CINR_nz n : (0 < n)%nat -> RtoC (INR n) <> RtoC 0.
Proof. intros H E. apply RtoC_inj in E. revert E. apply not_0_INR. lia. Qed.
Lemma Cmod_RtoC_nonneg x : (0 <= x)%R -> Cmod (RtoC x) = x.
Proof. intros H. rewrite Cmod_R. apply Rabs_pos_eq. exact H. Qed.
Lemma Cmod_tri_minus a b : (Cmod a - Cmod b <= Cmod (a - b))%R.
Proof.
  pose proof (Cmod_triangle (a - b) b) as H. replace (a - b + b) with a in H by ring. lra.
Qed.
Lemma Cmod_minus_le a b : (Cmod (a - b) <= Cmod a + Cmod b)%R.
Proof. pose proof (Cmod_triangle a (- b)) as H. rewrite Cmod_opp in H. exact H. Qed.

(** ** Finite sums over lists *)
Section Sums.
Context {A : Type}.
Definition lsum (f : A -> C) (l : list A) : C := fold_right (fun a acc => f a + acc) (RtoC 0) l.
Definition rsum (f : A -> R) (l : list A) : R := fold_right (fun a acc => (f a + acc)%R) 0%R l.

Lemma lsum_nil f : lsum f [] = 0. Proof. reflexivity. Qed.
Lemma lsum_cons f a l : lsum f (a :: l) = f a + lsum f l. Proof. reflexivity. Qed.
Lemma rsum_cons f a l : rsum f (a :: l) = (f a + rsum f l)%R. Proof. reflexivity. Qed.
Lemma lsum_app f l1 l2 : lsum f (l1 ++ l2) = lsum f l1 + lsum f l2.
Proof. induction l1 as [|a l IH]; simpl; [ring|rewrite IH; ring]. Qed.
Lemma rsum_app f l1 l2 : rsum f (l1 ++ l2) = (rsum f l1 + rsum f l2)%R.
Proof. induction l1 as [|a l IH]; simpl; [ring|rewrite IH; ring]. Qed.
Lemma lsum_ext f g l : (forall a, In a l -> f a = g a) -> lsum f l = lsum g l.
Proof. induction l as [|a l IH]; simpl; intros H; [reflexivity|]. rewrite H, IH; auto. Qed.
Lemma rsum_ext f g l : (forall a, In a l -> f a = g a) -> rsum f l = rsum g l.
Proof. induction l as [|a l IH]; simpl; intros H; [reflexivity|]. rewrite H, IH; auto. Qed.
Lemma lsum_perm f l1 l2 : Permutation l1 l2 -> lsum f l1 = lsum f l2.
Proof. induction 1; simpl; try congruence; ring. Qed.
Lemma rsum_perm f l1 l2 : Permutation l1 l2 -> rsum f l1 = rsum f l2.
Proof. induction 1; simpl; try congruence; ring. Qed.
Lemma lsum_plus f g l : lsum (fun a => f a + g a) l = lsum f l + lsum g l.
Proof. induction l as [|a l IH]; simpl; [ring|rewrite IH; ring]. Qed.
Lemma lsum_minus f g l : lsum (fun a => f a - g a) l = lsum f l - lsum g l.
Proof. induction l as [|a l IH]; simpl; [ring|rewrite IH; ring]. Qed.
Lemma lsum_opp f l : lsum (fun a => - f a) l = - lsum f l.
Proof. induction l as [|a l IH]; simpl; [ring|rewrite IH; ring]. Qed.
Lemma lsum_scal c f l : lsum (fun a => c * f a) l = c * lsum f l.
Proof. induction l as [|a l IH]; simpl; [ring|rewrite IH; ring]. Qed.
Lemma lsum_scal_r c f l : lsum (fun a => f a * c) l = lsum f l * c.
Proof. induction l as [|a l IH]; simpl; [ring|rewrite IH; ring]. Qed.
Lemma lsum_zero l : lsum (fun _ => RtoC 0) l = 0.
Proof. induction l as [|a l IH]; simpl; [reflexivity|rewrite IH; ring]. Qed.
Lemma rsum_zero l : rsum (fun _ => 0%R) l = 0%R.
Proof. induction l as [|a l IH]; simpl; [reflexivity|rewrite IH; ring]. Qed.
Lemma rsum_plus f g l : rsum (fun a => (f a + g a)%R) l = (rsum f l + rsum g l)%R.
Proof. induction l as [|a l IH]; simpl; [ring|rewrite IH; ring]. Qed.
Lemma rsum_minus f g l : rsum (fun a => (f a - g a)%R) l = (rsum f l - rsum g l)%R.
Proof. induction l as [|a l IH]; simpl; [ring|rewrite IH; ring]. Qed.
Lemma rsum_scal c f l : rsum (fun a => (c * f a)%R) l = (c * rsum f l)%R.
Proof. induction l as [|a l IH]; simpl; [ring|rewrite IH; ring]. Qed.
Lemma rsum_scal_r c f l : rsum (fun a => (f a * c)%R) l = (rsum f l * c)%R.
Proof. induction l as [|a l IH]; simpl; [ring|rewrite IH; ring]. Qed.
Lemma rsum_opp f l : rsum (fun a => (- f a)%R) l = (- rsum f l)%R.
Proof. induction l as [|a l IH]; simpl; [ring|rewrite IH; ring]. Qed.
Lemma rsum_le f g l : (forall a, In a l -> (f a <= g a)%R) -> (rsum f l <= rsum g l)%R.
Proof.
  induction l as [|a l IH]; simpl; intros H; [lra|].
  apply Rplus_le_compat; auto.
Qed.
Lemma rsum_nonneg f l : (forall a, In a l -> (0 <= f a)%R) -> (0 <= rsum f l)%R.
Proof. intros H. rewrite <- (rsum_zero l). apply rsum_le. exact H. Qed.
Lemma rsum_abs f l : (Rabs (rsum f l) <= rsum (fun a => Rabs (f a)) l)%R.
Proof.
  induction l as [|a l IH]; simpl; [rewrite Rabs_R0; lra|].
  eapply Rle_trans; [apply Rabs_triang|]. lra.
Qed.
Lemma lsum_Cmod f l : (Cmod (lsum f l) <= rsum (fun a => Cmod (f a)) l)%R.
Proof.
  induction l as [|a l IH]; simpl; [rewrite Cmod_0; lra|].
  eapply Rle_trans; [apply Cmod_triangle|]. lra.
Qed.
Lemma Re_lsum f l : Re (lsum f l) = rsum (fun a => Re (f a)) l.
Proof. induction l as [|a l IH]; simpl; [reflexivity|]. rewrite <- IH. reflexivity. Qed.
Lemma Im_lsum f l : Im (lsum f l) = rsum (fun a => Im (f a)) l.
Proof. induction l as [|a l IH]; simpl; [reflexivity|]. rewrite <- IH. reflexivity. Qed.
Lemma RtoC_rsum f l : RtoC (rsum f l) = lsum (fun a => RtoC (f a)) l.
Proof. induction l as [|a l IH]; simpl; [reflexivity|]. rewrite RtoC_plus, IH. reflexivity. Qed.
Lemma lsum_filter f (b : A -> bool) l : lsum f (filter b l) = lsum (fun a => if b a then f a else RtoC 0) l.
Proof. induction l as [|a l IH]; simpl; [reflexivity|]. destruct (b a); simpl; rewrite IH; ring. Qed.
Lemma rsum_filter f (b : A -> bool) l : rsum f (filter b l) = rsum (fun a => if b a then f a else 0%R) l.
Proof. induction l as [|a l IH]; simpl; [reflexivity|]. destruct (b a); simpl; rewrite IH; ring. Qed.
End Sums.

Lemma lsum_map {A B} (g : A -> B) f l : lsum f (map g l) = lsum (fun a => f (g a)) l.
Proof. induction l as [|a l IH]; simpl; [reflexivity|rewrite IH; reflexivity]. Qed.
Lemma rsum_map {A B} (g : A -> B) f l : rsum f (map g l) = rsum (fun a => f (g a)) l.
Proof. induction l as [|a l IH]; simpl; [reflexivity|rewrite IH; reflexivity]. Qed.
Lemma lsum_flat_map {A B} (g : A -> list B) f l : lsum f (flat_map g l) = lsum (fun a => lsum f (g a)) l.
Proof. induction l as [|a l IH]; simpl; [reflexivity|rewrite lsum_app, IH; reflexivity]. Qed.
Lemma rsum_flat_map {A B} (g : A -> list B) f l : rsum f (flat_map g l) = rsum (fun a => rsum f (g a)) l.
Proof. induction l as [|a l IH]; simpl; [reflexivity|rewrite rsum_app, IH; reflexivity]. Qed.
Lemma lsum_swap {A B} (f : A -> B -> C) l1 l2 :
  lsum (fun a => lsum (f a) l2) l1 = lsum (fun b => lsum (fun a => f a b) l1) l2.
Proof.
  induction l1 as [|a l IH]; simpl.
  - symmetry. apply lsum_zero.
  - rewrite IH, <- lsum_plus. reflexivity.
Qed.
Lemma rsum_swap {A B} (f : A -> B -> R) l1 l2 :
  rsum (fun a => rsum (f a) l2) l1 = rsum (fun b => rsum (fun a => f a b) l1) l2.
Proof.
  induction l1 as [|a l IH]; simpl.
  - symmetry. apply rsum_zero.
  - rewrite IH, <- rsum_plus. reflexivity.
Qed.
Lemma fold_left_lsum {A} (f : A -> C) l z : fold_left (fun acc a => acc + f a) l z = z + lsum f l.
Proof. revert z; induction l as [|a l IH]; intros z; simpl; [ring|rewrite IH; ring]. Qed.
Lemma fold_left_rsum {A} (f : A -> R) l z : fold_left (fun acc a => (acc + f a)%R) l z = (z + rsum f l)%R.
Proof. revert z; induction l as [|a l IH]; intros z; simpl; [ring|rewrite IH; ring]. Qed.
Lemma lsum_seq_S f a n : lsum f (seq a (S n)) = lsum f (seq a n) + f (a + n)%nat.
Proof. rewrite seq_S, lsum_app. simpl. ring. Qed.
Lemma rsum_seq_S f a n : rsum f (seq a (S n)) = (rsum f (seq a n) + f (a + n)%nat)%R.
Proof. rewrite seq_S, rsum_app. simpl. ring. Qed.
Lemma lsum_seq_shift f a n : lsum f (seq (S a) n) = lsum (fun k => f (S k)) (seq a n).
Proof. rewrite <- seq_shift, lsum_map. reflexivity. Qed.
Lemma rsum_seq_shift f a n : rsum f (seq (S a) n) = rsum (fun k => f (S k)) (seq a n).
Proof. rewrite <- seq_shift, rsum_map. reflexivity. Qed.

(** ** Binomial coefficients *)
Lemma choose_0 n : choose n 0 = 1%nat.
Proof. destruct n; reflexivity. Qed.
Lemma choose_SS n k : choose (S n) (S k) = (choose n k + choose n (S k))%nat.
Proof. reflexivity. Qed.
Lemma choose_gt n k : (n < k)%nat -> choose n k = 0%nat.
Proof.
  revert k; induction n as [|n IH]; intros [|k] H; simpl; try lia; try reflexivity.
  rewrite !IH by lia. reflexivity.
Qed.
Lemma choose_diag n : choose n n = 1%nat.
Proof. induction n as [|n IH]; simpl; [reflexivity|]. rewrite IH, choose_gt by lia. reflexivity. Qed.
Lemma choose_absorb n k : (S k * choose (S n) (S k) = S n * choose n k)%nat.
Proof.
  revert k; induction n as [|n IH]; intros [|k].
  - reflexivity.
  - cbn [choose]. lia.
  - rewrite choose_SS, !choose_0. specialize (IH 0%nat). rewrite !choose_0 in IH. lia.
  - pose proof (IH k) as H1. pose proof (IH (S k)) as H2.
    rewrite (choose_SS (S n) (S k)). pose proof (choose_SS n k) as H3.
    rewrite Nat.mul_add_distr_l, H2. clear H2.
    set (X := choose (S n) (S k)) in *. set (A := choose n k) in *. set (B := choose n (S k)) in *.
    replace (S (S k) * X)%nat with (S k * X + X)%nat by ring. rewrite H1, H3. ring.
Qed.
(** The binomial coefficient is the usual quotient of factorials. *)
Lemma choose_fact n k : (k <= n)%nat -> (choose n k * (fact k * fact (n - k)) = fact n)%nat.
Proof.
  revert k; induction n as [|n IH]; intros k H.
  - assert (k = 0)%nat by lia. subst. reflexivity.
  - destruct k as [|k].
    + rewrite choose_0, Nat.sub_0_r. cbn [fact]. lia.
    + pose proof (choose_absorb n k) as Ha. specialize (IH k ltac:(lia)).
      replace (S n - S k)%nat with (n - k)%nat by lia.
      change (fact (S k)) with (S k * fact k)%nat. change (fact (S n)) with (S n * fact n)%nat.
      rewrite <- IH. transitivity ((S k * choose (S n) (S k)) * (fact k * fact (n - k)))%nat; [ring|].
      rewrite Ha. ring.
Qed.

(** Binomial theorem. *)
Theorem Cbinomial (x y : C) n :
  Cpow (x + y) n = lsum (fun k => RtoC (INR (choose n k)) * Cpow x (n - k) * Cpow y k) (seq 0 (S n)).
Proof.
  induction n as [|n IH].
  - simpl. ring.
  - rewrite Cpow_S, IH. rewrite Cmult_plus_distr_r.
    rewrite <- !lsum_scal.
    (* x part: k unchanged; y part: k shifted *)
    replace (lsum (fun k => x * (RtoC (INR (choose n k)) * Cpow x (n - k) * Cpow y k)) (seq 0 (S n)))
      with (Cpow x (S n) + lsum (fun k => RtoC (INR (choose n (S k))) * Cpow x (n - k) * Cpow y (S k)) (seq 0 (S n))).
    2:{ rewrite (lsum_seq_S (fun k => RtoC (INR (choose n (S k))) * Cpow x (n - k) * Cpow y (S k)) 0 n).
        rewrite Nat.add_0_l. rewrite (choose_gt n (S n)) by lia.
        change (seq 0 (S n)) with (0%nat :: seq 1 n).
        rewrite lsum_cons, lsum_seq_shift, choose_0, Nat.sub_0_r.
        rewrite (lsum_ext (fun k => RtoC (INR (choose n (S k))) * Cpow x (n - k) * Cpow y (S k))
           (fun k => x * (RtoC (INR (choose n (S k))) * Cpow x (n - S k) * Cpow y (S k)))).
        - simpl. ring.
        - intros k Hk. apply in_seq in Hk. replace (n - k)%nat with (S (n - S k)) by lia. simpl. ring. }
    change (seq 0 (S (S n))) with (0%nat :: seq 1 (S n)).
    rewrite lsum_cons, lsum_seq_shift, choose_0, Nat.sub_0_r.
    rewrite <- Cplus_assoc. rewrite <- lsum_plus. f_equal.
    + simpl. ring.
    + apply lsum_ext. intros k Hk. rewrite choose_SS, plus_INR, RtoC_plus.
      replace (S n - S k)%nat with (n - k)%nat by lia. simpl. ring.
Qed.

Theorem Rbinomial (x y : R) n :
  ((x + y) ^ n)%R = rsum (fun k => (INR (choose n k) * x ^ (n - k) * y ^ k)%R) (seq 0 (S n)).
Proof.
  apply RtoC_inj. rewrite <- Cpow_RtoC, RtoC_plus, Cbinomial, RtoC_rsum.
  apply lsum_ext. intros k _. rewrite !Cpow_RtoC, <- !RtoC_mult. reflexivity.
Qed.

(** ** Geometric sums *)
Lemma geom_C z n : (1 - z) * lsum (Cpow z) (seq 0 n) = 1 - Cpow z n.
Proof.
  induction n as [|n IH].
  - simpl. ring.
  - rewrite lsum_seq_S, Cmult_plus_distr_l, IH. simpl. ring.
Qed.
Lemma geom_R z n : ((1 - z) * rsum (fun k => z ^ k) (seq 0 n) = 1 - z ^ n)%R.
Proof.
  induction n as [|n IH].
  - simpl. ring.
  - rewrite rsum_seq_S, Rmult_plus_distr_l, IH. simpl. ring.
Qed.

(** ** The logarithmic remainder *)
(** [log_poly w p] is the partial sum of [- log (1 - w)]. *)
Definition log_poly (w : C) (p : nat) : C := lsum (fun k => Cpow w k / RtoC (INR k)) (seq 1 p).

Section LogRemainder.
Variables (w : C) (c : R) (p : nat).
Hypothesis Hc0 : (0 <= c)%R.
Hypothesis Hc1 : (c < 1)%R.
Hypothesis Hw : (Cmod w <= c)%R.

Let a := fst w.
Let b := snd w.
Let den (t : R) : R := ((1 - t * a) ^ 2 + (t * b) ^ 2)%R.
Let g (t : R) : R := (/ 2 * ln (den t) + rsum (fun k => t ^ k * (Re (Cpow w k) / INR k)) (seq 1 p))%R.

Lemma den_Cmod t : den t = ((Cmod (1 - RtoC t * w)%C) ^ 2)%R.
Proof.
  unfold Cmod. rewrite pow2_sqrt.
  - unfold den, a, b. simpl. ring.
  - apply Rplus_le_le_0_compat; apply pow2_ge_0.
Qed.
Lemma Cmod_1_tw t : (0 <= t <= 1)%R -> (1 - t * c <= Cmod (1 - RtoC t * w)%C)%R.
Proof.
  intros Ht. pose proof (Cmod_tri_minus 1 (RtoC t * w)) as H. rewrite Cmod_1, Cmod_mult, Cmod_RtoC_nonneg in H by lra.
  assert (t * Cmod w <= t * c)%R by (apply Rmult_le_compat_l; lra). lra.
Qed.
Lemma tc_lt1 t : (0 <= t <= 1)%R -> (t * c <= c)%R.
Proof. intros. assert (t * c <= 1 * c)%R by (apply Rmult_le_compat_r; lra). lra. Qed.
Lemma den_pos t : (0 <= t <= 1)%R -> (0 < den t)%R.
Proof.
  intros Ht. rewrite den_Cmod. apply pow_lt. pose proof (Cmod_1_tw t Ht). pose proof (tc_lt1 t Ht). lra.
Qed.

Let g' (t : R) : R := Re (- (w * Cpow (RtoC t * w) p) / (1 - RtoC t * w)).

Lemma is_derive_rsum (f : nat -> R -> R) (f' : nat -> R) l t :
  (forall k, In k l -> is_derive (f k) t (f' k)) ->
  is_derive (fun x => rsum (fun k => f k x) l) t (rsum f' l).
Proof.
  intros H. induction l as [|k l IH]; simpl.
  - apply (is_derive_const (V := R_NormedModule)).
  - apply (is_derive_plus (V := R_NormedModule) (f k) (fun x => rsum (fun j => f j x) l)).
    + apply H. left; reflexivity.
    + apply IH. intros j Hj. apply H. right; exact Hj.
Qed.

Lemma g_deriv t : (0 <= t <= 1)%R -> is_derive g t (g' t).
Proof.
  intros Ht. pose proof (den_pos t Ht) as Hd.
  assert (Hnz : 1 - RtoC t * w <> 0).
  { apply Cmod_nz. pose proof (Cmod_1_tw t Ht). pose proof (tc_lt1 t Ht). lra. }
  assert (E : g' t = (/ 2 * ((2 * (1 - t * a) * (- a) + 2 * (t * b) * b) / den t)
      + rsum (fun k => (INR k * t ^ (pred k)) * (Re (Cpow w k) / INR k)) (seq 1 p))%R).
  { unfold g'.
    replace (- (w * Cpow (RtoC t * w) p) / (1 - RtoC t * w))
      with (- w / (1 - RtoC t * w) + w * lsum (Cpow (RtoC t * w)) (seq 0 p)).
    2:{ assert (G : lsum (Cpow (RtoC t * w)) (seq 0 p) = (1 - Cpow (RtoC t * w) p) / (1 - RtoC t * w)).
        { rewrite <- geom_C. field. exact Hnz. }
        rewrite G. field. exact Hnz. }
    rewrite Re_plus. f_equal.
    - unfold Re, den, a, b. unfold Cdiv, Cinv, Cmult, Cminus, Cplus, Copp, RtoC. simpl.
      field. apply Rgt_not_eq. eapply Rlt_le_trans; [exact Hd|]. unfold den, a, b. simpl. lra.
    - rewrite <- lsum_scal, Re_lsum, rsum_seq_shift. apply rsum_ext. intros k Hk.
      rewrite Cpow_mult, Cpow_RtoC. replace (w * (RtoC (t ^ k) * Cpow w k)) with (RtoC (t ^ k) * Cpow w (S k)) by (simpl; ring).
      rewrite Re_scal. cbn [pred]. field. apply INR_S_nz. }
  rewrite E. unfold g.
  apply (is_derive_plus (V := R_NormedModule) (fun t => / 2 * ln (den t))%R
           (fun t => rsum (fun k => t ^ k * (Re (Cpow w k) / INR k))%R (seq 1 p))).
  - unfold den in *. auto_derive; [exact Hd|]. field. apply Rgt_not_eq. exact Hd.
  - apply (is_derive_rsum (fun k t => t ^ k * (Re (Cpow w k) / INR k))%R).
    intros k Hk. auto_derive; [exact I|]. ring.
Qed.

Lemma g'_bound t : (0 <= t <= 1)%R -> (Rabs (g' t) <= c ^ (S p) * t ^ p / (1 - c))%R.
Proof.
  intros Ht. unfold g'. eapply Rle_trans; [apply Re_le_Cmod|].
  pose proof (Cmod_1_tw t Ht) as H1. pose proof (tc_lt1 t Ht) as H2.
  assert (Hnz : 1 - RtoC t * w <> 0) by (apply Cmod_nz; lra).
  rewrite Cmod_div by exact Hnz. rewrite Cmod_opp, Cmod_mult, Cmod_pow, Cmod_mult, Cmod_RtoC_nonneg by lra.
  unfold Rdiv. apply Rmult_le_compat.
  - apply Rmult_le_pos; [apply Cmod_ge_0|]. apply pow_le. apply Rmult_le_pos; [lra|apply Cmod_ge_0].
  - left. apply Rinv_0_lt_compat. lra.
  - replace (c ^ S p * t ^ p)%R with (c * (t * c) ^ p)%R by (rewrite Rpow_mult_distr; simpl; ring).
    apply Rmult_le_compat; [apply Cmod_ge_0| |exact Hw|].
    + apply pow_le. apply Rmult_le_pos; [lra|apply Cmod_ge_0].
    + apply pow_incr. split; [apply Rmult_le_pos; [lra|apply Cmod_ge_0]|]. apply Rmult_le_compat_l; lra.
  - apply Rinv_le_contravar; lra.
Qed.

Let h (t : R) : R := (c ^ (S p) * t ^ (S p) / (INR (S p) * (1 - c)))%R.
Lemma h_deriv (t : R) : is_derive h t (c ^ (S p) * t ^ p / (1 - c))%R.
Proof.
  unfold h. assert (INR (S p) <> 0)%R by apply INR_S_nz.
  remember (INR (S p)) as k eqn:Ek. auto_derive; [exact I|].
  change (match p with O => 1%R | S _ => (INR p + 1)%R end) with (INR (S p)). rewrite <- Ek.
  cbn [pow]. field. split; [lra|assumption].
Qed.

Lemma mono (f f' : R -> R) : (forall t, (0 <= t <= 1)%R -> is_derive f t (f' t)) ->
  (forall t, (0 <= t <= 1)%R -> (0 <= f' t)%R) -> (f 0 <= f 1)%R.
Proof.
  intros Hd Hp. destruct (MVT_gen f 0 1 f') as [x [Hx E]].
  - rewrite Rmin_left, Rmax_right by lra. intros x Hx. apply Hd. lra.
  - rewrite Rmin_left, Rmax_right by lra. intros x Hx. apply continuity_pt_filterlim.
    apply (ex_derive_continuous (V := R_NormedModule)). exists (f' x). apply Hd. lra.
  - rewrite Rmin_left, Rmax_right in Hx by lra. specialize (Hp x Hx). lra.
Qed.

Lemma g_bound : (Rabs (g 1) <= h 1)%R.
Proof.
  assert (g0 : g 0 = 0%R).
  { unfold g, den. replace ((1 - 0 * a) ^ 2 + (0 * b) ^ 2)%R with 1%R by ring. rewrite ln_1.
    rewrite (rsum_ext _ (fun _ => 0%R)).
    - rewrite rsum_zero. ring.
    - intros k Hk. apply in_seq in Hk. rewrite pow_i by lia. ring. }
  assert (h0 : h 0 = 0%R).
  { unfold h. rewrite (pow_i (S p)) by lia. unfold Rdiv. ring. }
  assert (A1 : (h 0 - g 0 <= h 1 - g 1)%R).
  { apply (mono (fun t => h t - g t)%R (fun t => c ^ (S p) * t ^ p / (1 - c) - g' t)%R).
    - intros t Ht. apply (is_derive_minus (V := R_NormedModule) h g); [apply h_deriv|apply g_deriv; exact Ht].
    - intros t Ht. pose proof (g'_bound t Ht) as B. apply Rabs_le_between in B. lra. }
  assert (A2 : (h 0 + g 0 <= h 1 + g 1)%R).
  { apply (mono (fun t => h t + g t)%R (fun t => c ^ (S p) * t ^ p / (1 - c) + g' t)%R).
    - intros t Ht. apply (is_derive_plus (V := R_NormedModule) h g); [apply h_deriv|apply g_deriv; exact Ht].
    - intros t Ht. pose proof (g'_bound t Ht) as B. apply Rabs_le_between in B. lra. }
  apply Rabs_le_between. lra.
Qed.

(** The partial sum of the series of [log (1 - w)] approximates [ln |1 - w|] with a geometric error. *)
Theorem log_remainder :
  (Rabs (ln (Cmod (1 - w)) + Re (log_poly w p)) <= c ^ (S p) / (INR (S p) * (1 - c)))%R.
Proof.
  assert (E : g 1 = (ln (Cmod (1 - w)) + Re (log_poly w p))%R).
  { unfold g. f_equal.
    - rewrite den_Cmod. replace (1 - RtoC 1 * w) with (1 - w) by ring.
      assert (0 < Cmod (1 - w))%R.
      { pose proof (Cmod_tri_minus 1 w) as H. rewrite Cmod_1 in H. lra. }
      replace (Cmod (1 - w) ^ 2)%R with (Cmod (1 - w) * Cmod (1 - w))%R by ring.
      rewrite ln_mult by assumption. field.
    - unfold log_poly. rewrite Re_lsum. apply rsum_ext. intros k Hk. apply in_seq in Hk.
      rewrite Re_div_R by (apply not_0_INR; lia). rewrite pow1. ring. }
  rewrite <- E. eapply Rle_trans; [apply g_bound|]. unfold h. rewrite pow1, Rmult_1_r. lra.
Qed.
End LogRemainder.
