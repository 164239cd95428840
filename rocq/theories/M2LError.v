(** The double sum computed by the two-dimensional multipole-to-local conversion and its distance to the logarithm. *)
From Coq Require Import Reals List Arith Bool Lra Lia.
From Coquelicot Require Import Complex.
From Verif Require Import Tables CAux TableProofs.
Import ListNotations.
Local Open Scope R_scope.
Local Open Scope C_scope.

Lemma lsum_seq_trunc (f : nat -> C) a b : (forall k, (a <= k)%nat -> f k = RtoC 0) ->
  lsum f (seq 0 (a + b)) = lsum f (seq 0 a).
Proof.
  intros H. induction b as [|b IH].
  - rewrite Nat.add_0_r. reflexivity.
  - rewrite Nat.add_succ_r, lsum_seq_S, IH. rewrite H by lia. ring.
Qed.

Lemma map_add_seq a b n : map (fun i => (a + i)%nat) (seq b n) = seq (a + b) n.
Proof. revert b; induction n as [|n IH]; intros b; simpl; [reflexivity|]. f_equal. rewrite IH. f_equal. lia. Qed.

(** Summing along diagonals. *)
Lemma diag_sum (F : nat -> nat -> C) N :
  lsum (fun n => lsum (fun k => F (n - k)%nat k) (seq 0 (S n))) (seq 0 N)
  = lsum (fun k => lsum (fun l => F l k) (seq 0 (N - k))) (seq 0 N).
Proof.
  induction N as [|N IH]; [reflexivity|].
  rewrite (lsum_seq_S (fun n => lsum (fun k => F (n - k)%nat k) (seq 0 (S n)))), IH, Nat.add_0_l.
  rewrite (lsum_seq_S (fun k => lsum (fun l => F l k) (seq 0 (S N - k)))), Nat.add_0_l.
  rewrite (lsum_ext (fun k => lsum (fun l => F l k) (seq 0 (S N - k)))
     (fun k => lsum (fun l => F l k) (seq 0 (N - k)) + F (N - k)%nat k)).
  - rewrite lsum_plus, lsum_seq_S, Nat.add_0_l, Nat.sub_diag.
    replace (S N - N)%nat with 1%nat by lia. cbn [seq lsum fold_right]. unfold lsum. ring.
  - intros k Hk. apply in_seq in Hk. replace (S N - k)%nat with (S (N - k)) by lia.
    rewrite lsum_seq_S, Nat.add_0_l. reflexivity.
Qed.

Lemma square_sum (F : nat -> nat -> C) p :
  (forall l k, (p < l)%nat \/ (p < k)%nat -> F l k = RtoC 0) ->
  lsum (fun n => lsum (fun k => F (n - k)%nat k) (seq 0 (S n))) (seq 0 (S (2 * p)))
  = lsum (fun l => lsum (fun k => F l k) (seq 0 (S p))) (seq 0 (S p)).
Proof.
  intros H. rewrite diag_sum.
  replace (S (2 * p)) with (S p + p)%nat by lia.
  rewrite lsum_seq_trunc.
  - rewrite lsum_swap. apply lsum_ext. intros k Hk. apply in_seq in Hk.
    replace (S p + p - k)%nat with (S p + (p - k))%nat by lia.
    apply lsum_seq_trunc. intros l Hl. apply H. lia.
  - intros k Hk. rewrite <- (lsum_zero (seq 0 (S p + p - k))). apply lsum_ext. intros l _. apply H. lia.
Qed.

Section M2L.
Variables (y s : C) (p M : nat).
Hypothesis Hp : (1 <= p)%nat.
Hypothesis HM : (p <= M)%nat.

(** Coefficient the shared table returns: Pascal's triangle up to order [M], zero above. *)
Definition tabv (n k : nat) : R := if (n <=? M)%nat then INR (choose n k) else 0%R.

(** The value computed by the code for a unit source, without the logarithm, negated. *)
Definition m2l_poly : C :=
  lsum (fun k => Cpow s k / RtoC (INR k)) (seq 1 p)
  + lsum (fun l => Cpow y l / RtoC (INR l)
       + lsum (fun k => RtoC (tabv (l + k - 1) (k - 1)) * (Cpow s k / RtoC (INR k)) * Cpow y l) (seq 1 (p - 1))) (seq 1 p).

Definition m2l_T (l k : nat) : C :=
  match (l + k)%nat with O => RtoC 0 | S n => RtoC (INR (choose (l + k) k) / INR (l + k)) * (Cpow y l * Cpow s k) end.
Notation T := m2l_T.
Definition m2l_chi (l k : nat) : bool :=
  (l <=? p)%nat && (k <=? p)%nat &&
  (((l =? 0)%nat && (1 <=? k)%nat) || ((1 <=? l)%nat && (k =? 0)%nat)
   || ((1 <=? l)%nat && (1 <=? k)%nat && (k <? p)%nat && (l + k - 1 <=? M)%nat)).
Notation chi := m2l_chi.
Definition m2l_F (l k : nat) : C := if chi l k then T l k else RtoC 0.
Notation F := m2l_F.
Definition m2l_G (l k : nat) : C := if chi l k then RtoC 0 else T l k.
Notation G := m2l_G.

Lemma chi_low l k : (1 <= l + k)%nat -> (l + k <= p)%nat -> chi l k = true.
Proof.
  intros H1 H2. unfold chi. destruct l as [|l], k as [|k]; try lia;
  repeat match goal with |- context [(?a <=? ?b)%nat] => destruct (Nat.leb_spec a b); try lia
   | |- context [(?a <? ?b)%nat] => destruct (Nat.ltb_spec a b); try lia
   | |- context [(?a =? ?b)%nat] => destruct (Nat.eqb_spec a b); try lia end; reflexivity.
Qed.

Lemma T_pos l k : (1 <= l + k)%nat -> T l k = RtoC (INR (choose (l + k) k) / INR (l + k)) * (Cpow y l * Cpow s k).
Proof. intros H. unfold T. destruct (l + k)%nat eqn:E; [lia|reflexivity]. Qed.

Lemma m2l_poly_square : m2l_poly = lsum (fun l => lsum (fun k => F l k) (seq 0 (S p))) (seq 0 (S p)).
Proof.
  unfold m2l_poly. change (seq 0 (S p)) with (0%nat :: seq 1 p) at 2. rewrite lsum_cons. f_equal.
  - change (seq 0 (S p)) with (0%nat :: seq 1 p). rewrite lsum_cons.
    assert (E : F 0 0 = RtoC 0). { unfold F. destruct (chi 0 0); reflexivity. }
    rewrite E, Cplus_0_l. apply lsum_ext. intros k Hk. apply in_seq in Hk.
    unfold F. assert (Hc : chi 0 k = true) by (apply chi_low; lia). rewrite Hc.
    rewrite T_pos by lia. rewrite Nat.add_0_l, choose_diag. change (INR 1) with 1%R.
    pose proof (CINR_nz k ltac:(lia)). rewrite RtoC_div by (apply not_0_INR; lia). simpl (Cpow y 0). field. assumption.
  - apply lsum_ext. intros l Hl. apply in_seq in Hl.
    change (seq 0 (S p)) with (0%nat :: seq 1 p). rewrite lsum_cons. f_equal.
    + unfold F. assert (Hc : chi l 0 = true) by (apply chi_low; lia). rewrite Hc.
      rewrite T_pos by lia. rewrite Nat.add_0_r, choose_0. change (INR 1) with 1%R.
      pose proof (CINR_nz l ltac:(lia)). rewrite RtoC_div by (apply not_0_INR; lia). simpl (Cpow s 0). field. assumption.
    + replace p with (S (p - 1)) at 2 by lia. rewrite lsum_seq_S. replace (1 + (p - 1))%nat with p by lia.
      assert (Hc : chi l p = false).
      { unfold chi. destruct l as [|l]; [lia|]. destruct p as [|p']; [lia|].
        rewrite Nat.ltb_irrefl. cbn [Nat.eqb Nat.leb]. rewrite !andb_false_r. reflexivity. }
      assert (E : F l p = RtoC 0) by (unfold F; rewrite Hc; reflexivity).
      rewrite E, Cplus_0_r. apply lsum_ext. intros k Hk. apply in_seq in Hk.
      assert (Hchi : chi l k = (l + k - 1 <=? M)%nat).
      { unfold chi. repeat match goal with |- context [(?a <=? ?b)%nat] => destruct (Nat.leb_spec a b); try lia
          | |- context [(?a <? ?b)%nat] => destruct (Nat.ltb_spec a b); try lia
          | |- context [(?a =? ?b)%nat] => destruct (Nat.eqb_spec a b); try lia end; reflexivity. }
      unfold F, tabv. rewrite Hchi. destruct (l + k - 1 <=? M)%nat.
      * rewrite T_pos by lia. pose proof (CINR_nz k ltac:(lia)) as Hk0.
        pose proof (CINR_nz (l + k) ltac:(lia)) as Hl0.
        assert (Q : (INR (choose (l + k - 1) (k - 1)) / INR k = INR (choose (l + k) k) / INR (l + k))%R).
        { destruct k as [|k]; [lia|]. replace (l + S k)%nat with (S (l + k)) by lia.
          replace (S (l + k) - 1)%nat with (l + k)%nat by lia. replace (S k - 1)%nat with k by lia.
          pose proof (choose_absorb (l + k) k) as Ha. apply (f_equal INR) in Ha. rewrite !mult_INR in Ha.
          pose proof (INR_S_nz k). pose proof (INR_S_nz (l + k)).
          apply (Rmult_eq_reg_l (INR (S k) * INR (S (l + k)))); [|apply Rmult_integral_contrapositive; split; assumption].
          transitivity (INR (S (l + k)) * INR (choose (l + k) k))%R; [field; assumption|]. rewrite <- Ha. field. assumption. }
        rewrite <- Q. rewrite RtoC_div by (apply not_0_INR; lia). field. exact Hk0.
      * unfold Cdiv. ring.
Qed.

Lemma F_support l k : (p < l)%nat \/ (p < k)%nat -> F l k = RtoC 0.
Proof.
  intros H. unfold F. assert (E : chi l k = false).
  { unfold chi. destruct (Nat.leb_spec l p), (Nat.leb_spec k p); simpl; try reflexivity; lia. }
  rewrite E. reflexivity.
Qed.

Lemma T_diag n : (1 <= n)%nat -> lsum (fun k => T (n - k) k) (seq 0 (S n)) = Cpow (y + s) n / RtoC (INR n).
Proof.
  intros Hn. rewrite Cbinomial. unfold Cdiv. rewrite <- lsum_scal_r. apply lsum_ext. intros k Hk. apply in_seq in Hk.
  rewrite T_pos by lia. replace (n - k + k)%nat with n by lia. pose proof (CINR_nz n ltac:(lia)).
  rewrite RtoC_div by (apply not_0_INR; lia). unfold Cdiv. ring.
Qed.

Lemma m2l_split : log_poly (y + s) (2 * p) = m2l_poly
  + lsum (fun n => lsum (fun k => G (n - k)%nat k) (seq 0 (S n))) (seq 1 (2 * p)).
Proof.
  rewrite m2l_poly_square, <- (square_sum F p F_support).
  change (seq 0 (S (2 * p))) with (0%nat :: seq 1 (2 * p)). rewrite lsum_cons.
  assert (E : lsum (fun k => F (0 - k)%nat k) (seq 0 1) = RtoC 0).
  { cbn [seq lsum fold_right]. unfold F. destruct (chi (0 - 0) 0); unfold T; simpl; ring. }
  rewrite E, Cplus_0_l. rewrite <- lsum_plus. unfold log_poly. apply lsum_ext. intros n Hn. apply in_seq in Hn.
  rewrite <- T_diag by lia. rewrite <- lsum_plus. apply lsum_ext. intros k _.
  unfold F, G. destruct (chi (n - k) k); ring.
Qed.

Variable rho : R.
Hypothesis Hrho : (Cmod y + Cmod s <= rho)%R.
Hypothesis Hrho1 : (rho < 1)%R.

Lemma rho0 : (0 <= rho)%R.
Proof. pose proof (Cmod_ge_0 y). pose proof (Cmod_ge_0 s). lra. Qed.

Lemma G_row n : (1 <= n)%nat ->
  (Cmod (lsum (fun k => G (n - k)%nat k) (seq 0 (S n))) <= (if (n <=? p)%nat then 0 else rho ^ n / INR n))%R.
Proof.
  intros Hn. destruct (Nat.leb_spec n p) as [L|L].
  - rewrite (lsum_ext _ (fun _ => RtoC 0)).
    + rewrite lsum_zero, Cmod_0. lra.
    + intros k Hk. apply in_seq in Hk. unfold G. rewrite chi_low by lia. reflexivity.
  - eapply Rle_trans; [apply lsum_Cmod|].
    assert (Hnz : (0 < INR n)%R) by (apply lt_0_INR; lia).
    apply Rle_trans with ((Cmod y + Cmod s) ^ n / INR n)%R.
    + rewrite Rbinomial. unfold Rdiv. rewrite <- rsum_scal_r. apply rsum_le. intros k Hk. apply in_seq in Hk.
      assert (0 <= INR (choose n k) * Cmod y ^ (n - k) * Cmod s ^ k * / INR n)%R as Hpos.
      { apply Rmult_le_pos; [|left; apply Rinv_0_lt_compat; exact Hnz].
        apply Rmult_le_pos; [apply Rmult_le_pos; [apply pos_INR|]|]; apply pow_le; apply Cmod_ge_0. }
      unfold G. destruct (chi (n - k) k).
      * rewrite Cmod_0. exact Hpos.
      * rewrite T_pos by lia. replace (n - k + k)%nat with n by lia.
        rewrite !Cmod_mult, !Cmod_pow, Cmod_RtoC_nonneg.
        -- unfold Rdiv. right. ring.
        -- apply Rmult_le_pos; [apply pos_INR|]. left. apply Rinv_0_lt_compat. exact Hnz.
    + apply Rmult_le_compat_r; [left; apply Rinv_0_lt_compat; exact Hnz|].
      apply pow_incr. split; [|exact Hrho]. apply Rplus_le_le_0_compat; apply Cmod_ge_0.
Qed.

Lemma G_total : (Cmod (lsum (fun n => lsum (fun k => G (n - k)%nat k) (seq 0 (S n))) (seq 1 (2 * p)))
   <= rho ^ (S p) / INR (S p) * rsum (fun i => rho ^ i) (seq 0 p))%R.
Proof.
  pose proof rho0 as Hr0.
  replace (2 * p)%nat with (p + p)%nat by lia. rewrite seq_app, lsum_app.
  rewrite (lsum_ext _ (fun _ => RtoC 0) (seq 1 p)).
  2:{ intros n Hn. apply in_seq in Hn. rewrite (lsum_ext _ (fun _ => RtoC 0)); [apply lsum_zero|].
      intros k Hk. apply in_seq in Hk. unfold G. rewrite chi_low by lia. reflexivity. }
  rewrite lsum_zero, Cplus_0_l. eapply Rle_trans; [apply lsum_Cmod|].
  rewrite <- rsum_scal.
  replace (seq (1 + p) p) with (map (fun i => (S p + i)%nat) (seq 0 p)).
  2:{ rewrite map_add_seq. f_equal. lia. }
  rewrite rsum_map. apply rsum_le. intros i Hi. apply in_seq in Hi.
  eapply Rle_trans; [apply G_row; lia|].
  destruct (Nat.leb_spec (S p + i) p) as [L|L]; [lia|].
  rewrite pow_add. unfold Rdiv.
  replace (rho ^ S p * / INR (S p) * rho ^ i)%R with (rho ^ S p * rho ^ i * / INR (S p))%R by ring.
  apply Rmult_le_compat_l.
  - apply Rmult_le_pos; apply pow_le; exact Hr0.
  - apply Rinv_le_contravar; [apply lt_0_INR; lia|]. apply le_INR. lia.
Qed.

(** Error of the code's multipole-to-local conversion for one unit source. *)
Theorem m2l_error :
  (Rabs (ln (Cmod (1 - (y + s))%C) + Re m2l_poly) <= rho ^ (S p) / (INR (S p) * (1 - rho)))%R.
Proof.
  pose proof rho0 as Hr0.
  assert (Hw : (Cmod (y + s) <= rho)%R) by (eapply Rle_trans; [apply Cmod_triangle|exact Hrho]).
  pose proof (log_remainder (y + s) rho (2 * p) Hr0 Hrho1 Hw) as H.
  rewrite m2l_split, Re_plus in H.
  set (E := lsum (fun n => lsum (fun k => G (n - k)%nat k) (seq 0 (S n))) (seq 1 (2 * p))) in *.
  assert (HE : (Rabs (Re E) <= rho ^ (S p) / INR (S p) * rsum (fun i => rho ^ i) (seq 0 p))%R).
  { eapply Rle_trans; [apply Re_le_Cmod|]. apply G_total. }
  assert (Hsum : (rsum (fun i => rho ^ i) (seq 0 p) = (1 - rho ^ p) / (1 - rho))%R).
  { pose proof (geom_R rho p) as Hg. rewrite <- Hg. field. lra. }
  rewrite Hsum in HE.
  assert (Hpn : (0 < INR (S p))%R) by (apply lt_0_INR; lia).
  assert (Hlast : (rho ^ S (2 * p) / (INR (S (2 * p)) * (1 - rho)) <= rho ^ (S p) / INR (S p) * (rho ^ p / (1 - rho)))%R).
  { replace (S (2 * p)) with (S p + p)%nat by lia. rewrite pow_add.
    replace (rho ^ S p / INR (S p) * (rho ^ p / (1 - rho)))%R with ((rho ^ S p * rho ^ p) * / (INR (S p) * (1 - rho)))%R
      by (field; split; lra).
    unfold Rdiv. apply Rmult_le_compat_l; [apply Rmult_le_pos; apply pow_le; exact Hr0|].
    apply Rinv_le_contravar.
    - apply Rmult_lt_0_compat; lra.
    - apply Rmult_le_compat_r; [lra|]. apply le_INR. lia. }
  assert (Hfin : (rho ^ S p / INR (S p) * ((1 - rho ^ p) / (1 - rho)) + rho ^ S p / INR (S p) * (rho ^ p / (1 - rho))
      = rho ^ S p / (INR (S p) * (1 - rho)))%R) by (field; split; lra).
  rewrite <- Hfin.
  replace (ln (Cmod (1 - (y + s))%C) + Re m2l_poly)%R
    with ((ln (Cmod (1 - (y + s))%C) + (Re m2l_poly + Re E)) - Re E)%R by ring.
  eapply Rle_trans; [apply Rabs_triang|]. rewrite Rabs_Ropp. lra.
Qed.
End M2L.
