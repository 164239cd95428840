(** Rational bounds for one conversion of a multipole expansion of order 13 into a local expansion. *)
From Coq Require Import List Arith Lia Lra Reals QArith Qpower Qreals.
From Coquelicot Require Import Complex.
From Verif Require Import Tables CAux TableProofs M2LError.
Import ListNotations.
Local Open Scope R_scope.

(** Complex numbers with rational parts. *)
Definition QC : Type := (Q * Q)%type.
Definition toC (z : QC) : C := (Q2R (fst z), Q2R (snd z)).
Definition qadd (a b : QC) : QC := (Qred (fst a + fst b), Qred (snd a + snd b))%Q.
Definition qmul (a b : QC) : QC := (Qred (fst a * fst b - snd a * snd b), Qred (fst a * snd b + snd a * fst b))%Q.
Definition qdivn (a : QC) (n : nat) : QC := (Qred (fst a / inject_Z (Z.of_nat n)), Qred (snd a / inject_Z (Z.of_nat n)))%Q.
Definition qnat (n : nat) : QC := (inject_Z (Z.of_nat n), 0%Q).
Fixpoint qpow (a : QC) (n : nat) : QC := match n with O => (1%Q, 0%Q) | S n => qmul a (qpow a n) end.
Definition qsum {A} (f : A -> QC) (l : list A) : QC := fold_right (fun a s => qadd (f a) s) (0%Q, 0%Q) l.

Lemma Q2R_red q : Q2R (Qred q) = Q2R q.
Proof. apply Qeq_eqR, Qred_correct. Qed.
Lemma Q2R_nat n : Q2R (inject_Z (Z.of_nat n)) = INR n.
Proof. unfold Q2R, inject_Z. cbn [Qnum Qden]. rewrite Rinv_1, Rmult_1_r. symmetry. apply INR_IZR_INZ. Qed.
Lemma toC_add a b : toC (qadd a b) = (toC a + toC b)%C.
Proof. unfold toC, qadd, Cplus. cbn [fst snd]. rewrite !Q2R_red, !Q2R_plus. reflexivity. Qed.
Lemma toC_mul a b : toC (qmul a b) = (toC a * toC b)%C.
Proof. unfold toC, qmul, Cmult. cbn [fst snd]. rewrite !Q2R_red, Q2R_plus, Q2R_minus, !Q2R_mult. reflexivity. Qed.
Lemma toC_divn a n : (1 <= n)%nat -> toC (qdivn a n) = (toC a / RtoC (INR n))%C.
Proof.
  intros H. assert (N : INR n <> 0) by (apply not_0_INR; lia).
  assert (NQ : ~ (inject_Z (Z.of_nat n) == 0)%Q).
  { intros E. apply Qeq_eqR in E. rewrite Q2R_nat in E. unfold Q2R in E. cbn in E. lra. }
  unfold toC, qdivn. cbn [fst snd]. rewrite !Q2R_red, !Q2R_div by exact NQ. rewrite !Q2R_nat.
  unfold Cdiv, Cmult, Cinv, RtoC. cbn [fst snd]. f_equal; field; lra || nra.
Qed.
Lemma Q2R_0 : Q2R 0 = 0. Proof. unfold Q2R. cbn. lra. Qed.
Lemma Q2R_1 : Q2R 1 = 1. Proof. unfold Q2R. cbn. lra. Qed.
Lemma toC_nat n : toC (qnat n) = RtoC (INR n).
Proof. unfold toC, qnat. cbn [fst snd]. rewrite Q2R_nat, Q2R_0. reflexivity. Qed.
Lemma toC_pow a n : toC (qpow a n) = Cpow (toC a) n.
Proof.
  induction n as [|n IH]; cbn [qpow]; [unfold toC; cbn [fst snd Cpow]; rewrite Q2R_0, Q2R_1; reflexivity|].
  rewrite toC_mul, IH. reflexivity.
Qed.
Lemma toC_sum {A} (f : A -> QC) (g : A -> C) l : (forall a, In a l -> toC (f a) = g a) -> toC (qsum f l) = lsum g l.
Proof.
  induction l as [|a l IH]; intros H; cbn [qsum fold_right]; [unfold toC; cbn [fst snd]; rewrite Q2R_0; reflexivity|].
  rewrite lsum_cons, toC_add, H by (left; reflexivity). f_equal. apply IH. intros; apply H; right; assumption.
Qed.

Definition q_log_poly (w : QC) (p : nat) : QC := qsum (fun k => qdivn (qpow w k) k) (seq 1 p).
Lemma toC_log_poly w p : toC (q_log_poly w p) = log_poly (toC w) p.
Proof.
  apply toC_sum. intros k Hk. apply in_seq in Hk. rewrite toC_divn by lia. rewrite toC_pow. reflexivity.
Qed.

Definition q_m2l_poly (y s : QC) (p M : nat) : QC :=
  qadd (qsum (fun k => qdivn (qpow s k) k) (seq 1 p))
    (qsum (fun l => qadd (qdivn (qpow y l) l)
       (qsum (fun k => qmul (qmul (if (l + k - 1 <=? M)%nat then qnat (choose (l + k - 1) (k - 1)) else qnat 0) (qdivn (qpow s k) k)) (qpow y l)) (seq 1 (p - 1))))
     (seq 1 p)).
Lemma toC_m2l_poly y s p M : toC (q_m2l_poly y s p M) = m2l_poly (toC y) (toC s) p M.
Proof.
  unfold q_m2l_poly, m2l_poly. rewrite toC_add. f_equal; apply toC_sum.
  - intros k Hk. apply in_seq in Hk. rewrite toC_divn by lia. rewrite toC_pow. reflexivity.
  - intros l Hl. apply in_seq in Hl. rewrite toC_add, toC_divn by lia. rewrite toC_pow. f_equal. apply toC_sum.
    intros k Hk. apply in_seq in Hk. rewrite !toC_mul, toC_divn by lia. rewrite !toC_pow. f_equal. f_equal.
    unfold tabv. destruct (_ <=? _)%nat; rewrite toC_nat; reflexivity.
Qed.

(** The relative positions of source and point: 12/50 (1 + i) each. *)
Definition yq : QC := (6 # 25, 6 # 25)%Q.
Definition yC : C := toC yq.
Definition wq : QC := (12 # 25, 12 # 25)%Q.
Lemma yC_sum : (yC + yC)%C = toC wq.
Proof. unfold yC. rewrite <- toC_add. reflexivity. Qed.

Lemma gap_computed : (Qle (1 # 4000) (fst (q_log_poly wq 26) - fst (q_m2l_poly yq yq 13 13)))%Q.
Proof. vm_compute. discriminate. Qed.
Lemma tail_computed : (Qle ((17 # 25) ^ 27 / ((27 # 1) * (8 # 25))) (1 # 100000))%Q.
Proof. vm_compute. discriminate. Qed.

(** With the table of a fresh process the conversion misses the logarithm by more than 2^-13. *)
Lemma m2l_gap : 1 / 2 ^ 13 < - (ln (Cmod (1 - (yC + yC))%C) + Re (m2l_poly yC yC 13 13)).
Proof.
  assert (G := Qle_Rle _ _ gap_computed). assert (T := Qle_Rle _ _ tail_computed). rewrite Q2R_minus in G.
  change (Q2R (fst (q_log_poly wq 26))) with (Re (toC (q_log_poly wq 26))) in G.
  change (Q2R (fst (q_m2l_poly yq yq 13 13))) with (Re (toC (q_m2l_poly yq yq 13 13))) in G.
  rewrite toC_log_poly, toC_m2l_poly, <- yC_sum in G. fold yC in G.
  assert (CM : Cmod (yC + yC)%C <= 17 / 25).
  { rewrite yC_sum. unfold Cmod, toC, wq. cbn [fst snd]. rewrite <- (sqrt_Rsqr (17 / 25)) by lra. apply sqrt_le_1_alt.
    unfold Rsqr, Q2R. cbn [Qnum Qden]. lra. }
  assert (H := log_remainder (yC + yC)%C (17 / 25) 26 ltac:(lra) ltac:(lra) CM).
  assert (TQ : (17 / 25) ^ 27 / (INR 27 * (1 - 17 / 25)) <= 1 / 100000).
  { replace (1 / 100000) with (Q2R (1 # 100000)) by (unfold Q2R; cbn [Qnum Qden]; lra). eapply Rle_trans; [|exact T]. right.
    rewrite Q2R_div by (intros E; vm_compute in E; discriminate). rewrite Q2R_mult.
    assert (P : forall n, Q2R ((17 # 25) ^ Z.of_nat n) = (17 / 25) ^ n).
    { induction n as [|n IH]; [unfold Q2R; cbn; lra|]. rewrite Nat2Z.inj_succ, <- Z.add_1_l.
      rewrite (Qeq_eqR _ _ (Qpower_plus (17 # 25) 1 (Z.of_nat n) ltac:(intros E; vm_compute in E; discriminate))).
      rewrite Q2R_mult, IH. cbn [pow]. apply (f_equal (fun u => u * _)). unfold Q2R; cbn. lra. }
    rewrite <- (P 27%nat). change (Z.of_nat 27) with 27%Z.
    assert (D1 : Q2R (27 # 1) = INR 27) by (rewrite INR_IZR_INZ; unfold Q2R; cbn; lra).
    assert (D2 : Q2R (8 # 25) = 1 - 17 / 25) by (unfold Q2R; cbn; lra). rewrite D1, D2. reflexivity. }
  unfold Rabs in H; destruct (Rcase_abs _) as [?|?] in H; assert (Q1 : Q2R (1 # 4000) = 1 / 4000) by (unfold Q2R; cbn [Qnum Qden]; lra); rewrite Q1 in G; lra.
Qed.
