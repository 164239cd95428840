(** Expansion of the inverse distance in solid harmonics about two centers, with truncation bounds. *)
From Coq Require Import Reals List Arith ZArith Lia Lra.
From Coquelicot Require Import Coquelicot.
From Verif Require Import Outcome Tables CAux TableProofs Tables3D Table3DProofs SolidHarmonics Zonal HarmonicBounds NewtonSeries.
Import ListNotations.
Local Open Scope R_scope.
Local Open Scope C_scope.

(** ** Points of space *)
Definition P3 : Type := (R * R * R)%type.
Definition c1 (v : P3) : R := fst (fst v).
Definition c2 (v : P3) : R := snd (fst v).
Definition c3 (v : P3) : R := snd v.
Definition H3 (v : P3) : hpt := hR (c1 v) (c2 v) (c3 v).
Definition pn (v : P3) : R := nrm (c1 v) (c2 v) (c3 v).
Definition pdot (v w : P3) : R := (c1 v * c1 w + c2 v * c2 w + c3 v * c3 w)%R.
Definition padd (v w : P3) : P3 := (c1 v + c1 w, c2 v + c2 w, c3 v + c3 w)%R.
Definition psub (v w : P3) : P3 := (c1 v - c1 w, c2 v - c2 w, c3 v - c3 w)%R.
Definition pscal (s : R) (v : P3) : P3 := (s * c1 v, s * c2 v, s * c3 v)%R.

Lemma pn_nonneg v : (0 <= pn v)%R. Proof. apply nrm_nonneg. Qed.
Lemma pn_sq v : (pn v * pn v = pdot v v)%R. Proof. apply nrm_sq. Qed.
Lemma H3_add v w : H3 (padd v w) = hadd (H3 v) (H3 w).
Proof. unfold H3. rewrite hadd_R. reflexivity. Qed.
Lemma H3_scal s v : H3 (pscal s v) = hscal (RtoC s) (H3 v).
Proof. unfold H3. rewrite hscal_R. reflexivity. Qed.
Lemma H3_dot v w : hdot (H3 v) (H3 w) = RtoC (pdot v w).
Proof. apply hdot_R. Qed.
Lemma H3_sq v : hsq (H3 v) = RtoC (pdot v v).
Proof. apply hsq_R. Qed.

Lemma cauchy v w : (pdot v w <= pn v * pn w)%R.
Proof.
  apply Rsqr_incr_0_var; [|apply Rmult_le_pos; apply pn_nonneg]. unfold Rsqr.
  replace (pn v * pn w * (pn v * pn w))%R with ((pn v * pn v) * (pn w * pn w))%R by ring. rewrite !pn_sq. unfold pdot.
  destruct v as [[a b] c], w as [[d e] f]; unfold c1, c2, c3; simpl.
  pose proof (Rle_0_sqr (a * e - b * d)). pose proof (Rle_0_sqr (a * f - c * d)). pose proof (Rle_0_sqr (b * f - c * e)).
  unfold Rsqr in *. lra.
Qed.
Lemma cauchy_abs v w : (Rabs (pdot v w) <= pn v * pn w)%R.
Proof.
  apply Rabs_le. split; [|apply cauchy]. pose proof (cauchy (pscal (-1) v) w) as H.
  assert (E : pn (pscal (-1) v) = pn v).
  { unfold pn, nrm, pscal, c1, c2, c3; simpl. f_equal. ring. }
  rewrite E in H. unfold pdot, pscal, c1, c2, c3 in *; simpl in *. lra.
Qed.
Lemma pn_add v w : (pn (padd v w) <= pn v + pn w)%R.
Proof.
  pose proof (pn_nonneg v). pose proof (pn_nonneg w).
  apply Rsqr_incr_0_var; [|lra]. unfold Rsqr. rewrite pn_sq.
  replace ((pn v + pn w) * (pn v + pn w))%R with (pn v * pn v + pn w * pn w + 2 * (pn v * pn w))%R by ring. rewrite !pn_sq.
  pose proof (cauchy v w) as C0. unfold pdot, padd, c1, c2, c3 in *; simpl in *. lra.
Qed.
Lemma pn_scal s v : pn (pscal s v) = (Rabs s * pn v)%R.
Proof.
  unfold pn, nrm, pscal, c1, c2, c3; simpl. rewrite <- (sqrt_Rsqr_abs s), <- sqrt_mult_alt by apply Rle_0_sqr. f_equal.
  unfold Rsqr. ring.
Qed.

(** ** A frame with the third axis along a given direction *)
Definition frame (th ph : R) (v : P3) : P3 :=
  (cos th * cos ph * c1 v + cos th * sin ph * c2 v - sin th * c3 v,
   - sin ph * c1 v + cos ph * c2 v,
   sin th * cos ph * c1 v + sin th * sin ph * c2 v + cos th * c3 v)%R.
Lemma frame_pn th ph v : pn (frame th ph v) = pn v.
Proof.
  unfold pn, nrm. f_equal. unfold frame, c1, c2, c3; simpl. destruct v as [[a b] c]; simpl.
  pose proof (sin2_cos2 th) as Ht. pose proof (sin2_cos2 ph) as Hp. unfold Rsqr in *.
  set (st := sin th) in *. set (ct := cos th) in *. set (sp := sin ph) in *. set (cp := cos ph) in *.
  transitivity ((st * st + ct * ct) * ((cp * a + sp * b) * (cp * a + sp * b) + c * c) + (- sp * a + cp * b) * (- sp * a + cp * b))%R; [ring|].
  rewrite Ht. transitivity ((sp * sp + cp * cp) * (a * a + b * b) + c * c)%R; [ring|]. rewrite Hp. ring.
Qed.
Lemma frame_add th ph v w : frame th ph (padd v w) = padd (frame th ph v) (frame th ph w).
Proof. unfold frame, padd, c1, c2, c3; simpl. f_equal; [f_equal|]; ring. Qed.
Lemma frame_scal th ph s v : frame th ph (pscal s v) = pscal s (frame th ph v).
Proof. unfold frame, pscal, c1, c2, c3; simpl. f_equal; [f_equal|]; ring. Qed.
(** The point with spherical coordinates r, th, ph. *)
Definition polar (r th ph : R) : P3 := (r * sin th * cos ph, r * sin th * sin ph, r * cos th)%R.
Lemma polar_pn r th ph : (0 <= r)%R -> pn (polar r th ph) = r.
Proof.
  intros H. unfold pn, nrm, polar, c1, c2, c3; simpl. rewrite <- (sqrt_square r H) at 7. f_equal.
  pose proof (sin2_cos2 th) as Ht. pose proof (sin2_cos2 ph) as Hp. unfold Rsqr in *.
  transitivity (r * r * (sin th * sin th * (sin ph * sin ph + cos ph * cos ph) + cos th * cos th))%R; [ring|].
  rewrite Hp, Rmult_1_r, Ht. ring.
Qed.
Lemma polar_dot r th ph v : pdot v (polar r th ph) = (r * c3 (frame th ph v))%R.
Proof. unfold pdot, polar, frame, c1, c2, c3; simpl. ring. Qed.

Lemma zon_axis r th ph v n : (0 <= r)%R ->
  zon (H3 v) (H3 (polar r th ph)) n = Cpow (RtoC r) n * (Cn (fact n) * sh (H3 (frame th ph v)) n 0).
Proof.
  intros Hr. apply zon_frame.
  - rewrite H3_dot, polar_dot, RtoC_mult. reflexivity.
  - rewrite !H3_sq, <- !pn_sq, frame_pn, polar_pn by assumption. rewrite <- !RtoC_mult. f_equal. ring.
Qed.
Lemma zon_bound r th ph v n : (0 <= r)%R -> (Cmod (zon (H3 v) (H3 (polar r th ph)) n) <= r ^ n * pn v ^ n)%R.
Proof.
  intros Hr. rewrite zon_axis by assumption. rewrite Cmod_mult, Cmod_pow, Cmod_mult, Cmod_Cn, Cmod_R, Rabs_pos_eq by assumption.
  apply Rmult_le_compat_l; [now apply pow_le|]. pose proof (sh0_bound (c1 (frame th ph v)) (c2 (frame th ph v)) (c3 (frame th ph v)) n) as B.
  change (nrm _ _ _) with (pn (frame th ph v)) in B. rewrite frame_pn in B. exact B.
Qed.

(** ** Conjugation *)
Lemma sh_conj_R v n m : Cconj (sh (H3 v) n m) = sg m * sh (H3 v) n (- m).
Proof.
  unfold H3, hR. rewrite sh_conj, <- sh_swap, <- sh_neg. f_equal. f_equal; apply injective_projections; simpl; field.
Qed.
Lemma Cconj_lsum {A} (f : A -> C) l : Cconj (lsum f l) = lsum (fun a => Cconj (f a)) l.
Proof.
  induction l as [|a l IH]; [apply Cconj_R|]. rewrite !lsum_cons, Cconj_plus, IH. reflexivity.
Qed.
Lemma sg_conj m : Cconj (sg m) = sg m.
Proof. apply Cconj_R. Qed.
Lemma wt_conj n m : Cconj (wt n m) = wt n m.
Proof.
  unfold wt. destruct (Z.abs m <=? n)%Z; [|apply Cconj_R]. rewrite Cconj_mult. unfold facZ. rewrite !Cn_conj. reflexivity.
Qed.
Lemma wt_opp n m : wt n (- m) = wt n m.
Proof.
  unfold wt. rewrite Z.abs_opp. destruct (Z.abs m <=? n)%Z; [|reflexivity].
  replace (n - - m)%Z with (n + m)%Z by lia. replace (n + - m)%Z with (n - m)%Z by lia. ring.
Qed.
Lemma zon_real v w n : Cconj (zon (H3 v) (H3 w) n) = zon (H3 v) (H3 w) n.
Proof.
  unfold zon, zsum. rewrite Cconj_lsum. 
  rewrite (lsum_ext _ (fun m => (fun k => sg k * wt (Z.of_nat n) k * sh (H3 v) n (- k) * sh (H3 w) n k) (- m)%Z)).
  - fold (zsum (Z.of_nat n) (fun m => (fun k => sg k * wt (Z.of_nat n) k * sh (H3 v) n (- k) * sh (H3 w) n k) (- m)%Z)).
    rewrite zsum_opp. reflexivity.
  - intros m _. cbv beta. rewrite !Cconj_mult, sg_conj, wt_conj, !sh_conj_R, !sg_opp, wt_opp, Z.opp_involutive.
    pose proof (sg_sq m) as S1. lin (sg m * wt (Z.of_nat n) m * sh (H3 v) n m * sh (H3 w) n (- m) * dif S1).
Qed.
Lemma conj_real (z : C) : Cconj z = z -> z = RtoC (Re z).
Proof.
  intros H. apply injective_projections; [reflexivity|]. simpl. apply (f_equal snd) in H. simpl in H. lra.
Qed.

(** ** Coefficients of a polynomial in a real variable *)
Lemma poly_zero N : forall a : nat -> C, (forall s : R, lsum (fun k => RtoC (s ^ k) * a k) (seq 0 (S N)) = 0) ->
  forall k, (k <= N)%nat -> a k = 0.
Proof.
  induction N as [|N IH]; intros a H k Hk.
  - replace k with O by lia. specialize (H 1%R). simpl in H. rewrite <- H. ring.
  - assert (Hlow : forall k, (k <= N)%nat -> a k = 0).
    { intros j Hj. assert (E : RtoC (2 ^ j - 2 ^ (S N)) * a j = 0).
      { apply (IH (fun k => RtoC (2 ^ k - 2 ^ (S N)) * a k)); [|assumption].
        intros s. pose proof (H (2 * s)%R) as H1. pose proof (H s) as H2.
        rewrite lsum_seq_S in H1, H2. simpl (0 + S N)%nat in H1, H2.
        rewrite (lsum_ext _ (fun k => RtoC ((2 * s) ^ k) * a k - RtoC (2 ^ (S N)) * (RtoC (s ^ k) * a k))).
        - rewrite lsum_minus, lsum_scal.
          assert (E2 : RtoC ((2 * s) ^ S N) = RtoC (2 ^ S N) * RtoC (s ^ S N)) by (rewrite Rpow_mult_distr, RtoC_mult; reflexivity).
          rewrite E2 in H1. lin (dif H1 - RtoC (2 ^ S N) * dif H2).
        - intros i _. rewrite Rpow_mult_distr, RtoC_minus, RtoC_mult. ring. }
      apply (Creg_l (RtoC (2 ^ j - 2 ^ (S N)))); [|rewrite E; ring]. intros E0. apply RtoC_inj in E0.
      assert ((2 ^ j < 2 ^ (S N))%R) by (apply Rlt_pow; [lra|lia]). lra. }
    destruct (Nat.eq_dec k (S N)) as [->|Hne]; [|apply Hlow; lia].
    specialize (H 1%R). rewrite lsum_seq_S, lsum_all_zero in H.
    + simpl (0 + S N)%nat in H. rewrite pow1 in H. rewrite <- H. ring.
    + intros i Hi. apply in_seq in Hi. rewrite Hlow by lia. ring.
Qed.

(** ** The part of bidegree (n, j) of a zonal sum *)
Definition bic (v w D : hpt) (n j : nat) : C :=
  let N := Z.of_nat (n + j) in zsum N (fun m => sg m * wt N m * cv v w n j (- m) * sh D (n + j) m).

Lemma zon_split v w D N : zon (hadd v w) D N = lsum (fun n => bic v w D n (N - n)) (seq 0 (S N)).
Proof.
  unfold zon, bic, zsum.
  rewrite (lsum_ext _ (fun m => lsum (fun k => sg m * wt (Z.of_nat N) m * cv v w k (N - k) (- m) * sh D N m) (seq 0 (S N)))).
  - rewrite lsum_swap. apply lsum_ext. intros k Hk. apply in_seq in Hk. replace (k + (N - k))%nat with N by lia. reflexivity.
  - intros m _. rewrite sh_addition.
    transitivity ((sg m * wt (Z.of_nat N) m * sh D N m) * lsum (fun k => cv v w k (N - k) (- m)) (seq 0 (S N))); [ring|].
    rewrite <- lsum_scal. apply lsum_ext. intros k _. ring.
Qed.
Lemma cv_scal s v w n j m : cv (hscal s v) w n j m = Cpow s n * cv v w n j m.
Proof.
  unfold cv. rewrite <- zsum_scal. apply zsum_ext. intros l _. rewrite sh_scal. ring.
Qed.
Lemma bic_scal s v w D n j : bic (hscal s v) w D n j = Cpow s n * bic v w D n j.
Proof.
  unfold bic. rewrite <- zsum_scal. apply zsum_ext. intros l _. rewrite cv_scal. ring.
Qed.

Lemma bic_axis r th ph v w n j : (0 <= r)%R ->
  bic (H3 v) (H3 w) (H3 (polar r th ph)) n j =
  Cpow (RtoC r) (n + j) * (Cn (fact (n + j)) * cv (H3 (frame th ph v)) (H3 (frame th ph w)) n j 0).
Proof.
  intros Hr. set (N := (n + j)%nat). set (D := polar r th ph).
  assert (G : forall k, (k <= N)%nat -> bic (H3 v) (H3 w) (H3 D) k (N - k) -
     Cpow (RtoC r) N * (Cn (fact N) * cv (H3 (frame th ph v)) (H3 (frame th ph w)) k (N - k) 0) = 0).
  { apply poly_zero. intros s.
    pose proof (zon_axis r th ph (padd (pscal s v) w) N Hr) as E. fold D in E.
    rewrite frame_add, frame_scal, !H3_add, !H3_scal in E. rewrite zon_split, sh_addition in E.
    rewrite (lsum_ext _ (fun k => RtoC (s ^ k) * bic (H3 v) (H3 w) (H3 D) k (N - k))) in E
      by (intros k _; rewrite bic_scal, Cpow_RtoC; reflexivity).
    rewrite (lsum_ext (fun k => cv (hscal (RtoC s) _) _ _ _ _) (fun k => RtoC (s ^ k) * cv (H3 (frame th ph v)) (H3 (frame th ph w)) k (N - k) 0)) in E
      by (intros k _; rewrite cv_scal, Cpow_RtoC; reflexivity).
    rewrite <- !lsum_scal in E.
    rewrite (lsum_ext _ (fun k => RtoC (s ^ k) * bic (H3 v) (H3 w) (H3 D) k (N - k) -
       Cpow (RtoC r) N * (Cn (fact N) * (RtoC (s ^ k) * cv (H3 (frame th ph v)) (H3 (frame th ph w)) k (N - k) 0)))) by (intros; ring).
    rewrite lsum_minus. rewrite E. ring. }
  specialize (G n ltac:(unfold N; lia)). replace (N - n)%nat with j in G by (unfold N; lia). now apply Ceq_minus.
Qed.
Lemma bic_bound r th ph v w n j : (0 <= r)%R ->
  (Cmod (bic (H3 v) (H3 w) (H3 (polar r th ph)) n j) <= r ^ (n + j) * INR (choose (n + j) n) * pn v ^ n * pn w ^ j)%R.
Proof.
  intros Hr. rewrite bic_axis by assumption. rewrite Cmod_mult, Cmod_pow, Cmod_mult, Cmod_Cn, Cmod_R, Rabs_pos_eq by assumption.
  rewrite !Rmult_assoc. apply Rmult_le_compat_l; [now apply pow_le|].
  pose proof (cv_bound (c1 (frame th ph v)) (c2 (frame th ph v)) (c3 (frame th ph v))
    (c1 (frame th ph w)) (c2 (frame th ph w)) (c3 (frame th ph w)) n j) as B.
  change (nrm _ _ _) with (pn (frame th ph v)) in B at 1. change (nrm _ _ _) with (pn (frame th ph w)) in B. rewrite !frame_pn in B.
  pose proof (choose_fact (n + j) n ltac:(lia)) as F. replace (n + j - n)%nat with j in F by lia.
  apply (f_equal INR) in F. rewrite !mult_INR in F. rewrite <- F.
  rewrite !Rmult_assoc. apply Rmult_le_compat_l; [apply pos_INR|]. 
  change (H3 (frame th ph v)) with (hR (c1 (frame th ph v)) (c2 (frame th ph v)) (c3 (frame th ph v))).
  change (H3 (frame th ph w)) with (hR (c1 (frame th ph w)) (c2 (frame th ph w)) (c3 (frame th ph w))). lra.
Qed.
