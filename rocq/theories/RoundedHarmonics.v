(** Error calculus for the operations of the three-dimensional expansions. *)
From Coq Require Import Reals List Arith ZArith Lia Lra Psatz.
From Coquelicot Require Import Coquelicot.
From Verif Require Import Num Outcome Vec VecProofs Tables CAux TableProofs Tables3D Table3DProofs SolidHarmonics Zonal HarmonicBounds Kernel3 Spherical SphericalProofs Harmonics3D Fields
  Expansion3D Exp3Loops Exp3Proofs Exp3Errors HarmonicNorms ShiftGroup CoefNorms CoefBounds RoundedExpansion2D RoundedExpansion3D RoundedComplexSpec ApproxC RoundedHarmonicSpec.
Import ListNotations.
Local Open Scope R_scope.
Arguments Cmod x%C.
Arguments close_norm w z'%C z%C.
Arguments ap w n%nat x'%C x%C X%R.

(** ** Loops *)
Lemma omapM_ex {X Y} (f : X -> outcome Y) (P : X -> Y -> Prop) L : (forall a, In a L -> exists b, f a = Ok b /\ P a b) -> exists bs, omapM f L = Ok bs /\ Forall2 P L bs.
Proof.
  induction L as [|a L IH]; intros H.
  - exists []. split; [reflexivity|constructor].
  - destruct (H a (or_introl eq_refl)) as (b & E & Q). destruct IH as (bs & E' & Q'); [intros; apply H; right; assumption|].
    exists (b :: bs). cbn [omapM]. rewrite E. cbn [bind]. rewrite E'. cbn [bind]. split; [reflexivity|constructor; assumption].
Qed.
Lemma Forall2_nth {X Y} (P : X -> Y -> Prop) xs ys : Forall2 P xs ys -> forall i a, nth_error xs i = Some a -> exists b, nth_error ys i = Some b /\ P a b.
Proof.
  induction 1 as [|a b xs ys H F IH]; intros [|i] c E; try discriminate; cbn in E |- *.
  - injection E as <-. exists b. split; [reflexivity|exact H].
  - apply IH. exact E.
Qed.
Lemma Forall2_length {X Y} (P : X -> Y -> Prop) xs ys : Forall2 P xs ys -> length xs = length ys.
Proof. induction 1; cbn [length]; congruence. Qed.
(** A list indexed by the pairs (j, k) is given by a function. *)
Definition fun_of (l : list C) (n m : Z) : C := match zget l (sh_index n m) with Ok z => z | _ => RtoC 0 end.
Lemma fun_of_co p f n m : (Z.abs m <= n)%Z -> (n <= p)%Z -> fun_of (co_of p f) n m = f n m.
Proof. intros Hm Hn. unfold fun_of. rewrite co_of_get by assumption. reflexivity. Qed.
Lemma co_fun_of p l : (0 <= p)%Z -> length l = Z.to_nat ((p + 1) * (p + 1)) -> l = co_of p (fun_of l).
Proof.
  intros Hp Hl. apply co_unique; [exact Hp|exact Hl|]. intros n m Hm Hn. unfold fun_of. pose proof (sh_index_bound n m p Hm Hn) as B.
  rewrite (zget_nth l (sh_index n m) (RtoC 0)) by (rewrite Hl; lia). reflexivity.
Qed.
Lemma omapM_co p (f : Z * Z -> outcome C) (P : Z -> Z -> C -> Prop) : (0 <= p)%Z ->
  (forall j k, (0 <= j <= p)%Z -> (Z.abs k <= j)%Z -> exists b, f (j, k) = Ok b /\ P j k b) ->
  exists g, omapM f (jk_pairs p) = Ok (co_of p g) /\ forall j k, (0 <= j <= p)%Z -> (Z.abs k <= j)%Z -> P j k (g j k).
Proof.
  intros Hp H. destruct (omapM_ex f (fun jk b => P (fst jk) (snd jk) b) (jk_pairs p)) as (bs & E & F).
  { intros [j k] Hin. apply in_jk in Hin. destruct (H j k ltac:(lia) ltac:(lia)) as (b & Eb & Q). exists b. split; assumption. }
  exists (fun_of bs). assert (Lb : length bs = Z.to_nat ((p + 1) * (p + 1))) by (rewrite <- (Forall2_length _ _ _ F); apply jk_length; exact Hp).
  split; [rewrite E; f_equal; apply co_fun_of; assumption|]. intros j k Hj Hk.
  destruct (Forall2_nth _ _ _ F _ _ (jk_nth p j k Hk ltac:(lia))) as (b & Eb & Q). cbn [fst snd] in Q.
  replace (fun_of bs j k) with b; [exact Q|]. unfold fun_of, zget. destruct (Z.ltb_spec (sh_index j k) 0).
  - pose proof (sh_index_bound j k p Hk ltac:(lia)). lia.
  - rewrite Eb. reflexivity.
Qed.

Section Calculus.
Variable w : R.
Hypothesis Hw : 0 <= w <= 1 / 2.
Variable ky : nat.
Variable A : harith.
Hypothesis HA : accurate_harmonics w ky A.
Notation ap := (ap w).
Notation B := (h_c A).
Let HB : accurate_complex w B := ah_c _ _ _ HA.
Notation rnd := (h_rnd A).

Lemma loop_ap {I} (f : C -> I -> outcome C) (g : I -> C) (G : I -> R) n L : forall m x' x X, ap m x' x X -> (n <= m)%nat ->
  (forall i acc, In i L -> exists t, f acc i = Ok (c_add B acc t) /\ ap n t (g i) (G i)) ->
  exists y, ofold f L x' = Ok y /\ ap (m + length L) y (x + lsum g L)%C (X + rsum G L).
Proof.
  induction L as [|i L IH]; intros m x' x X Hx Hn H.
  - exists x'. split; [reflexivity|]. rewrite lsum_nil. cbn [rsum fold_right length]. replace (x + 0)%C with x by ring. eapply ap_weaken; [exact Hw|exact Hx|lia|].
    unfold rsum; cbn. lra.
  - destruct (H i x' (or_introl eq_refl)) as (t & E & Ht). cbn [ofold]. rewrite E. cbn [bind].
    destruct (IH (S m) (c_add B x' t) (x + g i)%C (X + G i)) as (y & Ey & Hy).
    + apply (op_add w Hw B HB); [exact Hx|]. eapply ap_weaken; [exact Hw|exact Ht|exact Hn|apply Rle_refl].
    + lia.
    + intros; apply H; right; assumption.
    + exists y. split; [exact Ey|]. rewrite lsum_cons, rsum_cons. cbn [length]. replace (m + S (length L))%nat with (S m + length L)%nat by lia.
      replace (x + (g i + lsum g L))%C with (x + g i + lsum g L)%C by ring. replace (X + (G i + rsum G L)) with (X + G i + rsum G L) by ring. exact Hy.
Qed.

(** ** Real operations *)
Definition rap (n : nat) (x' x X : R) : Prop := ap n (RtoC x') (RtoC x) X.
Lemma rap_close n x' x X y : rap n x' x X -> close w y x' -> rap (S n) y x X.
Proof.
  intros H C. unfold rap. eapply ap_round; [exact Hw|exact H|]. unfold close_norm. rewrite <- RtoC_minus, !Cmod_R. exact C.
Qed.
Lemma rap_mul n m x' x X y' y Y : rap n x' x X -> rap m y' y Y -> rap (n + m) (x' * y') (x * y) (X * Y).
Proof. intros H H'. unfold rap. rewrite !RtoC_mult. apply ap_mul; assumption. Qed.
Lemma rap_one : rap 0 1 1 1.
Proof. apply ap_exact; [exact Hw|]. rewrite Cmod_R, Rabs_R1. lra. Qed.
Lemma rap_close0 x' x : close w x' x -> rap 1 x' x (Rabs x).
Proof. apply close_real. Qed.
Lemma rap_weaken n m x' x X Y : rap n x' x X -> (n <= m)%nat -> X <= Y -> rap m x' x Y.
Proof. apply ap_weaken. exact Hw. Qed.
Lemma rap_exact n x X : Rabs x <= X -> rap n x x X.
Proof. intros H. apply ap_exact; [exact Hw|]. rewrite Cmod_R. exact H. Qed.

(** ** Vectors and directions *)
Lemma list3 (v : list R) : length v = 3%nat -> v = [c1 (p3 v); c2 (p3 v); c3 (p3 v)].
Proof. destruct v as [|x [|y [|z [|]]]]; try discriminate. reflexivity. Qed.
Lemma vdif_len a b : length a = 3%nat -> length b = 3%nat -> length (vdif_r A a b) = 3%nat.
Proof. intros Ha Hb. destruct a as [|? [|? [|? [|]]]]; try discriminate. destruct b as [|? [|? [|? [|]]]]; try discriminate. reflexivity. Qed.
Lemma pn_close v v' x : 0 <= x -> Rabs (c1 v' - c1 v) <= x * Rabs (c1 v) -> Rabs (c2 v' - c2 v) <= x * Rabs (c2 v) -> Rabs (c3 v' - c3 v) <= x * Rabs (c3 v) ->
  pn (psub v' v) <= x * pn v.
Proof.
  intros Hx H1 H2 H3. unfold pn, nrm, psub; unfold c1, c2, c3 in *; cbn [fst snd] in *.
  assert (G : forall a b, Rabs a <= x * Rabs b -> a * a <= x * x * (b * b)).
  { intros a b H. assert (P := Rabs_pos a). replace (a * a) with (Rabs a * Rabs a) by (rewrite <- Rabs_mult; apply Rabs_pos_eq; nra).
    replace (b * b) with (Rabs b * Rabs b) by (rewrite <- Rabs_mult; apply Rabs_pos_eq; nra). nra. }
  apply G in H1, H2, H3. rewrite <- (sqrt_square x) by exact Hx. rewrite <- sqrt_mult by nra. apply sqrt_le_1_alt. nra.
Qed.
Lemma vdif_close a b : length a = 3%nat -> length b = 3%nat -> pn (psub (p3 (vdif_r A a b)) (p3 (vsub a b))) <= w * pn (p3 (vsub a b)).
Proof.
  intros Ha Hb. destruct a as [|a1 [|a2 [|a3 [|]]]]; try discriminate. destruct b as [|b1 [|b2 [|b3 [|]]]]; try discriminate.
  rewrite p3_sub by reflexivity. apply pn_close; [lra| | |]; [exact (ah_dif _ _ _ HA a1 b1)|exact (ah_dif _ _ _ HA a2 b2)|exact (ah_dif _ _ _ HA a3 b3)].
Qed.
Lemma padd_psub v' v : padd v (psub v' v) = v'.
Proof. destruct v' as [[x y] z]. unfold padd, psub, c1, c2, c3; cbn [fst snd]. f_equal; [f_equal|]; ring. Qed.
Lemma pn_diff v v' : Rabs (pn v' - pn v) <= pn (psub v' v).
Proof.
  assert (H1 := pn_add v (psub v' v)). rewrite padd_psub in H1. assert (H2 := pn_add v' (psub v v')). rewrite padd_psub in H2. rewrite (pn_psub_sym v v') in H2.
  apply Rabs_le. lra.
Qed.
Lemma norm_pn v : length v = 3%nat -> close w (h_norm A v) (pn (p3 v)).
Proof. intros Hv. rewrite (list3 v Hv) at 1. apply (ah_norm _ _ _ HA). Qed.
Lemma norm_rap a b : length a = 3%nat -> length b = 3%nat -> let r := pn (p3 (vsub a b)) in rap 2 (h_norm A (vdif_r A a b)) r r.
Proof.
  intros Ha Hb r. assert (Pr : 0 <= r) by apply pn_nonneg. eapply rap_close; [|apply norm_pn, vdif_len; assumption].
  eapply rap_weaken; [apply rap_close0|lia|rewrite Rabs_pos_eq by exact Pr; apply Rle_refl].
  unfold close. rewrite (Rabs_pos_eq r) by exact Pr. eapply Rle_trans; [apply pn_diff|]. apply vdif_close; assumption.
Qed.
(** Reciprocal of the radius. *)
Lemma norm_range a b : length a = 3%nat -> length b = 3%nat -> let r := pn (p3 (vsub a b)) in
  (1 - w) * (1 - w) * r <= h_norm A (vdif_r A a b) <= (1 + w) * (1 + w) * r.
Proof.
  intros Ha Hb r. assert (Pr : 0 <= r) by apply pn_nonneg. assert (H := norm_pn _ (vdif_len a b Ha Hb)). unfold close in H.
  rewrite (Rabs_pos_eq (pn _)) in H by apply pn_nonneg. apply Rabs_le_between in H.
  assert (Q := Rle_trans _ _ _ (pn_diff (p3 (vsub a b)) (p3 (vdif_r A a b))) (vdif_close a b Ha Hb)). fold r in Q. apply Rabs_le_between in Q.
  set (n := pn (p3 (vdif_r A a b))) in *. nra.
Qed.
Lemma inv_rap r' r : 0 < r -> (1 - w) * (1 - w) * r <= r' <= (1 + w) * (1 + w) * r -> r' <> 0 /\ rap 4 (/ r') (/ r) (/ r).
Proof.
  intros Hr [L U].
  assert (P1 : 0 < (1 - w) * (1 - w)) by nra. assert (P : 0 < r') by nra. split; [lra|].
  assert (PI : 0 < / r) by (apply Rinv_0_lt_compat; exact Hr).
  split; [rewrite Cmod_R, Rabs_pos_eq; lra|]. rewrite <- RtoC_minus, Cmod_R.
  replace (/ r' - / r) with ((r - r') / r' * / r) by (field; lra). rewrite Rabs_mult, (Rabs_pos_eq (/ r)) by lra. apply Rmult_le_compat_r; [lra|].
  unfold Rdiv. rewrite Rabs_mult, (Rabs_pos_eq (/ r')) by (left; apply Rinv_0_lt_compat; exact P). apply (Rmult_le_reg_r r'); [exact P|].
  rewrite Rmult_assoc, Rinv_l, Rmult_1_r by lra.
  assert (K : 1 <= (1 + w) ^ 4 * ((1 - w) * (1 - w))).
  { replace ((1 + w) ^ 4 * ((1 - w) * (1 - w))) with (((1 + w) * (1 + w) * (1 - w)) * ((1 + w) * (1 + w) * (1 - w))) by ring.
    assert (1 <= (1 + w) * (1 + w) * (1 - w)) by nra. nra. }
  assert (K2 : (1 + w) * (1 + w) <= (1 + w) ^ 4) by nra.
  set (q := (1 + w) ^ 4) in *. apply Rabs_le. split; [|nra].
  assert (1 <= q) by nra. nra.
Qed.

(** The direction of a difference of vectors. *)
Lemma unit_scal v : 0 < pn v -> v = pscal (pn v) (pscal (/ pn v) v) /\ pn (pscal (/ pn v) v) = 1.
Proof.
  intros H. split.
  - destruct v as [[x y] z]. set (r := pn (x, y, z)) in *. unfold pscal, c1, c2, c3; cbn [fst snd]. f_equal; [f_equal|]; field; lra.
  - rewrite pn_scal, Rabs_pos_eq by (left; apply Rinv_0_lt_compat; exact H). field. lra.
Qed.
Lemma ylm_unit v l m : length v = 3%nat -> (Z.abs m <= l)%Z ->
  exists d, pn d = 1 /\ p3 v = pscal (pn (p3 v)) d /\ forall l m, (Z.abs m <= l)%Z -> Cmod (h_ylm A v l m - Yr d l m)%C <= (1 + w) ^ (ky * (Z.to_nat l + 1)) - 1.
Proof.
  intros Hv _. destruct (spherical_ok v Hv) as (r & th & ph & E & Ep & Er & Hr & Hs). exists (polar 1 th ph).
  split; [apply polar_pn; lra|]. split; [rewrite <- Er, <- polar_scal; exact Ep|]. clear l m. intros l m Hm.
  destruct (ylm_table_ok l th ph Hs ltac:(lia)) as (tab & Et & Ht). rewrite (list3 v Hv) in E |- *.
  apply (ah_ylm _ _ _ HA _ _ _ r th ph l tab l m (Yr (polar 1 th ph) l m) E Et); [lia|]. apply Ht; lia.
Qed.
Lemma bern4 n : (1 + 4 * w) ^ n <= (1 + w) ^ (4 * n).
Proof. rewrite pow_mult. apply pow_incr. split; [lra|]. nra. Qed.
Lemma dir_ap a b : length a = 3%nat -> length b = 3%nat ->
  let v := p3 (vsub a b) in
  exists d, pn d = 1 /\ v = pscal (pn v) d /\ forall l m, (Z.abs m <= l)%Z -> ap (ky * (Z.to_nat l + 1) + 8 * Z.to_nat l) (h_ylm A (vdif_r A a b) l m) (Yr d l m) 1.
Proof.
  intros Ha Hb v. set (v' := p3 (vdif_r A a b)). assert (L' := vdif_len a b Ha Hb).
  destruct (ylm_unit (vdif_r A a b) 0 0 L' ltac:(lia)) as (d' & D1 & D2 & D3). fold v' in D2.
  assert (CL := vdif_close a b Ha Hb). fold v v' in CL. assert (Pv := pn_nonneg v).
  assert (G : exists d, pn d = 1 /\ v = pscal (pn v) d /\ pn (psub d' d) <= 4 * w).
  { destruct (Req_dec (pn v) 0) as [Z|NZ].
    - exists d'. split; [exact D1|]. split.
      + assert (S0 := pn_sq v). rewrite Z in *. unfold pdot in S0. destruct v as [[x y] z]. unfold pscal, c1, c2, c3 in *; cbn [fst snd] in *. f_equal; [f_equal|]; nra.
      + replace (pn (psub d' d')) with 0; [lra|]. symmetry. unfold pn, nrm, psub, c1, c2, c3; cbn [fst snd]. rewrite !Rminus_eq_0, !Rmult_0_r, !Rplus_0_r. apply sqrt_0.
    - assert (Hp : 0 < pn v) by lra. destruct (unit_scal v Hp) as [U1 U2]. set (d := pscal (/ pn v) v) in *. exists d. split; [exact U2|]. split; [exact U1|].
      assert (Df := pn_diff v v'). assert (Q := Rle_trans _ _ _ Df CL). apply Rabs_le_between in Q. assert (P' : (1 - w) * pn v <= pn v') by lra.
      assert (E : pscal (pn v') (psub d' d) = padd (psub v' v) (pscal (pn v - pn v') d)).
      { rewrite D2 at 2. rewrite U1 at 1. unfold padd, psub, pscal, c1, c2, c3; cbn [fst snd]. f_equal; [f_equal|]; ring. }
      assert (N := f_equal pn E). rewrite pn_scal, (Rabs_pos_eq (pn v')) in N by apply pn_nonneg. assert (T := pn_add (psub v' v) (pscal (pn v - pn v') d)). rewrite <- N, pn_scal, U2 in T.
      rewrite Rabs_minus_sym in T. assert (Nn := pn_nonneg (psub d' d)).
      assert (M : (1 - w) * pn v * pn (psub d' d) <= 2 * w * pn v). { apply Rle_trans with (pn v' * pn (psub d' d)); [apply Rmult_le_compat_r; assumption|lra]. }
      apply (Rmult_le_reg_l (pn v)); [exact Hp|]. nra. }
  destruct G as (d & D4 & D5 & D6). exists d. split; [exact D4|]. split; [exact D5|]. intros l m Hm. specialize (D3 l m Hm).
  assert (M := Yr_move d (psub d' d) (4 * w) l ltac:(lia) ltac:(lra) ltac:(rewrite D4; lra)). rewrite padd_psub, D4, pow1, Rmult_1_r in M.
  assert (M' := Rle_trans _ _ _ (vn_el l (fun k => Yr d' l k - Yr d l k)%C m Hm) M). cbv beta in M'.
  split; [eapply Rle_trans; [apply Yr_pt; exact Hm|]; rewrite D4, pow1; lra|].
  replace (h_ylm A (vdif_r A a b) l m - Yr d l m)%C with ((h_ylm A (vdif_r A a b) l m - Yr d' l m) + (Yr d' l m - Yr d l m))%C by ring.
  eapply Rle_trans; [apply Cmod_triangle|]. rewrite Rmult_1_r, pow_add.
  assert (Q := bern4 (Z.to_nat (2 * l))). replace (4 * Z.to_nat (2 * l))%nat with (8 * Z.to_nat l)%nat in Q by lia.
  assert (G1 := pw_ge1 w Hw (ky * (Z.to_nat l + 1))). assert (G2 := pw_ge1 w Hw (8 * Z.to_nat l)). nra.
Qed.
End Calculus.
