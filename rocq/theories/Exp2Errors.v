(** Error bounds of the two-dimensional expansions against the direct potential. *)
From Coq Require Import Reals List Arith Lra Lia.
From Coquelicot Require Import Complex.
From Verif Require Import Num Outcome Vec VecProofs Tables Expansion2D CAux TableProofs Exp2Proofs M2LError Exp2Local
  Fields FieldSpec FieldProofs.
Import ListNotations.
Local Open Scope R_scope.

Lemma dist_Cmod (a b : list R) : length a = 2%nat -> length b = 2%nat -> dist a b = Cmod (cplx a - cplx b)%C.
Proof.
  intros Ha Hb. destruct a as [|x [|y [|]]]; try discriminate. destruct b as [|x' [|y' [|]]]; try discriminate.
  unfold dist, Cmod, cplx. cbn [length seq rsum fold_right nth vget fst snd Cminus Cplus Copp]. f_equal. simpl. ring.
Qed.
Lemma dist_Cmod' (a b : list R) : length a = 2%nat -> length b = 2%nat -> dist a b = Cmod (cplx b - cplx a)%C.
Proof. intros. rewrite dist_sym by congruence. apply dist_Cmod; assumption. Qed.

Lemma ln_Cmod_minus (z w : C) : z <> RtoC 0 -> w <> z -> ln (Cmod (z - w)) = ln (Cmod z) + ln (Cmod (RtoC 1 - w / z)%C).
Proof.
  intros Hz Hw. assert (N : (RtoC 1 - w / z)%C <> RtoC 0).
  { intros E. apply Hw. replace w with (z - z * (RtoC 1 - w / z))%C by (field; exact Hz). rewrite E. ring. }
  rewrite <- ln_mult by (apply Cmod_gt_0; assumption). rewrite <- Cmod_mult. f_equal. f_equal. field. exact Hz.
Qed.
Lemma Cmod_ratio (w z : C) a b : 0 < b -> Cmod w <= a -> b <= Cmod z -> Cmod (w / z)%C <= a / b.
Proof.
  intros Hb Hw Hz. assert (Nz : z <> RtoC 0) by (apply Cmod_gt_0; lra). rewrite Cmod_div by exact Nz.
  assert (0 <= Cmod w) by apply Cmod_ge_0.
  apply (Rle_trans _ (a / Cmod z)); unfold Rdiv.
  - apply Rmult_le_compat_r; [left; apply Rinv_0_lt_compat; lra|exact Hw].
  - apply Rmult_le_compat_l; [lra|]. apply Rinv_le_contravar; assumption.
Qed.

Lemma weighted_error {A} (q : A -> R) (f g : A -> R) B l : (forall a, In a l -> Rabs (f a - g a) <= B) -> 0 <= B ->
  Rabs (rsum (fun a => q a * f a) l - rsum (fun a => q a * g a) l) <= rsum (fun a => Rabs (q a)) l * B.
Proof.
  intros H HB. rewrite <- rsum_minus, <- rsum_scal_r.
  eapply Rle_trans; [apply rsum_abs|]. apply rsum_le. intros a Ha.
  replace (q a * f a - q a * g a) with (q a * (f a - g a)) by ring. rewrite Rabs_mult.
  apply Rmult_le_compat_l; [apply Rabs_pos|apply H; exact Ha].
Qed.

(** The truncation bound [ratio^(p+1) / ((p+1) (1 - ratio))]. *)
Definition trunc_bound (ratio : R) (p : nat) : R := ratio ^ (S p) / (INR (S p) * (1 - ratio)).
Lemma trunc_bound_nonneg c p : 0 <= c < 1 -> 0 <= trunc_bound c p.
Proof.
  intros [H0 H1]. unfold trunc_bound. apply Rmult_le_pos; [apply pow_le; exact H0|].
  left. apply Rinv_0_lt_compat. apply Rmult_lt_0_compat; [apply lt_0_INR; lia|lra].
Qed.
Lemma trunc_bound_mono a b p : 0 <= a -> a <= b -> b < 1 -> trunc_bound a p <= trunc_bound b p.
Proof.
  intros H0 H1 H2. unfold trunc_bound, Rdiv. assert (0 < INR (S p)) by (apply lt_0_INR; lia).
  apply Rmult_le_compat.
  - apply pow_le; exact H0.
  - left. apply Rinv_0_lt_compat. apply Rmult_lt_0_compat; [assumption|lra].
  - apply pow_incr. split; assumption.
  - apply Rinv_le_contravar; [apply Rmult_lt_0_compat; lra|]. apply Rmult_le_compat_l; lra.
Qed.

Lemma direct2 srcs x : direct_potential 2 true srcs x = rsum (fun s => ps_q s * ln (dist (ps_pos s) x)) srcs.
Proof. unfold direct_potential. apply rsum_ext. intros s _. unfold kernel, field_sign. cbn [Nat.eqb]. ring. Qed.

(** Multipole expansion. *)
Theorem me2_error center p srcs x rad r : length center = 2%nat -> length x = 2%nat -> same_dim 2 srcs ->
  0 <= rad < r -> (forall s, In s srcs -> dist (ps_pos s) center <= rad) -> r <= dist x center ->
  exists v, me2_pot (me2_sources center p srcs) x = Ok v /\
    Rabs (v - direct_potential 2 true srcs x) <= abs_charge srcs * trunc_bound (rad / r) p.
Proof.
  intros Hc Hx Hs [H0 Hr] Hrad Hd.
  assert (Hz : (cplx x - cplx center)%C <> RtoC 0).
  { apply Cmod_gt_0. rewrite <- dist_Cmod by assumption. lra. }
  rewrite me2_sources_pot by exact Hz. eexists. split; [reflexivity|]. rewrite direct2. unfold abs_charge.
  assert (Hq : 0 <= rad / r < 1).
  { split; [apply Rmult_le_pos; [lra|left; apply Rinv_0_lt_compat; lra]|]. apply (Rmult_lt_reg_r r); [lra|]. unfold Rdiv.
    rewrite Rmult_assoc, Rinv_l by lra. lra. }
  apply weighted_error; [|apply trunc_bound_nonneg; exact Hq].
  intros s Hin. set (z := (cplx x - cplx center)%C) in *. set (w := src_at (cplx center) s).
  assert (Hw : Cmod w <= rad) by (unfold w, src_at; rewrite <- dist_Cmod by (try exact Hc; apply Hs; exact Hin); apply Hrad; exact Hin).
  assert (Hzr : r <= Cmod z) by (unfold z; rewrite <- dist_Cmod by assumption; exact Hd).
  assert (E : dist (ps_pos s) x = Cmod (z - w)%C).
  { rewrite dist_Cmod' by (try exact Hx; apply Hs; exact Hin). f_equal. unfold z, w, src_at. ring. }
  rewrite E, ln_Cmod_minus; [|exact Hz|intros ->; lra].
  pose proof (log_remainder (w / z)%C (rad / r) p (proj1 Hq) (proj2 Hq) (Cmod_ratio w z rad r ltac:(lra) Hw Hzr)) as H.
  unfold trunc_bound. eapply Rle_trans; [|exact H]. right. rewrite <- Rabs_Ropp. f_equal. ring.
Qed.

(** Local expansion of distant sources (P2L). *)
Theorem le2_error center p srcs x rad r : length center = 2%nat -> length x = 2%nat -> same_dim 2 srcs ->
  0 <= rad < r -> (forall s, In s srcs -> r <= dist (ps_pos s) center) -> dist x center <= rad ->
  exists e, le2_sources center p srcs = Ok e /\
    Rabs (le2_pot e x - direct_potential 2 true srcs x) <= abs_charge srcs * trunc_bound (rad / r) p.
Proof.
  intros Hc Hx Hs [H0 Hr] Hrad Hd.
  assert (Hnz : forall s, In s srcs -> src_at (cplx center) s <> RtoC 0).
  { intros s Hin. apply Cmod_gt_0. unfold src_at. rewrite <- dist_Cmod by (try exact Hc; apply Hs; exact Hin).
    specialize (Hrad s Hin). lra. }
  pose proof (le2_sources_coeffs center p srcs Hnz) as He. eexists. split; [exact He|].
  destruct (le2_sources_pot center p srcs x _ He) as [Ev _]. rewrite Ev, direct2. unfold abs_charge.
  assert (Hq : 0 <= rad / r < 1).
  { split; [apply Rmult_le_pos; [lra|left; apply Rinv_0_lt_compat; lra]|]. apply (Rmult_lt_reg_r r); [lra|]. unfold Rdiv.
    rewrite Rmult_assoc, Rinv_l by lra. lra. }
  apply weighted_error; [|apply trunc_bound_nonneg; exact Hq].
  intros s Hin. set (z := (cplx x - cplx center)%C) in *. set (w := src_at (cplx center) s).
  assert (Hw : r <= Cmod w) by (unfold w, src_at; rewrite <- dist_Cmod by (try exact Hc; apply Hs; exact Hin); apply Hrad; exact Hin).
  assert (Hzr : Cmod z <= rad) by (unfold z; rewrite <- dist_Cmod by assumption; exact Hd).
  assert (E : dist (ps_pos s) x = Cmod (w - z)%C).
  { rewrite dist_Cmod by (try exact Hx; apply Hs; exact Hin). f_equal. unfold z, w, src_at. ring. }
  rewrite E, ln_Cmod_minus; [|apply Hnz; exact Hin|intros Ez; rewrite Ez in Hzr; lra].
  pose proof (log_remainder (z / w)%C (rad / r) p (proj1 Hq) (proj2 Hq) (Cmod_ratio z w rad r ltac:(lra) Hzr Hw)) as H.
  unfold trunc_bound. eapply Rle_trans; [|exact H]. right. rewrite <- Rabs_Ropp. f_equal. ring.
Qed.

(** Multipole-to-local conversion. *)
Theorem m2l2_error tb center c p srcs x r1 r2 D : bt_ok tb -> (1 <= p)%nat ->
  length center = 2%nat -> length c = 2%nat -> length x = 2%nat -> same_dim 2 srcs ->
  0 <= r1 -> 0 <= r2 -> r1 + r2 < D -> D <= dist c center ->
  (forall s, In s srcs -> dist (ps_pos s) c <= r2) -> dist x center <= r1 ->
  exists e, le2_m2l tb center (me2_sources c p srcs) = Ok (e, se_table tb p) /\
    se_ord e = p /\ se_ctr e = cplx center /\ wf_se e /\
    Rabs (le2_pot e x - direct_potential 2 true srcs x) <= abs_charge srcs * trunc_bound ((r1 + r2) / D) p.
Proof.
  intros Hok Hp Hce Hc Hx Hs H1 H2 H12 HD Hrad Hd.
  assert (Hz : (cplx c - cplx center)%C <> RtoC 0).
  { apply Cmod_gt_0. rewrite <- dist_Cmod by assumption. lra. }
  destruct (m2l_sources_pot tb p center c srcs x Hok Hp Hz) as [e [He [Eo [Ec [Ew Ev]]]]].
  exists e. split; [exact He|]. split; [exact Eo|]. split; [exact Ec|]. split; [exact Ew|]. rewrite Ev, direct2. unfold abs_charge.
  assert (Hq : 0 <= (r1 + r2) / D < 1).
  { split; [apply Rmult_le_pos; [lra|left; apply Rinv_0_lt_compat; lra]|]. apply (Rmult_lt_reg_r D); [lra|]. unfold Rdiv.
    rewrite Rmult_assoc, Rinv_l by lra. lra. }
  apply weighted_error; [|apply trunc_bound_nonneg; exact Hq].
  intros s Hin. set (z0 := (cplx c - cplx center)%C) in *. set (y := ((cplx x - cplx center) / z0)%C).
  set (w := src_at (cplx c) s). set (u := (- w / z0)%C).
  assert (Hw : Cmod w <= r2) by (unfold w, src_at; rewrite <- dist_Cmod by (try exact Hc; apply Hs; exact Hin); apply Hrad; exact Hin).
  assert (Hz0 : D <= Cmod z0) by (unfold z0; rewrite <- dist_Cmod by assumption; exact HD).
  assert (Hy : Cmod y <= r1 / D).
  { apply Cmod_ratio; [lra| |exact Hz0]. rewrite <- dist_Cmod by assumption. exact Hd. }
  assert (Hu : Cmod u <= r2 / D). { apply Cmod_ratio; [lra| |exact Hz0]. rewrite Cmod_opp. exact Hw. }
  assert (Hyu : Cmod y + Cmod u <= (r1 + r2) / D) by (unfold Rdiv in *; lra).
  assert (E : dist (ps_pos s) x = Cmod (z0 - z0 * (y + u))%C).
  { rewrite dist_Cmod by (try exact Hx; apply Hs; exact Hin). f_equal.
    replace (z0 * (y + u))%C with (cplx x - cplx center - w)%C by (unfold y, u; field; exact Hz). unfold z0, w, src_at. ring. }
  assert (Hlt : Cmod (y + u)%C < 1) by (eapply Rle_lt_trans; [apply Cmod_triangle|lra]).
  rewrite E, ln_Cmod_minus.
  2:{ exact Hz. }
  2:{ intros Ez. assert (y + u = RtoC 1)%C. { replace (y + u)%C with ((z0 * (y + u)) / z0)%C by (field; exact Hz). rewrite Ez. field. exact Hz. }
      rewrite H, Cmod_1 in Hlt. lra. }
  replace (z0 * (y + u) / z0)%C with (y + u)%C by (field; exact Hz).
  assert (HM : (p <= bt_max (se_table tb p))%nat) by (rewrite se_table_max; lia).
  pose proof (m2l_error y u p _ Hp HM ((r1 + r2) / D) Hyu (proj2 Hq)) as H.
  unfold trunc_bound. eapply Rle_trans; [|exact H]. right. rewrite <- Rabs_Ropp. f_equal. ring.
Qed.
