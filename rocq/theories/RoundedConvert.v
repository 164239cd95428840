(** Rounding errors of the two-dimensional expansions: local expansions of sources and of multipole expansions. *)
From Coq Require Import Reals List Arith Lra Lia.
From Coquelicot Require Import Complex.
From Verif Require Import Num Outcome Vec VecProofs Tables CAux TableProofs Expansion2D Exp2Proofs M2LError Exp2Local Fields FieldSpec FieldProofs Exp2Errors
  RoundedExpansion2D RoundedComplexSpec ApproxC RoundedSeries RoundedLocal.
Import ListNotations.
Local Open Scope R_scope.
Arguments Cmod x%C.
Arguments Re z%C.
Arguments Im z%C.
Arguments ap w n%nat x'%C x%C X%R.
Arguments re z%C.
Arguments Cpow z%C n%nat.
Arguments peval cs z%C.
Arguments close_norm w z'%C z%C.

Lemma close_norm_opp w z' z : close_norm w z' z -> close_norm w (- z') (- z).
Proof. unfold close_norm. intros H. replace (- z' - - z)%C with (- (z' - z))%C by ring. rewrite !Cmod_opp. exact H. Qed.
Lemma nth_map_seq_R (f : nat -> R) a n k : (k < n)%nat -> nth k (map f (seq a n)) 0 = f (a + k)%nat.
Proof.
  intros H. rewrite (nth_indep _ _ (f 0%nat)) by (rewrite map_length, seq_length; exact H). rewrite map_nth, seq_nth by exact H. reflexivity.
Qed.
Lemma tabv_pos M n k : 0 <= tabv M n k.
Proof. unfold tabv. destruct (n <=? M)%nat; [apply pos_INR|lra]. Qed.
Lemma Rabs_sgn k : Rabs (sgn_pow k) = 1.
Proof. unfold sgn_pow. destruct (Nat.even k); [apply Rabs_R1|]. cbn. unfold Rabs. destruct (Rcase_abs _); lra. Qed.

(** The polynomial that bounds a converted expansion. *)
Definition m2l_polyR (M p : nat) (y s : R) : R :=
  rsum (fun k => s ^ k / INR k) (seq 1 p)
  + rsum (fun l => y ^ l / INR l + rsum (fun k => tabv M (l + k - 1) (k - 1) * (s ^ k / INR k) * y ^ l) (seq 1 (p - 1))) (seq 1 p).
Lemma m2l_polyR_C M p y s : RtoC (m2l_polyR M p y s) = m2l_poly (RtoC y) (RtoC s) p M.
Proof.
  unfold m2l_polyR, m2l_poly. rewrite RtoC_plus, !RtoC_rsum. f_equal; apply lsum_ext; intros k Hk; apply in_seq in Hk.
  - rewrite RtoC_div by (apply not_0_INR; lia). rewrite Cpow_RtoC. reflexivity.
  - rewrite RtoC_plus, RtoC_rsum, RtoC_div by (apply not_0_INR; lia). rewrite Cpow_RtoC. f_equal. apply lsum_ext. intros j Hj. apply in_seq in Hj.
    rewrite !RtoC_mult, RtoC_div by (apply not_0_INR; lia). rewrite Cpow_RtoC. reflexivity.
Qed.
Lemma m2l_polyR_bound M p y s t : (1 <= p)%nat -> (p <= M)%nat -> 0 <= y -> 0 <= s -> y + s <= t -> t < 1 -> m2l_polyR M p y s <= t / (1 - t).
Proof.
  intros Hp HM Hy Hs Ht T1. pose proof (m2l_split (RtoC y) (RtoC s) p M Hp HM) as Sp. rewrite <- m2l_polyR_C in Sp.
  apply (f_equal Re) in Sp. rewrite Re_plus, Re_lsum in Sp. cbn [Re RtoC fst] in Sp.
  assert (P : 0 <= rsum (fun n => Re (lsum (fun k => m2l_G (RtoC y) (RtoC s) p M (n - k)%nat k) (seq 0 (S n)))) (seq 1 (2 * p))).
  { apply rsum_nonneg. intros n _. rewrite Re_lsum. apply rsum_nonneg. intros k _. unfold m2l_G. destruct (m2l_chi p M (n - k) k); [cbn; lra|].
    unfold m2l_T. destruct (n - k + k)%nat as [|j] eqn:E; [cbn; lra|]. rewrite !Cpow_RtoC, <- !RtoC_mult. cbn [Re RtoC fst].
    apply Rmult_le_pos; [apply Rmult_le_pos; [apply pos_INR|left; apply Rinv_0_lt_compat, lt_0_INR; lia]|].
    apply Rmult_le_pos; apply pow_le; assumption. }
  assert (L : Re (log_poly (RtoC y + RtoC s)%C (2 * p)) <= t / (1 - t)).
  { unfold log_poly. rewrite Re_lsum. eapply Rle_trans; [|apply (geom_bound t (2 * p)); lra]. apply rsum_le. intros n Hn. apply in_seq in Hn.
    rewrite <- RtoC_plus, Cpow_RtoC, <- RtoC_div by (apply not_0_INR; lia). cbn [Re RtoC fst]. apply Rmult_le_compat_r; [left; apply Rinv_0_lt_compat, lt_0_INR; lia|].
    apply pow_incr. lra. }
  lra.
Qed.

(** Partial sums of the negative binomial series and of its geometric sum. *)
Lemma negbin s q : 0 <= s < 1 -> forall l, rsum (fun k => INR (choose (l + k) k) * s ^ k) (seq 0 q) <= (/ (1 - s)) ^ S l.
Proof.
  intros Hs. assert (I : 0 < / (1 - s)) by (apply Rinv_0_lt_compat; lra).
  assert (E1 : forall k, choose k k = 1%nat) by (intros k; apply choose_diag).
  induction l as [|l IH].
  - rewrite (rsum_ext _ (fun k => s ^ k)) by (intros k _; cbn [Nat.add]; rewrite E1; cbn [INR]; ring). pose proof (geom_R s q) as G. assert (0 <= s ^ q) by (apply pow_le; lra).
    apply (Rmult_le_reg_l (1 - s)); [lra|]. rewrite G. cbn [pow]. rewrite Rmult_1_r, Rinv_r by lra. lra.
  - assert (G : forall q, (1 - s) * rsum (fun k => INR (choose (S l + k) k) * s ^ k) (seq 0 q) + match q with O => 0 | S q' => INR (choose (S l + q') q') * s ^ q end
      = rsum (fun k => INR (choose (l + k) k) * s ^ k) (seq 0 q)).
    { clear - E1. induction q as [|q IH]; [cbn; ring|]. rewrite !seq_S, !rsum_app. rewrite <- IH. unfold rsum at 2 4. cbn [fold_right]. rewrite !Nat.add_0_l. destruct q as [|q].
      - rewrite !choose_0. cbn [seq pow INR]. ring.
      - change (S l + S q)%nat with (S (l + S q)). rewrite choose_SS. replace (S l + q)%nat with (l + S q)%nat by lia. rewrite plus_INR. cbn [pow]. ring. }
    specialize (G q). apply (Rmult_le_reg_l (1 - s)); [lra|]. change ((/ (1 - s)) ^ S (S l)) with (/ (1 - s) * (/ (1 - s)) ^ S l).
    rewrite <- Rmult_assoc, Rinv_r, Rmult_1_l by lra. eapply Rle_trans; [|exact IH]. rewrite <- G.
    assert (0 <= match q with O => 0 | S q' => INR (choose (S l + q') q') * s ^ q end); [|lra]. destruct q; [lra|]. apply Rmult_le_pos; [apply pos_INR|apply pow_le; lra].
Qed.

Lemma geom_tail v p : 0 <= v < 1 -> rsum (fun k => v ^ k) (seq 1 p) <= v / (1 - v).
Proof.
  intros Hv. pose proof (geom_R v (S p)) as G. change (seq 0 (S p)) with (0%nat :: seq 1 p) in G. change (rsum (fun k => v ^ k) (0%nat :: seq 1 p)) with (v ^ 0 + rsum (fun k => v ^ k) (seq 1 p)) in G.
  cbn [pow] in G. assert (0 <= v ^ p) by (apply pow_le; lra). apply (Rmult_le_reg_l (1 - v)); [lra|].
  replace ((1 - v) * (v / (1 - v))) with v by (field; lra). nra.
Qed.
Lemma choose_shift l k : (1 <= l)%nat -> (1 <= k)%nat -> INR l * INR (choose (l + k - 1) (k - 1)) / INR k = INR (choose (l - 1 + k) k).
Proof.
  intros Hl Hk. assert (Pk : 0 < INR k) by (apply lt_0_INR; lia). apply (Rmult_eq_reg_l (INR k)); [|lra]. unfold Rdiv.
  replace (INR k * (INR l * INR (choose (l + k - 1) (k - 1)) * / INR k)) with (INR l * INR (choose (l + k - 1) (k - 1))) by (field; lra).
  rewrite <- !mult_INR. f_equal. destruct l as [|l], k as [|k]; try lia. replace (S l + S k - 1)%nat with (S (l + k)) by lia. replace (S k - 1)%nat with k by lia. replace (S l - 1 + S k)%nat with (S (l + k)) by lia.
  rewrite choose_absorb. destruct k as [|k]; [rewrite !choose_0; lia|]. set (n := (l + S k)%nat). pose proof (choose_absorb n k) as E. pose proof (choose_SS n k) as E2.
  set (a := choose (S n) (S k)) in *. set (b := choose n k) in *. set (c := choose n (S k)) in *. assert (En : S n = (S l + S k)%nat) by (unfold n; lia).
  rewrite En in *. clearbody a b c. clear - E E2. nia.
Qed.
Lemma m2l_dpoly M p y s t : 0 <= y -> 0 <= s -> y + s <= t -> t < 1 ->
  rsum (fun l => INR l * (1 / INR l + rsum (fun k => tabv M (l + k - 1) (k - 1) * (s ^ k / INR k)) (seq 1 (p - 1))) * y ^ l) (seq 1 p) <= t / (1 - t).
Proof.
  intros Hy Hs Ht T1. set (v := y * / (1 - s)). assert (I : 0 < / (1 - s)) by (apply Rinv_0_lt_compat; lra).
  assert (V0 : 0 <= v) by (apply Rmult_le_pos; lra).
  assert (V1 : v <= t).
  { apply (Rmult_le_reg_r (1 - s)); [lra|]. unfold v. rewrite Rmult_assoc, Rinv_l by lra. nra. }
  apply Rle_trans with (v / (1 - v)).
  2:{ unfold Rdiv. apply Rmult_le_compat; [exact V0|left; apply Rinv_0_lt_compat; lra|exact V1|apply Rinv_le_contravar; lra]. }
  eapply Rle_trans; [|apply (geom_tail v p); lra]. apply rsum_le. intros l Hl. apply in_seq in Hl. assert (Pl : 0 < INR l) by (apply lt_0_INR; lia).
  unfold v. rewrite Rpow_mult_distr, (Rmult_comm (y ^ l)). apply Rmult_le_compat_r; [apply pow_le; exact Hy|].
  destruct l as [|l]; [lia|]. eapply Rle_trans; [|apply (negbin s p ltac:(lra) l)]. destruct p as [|q]; [lia|].
  change (seq 0 (S q)) with (0%nat :: seq 1 q). change (rsum (fun k => INR (choose (l + k) k) * s ^ k) (0%nat :: seq 1 q)) with (INR (choose (l + 0) 0) * s ^ 0 + rsum (fun k => INR (choose (l + k) k) * s ^ k) (seq 1 q)).
  rewrite choose_0, Rmult_plus_distr_l. replace (S q - 1)%nat with q by lia. apply Rplus_le_compat; [cbn [pow]; change (INR 1) with 1; right; field; lra|].
  rewrite <- rsum_const_mul. apply rsum_le. intros k Hk. apply in_seq in Hk. assert (Pk : 0 < INR k) by (apply lt_0_INR; lia).
  pose proof (choose_shift (S l) k ltac:(lia) ltac:(lia)) as C. replace (S l - 1 + k)%nat with (l + k)%nat in C by lia. rewrite <- C.
  assert (T : 0 <= tabv M (S l + k - 1) (k - 1) <= INR (choose (S l + k - 1) (k - 1))).
  { split; [apply tabv_pos|]. unfold tabv. destruct (_ <=? _)%nat; [lra|apply pos_INR]. }
  replace (INR (S l) * (tabv M (S l + k - 1) (k - 1) * (s ^ k / INR k))) with ((INR (S l) * / INR k * s ^ k) * tabv M (S l + k - 1) (k - 1)) by (field; lra).
  replace (INR (S l) * INR (choose (S l + k - 1) (k - 1)) / INR k * s ^ k) with ((INR (S l) * / INR k * s ^ k) * INR (choose (S l + k - 1) (k - 1))) by (field; lra).
  apply Rmult_le_compat_l; [|apply T]. apply Rmult_le_pos; [apply Rmult_le_pos; [lra|left; apply Rinv_0_lt_compat; exact Pk]|apply pow_le; exact Hs].
Qed.

Section Convert.
Variable w : R.
Hypothesis Hw : 0 <= w <= 1 / 2.
Variable A : carith.
Hypothesis HA : accurate_complex w A.
Variable p : nat.
Hypothesis Hp1 : (1 <= p)%nat.
Notation ap := (ap w).
Notation le_close := (le_close w p).

(** A number close to one away from zero is not zero, and the guarded operations succeed. *)
Lemma close_nz z' z D : close_norm w z' z -> 0 < D <= Cmod z -> z' <> RtoC 0.
Proof. intros H HD. destruct (inv_close w Hw z' z D H HD) as [N _]. exact N. Qed.
Lemma cdiv_r_ok a z : z <> RtoC 0 -> cdiv_r A a z = Ok (c_div A a z).
Proof. intros H. unfold cdiv_r. destruct (Ceq_dec z (RtoC 0)); [contradiction|reflexivity]. Qed.
Lemma clog_r_ok z : z <> RtoC 0 -> clog_r A z = Ok (c_log A z).
Proof. intros H. unfold clog_r. destruct (Ceq_dec z (RtoC 0)); [contradiction|reflexivity]. Qed.

(** ** Local expansions of sources *)
Lemma p2l_fold c D L S : 0 < D -> (forall s, In s S -> D <= Cmod (src_at c s) /\ Rabs (ln (Cmod (src_at c s))) <= L) -> forall pre m cs, (3 * p + 2 <= m)%nat ->
  length cs = Datatypes.S p -> ap m (re (nthC 0 cs)) (re (lsum (fun s => RtoC (ps_q s) * clogv (- src_at c s))%C pre)) (abs_charge pre * (L + 1)) ->
  (forall j, (1 <= j <= p)%nat -> ap m (nthC j cs) (- lsum (fun s => RtoC (ps_q s) * Cpow (/ src_at c s) j)%C pre)%C (abs_charge pre * (/ D) ^ j)) ->
  exists cs', ofold (le2_add_source_r A c) S cs = Ok cs' /\
  length cs' = Datatypes.S p /\ ap (m + length S) (re (nthC 0 cs')) (re (lsum (fun s => RtoC (ps_q s) * clogv (- src_at c s))%C (pre ++ S))) (abs_charge (pre ++ S) * (L + 1)) /\
  forall j, (1 <= j <= p)%nat -> ap (m + length S) (nthC j cs') (- lsum (fun s => RtoC (ps_q s) * Cpow (/ src_at c s) j)%C (pre ++ S))%C (abs_charge (pre ++ S) * (/ D) ^ j).
Proof.
  intros HD. induction S as [|s S IH]; intros HS pre m cs Hm HL H0 HJ.
  - cbn [ofold length]. exists cs. rewrite app_nil_r, Nat.add_0_r. split; [reflexivity|]. do 2 (split; [assumption|]). exact HJ.
  - cbn [ofold length]. change (pre ++ s :: S) with (pre ++ [s] ++ S). rewrite app_assoc.
    replace (m + Datatypes.S (length S))%nat with (Datatypes.S m + length S)%nat by lia.
    destruct cs as [|a cs]; [discriminate|]. unfold le2_add_source_r at 1. set (z' := c_sub A (cplx (ps_pos s)) c).
    destruct (HS s (or_introl eq_refl)) as [HD1 HL1].
    assert (Z : close_norm w z' (src_at c s)) by (apply (op_diff w Hw A HA)).
    assert (Nz : z' <> RtoC 0) by (eapply close_nz; [exact Z|split; eassumption]).
    rewrite cdiv_r_ok by exact Nz. cbn [bind]. rewrite clog_r_ok by (apply Copp_nz; exact Nz). cbn [bind].
    cbn [nth] in H0. cbn [length] in HL.
    apply IH.
    + intros; apply HS; right; assumption.
    + lia.
    + cbn [length]. rewrite len_lacc. exact HL.
    + cbn [nth]. rewrite lsum_app, abs_charge_app'. cbn [lsum fold_right]. unfold abs_charge at 2. cbn [rsum fold_right].
      eapply ap_eq; [eapply (op_add_re w Hw A HA); [exact H0|]|..].
      * eapply ap_le; [exact Hw|eapply (op_scale_re w Hw A HA 4); eapply (op_log w Hw A HA (- z')%C (- src_at c s)%C (clogv (- src_at c s)%C) L)|lia].
        -- apply close_norm_opp. exact Z.
        -- rewrite Cmod_opp. lra.
        -- rewrite Cmod_opp. exact HL1.
        -- reflexivity.
      * f_equal. ring.
      * ring.
    + intros j Hj. destruct j as [|j]; [lia|]. cbn [nth]. rewrite nth_lacc by lia.
      rewrite lsum_app, abs_charge_app'. cbn [lsum fold_right]. unfold abs_charge at 2. cbn [rsum fold_right].
      eapply ap_eq; [eapply (op_sub w Hw A HA)|..].
      * specialize (HJ (Datatypes.S j) Hj). cbn [nth] in HJ. exact HJ.
      * eapply ap_le; [exact Hw|eapply (op_scale w Hw A HA (3 + 3 * j)); apply (itd_ap w Hw A HA z' (src_at c s) D 1 Z (conj HD HD1) j 3 (c_div A (RtoC 1) z'))|lia].
        rewrite Cpow_1, pow_1. apply (op_inv w Hw A HA); [exact Z|split; assumption].
      * change (1 + j)%nat with (Datatypes.S j). ring.
      * change (1 + j)%nat with (Datatypes.S j). ring.
Qed.

Definition p2l_major (D L Q : R) : list R := Q * (L + 1) :: map (fun k => Q * (/ D) ^ k / INR k) (seq 1 p).
Theorem p2l_close center D L S : 0 < D -> (forall s, In s S -> D <= Cmod (src_at (cplx center) s) /\ Rabs (ln (Cmod (src_at (cplx center) s))) <= L) ->
  exists e, le2_sources_r A center p S = Ok e /\
  le_close (3 * p + 3 + length S) (cplx center) (map (le_coef (cplx center) S) (seq 0 (Datatypes.S p))) (p2l_major D L (abs_charge S)) e.
Proof.
  intros HD HS. destruct (p2l_fold (cplx center) D L S HD HS [] (3 * p + 2) (repeat (RtoC 0) (Datatypes.S p))) as (cs & E & H1 & H2 & H3).
  - lia.
  - apply repeat_length.
  - rewrite nth_repeat_C. cbn [lsum fold_right]. unfold abs_charge. cbn [rsum fold_right]. eapply ap_eq; [apply (ap_zero w Hw)|reflexivity|ring].
  - intros j _. rewrite nth_repeat_C. cbn [lsum fold_right]. unfold abs_charge. cbn [rsum fold_right]. eapply ap_eq; [apply (ap_zero w Hw)|ring|ring].
  - unfold le2_sources_r. rewrite E. cbn [bind app] in *. eexists. split; [reflexivity|].
    unfold RoundedLocal.le_close; cbn [se_ord se_ctr se_co]. do 2 (split; [reflexivity|]).
    destruct cs as [|a cs]; [discriminate|]. cbn [div_tail_r length] in *. rewrite len_div. split; [exact H1|].
    change (seq 0 (Datatypes.S p)) with (0%nat :: seq 1 p). cbn [map]. unfold p2l_major. cbn [aplr]. split.
    + eapply ap_le; [exact Hw|exact H2|lia].
    + apply (apl_nth w p Hp1); rewrite ?map_length, ?seq_length, ?len_div; try lia. intros k Hk. rewrite nth_div by exact Hk. rewrite nth_map_seq_C, nth_map_seq_R by lia.
      assert (Pk : 0 < INR (1 + k)) by (apply lt_0_INR; lia). specialize (H3 (Datatypes.S k) ltac:(lia)). cbn [nth] in H3. cbn [Nat.add].
      eapply ap_le; [exact Hw|eapply (op_divr w Hw A HA); [exact Pk|exact H3]|lia].
Qed.
Lemma p2l_norm D L Q r t : 0 < D -> 0 <= Q -> 0 <= r <= t * D -> t < 1 -> pevalR (p2l_major D L Q) r <= Q * (L + 1 + t / (1 - t)).
Proof.
  intros HD HQ Hr Ht. unfold p2l_major. rewrite pevalR_cons_seq.
  assert (T : 0 <= r / D <= t).
  { split; [apply Rmult_le_pos; [lra|left; apply Rinv_0_lt_compat; exact HD]|]. apply (Rmult_le_reg_r D); [exact HD|]. unfold Rdiv. rewrite Rmult_assoc, Rinv_l by lra. lra. }
  rewrite (rsum_ext _ (fun k => Q * ((r / D) ^ k / INR k))).
  2:{ intros k _. unfold Rdiv. rewrite Rpow_mult_distr. ring. }
  rewrite rsum_const_mul. pose proof (geom_bound t p ltac:(lra)) as G.
  assert (rsum (fun k => (r / D) ^ k / INR k) (seq 1 p) <= t / (1 - t)).
  { eapply Rle_trans; [|exact G]. apply rsum_le. intros k Hk. apply in_seq in Hk. apply Rmult_le_compat_r; [left; apply Rinv_0_lt_compat, lt_0_INR; lia|]. apply pow_incr. exact T. }
  nra.
Qed.

(** ** Local expansions of multipole expansions *)
Lemma p2l_dnorm D L Q r t : 0 < D -> 0 <= Q -> 0 <= r <= t * D -> t < 1 -> r * dpevalR (p2l_major D L Q) r <= Q * (t / (1 - t)).
Proof.
  intros HD HQ Hr Ht. unfold p2l_major. rewrite dpevalR_cons_seq.
  assert (T : 0 <= r / D <= t).
  { split; [apply Rmult_le_pos; [lra|left; apply Rinv_0_lt_compat; exact HD]|]. apply (Rmult_le_reg_r D); [exact HD|]. unfold Rdiv. rewrite Rmult_assoc, Rinv_l by lra. lra. }
  rewrite (rsum_ext _ (fun k => Q * (r / D) ^ k)).
  2:{ intros k Hk. apply in_seq in Hk. assert (0 < INR k) by (apply lt_0_INR; lia). unfold Rdiv. rewrite Rpow_mult_distr. field; lra. }
  rewrite rsum_const_mul. apply Rmult_le_compat_l; [exact HQ|]. eapply Rle_trans; [|apply (geom_tail t p); lra]. apply rsum_le. intros k _. apply pow_incr. exact T.
Qed.
Definition m2l_major (M : nat) (D L r Q : R) : list R :=
  (Q * (L + 1) + rsum (fun k => Q * r ^ k / INR k * (/ D) ^ k) (seq 1 p))
  :: map (fun l => (Q / INR l + rsum (fun k => tabv M (l + k - 1) (k - 1) * (Q * r ^ k / INR k * (/ D) ^ k)) (seq 1 (p - 1))) * (/ D) ^ l) (seq 1 p).
Theorem m2l_close tb n center c S r D L e : bt_ok tb -> (p <= bt_max tb)%nat -> me_close w p n c S r e ->
  0 < D <= Cmod (c - cplx center) -> Rabs (ln (Cmod (c - cplx center))) <= L ->
  exists e', le2_m2l_r A tb center e = Ok (e', tb) /\
  le_close (n + 9 * p + 4) (cplx center) (map (m2l_coef tb p (me_coef c S) (c - cplx center)%C) (seq 0 (Datatypes.S p)))
    (m2l_major (bt_max tb) D L r (abs_charge S)) e'.
Proof.
  intros Hok HM (E1 & E2 & E3 & E4 & E5 & E6) HD HL. unfold le2_m2l_r. rewrite E1, se_table_id by exact HM. destruct (Nat.eqb_spec p 0); [lia|].
  unfold le2_m2l_coeffs_r. rewrite E1, E2. set (z' := c_sub A c (cplx center)). set (z := (c - cplx center)%C) in *.
  assert (Z : close_norm w z' z) by (apply (op_diff w Hw A HA)).
  assert (Nz : z' <> RtoC 0) by (eapply close_nz; [exact Z|exact HD]).
  rewrite cdiv_r_ok by exact Nz. cbn [bind]. unfold se_get. rewrite (nth_error_C (se_co e) 0) by lia. cbn [of_option bind].
  rewrite clog_r_ok by (apply Copp_nz; exact Nz). cbn [bind].
  set (iz := c_div A (RtoC 1) z'). set (pw := gpow (RtoC 1) (c_mul A) iz). set (Q := abs_charge S) in *.
  assert (PW : forall j, ap (4 * j) (pw j) (Cpow (/ z) j) ((/ D) ^ j)).
  { intros j. replace (4 * j)%nat with (j * 4)%nat by lia. apply (gpow_ap w Hw A HA iz (/ z)%C (/ D) j 3); [lia|]. apply (op_inv w Hw A HA); assumption. }
  set (term := fun k => c_mul A (c_scale A (sgn_pow k) (nthC k (se_co e))) (pw k)).
  assert (TM : forall k, (1 <= k <= p)%nat -> ap (n + 4 * p + 2) (term k) (RtoC (sgn_pow k) * me_coef c S k * Cpow (/ z) k)%C (Q * r ^ k / INR k * (/ D) ^ k)).
  { intros k Hk. unfold term. eapply ap_eq; [eapply ap_le; [exact Hw|eapply (op_mul w Hw A HA); [eapply (op_scale w Hw A HA); apply E6; exact Hk|apply PW]|lia]|reflexivity|].
    rewrite Rabs_sgn. ring. }
  rewrite (ofold_left _ (fun acc k => c_add A acc (term k))).
  2:{ intros acc k Hk. apply in_seq in Hk. rewrite (nth_error_C (se_co e) k) by lia. cbn [of_option bind]. rewrite pow_table_get by lia. reflexivity. }
  cbn [bind]. set (b0 := fold_left _ (seq 1 p) _).
  set (tm2 := fun l k => c_scale A (c_bin A (l + k - 1) (k - 1) (tabv (bt_max tb) (l + k - 1) (k - 1))) (term k)).
  set (g := fun l => c_mul A (fold_left (fun acc k => c_add A acc (tm2 l k)) (seq 1 (p - 1)) (c_divr A (- nthC 0 (se_co e))%C (INR l))) (pw l)).
  rewrite (omapM_map _ g).
  2:{ intros l Hl. apply in_seq in Hl. rewrite (ofold_left _ (fun acc k => c_add A acc (tm2 l k))).
      - cbn [bind]. rewrite pow_table_get by lia. reflexivity.
      - intros acc k Hk. apply in_seq in Hk. rewrite (nth_error_C (se_co e) k) by lia. cbn [of_option bind]. rewrite pow_table_get by lia. cbn [bind].
        unfold bin_get. rewrite bt_get_tabv by (try assumption; lia). reflexivity. }
  cbn [bind]. eexists. split; [reflexivity|]. unfold RoundedLocal.le_close; cbn [se_ord se_ctr se_co]. do 2 (split; [reflexivity|]).
  cbn [length]. rewrite map_length, seq_length. split; [reflexivity|].
  change (seq 0 (Datatypes.S p)) with (0%nat :: seq 1 p). cbn [map]. unfold m2l_major. cbn [aplr].
  assert (I0 : Im (me_coef c S 0) = 0) by reflexivity.
  split.
  - assert (B : ap (n + 4 * p + 5 + length (seq 1 p)) (re b0)
      (re (me_coef c S 0 * clogv (- z) + lsum (fun k => RtoC (sgn_pow k) * me_coef c S k * Cpow (/ z) k)%C (seq 1 p))%C)
      (Q * (L + 1) + rsum (fun k => Q * r ^ k / INR k * (/ D) ^ k) (seq 1 p))).
    { unfold b0. apply (op_fold_re w Hw A HA).
      - eapply ap_le; [exact Hw|eapply (op_mul_re w Hw A HA); [exact E4|exact I0|exact E5|]|].
        + eapply (op_log w Hw A HA (- z')%C (- z)%C (clogv (- z)%C) L); [apply close_norm_opp; exact Z|rewrite Cmod_opp; lra|rewrite Cmod_opp; exact HL|reflexivity].
        + lia.
      - intros k Hk. apply in_seq in Hk. apply ap_re. eapply ap_le; [exact Hw|apply TM; lia|lia]. }
    rewrite seq_length in B. eapply ap_le; [exact Hw|exact B|lia].
  - apply (apl_nth w p Hp1); rewrite ?map_length, ?seq_length; try reflexivity. intros l0 Hl. rewrite !nth_map_seq_C, nth_map_seq_R by lia. set (l := (1 + l0)%nat).
    assert (Pl : 0 < INR l) by (apply lt_0_INR; lia).
    assert (B : ap (n + 4 * p + 4 + length (seq 1 (p - 1))) (fold_left (fun acc k => c_add A acc (tm2 l k)) (seq 1 (p - 1)) (c_divr A (- nthC 0 (se_co e))%C (INR l)))
      (- me_coef c S 0 / RtoC (INR l) + lsum (fun k => RtoC (tabv (bt_max tb) (l + k - 1) (k - 1)) * (RtoC (sgn_pow k) * me_coef c S k * Cpow (/ z) k))%C (seq 1 (p - 1)))%C
      (Q / INR l + rsum (fun k => tabv (bt_max tb) (l + k - 1) (k - 1) * (Q * r ^ k / INR k * (/ D) ^ k)) (seq 1 (p - 1)))).
    { apply (op_fold w Hw A HA).
      - eapply ap_le; [exact Hw|eapply (op_divr w Hw A HA); [exact Pl|apply ap_opp; exact E5]|lia].
      - intros k Hk. apply in_seq in Hk. unfold tm2. eapply ap_le; [exact Hw|eapply (op_scale_ap w Hw A HA); [apply (bin_ap w A HA); apply tabv_pos|apply TM; lia]|lia]. }
    rewrite seq_length in B. unfold g. eapply ap_eq; [eapply ap_le; [exact Hw|eapply (op_mul w Hw A HA); [exact B|apply PW]|lia]|..].
    + unfold m2l_coef, l. cbn [Nat.add]. f_equal. f_equal. apply lsum_ext. intros k _. ring.
    + reflexivity.
Qed.
Lemma m2l_norm M D L r Q r1 t : (p <= M)%nat -> 0 < D -> 0 <= Q -> 0 <= r -> 0 <= r1 -> r1 + r <= t * D -> t < 1 ->
  pevalR (m2l_major M D L r Q) r1 <= Q * (L + 1 + t / (1 - t)).
Proof.
  intros HM HD HQ Hr Hr1 Ht T1. unfold m2l_major. rewrite pevalR_cons_seq.
  pose proof (Rinv_0_lt_compat D HD) as ID.
  assert (E : rsum (fun k => Q * r ^ k / INR k * (/ D) ^ k) (seq 1 p)
     + rsum (fun l => (Q / INR l + rsum (fun k => tabv M (l + k - 1) (k - 1) * (Q * r ^ k / INR k * (/ D) ^ k)) (seq 1 (p - 1))) * (/ D) ^ l * r1 ^ l) (seq 1 p)
     = Q * m2l_polyR M p (r1 / D) (r / D)).
  { unfold m2l_polyR. rewrite Rmult_plus_distr_l, <- !rsum_const_mul. f_equal; apply rsum_ext; intros k _.
    - unfold Rdiv. rewrite Rpow_mult_distr. ring.
    - assert (EY : (r1 / D) ^ k = (/ D) ^ k * r1 ^ k) by (unfold Rdiv; rewrite Rpow_mult_distr; ring).
      rewrite (rsum_ext (fun k0 => tabv M (k + k0 - 1) (k0 - 1) * (Q * r ^ k0 / INR k0 * (/ D) ^ k0)) (fun k0 => (Q * (tabv M (k + k0 - 1) (k0 - 1) * ((r / D) ^ k0 / INR k0)))))
        by (intros j _; unfold Rdiv; rewrite Rpow_mult_distr; ring).
      rewrite rsum_const_mul.
      rewrite (rsum_ext (fun k0 => tabv M (k + k0 - 1) (k0 - 1) * ((r / D) ^ k0 / INR k0) * (r1 / D) ^ k) (fun k0 => (r1 / D) ^ k * (tabv M (k + k0 - 1) (k0 - 1) * ((r / D) ^ k0 / INR k0))))
        by (intros; ring).
      rewrite rsum_const_mul, EY. unfold Rdiv. ring. }
  assert (B : m2l_polyR M p (r1 / D) (r / D) <= t / (1 - t)).
  { apply m2l_polyR_bound; try assumption; unfold Rdiv; try (apply Rmult_le_pos; lra). rewrite <- Rmult_plus_distr_r. apply (Rmult_le_reg_r D); [exact HD|].
    rewrite Rmult_assoc, Rinv_l by lra. lra. }
  assert (Q * m2l_polyR M p (r1 / D) (r / D) <= Q * (t / (1 - t))) by (apply Rmult_le_compat_l; assumption). lra.
Qed.
Lemma m2l_dnorm M D L r Q r1 t : 0 < D -> 0 <= Q -> 0 <= r -> 0 <= r1 -> r1 + r <= t * D -> t < 1 ->
  r1 * dpevalR (m2l_major M D L r Q) r1 <= Q * (t / (1 - t)).
Proof.
  intros HD HQ Hr Hr1 Ht T1. unfold m2l_major. rewrite dpevalR_cons_seq. pose proof (Rinv_0_lt_compat D HD) as ID.
  eapply Rle_trans; [|apply Rmult_le_compat_l; [exact HQ|apply (m2l_dpoly M p (r1 / D) (r / D) t); [apply Rmult_le_pos; lra|apply Rmult_le_pos; lra| |exact T1]]].
  2:{ unfold Rdiv. rewrite <- Rmult_plus_distr_r. apply (Rmult_le_reg_r D); [exact HD|]. rewrite Rmult_assoc, Rinv_l by lra. lra. }
  right. rewrite <- rsum_const_mul. apply rsum_ext. intros l _. replace ((r1 / D) ^ l) with ((/ D) ^ l * r1 ^ l) by (unfold Rdiv; rewrite Rpow_mult_distr; ring).
  rewrite (rsum_ext (fun k0 => tabv M (l + k0 - 1) (k0 - 1) * (Q * r ^ k0 / INR k0 * (/ D) ^ k0)) (fun k0 => (Q * (tabv M (l + k0 - 1) (k0 - 1) * ((r / D) ^ k0 / INR k0)))))
    by (intros j _; unfold Rdiv; rewrite Rpow_mult_distr; ring).
  rewrite rsum_const_mul. unfold Rdiv. ring.
Qed.
End Convert.
