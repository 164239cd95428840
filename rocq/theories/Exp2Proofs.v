(** Closed forms of the two-dimensional expansion operations. *)
From Coq Require Import Reals List Arith Lra Lia Permutation.
From Coquelicot Require Import Complex.
From Verif Require Import Num Outcome Vec Tables CAux TableProofs Expansion2D.
Import ListNotations.
Local Open Scope R_scope.
Local Open Scope C_scope.

(** ** Loops that do not fail *)
Lemma ofold_lsum {A} (f : C -> A -> outcome C) (g : A -> C) l z :
  (forall acc a, In a l -> f acc a = Ok (acc + g a)) -> ofold f l z = Ok (z + lsum g l).
Proof.
  revert z; induction l as [|a l IH]; intros z H; simpl.
  - f_equal. ring.
  - rewrite H by (left; reflexivity). simpl. rewrite IH.
    + f_equal. ring.
    + intros acc b Hb. apply H. right; exact Hb.
Qed.
Lemma omapM_map {A B} (f : A -> outcome B) (g : A -> B) l :
  (forall a, In a l -> f a = Ok (g a)) -> omapM f l = Ok (map g l).
Proof.
  induction l as [|a l IH]; intros H; simpl; [reflexivity|].
  rewrite H by (left; reflexivity). simpl. rewrite IH; [reflexivity|]. intros b Hb. apply H. right; exact Hb.
Qed.
Lemma omapM_length {A B} (f : A -> outcome B) l r : omapM f l = Ok r -> length r = length l.
Proof.
  revert r; induction l as [|a l IH]; intros r H; simpl in H.
  - injection H as <-. reflexivity.
  - destruct (f a); simpl in H; try discriminate. destruct (omapM f l) as [bs| | | | |]; simpl in H; try discriminate.
    injection H as <-. simpl. f_equal. apply IH. reflexivity.
Qed.
Lemma nth_error_map_seq {A} (f : nat -> A) n k : (k < n)%nat -> nth_error (map f (seq 0 n)) k = Some (f k).
Proof.
  intros H. rewrite nth_error_map. rewrite (nth_error_nth' _ 0%nat) by (rewrite seq_length; exact H).
  rewrite seq_nth by exact H. reflexivity.
Qed.
Lemma map2_map_seq {A B D} (h : A -> B -> D) (f : nat -> A) (g : nat -> B) a n :
  map2 h (map f (seq a n)) (map g (seq a n)) = map (fun k => h (f k) (g k)) (seq a n).
Proof.
  unfold map2. revert a; induction n as [|n IH]; intros a; simpl; [reflexivity|]. f_equal. apply IH.
Qed.
Lemma map_nth_seq {A} (l : list A) d : l = map (fun k => nth k l d) (seq 0 (length l)).
Proof.
  induction l as [|a l IH]; simpl; [reflexivity|]. f_equal. rewrite <- seq_shift, map_map. exact IH.
Qed.
Lemma repeat_map_seq {A} (x : A) a n : repeat x n = map (fun _ => x) (seq a n).
Proof. revert a; induction n as [|n IH]; intros a; simpl; [reflexivity|]. f_equal. apply IH. Qed.

(** ** The static table *)
Lemma se_table_refresh tb p : se_table tb p = bt_refresh tb p.
Proof.
  unfold se_table, bt_refresh. destruct (Nat.ltb_spec (bt_max tb) p), (Nat.leb_spec p (bt_max tb)); try lia; reflexivity.
Qed.
Lemma se_table_ok tb p : bt_ok tb -> bt_ok (se_table tb p).
Proof. rewrite se_table_refresh. apply bt_refresh_ok. Qed.
Lemma se_table_max tb p : bt_max (se_table tb p) = Nat.max (bt_max tb) p.
Proof. rewrite se_table_refresh. apply bt_refresh_max. Qed.
Lemma se_table_id tb p : (p <= bt_max tb)%nat -> se_table tb p = tb.
Proof. intros H. unfold se_table. destruct (Nat.ltb_spec (bt_max tb) p); [lia|reflexivity]. Qed.

(** ** Coefficients of a multipole expansion of sources *)
Definition src_at (ctr : C) (s : psrc R) : C := cplx (ps_pos s) - ctr.
Definition me_coef (ctr : C) (srcs : list (psrc R)) (j : nat) : C :=
  match j with
  | O => RtoC (rsum (fun s => ps_q s) srcs)
  | S _ => - lsum (fun s => RtoC (ps_q s) * Cpow (src_at ctr s) j) srcs / RtoC (INR j)
  end.

Lemma me2_acc_spec q w j n (f : nat -> C) :
  me2_acc q w (Cpow w j) (map f (seq j n)) = map (fun i => f i - RtoC q * Cpow w i) (seq j n).
Proof.
  revert j; induction n as [|n IH]; intros j; simpl; [reflexivity|]. f_equal.
  replace (Cpow w j * w) with (Cpow w (S j)) by (simpl; ring). apply IH.
Qed.
Lemma div_from_spec j n (f : nat -> C) : div_from j (map f (seq j n)) = map (fun i => f i / RtoC (INR i)) (seq j n).
Proof. revert j; induction n as [|n IH]; intros j; cbn [seq map div_from]; [reflexivity|]. f_equal. apply IH. Qed.

Lemma me2_fold ctr p srcs : forall pre,
  fold_left (me2_add_source ctr) srcs
    (map (fun j => match j with O => RtoC (rsum (fun s => ps_q s) pre)
                   | S _ => - lsum (fun s => RtoC (ps_q s) * Cpow (src_at ctr s) j) pre end) (seq 0 (S p)))
  = map (fun j => match j with O => RtoC (rsum (fun s => ps_q s) (pre ++ srcs))
                   | S _ => - lsum (fun s => RtoC (ps_q s) * Cpow (src_at ctr s) j) (pre ++ srcs) end) (seq 0 (S p)).
Proof.
  induction srcs as [|s srcs IH]; intros pre.
  - rewrite app_nil_r. reflexivity.
  - cbn [fold_left]. change (pre ++ s :: srcs) with (pre ++ [s] ++ srcs). rewrite app_assoc. rewrite <- (IH (pre ++ [s])).
    f_equal. cbn [seq map me2_add_source]. f_equal.
    + rewrite rsum_app, RtoC_plus. f_equal. cbn [rsum fold_right]. f_equal. symmetry. apply Rplus_0_r.
    + pose proof (me2_acc_spec (ps_q s) (src_at ctr s) 1 p) as H. rewrite Cpow_1 in H. unfold src_at in H at 1 2.
      rewrite H. apply map_ext_in. intros j Hj. apply in_seq in Hj. destruct j as [|j]; [lia|].
      rewrite lsum_app. cbn [lsum fold_right]. ring.
Qed.

Theorem me2_sources_coeffs center p srcs :
  se_co (me2_sources center p srcs) = map (me_coef (cplx center) srcs) (seq 0 (S p)).
Proof.
  unfold me2_sources; cbn [se_co].
  pose proof (me2_fold (cplx center) p srcs []) as H.
  assert (E : repeat (RtoC 0) (S p) = map (fun j => match j with
      | O => RtoC (rsum (fun s => ps_q s) (@nil (psrc R)))
      | S _ => - lsum (fun s => RtoC (ps_q s) * Cpow (src_at (cplx center) s) j) (@nil (psrc R)) end) (seq 0 (S p))).
  { rewrite (repeat_map_seq _ 0). apply map_ext. intros [|j]; cbn; [reflexivity|]. ring. }
  rewrite E, H. cbn [app seq map div_tail]. f_equal.
  rewrite div_from_spec. apply map_ext_in. intros j Hj. apply in_seq in Hj. destruct j as [|j]; [lia|]. reflexivity.
Qed.

(** ** Shift of a multipole expansion *)
Definition shift_coef (a : nat -> C) (s : C) (l : nat) : C :=
  match l with
  | O => RtoC (Re (a 0%nat))
  | S _ => - RtoC (Re (a 0%nat)) * Cpow s l / RtoC (INR l)
           + lsum (fun k => a k * Cpow s (l - k) * RtoC (INR (choose (l - 1) (k - 1)))) (seq 1 l)
  end.

Lemma se_get_map p ctr a k : (k <= p)%nat -> se_get (mkse p ctr (map a (seq 0 (S p)))) k = Ok (a k).
Proof. intros H. unfold se_get; cbn [se_co]. rewrite nth_error_map_seq by lia. reflexivity. Qed.

Theorem me2_shift_coeffs tb p ctr a s : bt_ok tb -> (p <= bt_max tb)%nat ->
  me2_shift tb (mkse p ctr (map a (seq 0 (S p)))) s = Ok (map (shift_coef a s) (seq 0 (S p))).
Proof.
  intros Hok Hp. unfold me2_shift. cbn [se_ord]. rewrite se_get_map by lia. cbn [bind].
  rewrite (omapM_map _ (shift_coef a s)).
  - reflexivity.
  - intros l Hl. apply in_seq in Hl. rewrite pow_table_C by lia. cbn [bind].
    rewrite (ofold_lsum _ (fun k => a k * Cpow s (l - k) * RtoC (INR (choose (l - 1) (k - 1))))).
    + destruct l as [|l]; [lia|]. reflexivity.
    + intros acc k Hk. apply in_seq in Hk. rewrite se_get_map by lia. cbn [bind].
      rewrite pow_table_C by lia. cbn [bind]. rewrite (bt_low _ Hok) by lia. reflexivity.
Qed.

Lemma choose_pred_div l k : (1 <= k)%nat -> (k <= l)%nat ->
  (INR (choose (l - 1) (k - 1)) / INR k = INR (choose l k) / INR l)%R.
Proof.
  intros Hk Hl. destruct k as [|k]; [lia|]. destruct l as [|l]; [lia|].
  replace (S l - 1)%nat with l by lia. replace (S k - 1)%nat with k by lia.
  pose proof (choose_absorb l k) as H. apply (f_equal INR) in H. rewrite !mult_INR in H.
  pose proof (INR_S_nz k). pose proof (INR_S_nz l).
  apply (Rmult_eq_reg_l (INR (S k) * INR (S l))); [|apply Rmult_integral_contrapositive; split; assumption].
  transitivity (INR (S l) * INR (choose l k))%R; [field; assumption|]. rewrite <- H. field. assumption.
Qed.

(** Exactness of the shift, for one unit source at [w] (relative to the old centre). *)
Lemma shift_one w s l : (1 <= l)%nat ->
  - Cpow s l / RtoC (INR l)
    + lsum (fun k => - Cpow w k / RtoC (INR k) * Cpow s (l - k) * RtoC (INR (choose (l - 1) (k - 1)))) (seq 1 l)
  = - Cpow (s + w) l / RtoC (INR l).
Proof.
  intros Hl. pose proof (CINR_nz l ltac:(lia)) as Hnz.
  rewrite Cbinomial. change (seq 0 (S l)) with (0%nat :: seq 1 l). rewrite lsum_cons, choose_0, Nat.sub_0_r.
  rewrite (lsum_ext _ (fun k => (- / RtoC (INR l)) * (RtoC (INR (choose l k)) * Cpow s (l - k) * Cpow w k))).
  - rewrite lsum_scal. simpl (Cpow w 0). change (INR 1) with 1%R. field. exact Hnz.
  - intros k Hk. apply in_seq in Hk. pose proof (CINR_nz k ltac:(lia)) as Hk0.
    pose proof (choose_pred_div l k ltac:(lia) ltac:(lia)) as E. apply (f_equal RtoC) in E.
    rewrite !RtoC_div in E by (apply not_0_INR; lia).
    transitivity (- (RtoC (INR (choose (l - 1) (k - 1))) / RtoC (INR k)) * (Cpow s (l - k) * Cpow w k)).
    + field. exact Hk0.
    + rewrite E. field. exact Hnz.
Qed.

Theorem shift_me_coef c c' srcs l :
  shift_coef (me_coef c srcs) (c - c') l = me_coef c' srcs l.
Proof.
  destruct l as [|l]; [reflexivity|].
  unfold shift_coef. set (m := S l). assert (Hm : (1 <= m)%nat) by (subst m; lia).
  change (me_coef c srcs 0) with (RtoC (rsum (fun s => ps_q s) srcs)). rewrite Re_RtoC.
  change (me_coef c' srcs m) with (- lsum (fun s => RtoC (ps_q s) * Cpow (src_at c' s) m) srcs / RtoC (INR m)).
  pose proof (CINR_nz m ltac:(lia)) as Hnz.
  rewrite (lsum_ext _ (fun k => lsum (fun s => RtoC (ps_q s) * (- Cpow (src_at c s) k / RtoC (INR k) * Cpow (c - c') (m - k)
        * RtoC (INR (choose (m - 1) (k - 1))))) srcs)).
  2:{ intros k Hk. apply in_seq in Hk. destruct k as [|k]; [lia|].
      unfold me_coef. set (n := S k) in *. pose proof (CINR_nz n ltac:(subst n; lia)) as Hk0.
      transitivity (lsum (fun s => RtoC (ps_q s) * Cpow (src_at c s) n) srcs
          * (- / RtoC (INR n) * Cpow (c - c') (m - n) * RtoC (INR (choose (m - 1) (n - 1))))).
      - field. exact Hk0.
      - rewrite <- lsum_scal_r. apply lsum_ext. intros s _. field. exact Hk0. }
  rewrite lsum_swap.
  rewrite (lsum_ext _ (fun s => RtoC (ps_q s) * lsum (fun k => - Cpow (src_at c s) k / RtoC (INR k) * Cpow (c - c') (m - k)
        * RtoC (INR (choose (m - 1) (k - 1)))) (seq 1 m))) by (intros; rewrite lsum_scal; reflexivity).
  rewrite RtoC_rsum.
  transitivity (lsum (fun s => RtoC (ps_q s) * (- Cpow (c - c') m / RtoC (INR m)
     + lsum (fun k => - Cpow (src_at c s) k / RtoC (INR k) * Cpow (c - c') (m - k) * RtoC (INR (choose (m - 1) (k - 1)))) (seq 1 m))) srcs).
  - rewrite (lsum_ext (fun s => RtoC (ps_q s) * (_ + _))
      (fun s => RtoC (ps_q s) * (- Cpow (c - c') m / RtoC (INR m)) + RtoC (ps_q s) *
       lsum (fun k => - Cpow (src_at c s) k / RtoC (INR k) * Cpow (c - c') (m - k) * RtoC (INR (choose (m - 1) (k - 1)))) (seq 1 m)))
      by (intros; ring).
    rewrite lsum_plus. f_equal. rewrite lsum_scal_r. field. exact Hnz.
  - rewrite (lsum_ext _ (fun s => (RtoC (ps_q s) * Cpow (src_at c' s) m) * (- / RtoC (INR m)))).
    + rewrite lsum_scal_r. field. exact Hnz.
    + intros s _. rewrite shift_one by exact Hm.
      replace (c - c' + src_at c s) with (src_at c' s) by (unfold src_at; ring). field. exact Hnz.
Qed.

Lemma me2_sources_map center p srcs :
  me2_sources center p srcs = mkse p (cplx center) (map (me_coef (cplx center) srcs) (seq 0 (S p))).
Proof. rewrite <- me2_sources_coeffs. reflexivity. Qed.

(** Shifting an expansion built from sources gives the expansion built at the new centre. *)
Theorem me2_shift_exact tb p center center' srcs : bt_ok tb -> (p <= bt_max tb)%nat ->
  me2_shift tb (me2_sources center p srcs) (cplx center - cplx center') = Ok (se_co (me2_sources center' p srcs)).
Proof.
  intros Hok Hp. rewrite me2_sources_map, me2_shift_coeffs by assumption.
  rewrite me2_sources_coeffs. f_equal. apply map_ext. intros l. apply shift_me_coef.
Qed.

Lemma me_coef_app c s1 s2 j : me_coef c (s1 ++ s2) j = me_coef c s1 j + me_coef c s2 j.
Proof.
  destruct j as [|j]; unfold me_coef.
  - rewrite rsum_app, RtoC_plus. reflexivity.
  - rewrite lsum_app. field. apply CINR_nz. lia.
Qed.

Theorem me2_merge_exact tb center p (parts : list (list R * list (psrc R))) : bt_ok tb -> parts <> [] ->
  me2_merge tb center (map (fun cs => me2_sources (fst cs) p (snd cs)) parts)
  = Ok (me2_sources center p (flat_map snd parts), se_table tb p).
Proof.
  intros Hok Hne. unfold me2_merge. destruct parts as [|c0 parts]; [congruence|].
  cbn [map]. change (me2_sources (fst c0) p (snd c0) :: map (fun cs => me2_sources (fst cs) p (snd cs)) parts)
    with (map (fun cs => me2_sources (fst cs) p (snd cs)) (c0 :: parts)).
  change (se_ord (me2_sources (fst c0) p (snd c0))) with p.
  set (ps := c0 :: parts) in *.
  assert (Hfold : forall pre l,
     ofold (fun cs e => bind (me2_shift (se_table tb p) e (se_ctr e - cplx center))
                (fun sh => if (length sh <? length cs)%nat then UB else Ok (map2 Cplus cs sh)))
        (map (fun cs => me2_sources (fst cs) p (snd cs)) l)
        (map (me_coef (cplx center) pre) (seq 0 (S p)))
     = Ok (map (me_coef (cplx center) (pre ++ flat_map snd l)) (seq 0 (S p)))).
  { intros pre l; revert pre; induction l as [|x l IH]; intros pre.
    - cbn [map ofold flat_map]. rewrite app_nil_r. reflexivity.
    - cbn [map ofold flat_map]. change (se_ctr (me2_sources (fst x) p (snd x))) with (cplx (fst x)).
      rewrite me2_shift_exact; [|apply se_table_ok; exact Hok|rewrite se_table_max; lia].
      cbn [bind]. rewrite me2_sources_coeffs, !map_length, Nat.ltb_irrefl. cbn [bind].
      rewrite map2_map_seq. rewrite app_assoc, <- (IH (pre ++ snd x)). f_equal.
      apply map_ext. intros j. rewrite me_coef_app. reflexivity. }
  assert (E0 : repeat (RtoC 0) (S p) = map (me_coef (cplx center) []) (seq 0 (S p))).
  { rewrite (repeat_map_seq _ 0). apply map_ext. intros [|j]; unfold me_coef; [reflexivity|].
    cbn [lsum fold_right]. field. apply CINR_nz. lia. }
  rewrite E0, Hfold. cbn [bind app]. rewrite me2_sources_map. reflexivity.
Qed.

(** ** Evaluation of a multipole expansion *)
Lemma me2_pot_loop_spec z n : forall j (a : nat -> C) r, z <> RtoC 0 ->
  me2_pot_loop z (Cpow (/ z) j) r (map a (seq j n)) = r + lsum (fun k => a k * Cpow (/ z) k) (seq j n).
Proof.
  induction n as [|n IH]; intros j a r Hz; cbn [seq map me2_pot_loop lsum fold_right]; [ring|].
  replace (Cpow (/ z) j / z) with (Cpow (/ z) (S j)) by (simpl; field; exact Hz).
  rewrite IH by exact Hz. unfold lsum. ring.
Qed.

Theorem me2_pot_eval p ctr a x : let z := cplx x - ctr in z <> RtoC 0 ->
  me2_pot (mkse p ctr (map a (seq 0 (S p)))) x
  = Ok (Re (a 0%nat) * ln (Cmod z) + Re (lsum (fun k => a k * Cpow (/ z) k)%C (seq 1 p)))%R.
Proof.
  intros z Hz. unfold me2_pot. rewrite se_get_map by lia. cbn [bind se_ctr]. fold z.
  unfold clog, cdiv. destruct (Ceq_dec z (RtoC 0)) as [E|E]; [contradiction|]. cbn [bind].
  cbn [se_co seq map tl].
  replace (RtoC 1 / z) with (Cpow (/ z) 1) by (simpl; field; exact Hz).
  rewrite me2_pot_loop_spec by exact Hz. f_equal. rewrite Re_plus. f_equal.
  rewrite Re_scal. reflexivity.
Qed.

(** The potential of a multipole expansion of sources, source by source. *)
Theorem me2_sources_pot center p srcs x : let z := cplx x - cplx center in z <> RtoC 0 ->
  me2_pot (me2_sources center p srcs) x
  = Ok (rsum (fun s => ps_q s * (ln (Cmod z) - Re (log_poly (src_at (cplx center) s / z)%C p)))%R srcs).
Proof.
  intros z Hz. rewrite me2_sources_map, me2_pot_eval by exact Hz. fold z. f_equal.
  change (me_coef (cplx center) srcs 0) with (RtoC (rsum (fun s => ps_q s) srcs)). rewrite Re_RtoC.
  rewrite <- rsum_scal_r.
  rewrite (lsum_ext _ (fun k => lsum (fun s => RtoC (ps_q s) * (- (Cpow (src_at (cplx center) s / z) k / RtoC (INR k)))) srcs)).
  - rewrite lsum_swap, Re_lsum, <- rsum_plus. apply rsum_ext. intros s _. rewrite lsum_scal, Re_scal.
    rewrite lsum_opp, Re_opp. unfold log_poly. ring.
  - intros k Hk. apply in_seq in Hk. destruct k as [|k]; [lia|]. pose proof (CINR_nz (S k) ltac:(lia)) as Hk0.
    unfold me_coef. unfold Cdiv at 1.
    transitivity (lsum (fun s => RtoC (ps_q s) * Cpow (src_at (cplx center) s) (S k)) srcs * (- / RtoC (INR (S k)) * Cpow (/ z) (S k))).
    + ring.
    + rewrite <- lsum_scal_r. apply lsum_ext. intros s _. unfold Cdiv at 2. rewrite Cpow_mult. unfold Cdiv. ring.
Qed.
