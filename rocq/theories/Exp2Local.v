(** Closed forms and errors of the two-dimensional local expansions. *)
From Coq Require Import Reals List Arith Lra Lia Permutation.
From Coquelicot Require Import Complex.
From Verif Require Import Num Outcome Vec Tables CAux TableProofs Expansion2D Exp2Proofs M2LError.
Import ListNotations.
Local Open Scope R_scope.
Local Open Scope C_scope.

(** ** Polynomial evaluation *)
Fixpoint peval (cs : list C) (z : C) : C :=
  match cs with [] => RtoC 0 | a :: r => a + z * peval r z end.
Fixpoint dpeval (cs : list C) (z : C) : C :=
  match cs with [] => RtoC 0 | a :: r => peval r z + z * dpeval r z end.

Lemma le2_pot_loop_peval z cs : forall pw r, le2_pot_loop z pw r cs = r + pw * peval cs z.
Proof. induction cs as [|a cs IH]; intros pw r; simpl; [ring|]. rewrite IH. ring. Qed.
Lemma le2_pot_peval e x : le2_pot e x = Re (peval (se_co e) (cplx x - se_ctr e)).
Proof. unfold le2_pot. rewrite le2_pot_loop_peval. f_equal. ring. Qed.
Lemma le2_force_loop_eval z cs : forall pw r k,
  le2_force_loop z pw r k cs = r + pw * (RtoC (INR k) * peval cs z + z * dpeval cs z).
Proof.
  induction cs as [|a cs IH]; intros pw r k; cbn [le2_force_loop peval dpeval]; [ring|].
  rewrite IH, S_INR, RtoC_plus. ring.
Qed.
Lemma le2_force_dpeval e x : se_co e <> [] ->
  le2_force e x = [(- Re (dpeval (se_co e) (cplx x - se_ctr e)%C))%R; Im (dpeval (se_co e) (cplx x - se_ctr e)%C)].
Proof.
  intros H. unfold le2_force. rewrite le2_force_loop_eval. destruct (se_co e) as [|a r]; [congruence|].
  cbn [tl dpeval]. set (z := cplx x - se_ctr e).
  replace (RtoC 0 + RtoC 1 * (RtoC (INR 1) * peval r z + z * dpeval r z)) with (peval r z + z * dpeval r z).
  - reflexivity.
  - change (INR 1) with 1%R. ring.
Qed.
Lemma peval_map_seq a z n : forall j, Cpow z j * peval (map a (seq j n)) z = lsum (fun k => a k * Cpow z k) (seq j n).
Proof.
  induction n as [|n IH]; intros j; cbn [seq map peval lsum fold_right]; [ring|].
  specialize (IH (S j)). unfold lsum in *. rewrite <- IH. simpl (Cpow z (S j)). ring.
Qed.
Lemma peval_map_seq0 a z n : peval (map a (seq 0 n)) z = lsum (fun k => a k * Cpow z k) (seq 0 n).
Proof. rewrite <- peval_map_seq. simpl. ring. Qed.
Lemma peval_add cs1 : forall cs2 z, length cs1 = length cs2 -> peval (map2 Cplus cs1 cs2) z = peval cs1 z + peval cs2 z.
Proof.
  induction cs1 as [|a r IH]; intros [|b r'] z H; simpl in H; try discriminate; cbn; [ring|].
  unfold map2 in IH. rewrite IH by congruence. ring.
Qed.
Lemma dpeval_add cs1 : forall cs2 z, length cs1 = length cs2 -> dpeval (map2 Cplus cs1 cs2) z = dpeval cs1 z + dpeval cs2 z.
Proof.
  induction cs1 as [|a r IH]; intros [|b r'] z H; simpl in H; try discriminate; cbn; [ring|].
  change (map (fun p : C * C => fst p + snd p) (combine r r')) with (map2 Cplus r r').
  pose proof (peval_add r r' z ltac:(congruence)) as Hp. unfold map2 in *. rewrite Hp, IH by congruence. ring.
Qed.
Lemma peval_zero n z : peval (repeat (RtoC 0) n) z = 0.
Proof. induction n as [|n IH]; simpl; [reflexivity|]. rewrite IH. ring. Qed.

(** ** Shift of a local expansion *)
Fixpoint sweep (s : C) (cs : list C) : list C :=
  match cs with
  | [] => []
  | a :: r => match r with [] => [a] | b :: _ => (a - s * b) :: sweep s r end
  end.
Fixpoint hshift (s : C) (cs : list C) : list C :=
  match cs with [] => [] | a :: r => sweep s (a :: hshift s r) end.

Lemma sweep_length s cs : length (sweep s cs) = length cs.
Proof. induction cs as [|a [|b r] IH]; simpl in *; auto. Qed.
Lemma hshift_length s cs : length (hshift s cs) = length cs.
Proof. induction cs as [|a r IH]; cbn [hshift]; [reflexivity|]. rewrite sweep_length. simpl. congruence. Qed.
Lemma peval_sweep s z cs : peval (sweep s cs) z = peval cs z - s * peval (tl cs) z.
Proof.
  induction cs as [|a r IH]; [simpl; ring|]. destruct r as [|b r]; [simpl; ring|].
  cbn [sweep peval] in *. rewrite IH. cbn [tl peval]. ring.
Qed.
Lemma dpeval_sweep s z cs : dpeval (sweep s cs) z = dpeval cs z - s * dpeval (tl cs) z.
Proof.
  induction cs as [|a r IH]; [simpl; ring|]. destruct r as [|b r]; [simpl; ring|].
  change (sweep s (a :: b :: r)) with ((a - s * b) :: sweep s (b :: r)).
  change (dpeval ((a - s * b) :: sweep s (b :: r)) z) with (peval (sweep s (b :: r)) z + z * dpeval (sweep s (b :: r)) z).
  rewrite IH, peval_sweep. cbn [tl dpeval peval]. ring.
Qed.
Lemma peval_hshift s z cs : peval (hshift s cs) z = peval cs (z - s).
Proof.
  induction cs as [|a r IH]; [reflexivity|]. cbn [hshift]. rewrite peval_sweep. cbn [tl peval]. rewrite IH. ring.
Qed.
Lemma dpeval_hshift s z cs : dpeval (hshift s cs) z = dpeval cs (z - s).
Proof.
  induction cs as [|a r IH]; [reflexivity|]. cbn [hshift]. rewrite dpeval_sweep. cbn [tl dpeval].
  rewrite IH, peval_hshift. ring.
Qed.

(** The code's loops are this recursion. *)
Definition sh_step (s : C) (cs : list C) (k : nat) : outcome (list C) :=
  bind (of_option (nth_error cs k)) (fun a => bind (of_option (nth_error cs (k + 1)%nat)) (fun b => Ok (lset cs k (a - s * b)))).
Lemma sh_step_cons s a cs k : sh_step s (a :: cs) (S k) = omap (cons a) (sh_step s cs k).
Proof.
  unfold sh_step, omap. cbn [nth_error Nat.add].
  destruct (nth_error cs k); cbn [of_option bind]; [|reflexivity].
  destruct (nth_error cs (k + 1)); cbn [of_option bind]; reflexivity.
Qed.
Lemma sh_fold_cons s a l : forall cs, ofold (sh_step s) (map S l) (a :: cs) = omap (cons a) (ofold (sh_step s) l cs).
Proof.
  induction l as [|k l IH]; intros cs; cbn [map ofold]; [reflexivity|].
  rewrite sh_step_cons. unfold omap at 1 2. destruct (sh_step s cs k); cbn [bind]; try reflexivity. apply IH.
Qed.
Lemma sh_sweep s cs : ofold (sh_step s) (seq 0 (length cs - 1)) cs = Ok (sweep s cs).
Proof.
  induction cs as [|a r IH]; [reflexivity|]. destruct r as [|b r]; [reflexivity|].
  replace (length (a :: b :: r) - 1)%nat with (S (length (b :: r) - 1)) by (simpl; lia).
  cbn [seq ofold]. unfold sh_step at 1. cbn [nth_error Nat.add of_option bind lset].
  rewrite <- seq_shift, sh_fold_cons, IH. reflexivity.
Qed.
Lemma ofold_ext {A S} (f g : S -> A -> outcome S) l s : (forall s a, In a l -> f s a = g s a) -> ofold f l s = ofold g l s.
Proof.
  revert s; induction l as [|a l IH]; intros s H; simpl; [reflexivity|].
  rewrite H by (left; reflexivity). destruct (g s a); simpl; try reflexivity. apply IH. intros; apply H; right; assumption.
Qed.

Lemma le2_shift_hshift s cs : cs <> [] -> forall ctr,
  le2_shift (mkse (length cs - 1) ctr cs) s = Ok (hshift s cs).
Proof.
  intros Hne ctr. unfold le2_shift. cbn [se_ord se_co].
  change (fun (cs0 : list C) (j : nat) => ofold (fun cs1 k =>
      bind (of_option (nth_error cs1 k)) (fun a => bind (of_option (nth_error cs1 (k + 1)%nat)) (fun b => Ok (lset cs1 k (a - s * b)))))
      (seq (length cs - 1 - j - 1) (length cs - 1 - (length cs - 1 - j - 1))) cs0)
   with (fun (cs0 : list C) (j : nat) => ofold (sh_step s) (seq (length cs - 1 - j - 1) (length cs - 1 - (length cs - 1 - j - 1))) cs0).
  induction cs as [|a r IH]; [congruence|]. destruct r as [|b r]; [reflexivity|].
  set (p := (length (b :: r) - 1)%nat).
  replace (length (a :: b :: r) - 1)%nat with (S p) by (subst p; simpl; lia).
  assert (Inner : forall l cs0, (forall j, In j l -> (j < p)%nat) ->
     ofold (fun cs1 j => ofold (sh_step s) (seq (S p - j - 1) (S p - (S p - j - 1))) cs1) l (a :: cs0)
     = omap (cons a) (ofold (fun cs1 j => ofold (sh_step s) (seq (p - j - 1) (p - (p - j - 1))) cs1) l cs0)).
  { intros l; induction l as [|j l IHl]; intros cs0 Hj; [reflexivity|].
    cbn [ofold]. assert (j < p)%nat by (apply Hj; left; reflexivity).
    replace (seq (S p - j - 1) (S p - (S p - j - 1))) with (map S (seq (p - j - 1) (p - (p - j - 1)))).
    2:{ rewrite seq_shift. f_equal; lia. }
    rewrite sh_fold_cons. unfold omap at 1 2.
    destruct (ofold (sh_step s) (seq (p - j - 1) (p - (p - j - 1))) cs0); cbn [bind]; try reflexivity.
    apply IHl. intros i Hi. apply Hj. right; exact Hi. }
  rewrite seq_S, ofold_app, Inner by (intros j Hj; apply in_seq in Hj; lia).
  specialize (IH ltac:(discriminate)). fold p in IH. rewrite IH. cbn [omap bind ofold Nat.add].
  replace (S p - p - 1)%nat with 0%nat by lia. rewrite Nat.sub_0_r.
  pose proof (sh_sweep s (a :: hshift s (b :: r))) as H. cbn [length] in H. rewrite hshift_length in H.
  replace (S (length (b :: r)) - 1)%nat with (S p) in H by (subst p; simpl; lia).
  rewrite H. reflexivity.
Qed.

(** An expansion whose vector of coefficients has the size given by its order. *)
Definition wf_se (e : se2) : Prop := length (se_co e) = S (se_ord e).

Theorem le2_l2l_shift tb center inc : wf_se inc -> (1 <= se_ord inc)%nat ->
  le2_l2l tb center inc
  = Ok (mkse (se_ord inc) (cplx center) (hshift (se_ctr inc - cplx center) (se_co inc)), se_table tb (se_ord inc)).
Proof.
  intros Hwf Hp. unfold le2_l2l. destruct (Nat.eqb_spec (se_ord inc) 0); [lia|].
  destruct inc as [p ctr cs]; unfold wf_se in Hwf; cbn [se_ord se_ctr se_co] in *.
  replace p with (length cs - 1)%nat at 1 by lia. rewrite le2_shift_hshift by (destruct cs; discriminate). reflexivity.
Qed.

Theorem l2l_pot center inc x p :
  le2_pot (mkse p (cplx center) (hshift (se_ctr inc - cplx center) (se_co inc))) x = le2_pot inc x.
Proof.
  rewrite !le2_pot_peval. cbn [se_co se_ctr]. rewrite peval_hshift. f_equal. f_equal. ring.
Qed.
Theorem l2l_force center inc x p : se_co inc <> [] ->
  le2_force (mkse p (cplx center) (hshift (se_ctr inc - cplx center) (se_co inc))) x = le2_force inc x.
Proof.
  intros H. rewrite (le2_force_dpeval inc) by exact H. rewrite le2_force_dpeval.
  - cbn [se_co se_ctr]. rewrite dpeval_hshift.
    replace (cplx x - cplx center - (se_ctr inc - cplx center)) with (cplx x - se_ctr inc) by ring. reflexivity.
  - cbn [se_co]. destruct (se_co inc); [congruence|]. intros E. apply (f_equal (@length C)) in E.
    rewrite hshift_length in E. discriminate.
Qed.

(** ** Local expansion of sources *)
Lemma cdiv_ok a z : z <> RtoC 0 -> cdiv a z = Ok (a / z).
Proof. intros H. unfold cdiv. destruct (Ceq_dec z (RtoC 0)); [contradiction|reflexivity]. Qed.
Definition clogv (z : C) : C := (ln (Cmod z), atan2 (snd z) (fst z)).
Lemma clog_ok z : z <> RtoC 0 -> clog z = Ok (clogv z).
Proof. intros H. unfold clog. destruct (Ceq_dec z (RtoC 0)); [contradiction|reflexivity]. Qed.
Lemma Copp_nz (z : C) : z <> RtoC 0 -> - z <> RtoC 0.
Proof. intros H E. apply H. replace z with (- - z) by ring. rewrite E. ring. Qed.
Lemma Re_clogv z : Re (clogv z) = ln (Cmod z).
Proof. reflexivity. Qed.

Definition le_coef (ctr : C) (srcs : list (psrc R)) (j : nat) : C :=
  match j with
  | O => lsum (fun s => RtoC (ps_q s) * clogv (- src_at ctr s)) srcs
  | S _ => - lsum (fun s => RtoC (ps_q s) * Cpow (/ src_at ctr s) j) srcs / RtoC (INR j)
  end.

Lemma le2_acc_spec q w j n (f : nat -> C) : w <> RtoC 0 ->
  le2_acc q w (Cpow (/ w) j) (map f (seq j n)) = map (fun i => f i - RtoC q * Cpow (/ w) i) (seq j n).
Proof.
  intros Hw. revert j; induction n as [|n IH]; intros j; simpl; [reflexivity|]. f_equal.
  replace (Cpow (/ w) j / w) with (Cpow (/ w) (S j)) by (simpl; field; exact Hw). apply IH.
Qed.

Lemma le2_fold ctr p srcs : (forall s, In s srcs -> src_at ctr s <> RtoC 0) -> forall pre,
  ofold (le2_add_source ctr) srcs
    (map (fun j => match j with O => lsum (fun s => RtoC (ps_q s) * clogv (- src_at ctr s)) pre
                   | S _ => - lsum (fun s => RtoC (ps_q s) * Cpow (/ src_at ctr s) j) pre end) (seq 0 (S p)))
  = Ok (map (fun j => match j with O => lsum (fun s => RtoC (ps_q s) * clogv (- src_at ctr s)) (pre ++ srcs)
                   | S _ => - lsum (fun s => RtoC (ps_q s) * Cpow (/ src_at ctr s) j) (pre ++ srcs) end) (seq 0 (S p))).
Proof.
  induction srcs as [|s srcs IH]; intros Hnz pre.
  - rewrite app_nil_r. reflexivity.
  - cbn [ofold]. change (pre ++ s :: srcs) with (pre ++ [s] ++ srcs). rewrite app_assoc.
    rewrite <- (IH ltac:(intros; apply Hnz; right; assumption) (pre ++ [s])).
    assert (Hs : src_at ctr s <> RtoC 0) by (apply Hnz; left; reflexivity).
    unfold le2_add_source. fold (src_at ctr s). rewrite cdiv_ok by exact Hs. cbn [bind].
    rewrite clog_ok by (apply Copp_nz; exact Hs). cbn [bind seq map]. f_equal. f_equal.
    + rewrite lsum_app. cbn [lsum fold_right]. ring.
    + replace (RtoC 1 / src_at ctr s) with (Cpow (/ src_at ctr s) 1) by (simpl; field; exact Hs).
      rewrite le2_acc_spec by exact Hs. apply map_ext_in. intros j Hj. apply in_seq in Hj. destruct j as [|j]; [lia|].
      rewrite lsum_app. cbn [lsum fold_right]. ring.
Qed.

Theorem le2_sources_coeffs center p srcs : (forall s, In s srcs -> src_at (cplx center) s <> RtoC 0) ->
  le2_sources center p srcs = Ok (mkse p (cplx center) (map (le_coef (cplx center) srcs) (seq 0 (S p)))).
Proof.
  intros Hnz. unfold le2_sources.
  pose proof (le2_fold (cplx center) p srcs Hnz []) as H.
  match type of H with ofold _ _ ?x = _ => assert (E : repeat (RtoC 0) (S p) = x) end.
  { rewrite (repeat_map_seq _ 0). apply map_ext. intros [|j]; cbn; [reflexivity|]. ring. }
  rewrite E, H. cbn [app bind]. f_equal. f_equal. cbn [seq map div_tail]. f_equal.
  rewrite div_from_spec. apply map_ext_in. intros j Hj. apply in_seq in Hj. destruct j as [|j]; [lia|]. reflexivity.
Qed.

(** A source on the expansion centre makes the result non-finite. *)
Theorem le2_sources_singular center p srcs : (exists s, In s srcs /\ src_at (cplx center) s = RtoC 0) ->
  le2_sources center p srcs = NonFinite.
Proof.
  intros [s [Hin Hs]]. unfold le2_sources.
  assert (H : forall cs, ofold (le2_add_source (cplx center)) srcs cs = NonFinite).
  { induction srcs as [|t srcs IH]; intros cs; [destruct Hin|].
    cbn [ofold]. unfold le2_add_source at 1. fold (src_at (cplx center) t).
    destruct (Ceq_dec (src_at (cplx center) t) (RtoC 0)) as [E|E].
    - unfold cdiv. rewrite E. destruct (Ceq_dec (RtoC 0) (RtoC 0)); [reflexivity|congruence].
    - rewrite cdiv_ok by exact E. cbn [bind]. rewrite clog_ok by (apply Copp_nz; exact E). cbn [bind].
      destruct Hin as [->|Hin]; [contradiction|]. destruct cs as [|a r]; cbn [bind]; apply IH; exact Hin. }
  rewrite H. reflexivity.
Qed.

Theorem le2_sources_pot center p srcs x e : le2_sources center p srcs = Ok e ->
  le2_pot e x = rsum (fun s => ps_q s * (ln (Cmod (src_at (cplx center) s))
      - Re (log_poly ((cplx x - cplx center) / src_at (cplx center) s)%C p)))%R srcs
  /\ (forall s, In s srcs -> src_at (cplx center) s <> RtoC 0)
  /\ wf_se e /\ se_ord e = p /\ se_ctr e = cplx center.
Proof.
  intros H.
  assert (Hnz : forall s, In s srcs -> src_at (cplx center) s <> RtoC 0).
  { intros s Hs E. rewrite le2_sources_singular in H; [discriminate|]. exists s. split; assumption. }
  rewrite le2_sources_coeffs in H by exact Hnz.
  assert (He : e = mkse p (cplx center) (map (le_coef (cplx center) srcs) (seq 0 (S p)))) by congruence. subst e. clear H.
  split; [|split; [exact Hnz|split; [|split; reflexivity]]].
  2:{ unfold wf_se; cbn [se_co se_ord]. rewrite map_length, seq_length. reflexivity. }
  rewrite le2_pot_peval. cbn [se_co se_ctr]. set (y := cplx x - cplx center).
  rewrite peval_map_seq0. change (seq 0 (S p)) with (0%nat :: seq 1 p). rewrite lsum_cons.
  unfold le_coef at 1.
  rewrite (lsum_ext _ (fun k => lsum (fun s => RtoC (ps_q s) * (- (Cpow (y / src_at (cplx center) s) k / RtoC (INR k)))) srcs)).
  2:{ intros k Hk. apply in_seq in Hk. destruct k as [|k]; [lia|]. pose proof (CINR_nz (S k) ltac:(lia)) as Hk0.
      unfold le_coef. unfold Cdiv at 1.
      transitivity (lsum (fun s => RtoC (ps_q s) * Cpow (/ src_at (cplx center) s) (S k)) srcs
         * (- / RtoC (INR (S k)) * Cpow y (S k))).
      - ring.
      - rewrite <- lsum_scal_r. apply lsum_ext. intros s _. unfold Cdiv at 2. rewrite Cpow_mult. unfold Cdiv. ring. }
  rewrite lsum_swap, Re_plus, !Re_lsum.
  change (Cpow y 0) with (RtoC 1). rewrite Cmult_1_r, Re_lsum, <- rsum_plus. apply rsum_ext. intros s _.
  rewrite Re_scal, Re_clogv, Cmod_opp, lsum_scal, Re_scal, lsum_opp, Re_opp. unfold log_poly. ring.
Qed.

(** ** Multipole to local *)
Definition m2l_coef (tb : btab) (p : nat) (a : nat -> C) (z0 : C) (l : nat) : C :=
  match l with
  | O => a 0%nat * clogv (- z0) + lsum (fun k => RtoC (sgn_pow k) * a k * Cpow (/ z0) k) (seq 1 p)
  | S _ => (- a 0%nat / RtoC (INR l)
      + lsum (fun k => RtoC (sgn_pow k) * a k * Cpow (/ z0) k * RtoC (tabv (bt_max tb) (l + k - 1) (k - 1))) (seq 1 (p - 1)))
      * Cpow (/ z0) l
  end.

Lemma bt_get_tabv tb n k : bt_ok tb -> (1 <= bt_max tb)%nat -> (k <= n)%nat -> (n <= 2 * bt_max tb)%nat ->
  bt_get tb n k = Ok (tabv (bt_max tb) n k).
Proof.
  intros H H1 Hk Hn. unfold tabv. destruct (Nat.leb_spec n (bt_max tb)) as [L|L].
  - apply (bt_low _ H); assumption.
  - apply (bt_high _ H); assumption.
Qed.

Theorem le2_m2l_coeffs_eq tb p c ctr a : bt_ok tb -> (1 <= p)%nat -> (p <= bt_max tb)%nat -> c - ctr <> RtoC 0 ->
  le2_m2l_coeffs tb ctr (mkse p c (map a (seq 0 (S p)))) = Ok (map (m2l_coef tb p a (c - ctr)) (seq 0 (S p))).
Proof.
  intros Hok Hp HM Hz. unfold le2_m2l_coeffs. cbn [se_ctr se_ord]. set (z0 := c - ctr) in *.
  rewrite cdiv_ok by exact Hz. cbn [bind]. rewrite se_get_map by lia. cbn [bind].
  rewrite clog_ok by (apply Copp_nz; exact Hz). cbn [bind].
  replace (RtoC 1 / z0) with (/ z0) by (field; exact Hz).
  rewrite (ofold_lsum _ (fun k => RtoC (sgn_pow k) * a k * Cpow (/ z0) k)).
  2:{ intros acc k Hk. apply in_seq in Hk. rewrite se_get_map by lia. cbn [bind]. rewrite pow_table_C by lia. reflexivity. }
  cbn [bind]. rewrite (omapM_map _ (m2l_coef tb p a z0)).
  - reflexivity.
  - intros l Hl. apply in_seq in Hl.
    rewrite (ofold_lsum _ (fun k => RtoC (sgn_pow k) * a k * Cpow (/ z0) k * RtoC (tabv (bt_max tb) (l + k - 1) (k - 1)))).
    + cbn [bind]. rewrite pow_table_C by lia. cbn [bind]. destruct l as [|l]; [lia|]. reflexivity.
    + intros acc k Hk. apply in_seq in Hk. rewrite se_get_map by lia. cbn [bind]. rewrite pow_table_C by lia. cbn [bind].
      rewrite bt_get_tabv by (try assumption; lia). reflexivity.
Qed.

Theorem le2_m2l_eq tb p center c a : bt_ok tb -> (1 <= p)%nat -> c - cplx center <> RtoC 0 ->
  le2_m2l tb center (mkse p c (map a (seq 0 (S p))))
  = Ok (mkse p (cplx center) (map (m2l_coef (se_table tb p) p a (c - cplx center)) (seq 0 (S p))), se_table tb p).
Proof.
  intros Hok Hp Hz. unfold le2_m2l. cbn [se_ord]. destruct (Nat.eqb_spec p 0); [lia|].
  rewrite le2_m2l_coeffs_eq; [reflexivity|apply se_table_ok; exact Hok|exact Hp|rewrite se_table_max; lia|exact Hz].
Qed.

Lemma sgn_pow_eq k : sgn_pow k = ((-1) ^ k)%R.
Proof.
  unfold sgn_pow. induction k as [|k IH]; [reflexivity|].
  rewrite Nat.even_succ, <- Nat.negb_even. destruct (Nat.even k); simpl in *; lra.
Qed.

(** The potential of the converted expansion, source by source. *)
Theorem m2l_sources_pot tb p center c srcs x : bt_ok tb -> (1 <= p)%nat -> cplx c - cplx center <> RtoC 0 ->
  exists e, le2_m2l tb center (me2_sources c p srcs) = Ok (e, se_table tb p)
  /\ se_ord e = p /\ se_ctr e = cplx center /\ wf_se e
  /\ le2_pot e x = rsum (fun s => ps_q s * (ln (Cmod (cplx c - cplx center)%C)
        - Re (m2l_poly ((cplx x - cplx center) / (cplx c - cplx center))%C
                       (- src_at (cplx c) s / (cplx c - cplx center))%C p (bt_max (se_table tb p)))))%R srcs.
Proof.
  intros Hok Hp Hz. rewrite me2_sources_map, le2_m2l_eq by assumption.
  eexists. split; [reflexivity|]. cbn [se_ord se_ctr se_co]. split; [reflexivity|]. split; [reflexivity|].
  split; [unfold wf_se; cbn [se_co se_ord]; rewrite map_length, seq_length; reflexivity|].
  rewrite le2_pot_peval. cbn [se_co se_ctr]. set (z0 := cplx c - cplx center) in *. set (y := cplx x - cplx center).
  set (tb' := se_table tb p). set (M := bt_max tb').
  rewrite peval_map_seq0. change (seq 0 (S p)) with (0%nat :: seq 1 p). rewrite lsum_cons.
  set (a := me_coef (cplx c) srcs).
  set (sg := fun s => - src_at (cplx c) s / z0).
  assert (Hak : forall k, (1 <= k)%nat -> RtoC (sgn_pow k) * a k * Cpow (/ z0) k
       = lsum (fun s => RtoC (ps_q s) * (- (Cpow (sg s) k / RtoC (INR k)))) srcs).
  { intros k Hk. destruct k as [|k]; [lia|]. unfold a, me_coef. pose proof (CINR_nz (S k) ltac:(lia)) as Hk0.
    transitivity (lsum (fun s => RtoC (ps_q s) * Cpow (src_at (cplx c) s) (S k)) srcs
       * (- RtoC (sgn_pow (S k)) * Cpow (/ z0) (S k) / RtoC (INR (S k)))).
    - field. exact Hk0.
    - rewrite <- lsum_scal_r. apply lsum_ext. intros s _. unfold sg, Cdiv. rewrite Cpow_mult, Cpow_opp, sgn_pow_eq. ring. }
  assert (Ha0 : a 0%nat = lsum (fun s => RtoC (ps_q s)) srcs) by (unfold a, me_coef; apply RtoC_rsum).
  (* constant term *)
  assert (B0 : m2l_coef tb' p a z0 0 * Cpow y 0
     = lsum (fun s => RtoC (ps_q s) * (clogv (- z0) - lsum (fun k => Cpow (sg s) k / RtoC (INR k)) (seq 1 p))) srcs).
  { unfold m2l_coef. rewrite (lsum_ext _ (fun k => lsum (fun s => RtoC (ps_q s) * (- (Cpow (sg s) k / RtoC (INR k)))) srcs))
      by (intros k Hk; apply in_seq in Hk; apply Hak; lia).
    rewrite lsum_swap, Ha0. simpl (Cpow y 0). rewrite <- lsum_scal_r, Cmult_1_r, <- lsum_plus.
    apply lsum_ext. intros s _. rewrite lsum_scal, lsum_opp. ring. }
  rewrite B0.
  rewrite (lsum_ext (fun k => m2l_coef tb' p a z0 k * Cpow y k)
     (fun l => lsum (fun s => RtoC (ps_q s) * (- (Cpow (y / z0) l / RtoC (INR l)
         + lsum (fun k => RtoC (tabv M (l + k - 1) (k - 1)) * (Cpow (sg s) k / RtoC (INR k)) * Cpow (y / z0) l) (seq 1 (p - 1)))))
       srcs)).
  2:{ intros l Hl. apply in_seq in Hl. destruct l as [|l]; [lia|]. set (m := S l) in *.
      change (m2l_coef tb' p a z0 m) with ((- a 0%nat / RtoC (INR m)
        + lsum (fun k => RtoC (sgn_pow k) * a k * Cpow (/ z0) k * RtoC (tabv M (m + k - 1) (k - 1))) (seq 1 (p - 1))) * Cpow (/ z0) m).
      rewrite (lsum_ext _ (fun k => lsum (fun s => RtoC (ps_q s) * (- (Cpow (sg s) k / RtoC (INR k)) * RtoC (tabv M (m + k - 1) (k - 1)))) srcs)).
      2:{ intros k Hk. apply in_seq in Hk. rewrite Hak by lia. rewrite <- lsum_scal_r. apply lsum_ext. intros; ring. }
      rewrite lsum_swap, Ha0. pose proof (CINR_nz m ltac:(subst m; lia)) as Hm0.
      replace (- lsum (fun s => RtoC (ps_q s)) srcs / RtoC (INR m)) with (lsum (fun s => RtoC (ps_q s) * (- / RtoC (INR m))) srcs)
        by (rewrite lsum_scal_r; field; exact Hm0).
      rewrite <- lsum_plus, <- !lsum_scal_r. apply lsum_ext. intros s _.
      rewrite lsum_scal.
      assert (Ey : Cpow (y / z0) m = Cpow (/ z0) m * Cpow y m).
      { unfold Cdiv. rewrite Cpow_mult. ring. }
      rewrite (lsum_ext (fun k => RtoC (tabv M (m + k - 1) (k - 1)) * (Cpow (sg s) k / RtoC (INR k)) * Cpow (y / z0) m)
        (fun k => (- Cpow (y / z0) m) * (- (Cpow (sg s) k / RtoC (INR k)) * RtoC (tabv M (m + k - 1) (k - 1))))) by (intros; ring).
      rewrite lsum_scal, Ey. field. exact Hm0. }
  rewrite lsum_swap, <- lsum_plus, Re_lsum. apply rsum_ext. intros s _.
  rewrite lsum_scal, <- Cmult_plus_distr_l, Re_scal. f_equal.
  rewrite lsum_opp. unfold m2l_poly. fold (sg s).
  set (A1 := lsum (fun k => Cpow (sg s) k / RtoC (INR k)) (seq 1 p)).
  set (A2 := lsum _ (seq 1 p)).
  replace (clogv (- z0) - A1 + - A2) with (clogv (- z0) - (A1 + A2)) by ring.
  rewrite Re_minus, Re_clogv, Cmod_opp. reflexivity.
Qed.
