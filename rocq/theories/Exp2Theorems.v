(** Final forms of the table and two-dimensional expansion theorems. *)
From Coq Require Import Reals List Arith Lra Lia.
From Coquelicot Require Import Complex.
From Verif Require Import Num Outcome Vec VecProofs Tables Expansion2D CAux TableProofs Exp2Proofs M2LError Exp2Local
  Fields FieldSpec FieldProofs Exp2Errors.
Import ListNotations.
Local Open Scope C_scope.

(** ** Power table *)
Theorem pow_table_spec nmax :
  (forall (x : C) n, (n <= nmax)%nat -> pow_get (pow_table (RtoC 1) Cmult x nmax) n = Ok (Cpow x n)) /\
  (forall (x : R) n, (n <= nmax)%nat -> pow_get (pow_table 1%R Rmult x nmax) n = Ok (x ^ n)%R) /\
  (forall (x : C) n, (nmax < n)%nat -> pow_get (pow_table (RtoC 1) Cmult x nmax) n = UB).
Proof.
  split; [|split].
  - intros x n H. apply pow_table_C. exact H.
  - intros x n H. rewrite pow_table_get by exact H. rewrite gpow_R. reflexivity.
  - intros x n H. unfold pow_get. assert (E : nth_error (pow_table (RtoC 1) Cmult x nmax) n = None).
    { apply nth_error_None. unfold pow_table.
      assert (L : forall m u, length (pow_fill Cmult x u m) = m) by (induction m; intros; simpl; [reflexivity|f_equal; apply IHm]).
      rewrite L. lia. }
    rewrite E. reflexivity.
Qed.

(** ** Binomial table *)
(** The shared table after constructing expansions of the given orders, oldest first. *)
Definition table_after (orders : list nat) : btab := fold_left se_table orders bt_init.
Definition max_order (orders : list nat) : nat := fold_right Nat.max 0%nat orders.

Lemma table_after_ok orders : bt_ok (table_after orders).
Proof.
  unfold table_after. assert (H : forall tb, bt_ok tb -> bt_ok (fold_left se_table orders tb)).
  { induction orders as [|p orders IH]; intros tb Hok; [exact Hok|]. cbn [fold_left]. apply IH. apply se_table_ok. exact Hok. }
  apply H. apply bt_init_ok.
Qed.
Lemma table_after_max orders : bt_max (table_after orders) = max_order orders.
Proof.
  unfold table_after. assert (H : forall tb, bt_max (fold_left se_table orders tb) = Nat.max (bt_max tb) (max_order orders)).
  { induction orders as [|p orders IH]; intros tb; cbn [fold_left max_order fold_right]; [lia|].
    rewrite IH, se_table_max. fold (max_order orders). lia. }
  rewrite H. reflexivity.
Qed.
Lemma choose_binomial n k : (k <= n)%nat -> INR (choose n k) = Binomial.C n k.
Proof.
  intros H. pose proof (choose_fact n k H) as E. apply (f_equal INR) in E. rewrite !mult_INR in E. unfold Binomial.C.
  rewrite <- E. field. split; apply INR_fact_neq_0.
Qed.
Theorem binomial_table_spec orders n k : (1 <= max_order orders)%nat -> (k <= n)%nat ->
  ((n <= max_order orders)%nat -> bt_get (table_after orders) n k = Ok (Binomial.C n k)) /\
  ((max_order orders < n <= 2 * max_order orders)%nat -> bt_get (table_after orders) n k = Ok 0%R).
Proof.
  intros Hm Hk. pose proof (table_after_ok orders) as Hok. rewrite <- table_after_max in *. split.
  - intros Hn. rewrite (bt_low _ Hok) by assumption. rewrite choose_binomial by exact Hk. reflexivity.
  - intros Hn. apply (bt_high _ Hok); lia.
Qed.
Theorem binomial_slots n k n' k' : (k <= n)%nat -> (k' <= n')%nat -> bt_index n k = bt_index n' k' -> n = n' /\ k = k'.
Proof. apply bt_index_inj. Qed.

(** ** M2L against the documented coefficients *)
(** Formulas (4.18) and (4.19) cited in local_expansion.hpp 105, 116: [a] are the multipole coefficients, [z0] the
    multipole centre relative to the local centre. *)
Definition documented_b (p : nat) (a : nat -> C) (z0 : C) (l : nat) : C :=
  match l with
  | O => a 0%nat * clogv (- z0) + lsum (fun k => RtoC ((-1) ^ k) * a k / Cpow z0 k) (seq 1 p)
  | S _ => - a 0%nat / (RtoC (INR l) * Cpow z0 l)
      + lsum (fun k => RtoC ((-1) ^ k) * a k / Cpow z0 k * RtoC (Binomial.C (l + k - 1) (k - 1))) (seq 1 p) / Cpow z0 l
  end.
(** What the code computes instead: the term [k] of [b_l] is dropped if [k] is the order or if the binomial coefficient
    lies beyond the largest order [M] constructed so far. *)
Definition computed_b (M p : nat) (a : nat -> C) (z0 : C) (l : nat) : C :=
  match l with
  | O => documented_b p a z0 0
  | S _ => - a 0%nat / (RtoC (INR l) * Cpow z0 l)
      + lsum (fun k => if ((k <? p) && (l + k - 1 <=? M))%nat%bool
                       then RtoC ((-1) ^ k) * a k / Cpow z0 k * RtoC (Binomial.C (l + k - 1) (k - 1)) else RtoC 0) (seq 1 p) / Cpow z0 l
  end.
Lemma Cpow_inv (z : C) n : z <> RtoC 0 -> Cpow (/ z) n = / Cpow z n.
Proof.
  intros Hz. induction n as [|n IH]; simpl; [field; apply C1_nz|]. rewrite IH. field. split; [apply Cpow_nz; exact Hz|exact Hz].
Qed.
Lemma m2l_coef_computed tb p a z0 l : (1 <= p)%nat -> z0 <> RtoC 0 ->
  m2l_coef tb p a z0 l = computed_b (bt_max tb) p a z0 l.
Proof.
  intros Hp Hz. destruct l as [|l].
  - unfold m2l_coef, computed_b, documented_b. f_equal. apply lsum_ext. intros k _. rewrite sgn_pow_eq, Cpow_inv by exact Hz. reflexivity.
  - unfold m2l_coef, computed_b. set (m := S l).
    pose proof (Cpow_nz z0 m Hz) as Hzm. pose proof (CINR_nz m ltac:(subst m; lia)) as Hm.
    replace (seq 1 p) with (seq 1 (p - 1) ++ [p]).
    2:{ replace [p] with [(1 + (p - 1))%nat] by (f_equal; lia). rewrite <- seq_S. f_equal. lia. }
    rewrite lsum_app. cbn [lsum fold_right]. rewrite Nat.ltb_irrefl. cbn [andb].
    rewrite Cpow_inv by exact Hz.
    fold (lsum (fun k => if ((k <? p) && (m + k - 1 <=? bt_max tb))%nat%bool
       then RtoC ((-1) ^ k) * a k / Cpow z0 k * RtoC (Binomial.C (m + k - 1) (k - 1)) else RtoC 0) (seq 1 (p - 1))).
    rewrite (lsum_ext _ (fun k => if ((k <? p) && (m + k - 1 <=? bt_max tb))%nat%bool
       then RtoC ((-1) ^ k) * a k / Cpow z0 k * RtoC (Binomial.C (m + k - 1) (k - 1)) else RtoC 0)).
    + field. split; assumption.
    + intros k Hk. apply in_seq in Hk. destruct (Nat.ltb_spec k p); [|lia]. cbn [andb]. unfold tabv.
      destruct (Nat.leb_spec (m + k - 1) (bt_max tb)) as [L|L].
      * rewrite sgn_pow_eq, Cpow_inv by exact Hz. rewrite choose_binomial by lia. reflexivity.
      * ring.
Qed.
Lemma wf_map e : wf_se e -> e = mkse (se_ord e) (se_ctr e) (map (fun k => nth k (se_co e) (RtoC 0)) (seq 0 (S (se_ord e)))).
Proof.
  intros H. destruct e as [p c cs]; unfold wf_se in H; cbn [se_ord se_ctr se_co] in *. f_equal. rewrite <- H.
  clear. induction cs as [|a cs IH]; [reflexivity|]. cbn [length seq map nth]. f_equal. rewrite <- seq_shift, map_map. exact IH.
Qed.
Theorem m2l_computes orders center inc : wf_se inc -> (1 <= se_ord inc)%nat -> se_ctr inc <> cplx center ->
  le2_m2l (table_after orders) center inc
  = Ok (mkse (se_ord inc) (cplx center)
          (map (computed_b (Nat.max (max_order orders) (se_ord inc)) (se_ord inc) (fun k => nth k (se_co inc) (RtoC 0)) (se_ctr inc - cplx center))
             (seq 0 (S (se_ord inc)))), se_table (table_after orders) (se_ord inc)).
Proof.
  intros Hwf Hp Hc.
  assert (Hz : se_ctr inc - cplx center <> RtoC 0).
  { intros E. apply Hc. replace (se_ctr inc) with (se_ctr inc - cplx center + cplx center) by ring. rewrite E. ring. }
  rewrite (wf_map inc Hwf) at 1. rewrite le2_m2l_eq by (try assumption; apply table_after_ok).
  f_equal. f_equal. f_equal. apply map_ext. intros l. rewrite m2l_coef_computed by assumption.
  rewrite se_table_max, table_after_max. reflexivity.
Qed.
(** Sufficient and, over all coefficients, necessary conditions for the documented values. *)
Theorem m2l_documented orders center inc : wf_se inc -> (1 <= se_ord inc)%nat -> se_ctr inc <> cplx center ->
  nth (se_ord inc) (se_co inc) (RtoC 0) = RtoC 0 ->
  (2 * se_ord inc - 2 <= Nat.max (max_order orders) (se_ord inc))%nat ->
  exists tb', le2_m2l (table_after orders) center inc
  = Ok (mkse (se_ord inc) (cplx center)
          (map (documented_b (se_ord inc) (fun k => nth k (se_co inc) (RtoC 0)) (se_ctr inc - cplx center)) (seq 0 (S (se_ord inc)))), tb').
Proof.
  intros Hwf Hp Hc Ha HM. eexists. rewrite m2l_computes by assumption. do 3 f_equal. apply map_ext_in. intros l Hl. apply in_seq in Hl.
  destruct l as [|l]; [reflexivity|]. unfold computed_b, documented_b. f_equal. f_equal. apply lsum_ext. intros k Hk. apply in_seq in Hk.
  destruct (Nat.ltb_spec k (se_ord inc)) as [L|L].
  - cbn [andb]. destruct (Nat.leb_spec (S l + k - 1) (Nat.max (max_order orders) (se_ord inc))); [reflexivity|lia].
  - cbn [andb]. assert (k = se_ord inc) by lia. subst k. rewrite Ha. unfold Cdiv. ring.
Qed.
(** One unit source at (3,0), multipole centre (2,0), local centre (0,0), order 1: the coefficient [b_1] is not the documented one. *)
Theorem m2l_not_documented : exists e tb',
  le2_m2l (table_after []) [0; 0]%R (me2_sources [2; 0]%R 1 [PSrc [3; 0]%R 1%R]) = Ok (e, tb') /\
  nth 1 (se_co e) (RtoC 0)
  <> documented_b 1 (fun k => nth k (se_co (me2_sources [2; 0]%R 1 [PSrc [3; 0]%R 1%R])) (RtoC 0)) (RtoC 2) 1.
Proof.
  set (inc := me2_sources [2; 0]%R 1 [PSrc [3; 0]%R 1%R]).
  assert (E : inc = mkse 1 (RtoC 2) [RtoC 1; - RtoC 1]).
  { unfold inc, me2_sources. cbn. unfold cplx, vget. cbn [nth ps_pos ps_q]. f_equal.
    assert (E0 : (3%R, 0%R) - (2%R, 0%R) = RtoC 1) by (unfold RtoC, Cminus, Cplus, Copp; simpl; f_equal; ring). f_equal.
    - unfold RtoC, Cplus; simpl; f_equal; ring.
    - rewrite E0. change (INR 1) with 1%R. f_equal. field. apply C1_nz. }
  assert (Ec : cplx [0; 0]%R = RtoC 0) by reflexivity.
  assert (N2 : RtoC 2 <> RtoC 0) by (intros H; apply RtoC_inj in H; lra).
  rewrite E.
  rewrite m2l_computes; [|reflexivity|cbn; lia|cbn [se_ctr]; rewrite Ec; exact N2].
  do 2 eexists. split; [reflexivity|]. cbn [se_co se_ctr se_ord]. rewrite nth_map_seq by lia.
  rewrite Ec. replace (RtoC 2 - RtoC 0) with (RtoC 2) by ring. unfold computed_b, documented_b. cbn [seq lsum fold_right nth Nat.ltb Nat.leb andb].
  replace (Binomial.C (1 + 1 - 1) (1 - 1)) with 1%R by (rewrite <- choose_binomial by lia; reflexivity).
  change (INR 1) with 1%R. simpl ((-1) ^ 1)%R. cbn [Cpow].
  intros H.
  apply (f_equal (fun z => z - (- RtoC 1 / (RtoC 1 * (RtoC 2 * RtoC 1))))) in H.
  assert (H' : RtoC 0 = RtoC (/ 4)).
  { transitivity (- RtoC 1 / (RtoC 1 * (RtoC 2 * RtoC 1)) + (RtoC 0 + RtoC 0) / (RtoC 2 * RtoC 1) - - RtoC 1 / (RtoC 1 * (RtoC 2 * RtoC 1))).
    - field. exact N2.
    - rewrite H. replace (-1 * 1)%R with (-(1))%R by ring. rewrite RtoC_inv by lra. rewrite !RtoC_opp.
      replace (RtoC 4) with (RtoC 2 * RtoC 2) by (rewrite <- RtoC_mult; f_equal; ring). field. exact N2. }
  apply RtoC_inj in H'. lra.
Qed.

(** ** History independence *)
Theorem m2l_history_dependent : exists h1 h2 e1 e2 t1 t2, 
  le2_m2l (table_after h1) [0; 0]%R (me2_sources [2; 0]%R 3 [PSrc [3; 0]%R 1%R]) = Ok (e1, t1) /\
  le2_m2l (table_after h2) [0; 0]%R (me2_sources [2; 0]%R 3 [PSrc [3; 0]%R 1%R]) = Ok (e2, t2) /\
  nth 3 (se_co e1) (RtoC 0) <> nth 3 (se_co e2) (RtoC 0).
Proof.
  exists [], [4%nat].
  set (inc := me2_sources [2; 0]%R 3 [PSrc [3; 0]%R 1%R]).
  assert (Ec : cplx [0; 0]%R = RtoC 0) by reflexivity.
  assert (N2 : RtoC 2 <> RtoC 0) by (intros H; apply RtoC_inj in H; lra).
  assert (Ectr : se_ctr inc = RtoC 2) by reflexivity.
  assert (Ea2 : nth 2 (se_co inc) (RtoC 0) = - RtoC 1 / RtoC 2).
  { unfold inc. rewrite me2_sources_coeffs, nth_map_seq by lia. unfold me_coef. cbn [lsum fold_right ps_q]. change (INR 2) with 2%R.
    unfold src_at. cbn [ps_pos]. replace (cplx [3; 0]%R - cplx [2; 0]%R) with (RtoC 1) by (unfold cplx, vget, RtoC, Cminus, Cplus, Copp; simpl; f_equal; ring).
    cbn [Cpow]. field. exact N2. }
  assert (Hwf : wf_se inc) by (unfold wf_se, inc; rewrite me2_sources_coeffs, map_length, seq_length; reflexivity).
  assert (Ho : (1 <= se_ord inc)%nat) by (change (se_ord inc) with 3%nat; lia).
  assert (Hne : se_ctr inc <> cplx [0; 0]%R) by (rewrite Ectr, Ec; exact N2).
  rewrite !m2l_computes by assumption.
  do 4 eexists. split; [reflexivity|]. split; [reflexivity|]. change (se_ord inc) with 3%nat. cbn [se_co].
  rewrite !nth_map_seq by lia. rewrite Ectr, Ec. replace (RtoC 2 - RtoC 0) with (RtoC 2) by ring.
  cbn [max_order fold_right Nat.max]. unfold computed_b. cbn [seq Nat.ltb Nat.leb Nat.add Nat.sub andb]. cbn [lsum fold_right Nat.ltb Nat.leb Nat.add Nat.sub andb].
  replace (Binomial.C 4 1) with 4%R by (rewrite <- choose_binomial by lia; simpl; ring). rewrite Ea2.
  set (u := RtoC ((-1) ^ 1) * nth 1 (se_co inc) (RtoC 0) / Cpow (RtoC 2) 1 * RtoC (Binomial.C 3 0)).
  set (v := - nth 0 (se_co inc) (RtoC 0) / (RtoC (INR 3) * Cpow (RtoC 2) 3)).
  simpl ((-1) ^ 2)%R. replace (-1 * (-1 * 1))%R with 1%R by ring.
  intros H.
  assert (H' : RtoC 0 = RtoC (- / 16)).
  { pose proof (Cpow_nz (RtoC 2) 3 N2) as N8.
    transitivity ((v + (u + (RtoC 0 + (RtoC 0 + RtoC 0))) / Cpow (RtoC 2) 3) - (v + (u + (RtoC 0 + (RtoC 0 + RtoC 0))) / Cpow (RtoC 2) 3)); [ring|].
    rewrite H at 1. 
    transitivity (- (RtoC 1) / RtoC 2 / Cpow (RtoC 2) 2 * RtoC 4 / Cpow (RtoC 2) 3); [field; repeat split; try exact N8; try exact N2; apply Cpow_nz; exact N2|].
    rewrite RtoC_opp, RtoC_inv by lra. replace (RtoC 16) with (RtoC 2 * RtoC 2 * (RtoC 2 * RtoC 2)) by (rewrite <- !RtoC_mult; f_equal; ring).
    replace (RtoC 4) with (RtoC 2 * RtoC 2) by (rewrite <- RtoC_mult; f_equal; ring). cbn [Cpow]. field. repeat split; try exact N2; apply C1_nz. }
  apply RtoC_inj in H'. lra.
Qed.

Lemma shift_any_table tb e s : bt_ok tb -> wf_se e -> (se_ord e <= bt_max tb)%nat ->
  me2_shift tb e s = Ok (map (shift_coef (fun k => nth k (se_co e) (RtoC 0)) s) (seq 0 (S (se_ord e)))).
Proof. intros Hok Hwf Hp. rewrite (wf_map e Hwf) at 1. apply me2_shift_coeffs; assumption. Qed.
Lemma ofold_ext_in {A S} (f g : S -> A -> outcome S) l : (forall s a, In a l -> f s a = g s a) -> forall s, ofold f l s = ofold g l s.
Proof.
  induction l as [|a l IH]; intros H s; [reflexivity|]. cbn [ofold]. rewrite H by (left; reflexivity).
  destruct (g s a); cbn [bind]; try reflexivity. apply IH. intros; apply H; right; assumption.
Qed.
Theorem merge_history_independent h1 h2 center es :
  (forall e, In e es -> wf_se e /\ (se_ord e <= max_order h1)%nat /\ (se_ord e <= max_order h2)%nat) ->
  omap fst (me2_merge (table_after h1) center es) = omap fst (me2_merge (table_after h2) center es).
Proof.
  intros H. unfold me2_merge. destruct es as [|e0 es]; [reflexivity|].
  rewrite (ofold_ext_in _ (fun cs e => bind (me2_shift (se_table (table_after h2) (se_ord e0)) e (se_ctr e - cplx center))
       (fun sh => if (length sh <? length cs)%nat then UB else Ok (map2 Cplus cs sh)))).
  - destruct (ofold _ _ _); reflexivity.
  - intros cs e He. destruct (H e He) as [Hw [L1 L2]].
    rewrite !shift_any_table; try assumption; try reflexivity; try (apply se_table_ok, table_after_ok);
      rewrite se_table_max, table_after_max; lia.
Qed.
Theorem m2l_history_independent h1 h2 center inc : wf_se inc -> (1 <= se_ord inc)%nat -> se_ctr inc <> cplx center ->
  (se_ord inc <= 2)%nat \/ (2 * se_ord inc - 2 <= max_order h1 /\ 2 * se_ord inc - 2 <= max_order h2)%nat ->
  omap fst (le2_m2l (table_after h1) center inc) = omap fst (le2_m2l (table_after h2) center inc).
Proof.
  intros Hwf Hp Hc HM. rewrite !m2l_computes by assumption. cbn [omap bind fst]. do 2 f_equal.
  apply map_ext_in. intros l Hl. apply in_seq in Hl. destruct l as [|l]; [reflexivity|]. unfold computed_b. f_equal. f_equal.
  apply lsum_ext. intros k Hk. apply in_seq in Hk. destruct (Nat.ltb_spec k (se_ord inc)) as [L|L]; [|reflexivity]. cbn [andb].
  destruct (Nat.leb_spec (S l + k - 1) (Nat.max (max_order h1) (se_ord inc)));
  destruct (Nat.leb_spec (S l + k - 1) (Nat.max (max_order h2) (se_ord inc))); try reflexivity; lia.
Qed.
Theorem l2l_history_independent h1 h2 center inc :
  omap fst (le2_l2l (table_after h1) center inc) = omap fst (le2_l2l (table_after h2) center inc).
Proof. unfold le2_l2l. destruct (se_ord inc =? 0); [reflexivity|]. destruct (le2_shift _ _); reflexivity. Qed.

(** ** Multipole shift *)
Theorem merge_exact orders center p (parts : list (list R * list (psrc R))) : parts <> [] ->
  omap fst (me2_merge (table_after orders) center (map (fun cs => me2_sources (fst cs) p (snd cs)) parts))
  = Ok (me2_sources center p (flat_map snd parts)).
Proof. intros H. rewrite me2_merge_exact by (try exact H; apply table_after_ok). reflexivity. Qed.

(** ** Local shift *)
Theorem l2l_exact orders center inc : wf_se inc -> (1 <= se_ord inc)%nat ->
  exists e tb', le2_l2l (table_after orders) center inc = Ok (e, tb') /\ se_ctr e = cplx center /\ se_ord e = se_ord inc /\ wf_se e /\
    forall x, le2_pot e x = le2_pot inc x /\ le2_force e x = le2_force inc x.
Proof.
  intros Hwf Hp. rewrite le2_l2l_shift by assumption. do 2 eexists. split; [reflexivity|]. split; [reflexivity|]. split; [reflexivity|].
  split; [unfold wf_se; cbn [se_co se_ord]; rewrite hshift_length; exact Hwf|]. intros x. split; [apply l2l_pot|apply l2l_force].
  intros E. unfold wf_se in Hwf. rewrite E in Hwf. discriminate.
Qed.

(** ** Adding expansions *)
Theorem add_guarded a b : (length (se_co a) <> length (se_co b) \/ se_ctr a <> se_ctr b) <-> se_add a b = Throw.
Proof.
  unfold se_add. destruct (Nat.eqb_spec (length (se_co a)) (length (se_co b))) as [E|E]; cbn [negb].
  - destruct (Ceq_dec (se_ctr a) (se_ctr b)); split; intros H; try discriminate; try reflexivity; [tauto|right; assumption].
  - split; intros; [reflexivity|left; exact E].
Qed.
Theorem add_pointwise a b : length (se_co a) = length (se_co b) -> se_ctr a = se_ctr b -> 
  exists e, se_add a b = Ok e /\ se_ctr e = se_ctr a /\ length (se_co e) = length (se_co a) /\
  (forall k, nth k (se_co e) (RtoC 0) = nth k (se_co a) (RtoC 0) + nth k (se_co b) (RtoC 0)) /\
  (forall x, le2_pot e x = (le2_pot a x + le2_pot b x)%R) /\
  (forall x va vb, me2_pot a x = Ok va -> me2_pot b x = Ok vb -> me2_pot e x = Ok (va + vb)%R).
Proof.
  intros HL HC. unfold se_add. rewrite HL, Nat.eqb_refl. cbn [negb]. destruct (Ceq_dec (se_ctr a) (se_ctr b)); [|contradiction].
  eexists. split; [reflexivity|]. cbn [se_ctr se_co]. split; [reflexivity|]. split.
  { unfold map2. rewrite map_length, combine_length. lia. }
  split; [|split].
  - revert HL. generalize (se_co a) (se_co b). intros l. induction l as [|u l IH]; intros [|w l'] HL k; try discriminate.
    + destruct k; simpl; ring.
    + destruct k as [|k]; cbn; [reflexivity|]. apply (IH l'). simpl in HL; congruence.
  - intros x. rewrite !le2_pot_peval. cbn [se_co se_ctr]. rewrite peval_add by exact HL. rewrite HC, Re_plus. reflexivity.
  - intros x va vb Ha Hb. unfold me2_pot in *. cbn [se_ctr]. rewrite <- HC in Hb. set (z := cplx x - se_ctr a) in *. unfold se_get in *. cbn [se_co].
    destruct (se_co a) as [|u l]; [discriminate|]. destruct (se_co b) as [|w l']; [discriminate|].
    cbn [nth_error of_option bind map2 combine map fst snd tl] in *.
    destruct (clog z) as [lg| | | | |]; cbn [bind] in *; try discriminate.
    destruct (cdiv (RtoC 1) z) as [ip| | | | |]; cbn [bind] in *; try discriminate.
    assert (L : forall l l' ip r r', length l = length l' -> me2_pot_loop z ip (r + r') (map2 Cplus l l') = me2_pot_loop z ip r l + me2_pot_loop z ip r' l').
    { induction l0 as [|c l0 IH]; intros [|c' l0'] ip0 r r' E; try discriminate; [reflexivity|]. cbn [map2 combine map fst snd me2_pot_loop].
      fold (map2 Cplus l0 l0'). rewrite <- IH by (simpl in E; congruence). f_equal. ring. }
    assert (Ea : va = Re (me2_pot_loop z ip (RtoC (Re u) * lg) l)) by congruence.
    assert (Eb : vb = Re (me2_pot_loop z ip (RtoC (Re w) * lg) l')) by congruence.
    f_equal. rewrite Ea, Eb, <- Re_plus, <- L by (simpl in HL; congruence). f_equal. f_equal. unfold Re; simpl. rewrite RtoC_plus. ring.
Qed.

(** ** Cases *)
Lemma m2l_case : wf_se (me2_sources [4; 0]%R 5 [PSrc [5; 0]%R 1%R; PSrc [4; 1]%R (-2)%R])
  /\ (1 <= se_ord (me2_sources [4; 0]%R 5 [PSrc [5; 0]%R 1%R; PSrc [4; 1]%R (-2)%R]))%nat
  /\ se_ctr (me2_sources [4; 0]%R 5 [PSrc [5; 0]%R 1%R; PSrc [4; 1]%R (-2)%R]) <> cplx [0; 0]%R.
Proof.
  split; [unfold wf_se; rewrite me2_sources_coeffs, map_length, seq_length; reflexivity|]. split; [cbn; lia|].
  cbn. unfold cplx, vget; cbn. intros H. injection H. lra.
Qed.

(** ** Error bounds with explicit formulas *)
Lemma trunc_bound_eq c p : trunc_bound c p = (c ^ (p + 1) / (INR (p + 1) * (1 - c)))%R.
Proof. unfold trunc_bound. rewrite Nat.add_1_r. reflexivity. Qed.
Local Open Scope R_scope.
Theorem me2_error' center p srcs x rad r : length center = 2%nat -> length x = 2%nat -> same_dim 2 srcs ->
  0 <= rad < r -> (forall s, In s srcs -> dist (ps_pos s) center <= rad) -> r <= dist x center ->
  exists v, me2_pot (me2_sources center p srcs) x = Ok v /\
    Rabs (v - direct_potential 2 true srcs x) <= abs_charge srcs * ((rad / r) ^ (p + 1) / (INR (p + 1) * (1 - rad / r))).
Proof. rewrite <- trunc_bound_eq. apply me2_error. Qed.
Theorem le2_error' center p srcs x rad r : length center = 2%nat -> length x = 2%nat -> same_dim 2 srcs ->
  0 <= rad < r -> (forall s, In s srcs -> r <= dist (ps_pos s) center) -> dist x center <= rad ->
  exists e, le2_sources center p srcs = Ok e /\
    Rabs (le2_pot e x - direct_potential 2 true srcs x) <= abs_charge srcs * ((rad / r) ^ (p + 1) / (INR (p + 1) * (1 - rad / r))).
Proof. rewrite <- trunc_bound_eq. apply le2_error. Qed.
Theorem m2l2_error' orders center c p srcs x r1 r2 D : (1 <= p)%nat ->
  length center = 2%nat -> length c = 2%nat -> length x = 2%nat -> same_dim 2 srcs ->
  0 <= r1 -> 0 <= r2 -> r1 + r2 < D -> D <= dist c center ->
  (forall s, In s srcs -> dist (ps_pos s) c <= r2) -> dist x center <= r1 ->
  exists e tb', le2_m2l (table_after orders) center (me2_sources c p srcs) = Ok (e, tb') /\
    Rabs (le2_pot e x - direct_potential 2 true srcs x)
    <= abs_charge srcs * (((r1 + r2) / D) ^ (p + 1) / (INR (p + 1) * (1 - (r1 + r2) / D))).
Proof.
  intros Hp H1 H2 H3 H4 H5 H6 H7 H8 H9 H10. rewrite <- trunc_bound_eq.
  destruct (m2l2_error (table_after orders) center c p srcs x r1 r2 D) as [e [E [_ [_ [_ B]]]]]; try assumption.
  - apply table_after_ok.
  - exists e, (se_table (table_after orders) p). split; assumption.
Qed.
Theorem me2_sources_definition center p srcs :
  se_ord (me2_sources center p srcs) = p /\ se_ctr (me2_sources center p srcs) = cplx center /\
  length (se_co (me2_sources center p srcs)) = S p /\
  nth 0 (se_co (me2_sources center p srcs)) (RtoC 0) = RtoC (rsum (fun s => ps_q s) srcs) /\
  forall k, (1 <= k <= p)%nat -> nth k (se_co (me2_sources center p srcs)) (RtoC 0)
    = (- lsum (fun s => RtoC (ps_q s) * Cpow (cplx (ps_pos s) - cplx center) k) srcs / RtoC (INR k))%C.
Proof.
  rewrite me2_sources_coeffs, map_length, seq_length. do 3 (split; [reflexivity|]). split; [reflexivity|].
  intros k Hk. rewrite nth_map_seq by lia. destruct k as [|k]; [lia|]. reflexivity.
Qed.
Theorem le2_pot_polynomial e x :
  le2_pot e x = Re (lsum (fun k => nth k (se_co e) (RtoC 0) * Cpow (cplx x - se_ctr e) k) (seq 0 (length (se_co e))))%C.
Proof.
  rewrite le2_pot_peval. f_equal. rewrite <- peval_map_seq0. f_equal. generalize (se_co e). intros l. clear.
  induction l as [|a l IH]; [reflexivity|]. cbn [length seq map nth]. f_equal. rewrite <- seq_shift, map_map. exact IH.
Qed.

Definition unit_pair : list (psrc R) := [PSrc [1; 0] 2; PSrc [0; 1] (-3)].
Lemma dist2 a b c d : dist [a; b] [c; d] = sqrt ((a - c) * (a - c) + (b - d) * (b - d)).
Proof. unfold dist. cbn [length seq rsum fold_right nth]. f_equal. ring. Qed.
Lemma unit_pair_case : length [0; 0] = 2%nat /\ length [4; 0] = 2%nat /\ same_dim 2 unit_pair /\ 0 <= 1 < 4 /\
  (forall s, In s unit_pair -> dist (ps_pos s) [0; 0] <= 1) /\ 4 <= dist [4; 0] [0; 0].
Proof.
  split; [reflexivity|]. split; [reflexivity|]. split; [intros s [<-|[<-|[]]]; reflexivity|]. split; [lra|]. split.
  - intros s [<-|[<-|[]]]; cbn [ps_pos]; rewrite dist2.
    + replace ((1 - 0) * (1 - 0) + (0 - 0) * (0 - 0)) with 1 by ring. rewrite sqrt_1. lra.
    + replace ((0 - 0) * (0 - 0) + (1 - 0) * (1 - 0)) with 1 by ring. rewrite sqrt_1. lra.
  - rewrite dist2. replace ((4 - 0) * (4 - 0) + (0 - 0) * (0 - 0)) with (4 * 4) by ring. rewrite sqrt_square by lra. lra.
Qed.
