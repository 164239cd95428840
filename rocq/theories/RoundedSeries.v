(** Rounding errors of the two-dimensional expansions: multipole expansions. *)
From Coq Require Import Reals List Arith Lra Lia.
From Coquelicot Require Import Complex.
From Verif Require Import Num Outcome Vec Tables CAux TableProofs Expansion2D Exp2Proofs M2LError Exp2Local Fields FieldSpec
  RoundedExpansion2D RoundedComplexSpec ApproxC.
Import ListNotations.
Local Open Scope R_scope.
Arguments Cmod x%C.
Arguments Re z%C.
Arguments Im z%C.
Arguments ap w n%nat x'%C x%C X%R.
Arguments re z%C.
Arguments Cpow z%C n%nat.

Notation nthC k cs := (nth k cs (RtoC 0)).

Lemma real_eq (z : C) : Im z = 0 -> z = RtoC (Re z).
Proof. destruct z as [a b]. unfold Im, Re, RtoC; cbn. intros ->. reflexivity. Qed.
Lemma re_real (z : C) : Im z = 0 -> re z = z.
Proof. intros H. symmetry. apply real_eq. exact H. Qed.
Lemma nth_map2_C (f : C -> C -> C) a b k : (k < length a)%nat -> (k < length b)%nat -> nthC k (map2 f a b) = f (nthC k a) (nthC k b).
Proof.
  revert b k; induction a as [|x a IH]; intros [|y b] [|k] H H'; cbn in *; try lia; [reflexivity|]. apply (IH b k); lia.
Qed.
Lemma map2_length {X Y Z} (f : X -> Y -> Z) a b : length a = length b -> length (map2 f a b) = length a.
Proof. intros H. unfold map2. rewrite map_length, combine_length. lia. Qed.
Lemma nth_error_C cs k : (k < length cs)%nat -> nth_error cs k = Some (nthC k cs).
Proof. intros H. apply nth_error_nth'. exact H. Qed.
Lemma nth_repeat_C n k : nthC k (repeat (RtoC 0) n) = RtoC 0.
Proof. revert k; induction n as [|n IH]; intros [|k]; cbn; auto. Qed.
Lemma nth_map_seq_C (f : nat -> C) a n k : (k < n)%nat -> nthC k (map f (seq a n)) = f (a + k)%nat.
Proof.
  intros H. rewrite (nth_indep _ _ (f 0%nat)) by (rewrite map_length, seq_length; exact H). rewrite map_nth, seq_nth by exact H. reflexivity.
Qed.
Lemma ofold_left {X S} (f : S -> X -> outcome S) (g : S -> X -> S) l : (forall s x, In x l -> f s x = Ok (g s x)) -> forall s, ofold f l s = Ok (fold_left g l s).
Proof.
  intros H s. revert s H; induction l as [|x l IH]; intros s H; cbn [ofold fold_left]; [reflexivity|]. rewrite H by (left; reflexivity). cbn [bind].
  apply IH. intros; apply H; right; assumption.
Qed.
Lemma rsum_const_mul {X} (f : X -> R) c l : rsum (fun x => c * f x) l = c * rsum f l.
Proof. induction l as [|x l IH]; cbn; [ring|]. unfold rsum in IH. rewrite IH. ring. Qed.
Lemma abs_charge_cons s S : abs_charge (s :: S) = Rabs (ps_q s) + abs_charge S.
Proof. reflexivity. Qed.
Lemma abs_charge_app' S T : abs_charge (S ++ T) = abs_charge S + abs_charge T.
Proof. unfold abs_charge. apply rsum_app. Qed.
Lemma abs_charge_pos S : 0 <= abs_charge S.
Proof. apply rsum_nonneg. intros; apply Rabs_pos. Qed.

Lemma abs_le_0 x : Rabs x <= 0 -> x = 0.
Proof. intros H. destruct (Req_dec x 0) as [E|E]; [exact E|]. apply Rabs_pos_lt in E. lra. Qed.
Lemma Forall2_cons_inv {X Y} (P : X -> Y -> Prop) x l y m : Forall2 P (x :: l) (y :: m) -> P x y /\ Forall2 P l m.
Proof. intros H. inversion H. split; assumption. Qed.

Section Series.
Variable w : R.
Hypothesis Hw : 0 <= w <= 1 / 2.
Variable A : carith.
Hypothesis HA : accurate_complex w A.
Variable p : nat.
Notation ap := (ap w).

Lemma ap_eq n x' x X y Y : ap n x' x X -> x = y -> X = Y -> ap n x' y Y.
Proof. intros H <- <-. exact H. Qed.
Lemma ap_zero n : ap n (RtoC 0) (RtoC 0) 0.
Proof. apply ap_exact; [exact Hw|]. rewrite Cmod_0. lra. Qed.
Lemma ap_le n m x' x X : ap n x' x X -> (n <= m)%nat -> ap m x' x X.
Proof. intros H L. eapply ap_weaken; [exact Hw|exact H|exact L|lra]. Qed.

(** ** Powers *)
Lemma gpow_ap z' z r n k : (1 <= k)%nat -> ap k z' z r -> ap (n * S k) (gpow (RtoC 1) (c_mul A) z' n) (Cpow z n) (r ^ n).
Proof.
  intros Hk H. induction n as [|n IH].
  - apply ap_exact; [exact Hw|]. cbn. rewrite Cmod_1. lra.
  - cbn [gpow Cpow pow]. eapply ap_eq; [eapply ap_le; [eapply (op_mul w Hw A HA); [exact IH|exact H]|cbn; lia]|ring|ring].
Qed.
Fixpoint itm (z pw : C) (i : nat) : C := match i with O => pw | S i => itm z (c_mul A pw z) i end.
Lemma itm_ap z' z r j : ap 1 z' z r -> forall i n pw, ap n pw (Cpow z j) (r ^ j) -> ap (n + 2 * i) (itm z' pw i) (Cpow z (j + i)) (r ^ (j + i)).
Proof.
  intros H i. revert j. induction i as [|i IH]; intros j n pw P.
  - rewrite Nat.mul_0_r, !Nat.add_0_r. exact P.
  - cbn [itm]. replace (n + 2 * S i)%nat with (n + 2 + 2 * i)%nat by lia. replace (j + S i)%nat with (S j + i)%nat by lia. apply IH.
    eapply ap_eq; [eapply ap_le; [eapply (op_mul w Hw A HA); [exact P|exact H]|lia]|cbn; ring|cbn; ring].
Qed.
Fixpoint itd (z pw : C) (i : nat) : C := match i with O => pw | S i => itd z (c_div A pw z) i end.
Lemma itd_ap z' z D j : close_norm w z' z -> 0 < D <= Cmod z -> forall i n pw, ap n pw (Cpow (/ z) j) ((/ D) ^ j) ->
  ap (n + 3 * i) (itd z' pw i) (Cpow (/ z) (j + i)) ((/ D) ^ (j + i)).
Proof.
  intros H HD i. revert j. induction i as [|i IH]; intros j n pw P.
  - rewrite Nat.mul_0_r, !Nat.add_0_r. exact P.
  - cbn [itd]. replace (n + 3 * S i)%nat with (n + 3 + 3 * i)%nat by lia. replace (j + S i)%nat with (S j + i)%nat by lia. apply IH.
    eapply ap_eq; [eapply (op_div w Hw A HA); [exact P|exact H|exact HD]|cbn; unfold Cdiv; ring|cbn; unfold Rdiv; ring].
Qed.

Lemma len_acc q z pw cs : length (me2_acc_r A q z pw cs) = length cs.
Proof. revert pw; induction cs as [|a r IH]; intros pw; cbn; [reflexivity|]. rewrite IH. reflexivity. Qed.
Lemma nth_acc q z cs : forall pw i, (i < length cs)%nat -> nthC i (me2_acc_r A q z pw cs) = c_sub A (nthC i cs) (c_scale A q (itm z pw i)).
Proof. induction cs as [|a r IH]; intros pw [|i] H; cbn in *; try lia; [reflexivity|]. apply IH. lia. Qed.
Lemma len_lacc q z pw cs : length (le2_acc_r A q z pw cs) = length cs.
Proof. revert pw; induction cs as [|a r IH]; intros pw; cbn; [reflexivity|]. rewrite IH. reflexivity. Qed.
Lemma nth_lacc q z cs : forall pw i, (i < length cs)%nat -> nthC i (le2_acc_r A q z pw cs) = c_sub A (nthC i cs) (c_scale A q (itd z pw i)).
Proof. induction cs as [|a r IH]; intros pw [|i] H; cbn in *; try lia; [reflexivity|]. apply IH. lia. Qed.
Lemma len_div j cs : length (div_from_r A j cs) = length cs.
Proof. revert j; induction cs as [|a r IH]; intros j; cbn; [reflexivity|]. rewrite IH. reflexivity. Qed.
Lemma nth_div cs : forall j i, (i < length cs)%nat -> nthC i (div_from_r A j cs) = c_divr A (nthC i cs) (INR (j + i)).
Proof.
  induction cs as [|a r IH]; intros j [|i] H; cbn [div_from_r nth length] in *; try lia; [rewrite Nat.add_0_r; reflexivity|].
  rewrite IH by lia. f_equal. f_equal. lia.
Qed.

(** ** Multipole expansions of sources *)
Definition me_close (n : nat) (c : C) (S : list (psrc R)) (r : R) (e : se2) : Prop :=
  se_ord e = p /\ se_ctr e = c /\ length (se_co e) = Datatypes.S p /\ Im (nthC 0 (se_co e)) = 0 /\
  ap n (nthC 0 (se_co e)) (me_coef c S 0) (abs_charge S) /\
  forall k, (1 <= k <= p)%nat -> ap n (nthC k (se_co e)) (me_coef c S k) (abs_charge S * r ^ k / INR k).

Lemma me_close_le n m c S r e : me_close n c S r e -> (n <= m)%nat -> me_close m c S r e.
Proof.
  intros (H1 & H2 & H3 & H4 & H5 & H6) L. do 4 (split; [assumption|]). split; [eapply ap_le; eassumption|]. intros k Hk. eapply ap_le; [apply H6; exact Hk|exact L].
Qed.

Lemma p2m_fold c r S : 0 <= r -> (forall s, In s S -> Cmod (src_at c s) <= r) -> forall pre m cs, (2 * p + 1 <= m)%nat ->
  length cs = Datatypes.S p -> Im (nthC 0 cs) = 0 -> ap m (nthC 0 cs) (RtoC (rsum (fun s => ps_q s) pre)) (abs_charge pre) ->
  (forall j, (1 <= j <= p)%nat -> ap m (nthC j cs) (- lsum (fun s => RtoC (ps_q s) * Cpow (src_at c s) j)%C pre)%C (abs_charge pre * r ^ j)) ->
  let cs' := fold_left (me2_add_source_r A c) S cs in
  length cs' = Datatypes.S p /\ Im (nthC 0 cs') = 0 /\ ap (m + length S) (nthC 0 cs') (RtoC (rsum (fun s => ps_q s) (pre ++ S))) (abs_charge (pre ++ S)) /\
  forall j, (1 <= j <= p)%nat -> ap (m + length S) (nthC j cs') (- lsum (fun s => RtoC (ps_q s) * Cpow (src_at c s) j)%C (pre ++ S))%C (abs_charge (pre ++ S) * r ^ j).
Proof.
  intros Hr. induction S as [|s S IH]; intros HS pre m cs Hm HL HI H0 HJ.
  - cbn [fold_left length]. rewrite app_nil_r, Nat.add_0_r. do 3 (split; [assumption|]). exact HJ.
  - cbn [fold_left length]. change (pre ++ s :: S) with (pre ++ [s] ++ S). rewrite app_assoc.
    replace (m + Datatypes.S (length S))%nat with (Datatypes.S m + length S)%nat by lia.
    destruct cs as [|a cs]; [discriminate|]. cbn [me2_add_source_r]. set (z' := c_sub A (cplx (ps_pos s)) c).
    assert (Z : close_norm w z' (src_at c s)) by (apply (op_diff w Hw A HA)).
    assert (Z1 : ap 1 z' (src_at c s) r) by (apply close_ap; [exact Hw|exact Z|apply HS; left; reflexivity]).
    cbn [nth] in HI, H0. cbn [length] in HL.
    apply IH.
    + intros; apply HS; right; assumption.
    + lia.
    + cbn [length]. rewrite len_acc. exact HL.
    + cbn [nth]. rewrite (proj2 (ac_addr _ _ HA a (ps_q s))). exact HI.
    + cbn [nth]. rewrite rsum_app, abs_charge_app', RtoC_plus. cbn [rsum fold_right]. unfold abs_charge at 2. cbn [rsum fold_right]. rewrite !Rplus_0_r.
      assert (B : ap m (a + RtoC (ps_q s)) (RtoC (rsum (fun s => ps_q s) pre) + RtoC (ps_q s)) (abs_charge pre + Rabs (ps_q s))).
      { apply ap_add; [exact H0|]. apply ap_exact; [exact Hw|]. rewrite Cmod_R. lra. }
      eapply ap_round; [exact Hw|exact B|]. destruct (ac_addr _ _ HA a (ps_q s)) as [E1 E2].
      apply comps_norm; [lra|]. split; [exact E1|]. rewrite E2. unfold Im at 2, Cplus, RtoC; cbn [snd]. rewrite Rplus_0_r. change (snd a) with (Im a).
      unfold close. rewrite HI, Rminus_eq_0, Rabs_R0. lra.
    + intros j Hj. destruct j as [|j]; [lia|]. cbn [nth]. rewrite nth_acc by lia.
      rewrite lsum_app, abs_charge_app'. cbn [lsum fold_right]. unfold abs_charge at 2. cbn [rsum fold_right].
      eapply ap_eq; [eapply (op_sub w Hw A HA)|..].
      * specialize (HJ (Datatypes.S j) Hj). cbn [nth] in HJ. exact HJ.
      * eapply ap_le; [eapply (op_scale w Hw A HA (1 + 2 * j)); apply (itm_ap z' (src_at c s) r 1 Z1 j 1 z')|lia].
        rewrite Cpow_1, pow_1. exact Z1.
      * change (1 + j)%nat with (Datatypes.S j). ring.
      * change (1 + j)%nat with (Datatypes.S j). ring.
Qed.

Lemma nth_repeat0 n k : nthC k (repeat (RtoC 0) n) = RtoC 0.
Proof. apply nth_repeat_C. Qed.

Theorem p2m_close center r S : 0 <= r -> (forall s, In s S -> Cmod (src_at (cplx center) s) <= r) ->
  me_close (2 * p + 2 + length S) (cplx center) S r (me2_sources_r A center p S).
Proof.
  intros Hr HS. assert (F := p2m_fold (cplx center) r S Hr HS [] (2 * p + 1) (repeat (RtoC 0) (Datatypes.S p)) ltac:(lia)).
  cbn zeta in F. rewrite repeat_length in F. specialize (F eq_refl). rewrite nth_repeat0 in F. specialize (F eq_refl).
  destruct F as (L & I & Z & J).
  - apply ap_zero.
  - intros j _. rewrite nth_repeat0. cbn [lsum fold_right]. unfold abs_charge. cbn [rsum fold_right].
    eapply ap_eq; [apply (ap_zero (2 * p + 1))|ring|ring].
  - cbn [app] in *. unfold me2_sources_r, me_close; cbn [se_ord se_ctr se_co]. set (cs := fold_left _ _ _) in *.
    destruct cs as [|a cs]; [discriminate|]. cbn [div_tail_r length nth] in *. rewrite len_div. do 2 (split; [reflexivity|]). do 2 (split; [assumption|]). split.
    + eapply ap_le; [exact Z|lia].
    + intros k Hk. destruct k as [|k]; [lia|]. rewrite nth_div by lia. change (1 + k)%nat with (Datatypes.S k). unfold me_coef.
      assert (0 < INR (Datatypes.S k)) by (apply lt_0_INR; lia).
      eapply ap_le; [eapply (op_divr w Hw A HA); [assumption|apply (J (Datatypes.S k) Hk)]|lia].
Qed.

(** ** Shifts of multipole expansions *)
Lemma Rshift_one x t l : (1 <= l)%nat ->
  t ^ l / INR l + rsum (fun k => INR (choose (l - 1) (k - 1)) * (x ^ k / INR k * t ^ (l - k))) (seq 1 l) = (x + t) ^ l / INR l.
Proof.
  intros Hl. apply RtoC_inj. pose proof (shift_one (RtoC x) (RtoC t) l Hl) as H.
  assert (Nl : INR l <> 0) by (apply not_0_INR; lia).
  rewrite RtoC_plus, RtoC_rsum, !RtoC_div by exact Nl. rewrite <- !Cpow_RtoC, RtoC_plus.
  replace (Cpow (RtoC x + RtoC t) l / RtoC (INR l))%C with (- (- Cpow (RtoC t + RtoC x) l / RtoC (INR l)))%C.
  2:{ rewrite (Cplus_comm (RtoC t)). field. apply CINR_nz. lia. }
  rewrite <- H. rewrite (lsum_ext (fun a => RtoC (INR (choose (l - 1) (a - 1)) * (x ^ a / INR a * t ^ (l - a))))
    (fun k => - (- Cpow (RtoC x) k / RtoC (INR k) * Cpow (RtoC t) (l - k) * RtoC (INR (choose (l - 1) (k - 1)))))%C).
  - rewrite lsum_opp. field. apply CINR_nz. lia.
  - intros k Hk. apply in_seq in Hk. rewrite !RtoC_mult, RtoC_div by (apply not_0_INR; lia). rewrite <- !Cpow_RtoC. field. apply CINR_nz. lia.
Qed.

Lemma choose_bin tb n k : bt_ok tb -> (1 <= bt_max tb)%nat -> (k <= n)%nat -> (n <= bt_max tb)%nat ->
  bin_get A tb n k = Ok (c_bin A n k (INR (choose n k))).
Proof. intros H H1 H2 H3. unfold bin_get. rewrite (bt_low _ H) by assumption. reflexivity. Qed.
Lemma bin_ap n k x : 0 <= x -> ap 1 (RtoC (c_bin A n k x)) (RtoC x) x.
Proof. intros H. eapply ap_eq; [apply close_real; [apply (ac_bin _ _ HA)]|reflexivity|apply Rabs_pos_eq; exact H]. Qed.

Lemma m2m_shift tb n c c' S r t e s' : bt_ok tb -> (p <= bt_max tb)%nat -> me_close n c S r e -> 0 <= r -> close_norm w s' (c - c')%C -> Cmod (c - c') <= t ->
  exists sh, me2_shift_r A tb e s' = Ok sh /\ length sh = Datatypes.S p /\ Im (nthC 0 sh) = 0 /\
    ap n (nthC 0 sh) (me_coef c' S 0) (abs_charge S) /\
    forall l, (1 <= l <= p)%nat -> ap (n + 3 * p + 2) (nthC l sh) (me_coef c' S l) (abs_charge S * (r + t) ^ l / INR l).
Proof.
  intros Hok Hp (E1 & E2 & E3 & E4 & E5 & E6) Hr Hs Ht. unfold me2_shift_r. rewrite E1.
  unfold se_get. rewrite (nth_error_C (se_co e) 0) by lia. cbn [of_option bind].
  set (Q := Re (nthC 0 (se_co e))). set (pw := gpow (RtoC 1) (c_mul A) s').
  assert (PW : forall j, ap (2 * j) (pw j) (Cpow (c - c') j) (t ^ j)).
  { intros j. replace (2 * j)%nat with (j * 2)%nat by lia. apply (gpow_ap s' (c - c')%C t j 1); [lia|]. apply close_ap; [exact Hw|exact Hs|exact Ht]. }
  set (term := fun l k => c_scale A (c_bin A (l - 1) (k - 1) (INR (choose (l - 1) (k - 1)))) (c_mul A (nthC k (se_co e)) (pw (l - k)%nat))).
  set (g := fun l => fold_left (fun acc k => c_add A acc (term l k)) (seq 1 l) (c_divr A (c_scale A (- Q) (pw l)) (INR l))).
  rewrite (omapM_map _ g).
  2:{ intros l Hl. apply in_seq in Hl. rewrite pow_table_get by lia. cbn [bind]. apply (ofold_left _ (fun acc k => c_add A acc (term l k))).
      intros acc k Hk. apply in_seq in Hk. rewrite (nth_error_C (se_co e) k) by lia. cbn [of_option bind].
      rewrite pow_table_get by lia. cbn [bind]. rewrite choose_bin by (try assumption; lia). reflexivity. }
  cbn [bind]. eexists. split; [reflexivity|]. cbn [length]. rewrite map_length, seq_length. split; [reflexivity|]. cbn [nth].
  split; [reflexivity|]. assert (QE : RtoC Q = nthC 0 (se_co e)) by (symmetry; apply real_eq; exact E4). split; [rewrite QE; exact E5|].
  intros l Hl. destruct l as [|l']; [lia|]. rewrite nth_map_seq_C by lia. set (l := (1 + l')%nat) in *. change (Datatypes.S l') with l in *.
  assert (INl : 0 < INR l) by (apply lt_0_INR; lia).
  assert (B : ap (n + 2 * l + 2 + length (seq 1 l)) (g l)
    (RtoC (- rsum (fun s => ps_q s) S) * Cpow (c - c') l / RtoC (INR l)
      + lsum (fun k => RtoC (INR (choose (l - 1) (k - 1))) * (me_coef c S k * Cpow (c - c') (l - k)))%C (seq 1 l))%C
    (abs_charge S * t ^ l / INR l + rsum (fun k => INR (choose (l - 1) (k - 1)) * (abs_charge S * r ^ k / INR k * t ^ (l - k))) (seq 1 l))).
  { unfold g. apply (op_fold w Hw A HA).
    - eapply ap_le; [eapply (op_divr w Hw A HA); [exact INl|]; eapply (op_scale_ap w Hw A HA); [|apply PW]|].
      + assert (O := ap_opp w n _ _ _ E5). replace (RtoC (- Q)) with (- nthC 0 (se_co e))%C by (rewrite RtoC_opp, QE; reflexivity).
        change (me_coef c S 0) with (RtoC (rsum (fun s => ps_q s) S)) in O. rewrite <- RtoC_opp in O. exact O.
      + lia.
    - intros k Hk. apply in_seq in Hk. unfold term. eapply ap_le; [eapply (op_scale_ap w Hw A HA); [apply bin_ap; apply pos_INR|]; eapply (op_mul w Hw A HA); [apply E6; lia|apply PW]|lia]. }
  rewrite seq_length in B. eapply ap_eq; [eapply ap_le; [exact B|lia]|..].
  - rewrite <- (shift_me_coef c c' S l). unfold shift_coef. subst l. cbn [Nat.add].
    change (Re (me_coef c S 0)) with (rsum (fun s => ps_q s) S). rewrite RtoC_opp. f_equal. apply lsum_ext. intros k _. ring.
  - rewrite (rsum_ext _ (fun k => abs_charge S * (INR (choose (l - 1) (k - 1)) * (r ^ k / INR k * t ^ (l - k))))).
    + rewrite rsum_const_mul. pose proof (Rshift_one r t l ltac:(lia)) as X. unfold Rdiv in *. rewrite !Rmult_assoc, <- X. ring.
    + intros k _. unfold Rdiv. ring.
Qed.

Theorem m2m_close tb n center rr (parts : list (C * list (psrc R) * R)) (es : list se2) : bt_ok tb -> (p <= bt_max tb)%nat -> es <> [] ->
  Forall2 (fun q e => me_close n (fst (fst q)) (snd (fst q)) (snd q) e /\ 0 <= snd q /\ snd q + Cmod (fst (fst q) - cplx center) <= rr) parts es ->
  exists e, me2_merge_r A tb center es = Ok (e, tb) /\ me_close (n + 3 * p + 2 + length es) (cplx center) (flat_map (fun q => snd (fst q)) parts) rr e.
Proof.
  intros Hok Hp Hne HF. unfold me2_merge_r. destruct es as [|e0 es0] eqn:Ees; [congruence|]. rewrite <- Ees in HF |- *.
  assert (O : se_ord e0 = p). { rewrite Ees in HF. inversion HF as [|? ? ? ? ((H & _) & _)]. exact H. }
  rewrite O, se_table_id by exact Hp. clear Ees O.
  assert (G : forall es parts, Forall2 (fun q e => me_close n (fst (fst q)) (snd (fst q)) (snd q) e /\ 0 <= snd q /\ snd q + Cmod (fst (fst q) - cplx center) <= rr) parts es ->
    forall pre m cs, (n + 3 * p + 2 <= m)%nat -> length cs = Datatypes.S p -> Im (nthC 0 cs) = 0 ->
      ap m (nthC 0 cs) (me_coef (cplx center) pre 0) (abs_charge pre) ->
      (forall k, (1 <= k <= p)%nat -> ap m (nthC k cs) (me_coef (cplx center) pre k) (abs_charge pre * rr ^ k / INR k)) ->
      exists cs', ofold (fun cs e => bind (me2_shift_r A tb e (c_sub A (se_ctr e) (cplx center))) (fun sh =>
          if (length sh <? length cs)%nat then UB else Ok (map2 (c_add A) cs sh))) es cs = Ok cs' /\
        length cs' = Datatypes.S p /\ Im (nthC 0 cs') = 0 /\
        ap (m + length es) (nthC 0 cs') (me_coef (cplx center) (pre ++ flat_map (fun q => snd (fst q)) parts) 0) (abs_charge (pre ++ flat_map (fun q => snd (fst q)) parts)) /\
        forall k, (1 <= k <= p)%nat -> ap (m + length es) (nthC k cs') (me_coef (cplx center) (pre ++ flat_map (fun q => snd (fst q)) parts) k)
          (abs_charge (pre ++ flat_map (fun q => snd (fst q)) parts) * rr ^ k / INR k)).
  { clear HF Hne es es0 e0 parts. intros es. induction es as [|e es IH]; intros parts HF pre m cs Hm HL HI H0 HK.
    - inversion HF; subst. cbn [ofold flat_map length]. exists cs. rewrite app_nil_r, Nat.add_0_r. split; [reflexivity|]. do 3 (split; [assumption|]). exact HK.
    - destruct parts as [|q parts]; [inversion HF|]. apply Forall2_cons_inv in HF. destruct HF as ((HE & Hr & HT) & HF).
      assert (HC := HE). destruct HC as (_ & Ec & _).
      destruct (m2m_shift tb n (fst (fst q)) (cplx center) (snd (fst q)) (snd q) (Cmod (fst (fst q) - cplx center)) e (c_sub A (se_ctr e) (cplx center))) as (sh & S1 & S2 & S3 & S4 & S5); try assumption.
      { rewrite Ec. apply (op_diff w Hw A HA). } { lra. }
      cbn [ofold flat_map length]. rewrite S1. cbn [bind]. rewrite S2, HL, Nat.ltb_irrefl. cbn [bind].
      rewrite app_assoc. replace (m + Datatypes.S (length es))%nat with (Datatypes.S m + length es)%nat by lia.
      apply (IH parts HF (pre ++ snd (fst q)) (Datatypes.S m)).
      + lia.
      + rewrite map2_length by lia. exact HL.
      + rewrite nth_map2_C by lia. destruct (ac_add _ _ HA (nthC 0 cs) (nthC 0 sh)) as [_ X]. unfold close in X.
        change (Im (nthC 0 cs + nthC 0 sh)) with (Im (nthC 0 cs) + Im (nthC 0 sh)) in X. rewrite HI, S3, Rplus_0_r, Rabs_R0, Rmult_0_r, Rminus_0_r in X.
        apply abs_le_0. exact X.
      + rewrite nth_map2_C by lia. rewrite me_coef_app, abs_charge_app'. apply (op_add w Hw A HA); [exact H0|]. eapply ap_le; [exact S4|lia].
      + intros k Hk. rewrite nth_map2_C by lia. rewrite me_coef_app, abs_charge_app'.
        eapply ap_eq; [apply (op_add w Hw A HA); [apply HK; exact Hk|]|reflexivity|].
        * eapply ap_weaken; [exact Hw|apply S5; exact Hk|lia|]. assert (0 < / INR k) by (apply Rinv_0_lt_compat, lt_0_INR; lia).
          apply Rmult_le_compat_r; [lra|]. apply Rmult_le_compat_l; [apply abs_charge_pos|].
          apply pow_incr. pose proof (Cmod_ge_0 (fst (fst q) - cplx center)%C). split; [|exact HT]. lra.
        * unfold Rdiv. ring. }
  destruct (G es parts HF [] (n + 3 * p + 2)%nat (repeat (RtoC 0) (Datatypes.S p))) as (cs & C1 & C2 & C3 & C4 & C5).
  - lia.
  - apply repeat_length.
  - rewrite nth_repeat_C. reflexivity.
  - rewrite nth_repeat_C. apply ap_zero.
  - intros k Hk. rewrite nth_repeat_C. destruct k as [|k]; [lia|]. unfold me_coef, abs_charge. cbn [lsum rsum fold_right].
    eapply ap_eq; [apply (ap_zero (n + 3 * p + 2))| |unfold Rdiv; ring]. field. apply CINR_nz. lia.
  - rewrite C1. cbn [bind]. eexists. split; [reflexivity|]. cbn [app] in *. do 2 (split; [reflexivity|]). do 3 (split; [assumption|]). exact C5.
Qed.
End Series.
