(** Shifts of three-dimensional expansions compose and can be undone. *)
From Coq Require Import Reals List Arith ZArith Lia Lra.
From Coquelicot Require Import Coquelicot.
From Verif Require Import Num Outcome Vec CAux Tables Tables3D Table3DProofs SolidHarmonics Zonal HarmonicBounds Kernel3 Harmonics3D Expansion3D Exp3Loops Exp3Proofs Exp3Theorems
  HarmonicNorms CoefNorms CoefBounds ShiftGroup.
Import ListNotations.
Local Open Scope R_scope.
Local Open Scope C_scope.

Lemma Yr_zero n m : (0 < n)%Z -> Yr (0, 0, 0)%R n m = 0.
Proof.
  intros Hn. replace ((0, 0, 0)%R : P3) with (pscal 0 (0, 0, 0)%R). 2:{ unfold pscal, c1, c2, c3. cbn [fst snd]. rewrite Rmult_0_l. reflexivity. }
  rewrite Yr_scal by lia. rewrite pow_i by lia. ring.
Qed.
Lemma A_00 : A_val 0 0 = 1%R.
Proof. unfold A_val, a_val. cbn. rewrite Rmult_1_r, sqrt_1. field. Qed.
Lemma zrange_one a : zrange a a = [a].
Proof. rewrite zrange_cons by lia. f_equal. apply Table3DProofs.zrange_nil. lia. Qed.
Theorem m2m_zero f j k : (0 <= j)%Z -> (Z.abs k <= j)%Z -> m2m_coef f (0, 0, 0)%R j k = f j k.
Proof.
  intros Hj Hk. unfold m2m_coef. rewrite zrange_cons by lia. rewrite lsum_cons.
  rewrite (lsum_all_zero _ (zrange (0 + 1) j)).
  2:{ intros n Hn. apply in_zrange in Hn. apply lsum_all_zero. intros m _. rewrite Yr_zero by lia. ring. }
  replace (Z.max (- 0) (0 + k - j)) with 0%Z by lia. replace (Z.min 0 (j + k - 0)) with 0%Z by lia. rewrite zrange_one, lsum_cons, lsum_nil.
  rewrite !Z.sub_0_r, A_00. change (- 0)%Z with 0%Z. rewrite Yr_0. replace (exp1 k 0) with 0%Z by (unfold exp1; lia). rewrite Rmult_1_l.
  replace (ipow 0) with (RtoC 1) by reflexivity. field. intros E; apply RtoC_inj in E; exact (A_val_nz j k E).
Qed.
Theorem l2l_zero p f j k : (0 <= j <= p)%Z -> (Z.abs k <= j)%Z -> l2l_coef p f (0, 0, 0)%R j k = f j k.
Proof.
  intros Hj Hk. unfold l2l_coef. rewrite zrange_cons by lia. rewrite lsum_cons.
  rewrite (lsum_all_zero _ (zrange (j + 1) p)).
  2:{ intros n Hn. apply in_zrange in Hn. apply lsum_all_zero. intros m _. rewrite Yr_zero by lia. ring. }
  replace (Z.max (- j) (k + j - j)) with k by lia. replace (Z.min j (k + j - j)) with k by lia. rewrite zrange_one, lsum_cons, lsum_nil.
  rewrite !Z.sub_diag, A_00, Yr_0. replace (exp3 k k) with 0%Z by (unfold exp3; rewrite Z.sub_diag; lia).
  replace (ipow 0) with (RtoC 1) by reflexivity. unfold sg. replace (j + j)%Z with (2 * j)%Z by lia. rewrite Z.odd_mul. cbn [Z.odd andb].
  unfold Rdiv. rewrite Rmult_1_l, RtoC_inv by (apply A_val_nz). field. intros E; apply RtoC_inj in E; exact (A_val_nz j k E).
Qed.
Lemma l2l_ext p f g S j k : (0 <= j)%Z -> (forall n m, (Z.abs m <= n)%Z -> (n <= p)%Z -> f n m = g n m) -> l2l_coef p f S j k = l2l_coef p g S j k.
Proof.
  intros Hj H. unfold l2l_coef. f_equal. apply lsum_ext. intros n Hn. apply in_zrange in Hn. apply lsum_ext. intros m Hm. apply in_zrange in Hm. rewrite H by lia. reflexivity.
Qed.

(** *** Merging of arbitrary expansions *)
Lemma merge_form p tb c (us : list (list R * (Z -> Z -> C))) : tb3_for tb (Z.of_nat p) -> length c = 3%nat -> us <> [] -> (forall u, In u us -> length (fst u) = 3%nat) ->
  me3_merge tb c (map (fun u => s3_of (Z.of_nat p) (fst u) (snd u)) us)
  = Ok (s3_of (Z.of_nat p) c (fun j k => lsum (fun u => m2m_coef (snd u) (p3 (vsub (fst u) c)) j k) us)).
Proof.
  intros Htb Hc Hne HU. unfold me3_merge. destruct us as [|u0 us0] eqn:Ep; [congruence|]. cbn [map]. rewrite <- Ep in *.
  assert (E0 : s3_of (Z.of_nat p) (fst u0) (snd u0) :: map (fun u => s3_of (Z.of_nat p) (fst u) (snd u)) us0 = map (fun u => s3_of (Z.of_nat p) (fst u) (snd u)) us) by (rewrite Ep; reflexivity).
  rewrite E0. cbn [s3_ord s3_of]. rewrite zero_co by lia. cbn [s3_co s3_of].
  assert (F : forall ps (f : Z -> Z -> C), (forall u, In u ps -> In u us) ->
    ofold (fun co me => bind (me3_shift tb me (vsub (s3_ctr me) c)) (fun sh => co_plus co sh))
      (map (fun u => s3_of (Z.of_nat p) (fst u) (snd u)) ps) (co_of (Z.of_nat p) f)
    = Ok (co_of (Z.of_nat p) (fun n m => f n m + lsum (fun u => m2m_coef (snd u) (p3 (vsub (fst u) c)) n m) ps)%C)).
  { induction ps as [|u ps IH]; intros f Hps.
    - cbn [map ofold]. f_equal. apply co_of_ext. intros n m _ _. rewrite lsum_nil. ring.
    - cbn [map ofold s3_ctr s3_of]. assert (H1 := HU u (Hps u (or_introl eq_refl))).
      fold (s3_of (Z.of_nat p) (fst u) (snd u)). rewrite me3_shift_ok by (try assumption; try lia; apply len3_vsub; assumption). cbn [bind].
      unfold co_plus. rewrite !co_of_length by lia. rewrite Nat.ltb_irrefl. cbn [bind].
      rewrite firstn_all2 by (rewrite co_of_length by lia; lia). rewrite co_of_plus. rewrite IH by (intros; apply Hps; right; assumption).
      f_equal. apply co_of_ext. intros n m Hm Hn. rewrite lsum_cons. symmetry. apply Cplus_assoc. }
  rewrite F by auto. cbn [bind]. unfold s3_of. do 2 f_equal. apply co_of_ext. intros n m _ _. ring.
Qed.
Lemma forms p es : (forall e, In e es -> wf3 p e) -> exists us, es = map (fun u => s3_of (Z.of_nat p) (fst u) (snd u)) us /\ forall u, In u us -> length (fst u) = 3%nat.
Proof.
  induction es as [|e es IH]; intros H; [exists []; split; [reflexivity|intros u []]|].
  destruct IH as (us & -> & HU); [intros; apply H; right; assumption|]. destruct (wf3_form p e (H e (or_introl eq_refl))) as (f & Ef).
  exists ((s3_ctr e, f) :: us). split; [cbn [map fst snd]; rewrite <- Ef; reflexivity|]. intros u [<-|Hu]; [apply H; left; reflexivity|apply HU; exact Hu].
Qed.
Lemma p3_chain a b c : length a = 3%nat -> length b = 3%nat -> length c = 3%nat -> padd (p3 (vsub a b)) (p3 (vsub b c)) = p3 (vsub a c).
Proof. intros Ha Hb Hc. rewrite !p3_sub by assumption. unfold padd, psub, c1, c2, c3. cbn [fst snd]. f_equal; [f_equal|]; ring. Qed.
Lemma p3_self a : length a = 3%nat -> p3 (vsub a a) = (0, 0, 0)%R.
Proof. intros Ha. rewrite p3_sub by assumption. unfold psub, c1, c2, c3. cbn [fst snd]. f_equal; [f_equal|]; ring. Qed.

Section Shifts.
Variables (orders : list nat) (tb : tb3) (p : nat).
Hypothesis Htb : tables3_after orders = Ok tb.
Hypothesis Hp : (1 <= p <= max_order3 orders)%nat.
Let FT := tables3_for orders tb p Htb Hp.
Notation P := (Z.of_nat p).

(** Merging in two steps is merging in one. *)
Theorem merge_steps (groups : list (list R * list se3)) c es : length c = 3%nat -> groups <> [] ->
  (forall g, In g groups -> length (fst g) = 3%nat /\ snd g <> [] /\ forall e, In e (snd g) -> wf3 p e) ->
  omapM (fun g => me3_merge tb (fst g) (snd g)) groups = Ok es -> me3_merge tb c es = me3_merge tb c (flat_map snd groups).
Proof.
  intros Hc Hne HG Hes.
  assert (X : exists gs : list (list R * list (list R * (Z -> Z -> C))), map fst gs = map fst groups /\
    map (fun g => map (fun u => s3_of P (fst u) (snd u)) (snd g)) gs = map snd groups /\
    forall g, In g gs -> length (fst g) = 3%nat /\ snd g <> [] /\ forall u, In u (snd g) -> length (fst u) = 3%nat).
  { clear Hes Hne. revert HG. induction groups as [|g groups IH]; intros HG; [exists []; split; [reflexivity|split; [reflexivity|intros g []]]|].
    destruct IH as (gs & E1 & E2 & H); [intros; apply HG; right; assumption|]. destruct (HG g (or_introl eq_refl)) as (L & N & W).
    destruct (forms p (snd g) W) as (us & E & HU). exists ((fst g, us) :: gs). cbn [map fst snd]. rewrite E1, E2, E. split; [reflexivity|]. split; [reflexivity|].
    intros g' [<-|Hg']; [|apply H; exact Hg']. cbn [fst snd]. split; [exact L|]. split; [|exact HU]. intros ->. apply N. exact E. }
  destruct X as (gs & E1 & E2 & H).
  assert (EG : groups = map (fun g => (fst g, map (fun u => s3_of P (fst u) (snd u)) (snd g))) gs).
  { clear - E1 E2. revert gs E1 E2. induction groups as [|[a b] groups IH]; intros [|[a' b'] gs] E1 E2; try discriminate; [reflexivity|].
    cbn [map fst snd] in *. injection E1 as -> E1. injection E2 as E2' E2. rewrite (IH gs E1 E2), E2'. reflexivity. }
  subst groups. rewrite flat_map_concat_map, map_map in *. cbn [snd] in *.
  assert (EC : concat (map (fun g => map (fun u => s3_of P (fst u) (snd u)) (snd g)) gs) = map (fun u => s3_of P (fst u) (snd u)) (flat_map snd gs)).
  { clear. induction gs as [|g gs IH]; [reflexivity|]. cbn [map concat flat_map]. rewrite IH, map_app. reflexivity. }
  rewrite EC.
  assert (EE : es = map (fun u => s3_of P (fst u) (snd u)) (map (fun g => (fst g, fun j k => lsum (fun u => m2m_coef (snd u) (p3 (vsub (fst u) (fst g))) j k) (snd g))) gs)).
  { rewrite map_map. cbn [fst snd]. clear - Hes H FT. revert es Hes H. induction gs as [|g gs IH]; intros es Hes H; cbn [map omapM] in Hes; [injection Hes as <-; reflexivity|].
    destruct (H g (or_introl eq_refl)) as (L & N & W). cbn [fst snd] in Hes. rewrite merge_form in Hes by assumption. cbn [bind] in Hes.
    destruct (omapM _ _) as [es'| | | | |] eqn:E; try discriminate. cbn [bind] in Hes. injection Hes as <-. cbn [map]. f_equal. apply IH; [reflexivity|]. intros; apply H; right; assumption. }
  rewrite EE. rewrite !merge_form; try assumption.
  - f_equal. unfold s3_of. f_equal. apply co_of_ext. intros j k Hk Hj. rewrite lsum_map. cbn [fst snd].
    assert (W : forall g, In g gs -> length (fst g) = 3%nat /\ forall u, In u (snd g) -> length (fst u) = 3%nat) by (intros g Hg; destruct (H g Hg) as (? & _ & ?); auto).
    clear - W Hk Hj Hc. induction gs as [|g gs IH]; [reflexivity|]. cbn [flat_map]. rewrite lsum_cons, lsum_app, IH by (intros; apply W; right; assumption). f_equal.
    destruct (W g (or_introl eq_refl)) as (L & WU). rewrite m2m_lsum. apply lsum_ext. intros u Hu.
    rewrite m2m_m2m by lia. rewrite p3_chain by auto. reflexivity.
  - destruct gs as [|g gs]; [exfalso; apply Hne; reflexivity|]. destruct (H g (or_introl eq_refl)) as (_ & N & _). cbn [flat_map]. destruct (snd g); [congruence|discriminate].
  - intros u Hu. apply in_flat_map in Hu. destruct Hu as (g & Hg & Hu). destruct (H g Hg) as (_ & _ & W). apply W. exact Hu.
  - destruct gs; [exfalso; apply Hne; reflexivity|discriminate].
  - intros u Hu. apply in_map_iff in Hu. destruct Hu as (g & <- & Hg). cbn [fst]. apply (H g Hg).
Qed.
(** A merge of one expansion can be undone. *)
Theorem merge_back c e : length c = 3%nat -> wf3 p e -> exists e', me3_merge tb c [e] = Ok e' /\ me3_merge tb (s3_ctr e) [e'] = Ok e.
Proof.
  intros Hc W. destruct (wf3_form p e W) as (f & Ef). assert (HC : length (s3_ctr e) = 3%nat) by apply W. set (c0 := s3_ctr e) in *.
  assert (M1 := merge_form p tb c [(c0, f)] FT Hc ltac:(discriminate) ltac:(intros u [<-|[]]; exact HC)). cbn [map fst snd] in M1. rewrite <- Ef in M1.
  eexists. split; [exact M1|]. match goal with |- me3_merge _ _ [s3_of _ _ ?g] = _ =>
    assert (M2 := merge_form p tb c0 [(c, g)] FT HC ltac:(discriminate) ltac:(intros u [<-|[]]; exact Hc)) end.
  cbn [map fst snd] in M2. rewrite M2, Ef. f_equal. unfold s3_of. f_equal. apply co_of_ext. intros j k Hk Hj. rewrite lsum_cons, lsum_nil.
  cbn [fst snd]. rewrite (m2m_ext _ (m2m_coef f (p3 (vsub c0 c)))) by (intros; cbv beta; rewrite lsum_cons, lsum_nil; apply Cplus_0_r).
  rewrite m2m_m2m by lia. rewrite p3_chain by assumption. rewrite p3_self by assumption. rewrite m2m_zero by lia. ring.
Qed.
(** Translations of a local expansion. *)
Theorem translate_steps c1 c2 e : length c1 = 3%nat -> length c2 = 3%nat -> wf3 p e ->
  exists e1, le3_translate tb c1 e = Ok e1 /\ le3_translate tb c2 e1 = le3_translate tb c2 e /\ le3_translate tb (s3_ctr e) e1 = Ok e.
Proof.
  intros H1 H2 W. destruct (wf3_form p e W) as (f & Ef). assert (HC : length (s3_ctr e) = 3%nat) by apply W. set (c0 := s3_ctr e) in *.
  assert (T : forall a b g, length a = 3%nat -> length b = 3%nat -> le3_translate tb b (s3_of P a g) = Ok (s3_of P b (l2l_coef P g (p3 (vsub a b))))).
  { intros a b g Ha Hb. unfold le3_translate. cbn [s3_ctr s3_ord s3_of]. fold (s3_of P a g). rewrite le3_shift_ok by (try assumption; try lia; apply len3_vsub; assumption). reflexivity. }
  rewrite Ef. eexists. split; [apply T; assumption|]. rewrite !T by assumption. split.
  - f_equal. unfold s3_of. f_equal. apply co_of_ext. intros j k Hk Hj. rewrite l2l_l2l by lia. rewrite p3_chain by assumption. reflexivity.
  - f_equal. unfold s3_of. f_equal. apply co_of_ext. intros j k Hk Hj. rewrite l2l_l2l by lia. rewrite p3_chain by assumption. rewrite p3_self by assumption. apply l2l_zero; lia.
Qed.
End Shifts.
