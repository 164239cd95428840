(** The three-dimensional trees: hypotheses on the input alone, agreement of schedules, order zero, a concrete source set. *)
From Coq Require Import List Bool ZArith Arith Lia Lra Reals Permutation.
From Coquelicot Require Import Complex.
From Verif Require Import Num Outcome Vec Orthtree AdaptiveTree TreeSpec VecProofs GeometrySpec GeometryProofs TreeGeometry
  AdaptiveProofs BuildProofs ListProofs ListContents RootBoxProofs TreeTheorems TreeTheorems3 Tables Tables3D Spherical Expansion3D CAux TableProofs Table3DProofs FieldSpec Schedule Fields FieldProofs
  FmmPasses PassProofs PassSteps PassTree PassSpec PassEval PassAgree FmmTree2DProofs FmmTheorems FmmApi FmmApiProofs
  BalancedTree BalancedSpec BalancedIndex BalancedAddr BalancedProofs BalancedFmm BalancedFmmProofs BalancedApiProofs
  Kernel3 Harmonics3D Exp3Loops Exp3Proofs Exp3Errors Exp3Theorems FmmTree3D FmmTree3DProofs Fmm3ApiProofs.
Import ListNotations.
Local Open Scope R_scope.

Lemma bound3_nonneg p len : 0 < len -> 0 <= bound3 p len.
Proof. intros H. exact (E3_nonneg p tt len H). Qed.

Theorem fmm3_usable orders tb0 cap eps srcs p : tables3_after orders = Ok tb0 -> same_dim 3 srcs -> straddles 3 srcs ->
  (forall x, count_occ list_R_eq_dec (map (@ps_pos R) srcs) x <= cap)%nat ->
  order_of eps srcs = Ok p -> eps < abs_charge srcs -> (p <= 42)%nat ->
  exists fuel t o c l, root_box 3 (map (@ps_pos R) srcs) = Some (c, l) /\ (forall s, In s srcs -> in_box 3 c l (ps_pos s)) /\
  build_adaptive 3 (@ps_pos R) cap fuel srcs = Ok t /\
  (forall r, adaptive_fmm3 cap fuel eps srcs tb0 r <-> r = Ok o) /\
  forall grav x, length x = 3%nat -> exists v, potential3_at grav srcs o x = Ok v /\
     (in_box 3 c l x -> Rabs (v - direct_potential 3 grav (filter (not_at x) srcs) x) <=
       if (length srcs <=? cap)%nat then 0 else bound3 p (l / 2 ^ at_height t) * abs_charge srcs) /\
     (~ in_box 3 c l x -> v = direct_potential 3 grav srcs x).
Proof.
  intros Htb Hdim Hst Hcnt Hord HA Hp42. assert (Hp := order_pos _ _ _ Hord HA).
  assert (HN : srcs <> []). { intros ->. destruct (Hst 0%nat ltac:(lia)) as [(s & [] & _) _]. }
  destruct (proj2 (adaptive_builds 3 (@ps_pos R) cap srcs ltac:(lia) HN Hdim Hst) Hcnt) as (fuel & t & HB).
  destruct (adaptive_inv 3 (@ps_pos R) cap fuel srcs t ltac:(lia) Hdim HB) as (c & l & h & HR & _).
  assert (Hbox := root_box_contains 3 (@ps_pos R) srcs c l ltac:(lia) Hdim HR Hst).
  destruct (fmm3_potential orders tb0 cap fuel eps srcs p t c l Htb Hdim Hord (conj Hp Hp42) HB HR Hbox) as (o & U & _ & _ & V).
  exists fuel, t, o, c, l. split; [exact HR|]. split; [exact Hbox|]. split; [exact HB|]. split; [exact U|]. exact V.
Qed.

(** *** Balanced *)
Lemma height_bounded3 n cap h : bal_height 3 n cap = Ok h -> (Z.of_nat n <= Z.of_nat cap * 2 ^ 30)%Z -> (h <= 10)%nat.
Proof.
  intros H N. apply bal_height_spec in H; [|lia]. destruct H as (_ & _ & _ & _ & H). destruct (le_gt_dec h 10) as [|G]; [assumption|exfalso].
  specialize (H 10%nat G). apply Nat2Z.inj_lt in H. rewrite Nat2Z.inj_mul, !Nat2Z.inj_pow in H. change (Z.of_nat 2) with 2%Z in H.
  replace ((2 ^ Z.of_nat 3) ^ Z.of_nat 10)%Z with (2 ^ 30)%Z in H by reflexivity. lia.
Qed.
Lemma height_exists3 n cap : (1 <= cap)%nat -> (cap < n * 2 ^ 3)%nat -> (Z.of_nat n <= Z.of_nat cap * 2 ^ 30)%Z -> exists h, bal_height 3 n cap = Ok h.
Proof.
  intros Hc1 Hc2 Hc3.
  assert (LST : exists h, (h <= 10)%nat /\ (n <= cap * (2 ^ 3) ^ h)%nat /\ forall k, (k < h)%nat -> (cap * (2 ^ 3) ^ k < n)%nat).
  { assert (G : forall m, (n <= cap * (2 ^ 3) ^ m)%nat ->
      exists h, (h <= m)%nat /\ (n <= cap * (2 ^ 3) ^ h)%nat /\ forall k, (k < h)%nat -> (cap * (2 ^ 3) ^ k < n)%nat).
    { induction m as [|m IH]; intros Hm; [exists 0%nat; split; [lia|]; split; [exact Hm|intros; lia]|].
      destruct (le_gt_dec n (cap * (2 ^ 3) ^ m)) as [L|L]; [destruct (IH L) as (h & ? & ? & ?); exists h; split; [lia|auto]|].
      exists (S m). split; [lia|]. split; [exact Hm|]. intros k Hk. eapply Nat.le_lt_trans; [|exact L].
      apply Nat.mul_le_mono_l. apply Nat.pow_le_mono_r; lia. }
    apply (G 10%nat). apply Nat2Z.inj_le. rewrite Nat2Z.inj_mul, !Nat2Z.inj_pow. change (Z.of_nat 2) with 2%Z.
    replace ((2 ^ Z.of_nat 3) ^ Z.of_nat 10)%Z with (2 ^ 30)%Z by reflexivity. exact Hc3. }
  destruct LST as (h & L0 & L1 & L2). exists h. apply bal_height_spec; [lia|]. split; [exact Hc1|]. split; [exact Hc2|].
  split; [|split; [exact L1|exact L2]]. change (2 ^ 64)%Z with 18446744073709551616%Z. lia.
Qed.
Theorem bal3_usable orders tb0 cap eps srcs p : tables3_after orders = Ok tb0 -> same_dim 3 srcs -> spread 3 (@ps_pos R) srcs ->
  (1 <= cap)%nat -> (cap < length srcs * 2 ^ 3)%nat -> (Z.of_nat (length srcs) <= Z.of_nat cap * 2 ^ 30)%Z ->
  order_of eps srcs = Ok p -> eps < abs_charge srcs -> (p <= 42)%nat ->
  exists h o c l, bal_height 3 (length srcs) cap = Ok h /\ root_box 3 (map (@ps_pos R) srcs) = Some (c, l) /\ 0 < l /\ (forall s, In s srcs -> in_half_open 3 c l (ps_pos s)) /\
  (forall r, balanced_fmm3 cap eps srcs tb0 r <-> r = Ok o) /\
  forall grav x, length x = 3%nat -> in_half_open 3 c l x -> exists v, bal_potential3_at grav o x = Ok v /\
     Rabs (v - direct_potential 3 grav (filter (not_at x) srcs) x) <= if (h =? 0)%nat then 0 else bound3 p (l / 2 ^ h) * abs_charge srcs.
Proof.
  intros Htb Hdim Hst Hc1 Hc2 Hc3 Hord HA Hp42. assert (Hp := order_pos _ _ _ Hord HA).
  destruct (spread_inside 3 (@ps_pos R) srcs ltac:(lia) Hdim Hst) as (c & l & HR & Hc & Hl & Hin).
  destruct (height_exists3 _ _ Hc1 Hc2 Hc3) as (h & Hh). assert (H10 := height_bounded3 _ _ _ Hh Hc3).
  destruct (bal3_potential orders tb0 cap eps srcs p h c l Htb Hdim Hord (conj Hp Hp42) Hh H10 HR Hl Hin) as (o & U & _ & _ & V).
  exists h, o, c, l. split; [exact Hh|]. split; [exact HR|]. split; [exact Hl|]. split; [exact Hin|]. split; [exact U|]. exact V.
Qed.

(** *** All schedules agree *)
Section Tame3.
Variable p : nat.
Variable tb : tb3.
Hypothesis Hmax : (Z.of_nat p <= at_max (t_alm tb))%Z.
Definition ok3 (e : se3) : Prop := (0 <= s3_ord e <= Z.of_nat p)%Z.
Lemma refresh_small k : (k <= Z.of_nat p)%Z -> tb3_refresh tb k = Ok tb.
Proof. intros H. unfold tb3_refresh. destruct (Z.ltb_spec (at_max (t_alm tb)) k); [lia|reflexivity]. Qed.
Lemma grow_small es : Forall ok3 es -> tb3_grow tb es = Ok tb.
Proof.
  unfold tb3_grow. induction 1 as [|e es He _ IH]; [reflexivity|]. cbn [ofold]. rewrite refresh_small by apply He. exact IH.
Qed.
Lemma add3_tame a b e : ok3 a -> ok3 b -> s3_add a b = Ok e -> ok3 e.
Proof.
  intros Ha Hb. unfold s3_add. repeat match goal with |- context [if ?u then _ else _] => destruct u end; try discriminate; intros X; injection X as <-; assumption.
Qed.
Lemma convert_all_tame c es e : Forall ok3 es -> le3_convert_all tb c es = Ok e -> ok3 e.
Proof.
  intros H. unfold le3_convert_all. destruct es as [|e0 es0] eqn:Ee; [discriminate|]. rewrite <- Ee in *.
  assert (H0 : ok3 (s3_zero c (s3_ord e0))) by (rewrite Ee in H; inversion H; assumption). clear Ee H. revert H0.
  generalize (s3_zero c (s3_ord e0)) as z. induction es as [|a es IH]; intros z Hz X; cbn [ofold] in X; [injection X as <-; exact Hz|].
  apply bind_ok in X. destruct X as (s & X1 & X2). apply bind_ok in X1. destruct X1 as (r & X1 & X3). apply (IH s); [|exact X2].
  unfold s3_add in X3. repeat match goal with X3 : context [if ?u then _ else _] |- _ => destruct u end; try discriminate; injection X3 as <-; exact Hz.
Qed.
Theorem tame3 : tame (ops3 p) tb tb ok3 ok3.
Proof.
  constructor; cbn [ops3 o_default o_zero o_p2m o_m2m o_m2l o_l2l o_p2l o_add fst snd].
  - unfold ok3. cbn. lia.
  - intros c. unfold ok3. cbn. lia.
  - rewrite refresh_small by lia. reflexivity.
  - intros c S e tb' X. rewrite refresh_small in X by lia. cbn [bind] in X. apply bind_ok in X. destruct X as (u & X1 & X). injection X as <- <-.
    unfold me3_sources in X1. apply bind_ok in X1. destruct X1 as (cs & _ & X1). injection X1 as <-. split; [unfold ok3; cbn; lia|reflexivity].
  - intros c es e tb' H X. rewrite grow_small in X by (destruct es; [constructor|inversion H; constructor; [assumption|constructor]]). cbn [bind] in X.
    apply bind_ok in X. destruct X as (u & X1 & X). injection X as <- <-. split; [|reflexivity].
    unfold me3_merge in X1. destruct es as [|e0 es]; [discriminate|]. inversion H as [|? ? H0 _]; subst. apply bind_ok in X1. destruct X1 as (cs & _ & X1). injection X1 as <-. exact H0.
  - intros c es e tb' H X. rewrite grow_small in X by exact H. cbn [bind] in X. apply bind_ok in X. destruct X as (u & X1 & X). injection X as <- <-. split; [|reflexivity].
    eapply convert_all_tame; eassumption.
  - intros c a e tb' H X. rewrite refresh_small in X by apply H. cbn [bind] in X. apply bind_ok in X. destruct X as (u & X1 & X). injection X as <- <-. split; [|reflexivity].
    unfold le3_translate in X1. destruct (le3_shift tb a (vsub (s3_ctr a) c)); try discriminate. cbn in X1. injection X1 as <-. exact H.
  - intros c S e tb' X. rewrite refresh_small in X by lia. cbn [bind] in X. apply bind_ok in X. destruct X as (u & X1 & X). injection X as <- <-.
    unfold le3_sources in X1. apply bind_ok in X1. destruct X1 as (cs & _ & X1). injection X1 as <-. split; [unfold ok3; cbn; lia|reflexivity].
  - apply add3_tame.
Qed.
End Tame3.
Lemma refresh_max tb p tb' : tb3_refresh tb p = Ok tb' -> (p <= at_max (t_alm tb'))%Z.
Proof.
  unfold tb3_refresh. destruct (Z.ltb_spec (at_max (t_alm tb)) p) as [L|L]; intros H; [|injection H as <-; exact L].
  apply bind_ok in H. destruct H as (a & H1 & H). apply bind_ok in H. destruct H as (s1 & _ & H). apply bind_ok in H. destruct H as (s2 & _ & H).
  apply bind_ok in H. destruct H as (s3 & _ & H). injection H as <-. cbn [t_alm]. unfold alm_refresh in H1. destruct (Z.leb_spec p (at_max (t_alm tb))); [lia|].
  apply bind_ok in H1. destruct H1 as (tab & _ & H1). injection H1 as <-. cbn. lia.
Qed.
Theorem fmm3_schedules_agree cap fuel eps srcs tb0 o : same_dim 3 srcs -> adaptive_fmm3 cap fuel eps srcs tb0 (Ok o) ->
  (forall r, adaptive_fmm3 cap fuel eps srcs tb0 r <-> r = Ok o) /\
  tb3_refresh tb0 (Z.of_nat (f3_order o)) = Ok (m_tb (f_mem (f3_fmm o))).
Proof.
  intros Hdim H. inversion H as [r0 X1 X2 X3|p r0 X1 X2 X3 X4|p tb' r0 X1 X2 X3 X4].
  - exfalso. destruct r0; discriminate.
  - exfalso. destruct r0; discriminate.
  - destruct r0 as [f| | | | |]; try discriminate. cbn in X4. injection X4 as <-. assert (M := refresh_max _ _ _ X2).
    destruct (make_fmm_agree (ops3 p) 3 tb' tb' (ok3 p) (ok3 p) (tame3 p tb' M) cap fuel srcs f ltac:(lia) Hdim X3) as [U T].
    split; [clear T|].
    + intros r. split; [|intros ->; exact H].
      intros Hr. inversion Hr as [r1 Y1 Y2|p1 r1 Y1 Y2 Y3|p1 tb1 r1 Y1 Y2 Y3]; subst.
      * exfalso. apply (Y2 p). exact X1.
      * exfalso. assert (p1 = p) by congruence. subst p1. apply (Y3 tb'). exact X2.
      * assert (p1 = p) by congruence. subst p1. assert (tb1 = tb') by congruence. subst tb1. apply U in Y3. subst r1. reflexivity.
    + cbn [f3_order f3_fmm]. rewrite T. exact X2.
Qed.

(** *** Order zero in a fresh program *)
Lemma local_region3_order0 orders tb t ls ns m m' : tables3_after orders = Ok tb -> max_order3 orders = 0%nat -> ns <> [] -> Im tb (ok3 0) (ok3 0) m ->
  ~ region_result (map (it_local (ops3 0) t ls) ns) m (Ok m').
Proof.
  intros Htb H0 NE (HTB & _ & HL) (run & Hi & He).
  destruct (interleaving_head _ _ Hi) as (a & it & run' & -> & Ha).
  { destruct ns as [|n0 ns]; [contradiction|]. unfold tagged. cbn [map length seq]. eexists. split; [left; reflexivity|]. discriminate. }
  unfold tagged in Ha. apply in_map_iff in Ha. destruct Ha as (i & Ha & Hk). apply in_seq in Hk. rewrite map_length in Hk.
  destruct (nth_error ns i) as [n|] eqn:En; [|apply nth_error_None in En; lia].
  assert (E : nth i (map (it_local (ops3 0) t ls) ns) [] = it_local (ops3 0) t ls n).
  { apply nth_error_nth. rewrite nth_error_map, En. reflexivity. }
  rewrite E in Ha. unfold it_local in Ha. cbn [map app] in Ha. injection Ha as <- _.
  unfold exec in He. cbn [ofold] in He. unfold exec_step at 1 in He. cbn [fst snd] in He.
  assert (X : forall r, st_l2l (ops3 0) n (m, no_locals) <> Ok r).
  { intros r. unfold st_l2l. destruct (an_addr n) as [|j q]; [discriminate|]. cbn [fst snd]. destruct (m_le m q) as [pe|] eqn:Ep; [|discriminate]. cbn [of_option bind].
    destruct (o_size (ops3 0) pe =? 0)%nat; [discriminate|]. cbn [ops3 o_l2l]. specialize (HL q pe Ep). assert (E0 : s3_ord pe = 0%Z) by (unfold ok3 in HL; lia). clear HL. rename E0 into HL.
    rewrite HTB, HL, (refresh_small 0 tb) by (try lia; destruct (tables3_spec orders tb Htb) as (_ & Q & _); lia). cbn [bind].
    unfold le3_translate, le3_shift. rewrite HL. cbn [to_spherical bind].
    destruct (ylm_table _ _ _); try discriminate. cbn [bind]. change (jk_pairs 0) with [(0, 0)%Z]. cbn [omapM].
    destruct (lookup_order_zero orders tb 0 0 Htb H0) as (_ & _ & _ & S3).
    change (zrange 0 0) with [0%Z]. cbn [ofold]. change (zrange (Z.max (- 0) (0 + 0 - 0)) (Z.min 0 (0 + 0 - 0))) with [0%Z]. cbn [ofold]. rewrite S3. discriminate. }
  destruct (st_l2l (ops3 0) n (m, no_locals)) as [u| | | | |]; cbn in He; try discriminate. exact (X u eq_refl).
Qed.
Theorem fmm3_order_zero orders tb cap fuel eps srcs : tables3_after orders = Ok tb -> max_order3 orders = 0%nat ->
  same_dim 3 srcs -> order_of eps srcs = Ok 0%nat -> (cap < length srcs)%nat ->
  forall o, ~ adaptive_fmm3 cap fuel eps srcs tb (Ok o).
Proof.
  intros Htb H0 Hdim Hord Hcap o H. inversion H as [r0 X1 X2 X3|p r0 X1 X2 X3 X4|p tb' r0 X1 X2 X3 X4].
  { destruct r0; discriminate. }
  { destruct r0; discriminate. }
  assert (M0 : (Z.of_nat 0 <= at_max (t_alm tb))%Z) by (destruct (tables3_spec orders tb Htb) as (_ & Q & _); lia).
  assert (p = 0%nat) by congruence. subst p. rewrite (refresh_small 0 tb) in X2 by (try exact M0; lia). injection X2 as <-.
  destruct r0 as [f| | | | |]; try discriminate. clear X4 H.
  inversion X3 as [r0 Y1 Y2 E|t0 r0 Y1 Y2 Y3 E|t0 ls0 Y1 Y2 Y3|t0 ls0 Y1 Y2 Y3 Y4|t ls r0 Y1 Y2 Y3 Y4 Y5 Y6 E].
  - destruct r0; try discriminate. eapply Y2. reflexivity.
  - destruct r0; try discriminate. eapply Y3. reflexivity.
  - lia.
  - destruct r0 as [m1| | | | |]; try discriminate. clear E.
    destruct (adaptive_inv 3 (@ps_pos R) cap fuel srcs t ltac:(lia) Hdim Y1) as (c & l & h & HR & Hc & _ & Hh & Et & Hl & _).
    assert (Hhh : (1 <= h)%nat).
    { destruct h as [|h']; [|lia]. destruct Hh as [X _]. cbn in X. unfold rr in X. destruct (Nat.leb_spec (length srcs) cap); [lia|discriminate X]. }
    assert (RT := regions_tame (ops3 0) 3 tb tb (ok3 0) (ok3 0) (tame3 0 tb M0) c l cap srcs (rr cap srcs) h Hh Hhh ls). rewrite <- Et in RT.
    unfold regions in RT, Y6. rewrite !app_assoc in RT, Y6. apply Forall_app in RT. destruct RT as [RT _].
    apply passes_last in Y6. destruct Y6 as (m2 & P1 & P2).
    assert (I0 : Im tb (ok3 0) (ok3 0) (mem0 (ops3 0) t tb)) by (rewrite Et; apply mem0_Im; apply tame3; exact M0).
    assert (Hm := proj1 (passes_agree tb (Im tb (ok3 0) (ok3 0)) (Il (ok3 0) (ok3 0)) (fun m Hm => proj1 Hm)
      (Il_no_locals (ok3 0) (ok3 0)) _ _ m2 RT I0 P1)).
    eapply local_region3_order0; [exact Htb|exact H0| |exact Hm|exact P2].
    rewrite Et. unfold spec_tree; cbn [at_height at_leaves].
    rewrite (nth_indep _ [] (leaf_level 3 (@ps_pos R) c l cap srcs (rr cap srcs) 0)) by (rewrite map_length, seq_length; lia).
    rewrite map_nth, seq_nth by lia. cbn [plus].
    destruct Hh as [Hn Hr]. specialize (Hr (h - 1)%nat ltac:(lia)).
    destruct (filter _ (AdaptiveProofs.level _ _ _ _ _ _ _ (h - 1))) as [|q qs] eqn:Eq; [contradiction|].
    assert (Hq : In q (q :: qs)) by (left; reflexivity). rewrite <- Eq in Hq. apply filter_In in Hq. destruct Hq as [Hq Rq]. apply in_level in Hq. destruct Hq as [Lq Pq].
    intros EN. assert (I1 : In (mk 3 (@ps_pos R) c l cap srcs (rr cap srcs) (0%nat :: q)) []).
    { rewrite <- EN. apply leaf_level_in. exists (0%nat :: q). split; [reflexivity|].
      assert (P0 : present 3 (@ps_pos R) c l cap srcs (rr cap srcs) (0%nat :: q)).
      { simpl. split; [|auto]. unfold n_children. cbn. lia. }
      split; [exact P0|]. split; [simpl; lia|]. destruct (refined 3 (@ps_pos R) c l cap srcs (rr cap srcs) (0%nat :: q)) eqn:R0; [|reflexivity].
      exfalso. assert (I2 : In (0%nat :: q) (filter (refined 3 (@ps_pos R) c l cap srcs (rr cap srcs)) (level 3 (@ps_pos R) c l cap srcs (rr cap srcs) h))).
      { apply filter_In. split; [apply in_level; split; [simpl; lia|exact P0]|exact R0]. }
      rewrite Hn in I2. destruct I2. }
    destruct I1.
Qed.

(** *** Five unit charges in space *)
Definition five3 : list (list R) := [[-1; -1; -1]; [1; 1; 1]; [1/2; 1/2; 1/2]; [-1; 1; -1]; [1; -1; 1]].
Definition five3_unit : list (psrc R) := map (fun x => PSrc x 1) five3.
Lemma five3_dim : same_dim 3 five3_unit.
Proof. intros s H. repeat destruct H as [<-|H]; try reflexivity. destruct H. Qed.
Lemma five3_distinct : NoDup five3.
Proof.
  unfold five3. repeat constructor; cbn [In]; intros H; repeat (destruct H as [H|H]); try exact H; injection H; intros; lra.
Qed.
Lemma five3_charge : abs_charge five3_unit = 5.
Proof. unfold abs_charge, five3_unit, five3. cbn. rewrite !Rabs_R1. unfold rsum. cbn. lra. Qed.
Lemma five3_order : order_of 1 five3_unit = Ok 3%nat.
Proof.
  apply order_spec. rewrite five3_charge. split; [lra|]. split; [lra|]. split; [reflexivity|]. split; [cbn; lra|].
  intros q Hq. destruct q as [|[|[|q]]]; [cbn; lra|cbn; lra|cbn; lra|lia].
Qed.
Lemma five3_order0 : order_of 6 five3_unit = Ok 0%nat.
Proof.
  apply order_spec. rewrite five3_charge. split; [lra|]. split; [lra|]. split; [reflexivity|]. split; [cbn; lra|]. intros q Hq. lia.
Qed.
Lemma five3_order43 : exists eps, order_of eps five3_unit = Ok 43%nat.
Proof.
  exists (5 / 2 ^ 43). apply order_spec. rewrite five3_charge. assert (P : forall n, 0 < 2 ^ n) by (intros; apply pow_lt; lra).
  assert (Q : forall q, (q < 43)%nat -> 5 / 2 ^ 43 < 5 / 2 ^ q).
  { intros q Hq. unfold Rdiv. apply Rmult_lt_compat_l; [lra|]. apply Rinv_lt_contravar; [apply Rmult_lt_0_compat; apply P|]. apply Rlt_pow; [lra|lia]. }
  split; [apply Rmult_lt_0_compat; [lra|apply Rinv_0_lt_compat; apply P]|]. split; [|split; [reflexivity|split; [lra|exact Q]]].
  specialize (Q 0%nat ltac:(lia)). cbn [pow] in Q. assert (0 < 5 / 2 ^ 43) by (apply Rmult_lt_0_compat; [lra|apply Rinv_0_lt_compat; apply P]). lra.
Qed.
Lemma five3_case : same_dim 3 five3_unit /\ straddles 3 five3_unit /\ spread 3 (@ps_pos R) five3_unit /\
  (forall x, count_occ list_R_eq_dec (map (@ps_pos R) five3_unit) x <= 1)%nat /\ order_of 1 five3_unit = Ok 3%nat /\ 1 < abs_charge five3_unit.
Proof.
  assert (EM : map (@ps_pos R) five3_unit = five3) by (unfold five3_unit; rewrite map_map; apply map_id).
  split; [exact five3_dim|]. split; [|split; [|split; [|split; [exact five3_order|rewrite five3_charge; lra]]]].
  - intros j Hj. split; [exists (PSrc [-1; -1; -1] 1); split; [left; reflexivity|]|exists (PSrc [1; 1; 1] 1); split; [right; left; reflexivity|]]; destruct j as [|[|[|j]]]; cbn; lra || lia.
  - intros j Hj. split; [exists (PSrc [-1; -1; -1] 1); split; [left; reflexivity|]|exists (PSrc [1; 1; 1] 1); split; [right; left; reflexivity|]]; destruct j as [|[|[|j]]]; cbn; lra || lia.
  - intros x. rewrite EM. assert (ND := five3_distinct). apply (NoDup_count_occ list_R_eq_dec) with (x := x) in ND. exact ND.
Qed.
Lemma five3_tables : tables3_after [] = Ok tb3_init /\ max_order3 [] = 0%nat /\ exists tb, tables3_after [5; 2; 8]%nat = Ok tb /\ max_order3 [5; 2; 8]%nat = 8%nat.
Proof.
  split; [reflexivity|]. split; [reflexivity|]. destruct (proj1 (tables3_iff [5; 2; 8]%nat)) as [tb H].
  - intros o Ho. repeat destruct Ho as [<-|Ho]; try lia. destruct Ho.
  - exists tb. split; [exact H|reflexivity].
Qed.
