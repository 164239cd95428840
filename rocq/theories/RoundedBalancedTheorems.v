(** Construction and evaluation of the balanced tree of the plane in rounded arithmetic. *)
From Coq Require Import List Bool ZArith Arith Lia Lra Reals Permutation.
From Coquelicot Require Import Coquelicot.
From Verif Require Import Num Outcome Vec VecProofs Tables Orthtree AdaptiveTree TreeSpec GeometryProofs TreeGeometry AdaptiveProofs BfsProofs ListProofs ListContents
  BuildProofs Schedule CAux TableProofs Expansion2D Exp2Proofs M2LError Fields FieldSpec FieldProofs Exp2Errors FmmPasses PassProofs PassSteps PassTree
  BalancedTree BalancedSpec BalancedIndex BalancedAddr BalancedProofs BalancedFmm AnyTree AnyLists AnyBalanced AnyTheorems AnyPasses
  RoundedFields RoundedSpec RoundedProofs RoundedTree RoundedTreeSpec RoundedTreeProofs RoundedAdaptive RoundedExpansion2D RoundedComplexSpec ApproxC RoundedSeries RoundedLocal RoundedConvert
  RoundedGood RoundedPasses RoundedFmmEval RoundedGeometry RoundedFmmSpec RoundedFmmTheorems RoundedBalancedTree RoundedBalancedFmm RoundedBalancedSpec RoundedBalancedProofs Exp2Theorems.
Import ListNotations.
Local Open Scope R_scope.
Arguments Cmod x%C.
Arguments src_at ctr%C s.
Arguments ap w n%nat x'%C x%C X%R.

Section Main.
Variable rnd : R -> R.
Variable hyp : list R -> R.
Notation NN := (NumRnd rnd).
Notation pos := (@ps_pos R).
Variable w : R.
Hypothesis Hw : 0 <= w <= 1 / 2.
Variable A : carith.
Hypothesis HA : accurate_complex w A.
Variable p : nat.
Hypothesis Hp1 : (1 <= p)%nat.
Variable tb : btab.
Hypothesis Htb : bt_ok tb.
Variables h cap : nat.
Variable srcs : list (psrc R).
Hypothesis Hh32 : (2 * h <= 32)%nat.
Hypothesis Hdim : same_dim 2 srcs.
Variables m M : R.
Hypothesis Hm : 0 < m.
Variable B : R.
Hypothesis HB : logs_within h m M B.
Variable c : list R.
Variable l : R.
Variable ch : addr -> list addr.
Hypothesis F : bfacts rnd hyp h srcs m M c l ch.
Notation o := (ops2_r A p).
Notation mkf := (make_bal_r rnd hyp o 2 h srcs tb).
Notation cpos := (cpos rnd h c l).
Notation rc := (ByDepth h).
Notation leaf x := (leaf_at rnd 2 h c l x).
Notation lf := (fun s => leaf_at rnd 2 h c l (ps_pos s)).
Notation ls := (ListProofs.final 2 (fun _ : psrc R => @nil R) (repeat 0 2) 1 0 (@nil (psrc R)) (ByDepth h) h).
Notation present := (@AnyTree.present R (psrc R) NN 2 cpos c l cap srcs rc).
Notation refined := (@AnyTree.refined R (psrc R) NN 2 cpos c l cap srcs rc).
Notation mk := (@AnyTree.mk R (psrc R) NN 2 cpos c l cap srcs rc).
Notation sub := (@AnyTree.sub R (psrc R) NN 2 cpos c l srcs).
Notation spec := (@AnyTree.spec_tree R (psrc R) NN 2 cpos c l cap srcs rc h).
Notation bmk := (@AnyBalanced.mk R (psrc R) NN 2 c l srcs h lf).
Notation btr := (@any_bal R (psrc R) NN 2 c l srcs h lf ch).
Notation rd := (rad l).
Notation K := 27%nat.
(** No leaf holds more than [cap] sources. *)
Hypothesis Hcap : forall b, present b -> refined b = false -> (length (sub b) <= cap)%nat.
Notation MEk := (@MEok w p NN c l cap srcs h cpos rd).
Notation LEk := (@LEok w p (3 / 4) B NN c l cap srcs h cpos ls K rd).
Definition bgood (mm : @mem se2 se2 btab) : Prop :=
  (forall b, present b -> refined b = false -> exists e, m_le mm b = Some e /\ LEk b e) /\
  (forall q, present q -> (2 <= length q)%nat -> exists e, m_me mm q = Some e /\ MEk q e).

Let Hk := Hok rnd h srcs Hh32 c l cap.
Let g0 := geo0 rnd hyp h srcs m M Hm Hh32 c l ch F cap.
Let g1 := geo1 rnd hyp h srcs m M Hm Hh32 Hdim c l ch F cap.
Let g2 := geo2 rnd hyp h srcs m M Hm Hh32 c l ch F cap.
Let g3 := geo3 rnd hyp h srcs m M Hm Hh32 c l ch F cap B HB.
Let g4 := geo4 rnd h srcs Hh32 c l cap B.
Let g5 := geo5 rnd hyp h srcs m M Hh32 c l ch F cap.
Let B0 := Lam0 h l m M Hm (b_l _ _ _ _ _ _ _ _ _ F) B HB.
Let HB' := b_build _ _ _ _ _ _ _ _ _ F.

Lemma bconstructed : exists mm, bgood mm /\ forall r, mkf r <-> r = Ok (BFmm btr ls mm).
Proof.
  assert (M0 := bmem0_eq rnd hyp h srcs m M Hh32 Hdim c l ch F cap o tb).
  destruct (Nat.eq_dec h 0) as [Z|Z].
  - exists (bmem0 o btr tb). split; [split|].
    + intros b P N. assert (D := @AnyTree.present_depth R (psrc R) NN 2 cpos c l cap srcs rc h Hk b P). exists (fst (o_zero o tb (@AnyTree.ctr R NN 2 c l b))). split.
      * rewrite M0. cbn [mem0 m_le]. rewrite (@AnyTree.lookup_mk R (psrc R) NN 2 cpos c l cap srcs rc h Hk b P). reflexivity.
      * apply (@hzero w Hw A p Hp1 (3 / 4) B NN tb c l cap srcs rc h cpos ls K rd g5); [exact P|lia].
    + intros q P L2. assert (D := @AnyTree.present_depth R (psrc R) NN 2 cpos c l cap srcs rc h Hk q P). lia.
    + intros r. split.
      * intros X. destruct X as [r E N|t' ls' E1 E2|t' ls' r E1 E2 E3 E4|t' ls' rgs r E1 E2 E3 E4]; try (exfalso; lia).
        -- exfalso. eapply N. rewrite <- E. exact HB'.
        -- rewrite HB' in E2. injection E2 as <- <-. reflexivity.
      * intros ->. apply mbr_leaf; assumption.
  - assert (K1 : (1 <= h)%nat) by lia.
    destruct (bal_regions_ok rnd hyp h srcs m M Hh32 Hdim c l ch F cap o K1) as (rgs & HG & HP).
    destruct (@passes_fine w Hw A HA p Hp1 (3 / 4) B ltac:(lra) NN tb Htb c l cap srcs rc h cpos ls Hk Hdim Hcap K) with (rad := rd) as (mm & G & U); try assumption.
    + intros b P. split; [apply (inter_count rnd h srcs Hh32 c l cap b P)|]. rewrite (X_nil rnd h srcs Hh32 c l cap b P). cbn [length]. lia.
    + exists mm. split; [split|].
      * intros b P N. apply G; auto.
      * intros q P L2. apply G; auto.
      * intros r. split.
        -- intros X. destruct X as [r E N|t' ls' E1 E2|t' ls' r E1 E2 E3 E4|t' ls' rgs' r E1 E2 E3 E4]; try (exfalso; lia).
           ++ exfalso. eapply N. rewrite <- E. exact HB'.
           ++ rewrite HB' in E2. injection E2 as <- <-. exfalso. eapply E4. rewrite <- E3. exact HG.
           ++ rewrite HB' in E2. injection E2 as <- <-. assert (Q : Ok rgs' = Ok rgs) by (rewrite <- E3; exact HG). injection Q as ->. rewrite M0 in E4. apply HP, U in E4. subst r. reflexivity.
        -- intros ->. change (Ok (BFmm btr ls mm)) with (omap (BFmm btr ls) (Ok mm)). eapply mbr_passes; [lia|exact HB'|exact HG|]. rewrite M0. apply HP, U. reflexivity.
Qed.

Variable lg : R -> R.
Variables u e : R.
Hypothesis Hu : 0 <= u < 1.
Hypothesis He : 0 <= e < 1.
Hypothesis Huw : u <= w.
Hypothesis Hew : e <= w.
Hypothesis Hrnd : accurate_rounding u rnd.
Hypothesis Hhyp : accurate_norm e hyp.
Hypothesis Hlg : accurate_log e lg.
Variable mm : @mem se2 se2 btab.
Hypothesis HG : bgood mm.
Variable x : list R.
Hypothesis Hx : among 2 pos srcs x.
Hypothesis Hrep : representable rnd x.
Notation sl := (log_slack u e).
Notation L := (leaf x).
Notation f := (BFmm btr ls mm).

Lemma L_facts : length L = h /\ valid 2 L /\ @leaf_box_indices R NN 2 h c l x = Ok (gcos 2 L) /\
  forall j, (j < 2)%nat -> Rabs (nth j x 0 - nth j (box_ctr 2 c l L) 0) <= l / 2 ^ h / 2 + l / 2 ^ h / 500.
Proof. exact (b_leaf _ _ _ _ _ _ _ _ _ F x Hx). Qed.
Lemma L_present : present L.
Proof. apply (pres rnd h srcs Hh32). destruct L_facts as (E & V & _). split; [exact V|]. rewrite E. apply le_n. Qed.
Lemma L_leaf : refined L = false.
Proof. rewrite rf. destruct L_facts as (E & _). rewrite E. apply Nat.ltb_irrefl. Qed.
Lemma found : bal_containing_leaf (N := NN) 2 btr x = Ok (bmk L).
Proof.
  destruct L_facts as (E & V & I & _). apply any_containing_leaf; try assumption; try lia. change (64 / 2)%nat with 32%nat. lia.
Qed.
Lemma L_near : Cmod (cplx x - cplx (@AnyTree.ctr R NN 2 c l L)) <= rd L.
Proof.
  destruct L_facts as (E & _ & _ & C). apply (near_rad rnd h c l m M Hm (b_l _ _ _ _ _ _ _ _ _ F) (b_ctr _ _ _ _ _ _ _ _ _ F)); [rewrite E; apply le_n|].
  intros j Hj. specialize (C j Hj). unfold side. rewrite E. assert (W := wh_pos h l m M Hm (b_l _ _ _ _ _ _ _ _ _ F)). lra.
Qed.
Lemma W_nil_L : nl_W ls L = []. Proof. apply (W_nil rnd h srcs Hh32 c l cap). exact L_present. Qed.
Lemma eval_pot_leaf field : bal_pot_r rnd hyp lg o 2 field f x = leaf_pot rnd hyp lg A p ls L x mm (bt_lookup btr) field.
Proof.
  unfold bal_pot_r, leaf_pot. cbn [b_tree b_lists b_mem]. rewrite found. cbn [bind]. rewrite an_addr_mk, W_nil_L. reflexivity.
Qed.
Lemma eval_force_leaf field eps : bal_force_r rnd hyp o 2 field eps f x = leaf_force rnd hyp A p ls L x mm (bt_lookup btr) field eps.
Proof.
  unfold bal_force_r, leaf_force. cbn [b_tree b_lists b_mem]. rewrite found. cbn [bind]. rewrite an_addr_mk, W_nil_L. reflexivity.
Qed.
Lemma HxW q : In q (nl_W ls L) -> (2 <= length q)%nat /\ rd q <= 3 / 4 * Cmod (cplx x - cplx (@AnyTree.ctr R NN 2 c l q)) /\ Rabs (ln (Cmod (cplx x - cplx (@AnyTree.ctr R NN 2 c l q)))) <= B.
Proof. rewrite W_nil_L. intros []. Qed.
Lemma W_pres q : In q (nl_W ls L) -> present q.
Proof. rewrite W_nil_L. intros []. Qed.
Lemma near_pres q : In q (nl_near ls L) -> present q /\ refined q = false.
Proof.
  intros Hq. apply (near_facts rnd h srcs Hh32 c l cap L q L_present) in Hq. destruct Hq as (P & E & _). split; [exact P|]. rewrite rf, E, (proj1 L_facts). apply Nat.ltb_irrefl.
Qed.
Lemma HKL : (length (nl_W ls L) <= K)%nat /\ (length (nl_near ls L) <= K)%nat.
Proof. rewrite W_nil_L. cbn [length]. assert (N := near_count rnd h srcs Hh32 c l cap L L_present). lia. Qed.
Lemma near_lookup q : In q (nl_near ls L) -> bt_lookup btr q = Some (mk q).
Proof.
  intros Hq. rewrite (bt_lookup_eq rnd hyp h srcs m M Hh32 Hdim c l ch F cap). apply (@AnyTree.lookup_mk R (psrc R) NN 2 cpos c l cap srcs rc h Hk). apply near_pres. exact Hq.
Qed.
Let cov := cover rnd hyp h srcs m M Hh32 c l ch F cap L L_present L_leaf.
Let nother := fun q s => near_other rnd hyp h srcs m M Hh32 Hdim c l ch F cap x q s.
Lemma bevaluated field : exists v, bal_pot_r rnd hyp lg o 2 field f x = Ok v /\
  Rabs (v - direct_potential 2 field (others x srcs) x) <=
    (trunc_bound (3 / 4) p + sl) * abs_charge (others x srcs) + rounding_part w (roundings p cap K h) B sl (others x srcs) x.
Proof.
  rewrite eval_pot_leaf.
  destruct (eval_fine w Hw rnd hyp lg u e Hu He Huw Hew Hrnd Hhyp Hlg A HA p Hp1 (3 / 4) B ltac:(lra) B0 c l cap srcs rc h cpos ls Hk Hdim Hcap K rd g0 g1 g2 g3 g4
    L x L_present (proj1 Hx) Hrep L_near HxW HKL W_pres near_pres cov nother mm) with (field := field) (lk := bt_lookup btr) as (v & V1 & V2).
  - apply HG; [exact L_present|exact L_leaf].
  - intros q. apply HG.
  - exact near_lookup.
  - exists v. split; [exact V1|]. eapply Rle_trans; [exact V2|]. apply Req_le. unfold rounding_part, roundings, cN, gain. f_equal. f_equal. apply rsum_ext. intros s _. field.
Qed.
Lemma bevaluated_force field eps : 0 <= eps ->
  exists near far v, Permutation (near ++ far) (others x srcs) /\ (forall s, In s far -> m / 2 ^ h / 3 <= dist (ps_pos s) x) /\
  bal_force_r rnd hyp o 2 field eps f x = Ok v /\ length v = 2%nat /\ forall j, (j < 2)%nat ->
  Rabs (nth j v 0 - (rsum (fun s => force_on 2 field eps s x j) near + rsum (fun s => force_on 2 field 0 s x j) far)) <=
    3 * (3 / 4) ^ p / (m / 2 ^ h) * abs_charge far
    + ((1 + w) ^ roundings p cap K h - 1) * (3 / (m / 2 ^ h) * abs_charge far + rsum (fun s => Rabs (force_on 2 field eps s x j)) near).
Proof.
  intros Ep. rewrite eval_force_leaf.
  assert (P2 := pow2_pos h). assert (El : 0 < m / 2 ^ h) by (apply Rdiv_lt_0_compat; assumption).
  assert (Hr : forall b, present b -> m / 2 ^ h <= rd b).
  { intros b Pb. assert (Db := @AnyTree.present_depth R (psrc R) NN 2 cpos c l cap srcs rc h Hk b Pb). assert (Lm := proj1 (b_l _ _ _ _ _ _ _ _ _ F)).
    assert (S1 : l / 2 ^ h <= side l b) by (unfold side, Rdiv; apply Rmult_le_compat_l; [lra|]; apply Rinv_le_contravar; [apply pow2_pos|apply Rle_pow; [lra|exact Db]]).
    assert (S2 : 2 * (m / 2 ^ h) <= l / 2 ^ h) by (unfold Rdiv; rewrite <- Rmult_assoc; apply Rmult_le_compat_r; [left; apply Rinv_0_lt_compat; exact P2|exact Lm]).
    unfold rad. lra. }
  assert (C34 : 0 < 3 / 4 < 1) by lra.
  destruct (eval_force_fine w Hw rnd hyp u e Hu He Huw Hrnd Hhyp A HA p Hp1 (3 / 4) B C34 c l cap srcs rc h cpos ls Hk Hdim Hcap K rd g0 g1
    L x L_present (proj1 Hx) Hrep L_near HxW HKL W_pres near_pres nother mm) with (field := field) (eps := eps) (lk := bt_lookup btr) (ell := m / 2 ^ h) as (v & V1 & V2 & V3); try assumption.
  - apply HG; [exact L_present|exact L_leaf].
  - intros q. apply HG.
  - exact near_lookup.
  - assert (PM := near_far_perm rnd (3 / 4) B C34 c l cap srcs rc cpos ls Hdim rd g0 g1 g2 g3 g4 L x L_present L_near HxW W_pres cov).
    eexists. eexists. exists v. split; [exact PM|]. split; [|split; [exact V1|split; [exact V2|]]].
    + intros s Hs. assert (FD := far_dist rnd (3 / 4) B C34 c l cap srcs rc cpos ls Hdim rd g0 g1 g2 g3 g4 L x L_present L_near HxW W_pres (m / 2 ^ h) El Hr s Hs).
      assert (Is : In s srcs). { assert (Y : In s (others x srcs)) by (eapply Permutation_in; [exact PM|apply in_or_app; right; exact Hs]). apply filter_In in Y. apply Y. }
      rewrite dist_Cmod by (try exact (proj1 Hx); apply Hdim; exact Is). eapply Rle_trans; [|exact FD]. apply Req_le. field. apply Rgt_not_eq. exact P2.
    + intros j Hj. eapply Rle_trans; [exact (V3 j Hj)|]. apply Req_le. unfold roundings, cN. cbn [pow]. field. repeat split; apply Rgt_not_eq; assumption.
Qed.
End Main.

Lemma bal_logs h m M srcs : bal_range h m M srcs -> exists B, logs_within h m M B.
Proof. intros (_ & _ & S & Md). apply logs_within_ex. eapply m_le_M; eassumption. Qed.
Lemma bal_built rnd hyp {ME LE Tb} (o : ops ME LE Tb) d h srcs tb f : make_bal_r rnd hyp o d h srcs tb (Ok f) ->
  bal_build (N := NumRnd rnd) (D := DistRnd hyp) d (@ps_pos R) h srcs = Ok (b_tree f, b_lists f).
Proof.
  intros H. inversion H as [r E N Q|t ls E1 E2 Q|t ls r E1 E2 E3 E4 Q|t ls rgs r E1 E2 E3 E4 Q].
  - destruct r as [tl| | | | |]; try discriminate. exfalso. apply (N tl). reflexivity.
  - exact E2.
  - destruct r as [rgs| | | | |]; try discriminate. exfalso. apply (E4 rgs). reflexivity.
  - destruct r as [mm| | | | |]; try discriminate. unfold omap in Q; cbn [bind] in Q. injection Q as <-. exact E2.
Qed.
Theorem rounded_bal_constructs rnd hyp w A p orders h m M srcs : double_like rnd hyp -> 0 <= w <= 1 / 2 -> accurate_complex w A -> (1 <= p)%nat -> bal_range h m M srcs ->
  exists f, bt_height (b_tree f) = h /\ forall r, make_bal_r rnd hyp (ops2_r A p) 2 h srcs (table_after orders) r <-> r = Ok f.
Proof.
  intros HD Hw HA Hp HR. destruct (bal_logs _ _ _ _ HR) as (B & HL). destruct HR as (H32 & Hdim & Hsur & Hmod).
  destruct (bfacts_of rnd hyp h srcs m M HD H32 Hdim Hsur Hmod) as (c & l & ch & F).
  destruct (bconstructed rnd hyp w Hw A HA p Hp (table_after orders) (table_after_ok orders) h (length srcs) srcs H32 Hdim m M (proj1 Hmod) B HL c l ch F) as (mm & _ & U).
  - intros b _ _. rewrite AnyTree.sub_filter. generalize srcs. intros ss. induction ss as [|s ss IH]; [apply le_n|]. cbn [filter]. destruct (addr_eqb _ b); cbn [length]; lia.
  - eexists. split; [|exact U]. reflexivity.
Qed.

Section Eval.
Variable rnd : R -> R.
Variable hyp : list R -> R.
Variable lg : R -> R.
Variables w u e : R.
Hypothesis HD : double_like rnd hyp.
Hypothesis HE : accurate_real w u e rnd hyp lg.
Variable A : carith.
Hypothesis HA : accurate_complex w A.
Variable p : nat.
Hypothesis Hp : (1 <= p)%nat.
Variables h cap : nat.
Variables m M : R.
Variable srcs : list (psrc R).
Hypothesis HR : bal_range h m M srcs.
Variable orders : list nat.
Variable f : @bfmm se2 se2 btab.
Hypothesis Hf : make_bal_r rnd hyp (ops2_r A p) 2 h srcs (table_after orders) (Ok f).
Hypothesis Hcap : leaves_within cap f.
Variable x : list R.
Hypothesis Hx : among 2 (@ps_pos R) srcs x.
Hypothesis Hrep : representable rnd x.
Notation sl := (log_slack u e).
Notation ls := (ListProofs.final 2 (fun _ : psrc R => @nil R) (repeat 0 2) 1 0 (@nil (psrc R)) (ByDepth h) h).

Lemma beval_setup B : logs_within h m M B -> exists c l ch mm, bfacts rnd hyp h srcs m M c l ch /\
  f = BFmm (@any_bal R (psrc R) (NumRnd rnd) 2 c l srcs h (fun s => leaf_at rnd 2 h c l (ps_pos s)) ch) ls mm /\
  bgood rnd w p h cap srcs B c l mm /\
  forall b, @AnyTree.present R (psrc R) (NumRnd rnd) 2 (cpos rnd h c l) c l cap srcs (ByDepth h) b ->
    @AnyTree.refined R (psrc R) (NumRnd rnd) 2 (cpos rnd h c l) c l cap srcs (ByDepth h) b = false -> (length (@AnyTree.sub R (psrc R) (NumRnd rnd) 2 (cpos rnd h c l) c l srcs b) <= cap)%nat.
Proof.
  intros HL. destruct HE as (E1 & E2 & E3 & _). destruct HR as (H32 & Hdim & Hsur & Hmod). assert (HB := bal_built _ _ _ _ _ _ _ _ Hf).
  destruct (bfacts_of rnd hyp h srcs m M HD H32 Hdim Hsur Hmod) as (c & l & ch & F). exists c, l, ch.
  rewrite (b_build _ _ _ _ _ _ _ _ _ F) in HB. injection HB as ET ELs.
  assert (HC : forall b, @AnyTree.present R (psrc R) (NumRnd rnd) 2 (cpos rnd h c l) c l cap srcs (ByDepth h) b ->
    @AnyTree.refined R (psrc R) (NumRnd rnd) 2 (cpos rnd h c l) c l cap srcs (ByDepth h) b = false -> (length (@AnyTree.sub R (psrc R) (NumRnd rnd) 2 (cpos rnd h c l) c l srcs b) <= cap)%nat).
  { intros b P N. assert (Pb := proj1 (pres rnd h srcs H32 c l cap b) P). rewrite rf in N. apply Nat.ltb_ge in N.
    assert (Lb : length b = h) by lia.
    assert (I : In (@AnyTree.mk R (psrc R) (NumRnd rnd) 2 (cpos rnd h c l) c l cap srcs (ByDepth h) b) (bt_leaves (b_tree f))).
    { rewrite <- ET. unfold any_bal. cbn [bt_leaves]. rewrite (lvl_map rnd hyp h srcs m M H32 Hdim c l ch F cap h). apply in_map. apply AnyTree.in_level. split; [exact Lb|exact P]. }
    apply Hcap in I. unfold AnyTree.mk in I. rewrite rf, (proj2 (Nat.ltb_ge _ _)) in I by lia. exact I. }
  destruct (bconstructed rnd hyp w ltac:(lra) A HA p Hp (table_after orders) (table_after_ok orders) h cap srcs H32 Hdim m M (proj1 Hmod) B HL c l ch F HC) as (mm & G & U).
  exists mm. split; [exact F|]. split; [apply U in Hf; injection Hf as Hf'; exact Hf'|]. split; [exact G|exact HC].
Qed.
Theorem rounded_bal_potential B field : logs_within h m M B -> exists v, bal_pot_r rnd hyp lg (ops2_r A p) 2 field f x = Ok v /\
  Rabs (v - direct_potential 2 field (others x srcs) x) <=
    (trunc_bound (3 / 4) p + sl) * abs_charge (others x srcs) + rounding_part w (roundings p cap 27 h) B sl (others x srcs) x.
Proof.
  intros HL. destruct (beval_setup B HL) as (c & l & ch & mm & F & Ef & G & HC). destruct HE as (E1 & E2 & E3 & E4 & E5 & E6). destruct HR as (H32 & Hdim & Hsur & Hmod).
  destruct (bevaluated rnd hyp w ltac:(lra) A HA p Hp h cap srcs H32 Hdim m M (proj1 Hmod) B HL c l ch F HC lg u e ltac:(lra) ltac:(lra) ltac:(lra) ltac:(lra) E4 E5 E6 mm G x Hx Hrep field) as (v & V1 & V2).
  exists v. split; [rewrite Ef; exact V1|exact V2].
Qed.
Notation ell := (m / 2 ^ h).
Theorem rounded_bal_force field eps : 0 <= eps ->
  exists near far v, Permutation (near ++ far) (others x srcs) /\ (forall s, In s far -> ell / 3 <= dist (ps_pos s) x) /\
  bal_force_r rnd hyp (ops2_r A p) 2 field eps f x = Ok v /\ length v = 2%nat /\ forall j, (j < 2)%nat ->
  Rabs (nth j v 0 - (rsum (fun s => force_on 2 field eps s x j) near + rsum (fun s => force_on 2 field 0 s x j) far)) <=
    3 * (3 / 4) ^ p / ell * abs_charge far
    + ((1 + w) ^ roundings p cap 27 h - 1) * (3 / ell * abs_charge far + rsum (fun s => Rabs (force_on 2 field eps s x j)) near).
Proof.
  intros Ep. destruct (bal_logs _ _ _ _ HR) as (B & HL). destruct (beval_setup B HL) as (c & l & ch & mm & F & Ef & G & HC).
  destruct HE as (E1 & E2 & E3 & E4 & E5 & E6). destruct HR as (H32 & Hdim & Hsur & Hmod).
  destruct (bevaluated_force rnd hyp w ltac:(lra) A HA p Hp h cap srcs H32 Hdim m M (proj1 Hmod) B HL c l ch F HC u e ltac:(lra) ltac:(lra) ltac:(lra) E4 E5 mm G x Hx Hrep field eps Ep)
    as (near & far & v & V1 & V2 & V3 & V4 & V5).
  exists near, far, v. rewrite Ef at 1. auto.
Qed.
Theorem rounded_bal_force_plain field :
  exists v, bal_force_r rnd hyp (ops2_r A p) 2 field 0 f x = Ok v /\ length v = 2%nat /\ forall j, (j < 2)%nat ->
  Rabs (nth j v 0 - nth j (direct_force 2 field 0 (others x srcs) x) 0) <=
    3 * (3 / 4) ^ p / ell * abs_charge (others x srcs)
    + ((1 + w) ^ roundings p cap 27 h - 1) * rsum (fun s => 3 / ell * Rabs (ps_q s) + Rabs (force_on 2 field 0 s x j)) (others x srcs).
Proof.
  destruct (rounded_bal_force field 0 (Rle_refl 0)) as (near & far & v & PM & _ & V & L & H). exists v. split; [exact V|]. split; [exact L|]. intros j Hj.
  assert (D : nth j (direct_force 2 field 0 (others x srcs) x) 0 = rsum (fun s => force_on 2 field 0 s x j) near + rsum (fun s => force_on 2 field 0 s x j) far).
  { rewrite <- rsum_app. rewrite (rsum_perm (fun s => force_on 2 field 0 s x j) _ _ PM). unfold direct_force. destruct j as [|[|j]]; [reflexivity|reflexivity|lia]. }
  rewrite D. eapply Rle_trans; [exact (H j Hj)|]. rewrite rsum_plus, rsum_const_mul. unfold abs_charge. rewrite <- !(rsum_perm _ _ _ PM), !rsum_app.
  assert (El : 0 < ell) by (apply Rdiv_lt_0_compat; [apply HR|apply pow2_pos]).
  assert (N1 : 0 <= rsum (fun s => Rabs (ps_q s)) near) by (apply rsum_nonneg; intros; apply Rabs_pos).
  assert (N2 : 0 <= rsum (fun s => Rabs (force_on 2 field 0 s x j)) far) by (apply rsum_nonneg; intros; apply Rabs_pos).
  assert (T : 0 <= 3 * (3 / 4) ^ p / ell) by (apply Rdiv_le_0_compat; [apply Rmult_le_pos; [lra|apply pow_le; lra]|exact El]).
  assert (T3 : 0 <= 3 / ell) by (apply Rdiv_le_0_compat; lra).
  assert (G : 1 <= (1 + w) ^ roundings p cap 27 h) by (apply pow_R1_Rle; destruct HE; lra).
  apply Rplus_le_compat; [apply Rmult_le_compat_l; [exact T|lra]|]. apply Rmult_le_compat_l; [lra|]. assert (0 <= 3 / ell * rsum (fun s => Rabs (ps_q s)) near) by (apply Rmult_le_pos; assumption). lra.
Qed.
End Eval.
Lemma leaves_within_all rnd hyp h m M srcs {ME LE Tb} (o : ops ME LE Tb) tb f : double_like rnd hyp -> bal_range h m M srcs -> make_bal_r rnd hyp o 2 h srcs tb (Ok f) ->
  leaves_within (length srcs) f.
Proof.
  intros HD (H32 & Hdim & Hsur & Hmod) Hf n Hn. assert (HB := bal_built _ _ _ _ _ _ _ _ Hf).
  destruct (bfacts_of rnd hyp h srcs m M HD H32 Hdim Hsur Hmod) as (c & l & ch & F). rewrite (b_build _ _ _ _ _ _ _ _ _ F) in HB. injection HB as ET _.
  rewrite <- ET in Hn. unfold any_bal in Hn. cbn [bt_leaves] in Hn. apply in_map_iff in Hn. destruct Hn as (q & <- & _). unfold AnyBalanced.mk, set_srcs, part.
  destruct (length q <? h)%nat; cbn [mk0 an_srcs length]; [lia|]. clear. induction srcs as [|s ss IH]; [apply le_n|]. cbn [filter]. destruct (addr_eqb _ q); cbn [length]; lia.
Qed.
