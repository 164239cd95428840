(** Construction and evaluation of the three-dimensional balanced tree in rounded arithmetic. *)
From Coq Require Import List Bool ZArith Arith Lia Lra Reals Permutation.
From Coquelicot Require Import Coquelicot.
From Verif Require Import Num Outcome Vec VecProofs Tables Tables3D Orthtree AdaptiveTree TreeSpec GeometryProofs TreeGeometry AdaptiveProofs BfsProofs ListProofs ListContents
  BuildProofs Schedule CAux TableProofs Expansion3D Exp3Loops Exp3Proofs Exp3Errors Exp3Theorems Fields FieldSpec FieldProofs FmmPasses PassProofs PassSteps PassTree
  BalancedTree BalancedSpec BalancedIndex BalancedAddr BalancedProofs BalancedFmm AnyTree AnyLists AnyBalanced AnyTheorems AnyPasses FmmTree3D FmmTree3DProofs
  RoundedFields RoundedSpec RoundedProofs RoundedTree RoundedTreeSpec RoundedTreeProofs RoundedAdaptive RoundedExpansion2D RoundedExpansion3D RoundedComplexSpec RoundedHarmonicSpec
  RoundedLoops3 RoundedErrors3 RoundedGood3 RoundedFmmSpec RoundedFmmSpec3 RoundedFmmTheorems RoundedHeight RoundedApi RoundedApiProofs RoundedPasses3 RoundedFmmEval3 RoundedGeometry3 RoundedFmmTheorems3
  RoundedBalancedTree3 RoundedBalancedFmm RoundedBalancedSpec RoundedBalancedTheorems RoundedBalancedSpec3 RoundedBalancedProofs3 RoundedBalancedApi3.
Import ListNotations.
Local Open Scope R_scope.

Section Main.
Variable rnd : R -> R.
Variable hyp : list R -> R.
Notation NN := (NumRnd rnd).
Notation pos := (@ps_pos R).
Variable w : R.
Hypothesis Hw : 0 <= w <= 1 / 2.
Variable A : harith.
Variable ky : nat.
Hypothesis HA : accurate_harmonics w ky A.
Variables mforce lforce : se3 -> list R -> outcome (list R).
Variable p : nat.
Hypothesis Hp1 : (1 <= p)%nat.
Variable tb : tb3.
Hypothesis Htb : tb3_for tb (Z.of_nat p).
Variables h cap : nat.
Variable srcs : list (psrc R).
Hypothesis Hh32 : (3 * h <= 32)%nat.
Hypothesis Hdim : same_dim 3 srcs.
Variables m M : R.
Hypothesis Hm : 0 < m.
Variable c : list R.
Variable l : R.
Variable ch : addr -> list addr.
Hypothesis F : bfacts3 rnd hyp h srcs m M c l ch.
Notation o := (ops3_r A mforce lforce p).
Notation mkf := (make_bal_r rnd hyp o 3 h srcs tb).
Notation cpos := (cpos rnd h c l).
Notation rc := (ByDepth h).
Notation leaf x := (leaf_at rnd 3 h c l x).
Notation lf := (fun s => leaf_at rnd 3 h c l (ps_pos s)).
Notation ls := (ListProofs.final 3 (fun _ : psrc R => @nil R) (repeat 0 3) 1 0 (@nil (psrc R)) (ByDepth h) h).
Notation present := (@AnyTree.present R (psrc R) NN 3 cpos c l cap srcs rc).
Notation refined := (@AnyTree.refined R (psrc R) NN 3 cpos c l cap srcs rc).
Notation mk := (@AnyTree.mk R (psrc R) NN 3 cpos c l cap srcs rc).
Notation sub := (@AnyTree.sub R (psrc R) NN 3 cpos c l srcs).
Notation bmk := (@AnyBalanced.mk R (psrc R) NN 3 c l srcs h lf).
Notation btr := (@any_bal R (psrc R) NN 3 c l srcs h lf ch).
Notation rd := (rad l).
Notation tu := (tau h m p).
Notation K := 189%nat.
(** No leaf holds more than [cap] sources. *)
Hypothesis Hcap : forall b, present b -> refined b = false -> (length (sub b) <= cap)%nat.
Notation MEk := (@MEok w ky p NN c l cap srcs h cpos rd).
Notation LEk := (@LEok w ky p tu NN c l cap srcs h cpos ls K rd).
Definition bgood (mm : @mem se3 se3 tb3) : Prop :=
  (forall b, present b -> refined b = false -> exists e, m_le mm b = Some e /\ LEk b e) /\
  (forall q, present q -> (2 <= length q)%nat -> exists e, m_me mm q = Some e /\ MEk q e).

Let Hk := Hok rnd h srcs Hh32 c l cap.
Let g0 := geo0 rnd hyp h srcs m M Hm Hh32 c l ch F cap.
Let g1 := geo1 rnd hyp h srcs m M Hm Hh32 Hdim c l ch F cap.
Let g2 := geo2 rnd hyp h srcs m M Hm Hh32 c l ch F cap.
Let g3 := geo3 rnd hyp h srcs m M Hm Hh32 c l ch F cap p.
Let g4 := geo4 rnd h srcs m Hh32 c l cap p.
Let g5 := geo5 rnd hyp h srcs m M Hh32 c l ch F cap.
Let HB' := b3_build _ _ _ _ _ _ _ _ _ F.
Let tau0 : 0 <= tu. Proof. left. apply tau_pos. exact Hm. Qed.

Lemma bconstructed : exists mm, bgood mm /\ forall r, mkf r <-> r = Ok (BFmm btr ls mm).
Proof.
  assert (M0 := bmem0_eq rnd hyp h srcs m M Hh32 Hdim c l ch F cap o tb).
  destruct (Nat.eq_dec h 0) as [Z|Z].
  - exists (bmem0 o btr tb). split; [split|].
    + intros b P N. assert (D := @AnyTree.present_depth R (psrc R) NN 3 cpos c l cap srcs rc h Hk b P). exists (fst (o_zero o tb (@AnyTree.ctr R NN 3 c l b))). split.
      * rewrite M0. cbn [mem0 m_le]. rewrite (@AnyTree.lookup_mk R (psrc R) NN 3 cpos c l cap srcs rc h Hk b P). reflexivity.
      * apply (@hzero w ky A mforce lforce p Hp1 tu NN tb c l cap srcs rc h cpos ls K rd g0 g5); [exact P|lia].
    + intros q P L2. assert (D := @AnyTree.present_depth R (psrc R) NN 3 cpos c l cap srcs rc h Hk q P). lia.
    + intros r. split.
      * intros X. destruct X as [r E N|t' ls' E1 E2|t' ls' r E1 E2 E3 E4|t' ls' rgs r E1 E2 E3 E4]; try (exfalso; lia).
        -- exfalso. eapply N. rewrite <- E. exact HB'.
        -- rewrite HB' in E2. injection E2 as <- <-. reflexivity.
      * intros ->. apply mbr_leaf; assumption.
  - assert (K1 : (1 <= h)%nat) by lia.
    destruct (bal_regions_ok rnd hyp h srcs m M Hh32 Hdim c l ch F cap o K1) as (rgs & HG & HP).
    destruct (@passes_fine3 w Hw ky A HA mforce lforce p Hp1 tu NN tb Htb c l cap srcs rc h cpos ls Hk Hdim Hcap K) with (rad := rd) as (mm & G & U); try assumption.
    + intros b P. split; [apply (inter_count rnd hyp h srcs m M Hh32 c l ch F cap b P)|]. rewrite (X_nil rnd h srcs Hh32 c l cap b P). cbn [length]. lia.
    + exists mm. split; [split|].
      * intros b P N. apply G; auto.
      * intros q P L2. apply G; auto.
      * intros r. split.
        -- intros X. destruct X as [r E N|t' ls' E1 E2|t' ls' r E1 E2 E3 E4|t' ls' rgs' r E1 E2 E3 E4]; try (exfalso; lia).
           ++ exfalso. eapply N. rewrite <- E. exact HB'.
           ++ rewrite HB' in E2. injection E2 as <- <-. exfalso. eapply E4. rewrite <- E3. exact HG.
           ++ rewrite HB' in E2. injection E2 as <- <-. assert (Q : Ok rgs' = Ok rgs) by (rewrite <- E3; exact HG). injection Q as ->. rewrite M0 in E4. apply HP, U in E4. subst r. reflexivity.
        -- intros ->. change (Ok (BFmm btr ls mm)) with (omap (BFmm btr ls) (Ok mm)). eapply mbr_passes; [lia|exact HB'|exact HG|]. rewrite M0. apply HP, U. reflexivity.
Qed.

Variable lg : R -> R.
Variables u e : R.
Hypothesis Hu : 0 <= u <= w.
Hypothesis He : 0 <= e <= w.
Hypothesis Hrnd : accurate_rounding u rnd.
Hypothesis Hhyp : accurate_norm e hyp.
Variable mm : @mem se3 se3 tb3.
Hypothesis HG : bgood mm.
Variable x : list R.
Hypothesis Hx : among 3 pos srcs x.
Hypothesis Hrep : representable rnd x.
Notation L := (leaf x).
Notation f := (BFmm btr ls mm).

Lemma L_facts : length L = h /\ valid 3 L /\ @leaf_box_indices R NN 3 h c l x = Ok (gcos 3 L) /\
  forall j, (j < 3)%nat -> Rabs (nth j x 0 - nth j (box_ctr 3 c l L) 0) <= l / 2 ^ h / 2 + l / 2 ^ h / 500.
Proof. exact (b3_leaf _ _ _ _ _ _ _ _ _ F x Hx). Qed.
Lemma L_present : present L.
Proof. apply (pres rnd h srcs Hh32). destruct L_facts as (E & V & _). split; [exact V|]. rewrite E. apply le_n. Qed.
Lemma L_leaf : refined L = false.
Proof. rewrite rf. destruct L_facts as (E & _). rewrite E. apply Nat.ltb_irrefl. Qed.
Lemma found : bal_containing_leaf (N := NN) 3 btr x = Ok (bmk L).
Proof.
  destruct L_facts as (E & V & I & _). apply any_containing_leaf; try assumption; try lia. change (64 / 3)%nat with 21%nat. lia.
Qed.
Lemma L_near : dist x (@AnyTree.ctr R NN 3 c l L) <= rd L.
Proof.
  destruct L_facts as (E & _ & _ & C). apply (near_rad rnd h c l m M Hm (b3_l _ _ _ _ _ _ _ _ _ F) (b3_ctr _ _ _ _ _ _ _ _ _ F)); [exact (proj1 Hx)|rewrite E; apply le_n|].
  intros j Hj. specialize (C j Hj). unfold side. rewrite E. assert (W := wh_pos h l m M Hm (b3_l _ _ _ _ _ _ _ _ _ F)). lra.
Qed.
Lemma W_nil_L : nl_W ls L = []. Proof. apply (W_nil rnd h srcs Hh32 c l cap). exact L_present. Qed.
Lemma eval_pot_leaf field : bal_pot_r rnd hyp lg o 3 field f x = leaf_pot rnd hyp lg A mforce lforce p ls L x mm (bt_lookup btr) field.
Proof.
  unfold bal_pot_r, leaf_pot. cbn [b_tree b_lists b_mem]. rewrite found. cbn [bind]. rewrite an_addr_mk, W_nil_L. reflexivity.
Qed.
Lemma HxW q : In q (nl_W ls L) -> (2 <= length q)%nat /\ exists r, rd q < r /\ r <= dist x (@AnyTree.ctr R NN 3 c l q) /\ trunc3 (rd q) r p <= tu.
Proof. rewrite W_nil_L. intros []. Qed.
Lemma W_pres q : In q (nl_W ls L) -> present q.
Proof. rewrite W_nil_L. intros []. Qed.
Lemma near_pres q : In q (nl_near ls L) -> present q /\ refined q = false.
Proof.
  intros Hq. apply (near_facts rnd h srcs Hh32 c l cap L q L_present) in Hq. destruct Hq as (P & E & _). split; [exact P|]. rewrite rf, E, (proj1 L_facts). apply Nat.ltb_irrefl.
Qed.
Lemma HKL : (length (nl_W ls L) <= K)%nat /\ (length (nl_near ls L) <= K)%nat.
Proof. rewrite W_nil_L. cbn [length]. assert (N := near_count rnd hyp h srcs m M Hh32 c l ch F cap L L_present). lia. Qed.
Lemma near_lookup q : In q (nl_near ls L) -> bt_lookup btr q = Some (mk q).
Proof.
  intros Hq. rewrite (bt_lookup_eq rnd hyp h srcs m M Hh32 Hdim c l ch F cap). apply (@AnyTree.lookup_mk R (psrc R) NN 3 cpos c l cap srcs rc h Hk). apply near_pres. exact Hq.
Qed.
Let cov := cover rnd hyp h srcs m M Hh32 c l ch F cap L L_present L_leaf.
Let nother := fun q s => near_other rnd hyp h srcs m M Hh32 Hdim c l ch F cap x q s.
Lemma bevaluated field : exists v, bal_pot_r rnd hyp lg o 3 field f x = Ok v /\
  Rabs (v - direct_potential 3 field (others x srcs) x) <= bound3 w p h (roundings3 ky p cap K h) m (others x srcs) x.
Proof.
  rewrite eval_pot_leaf.
  destruct (eval_fine w Hw rnd hyp u e Hu He Hrnd Hhyp lg ky A HA mforce lforce p Hp1 tu tau0 c l cap srcs rc h cpos ls Hk Hdim Hcap K rd g0 g1 g2 g3 g4
    L x L_present (proj1 Hx) Hrep L_near HxW HKL W_pres near_pres cov nother) with (m := mm) (field := field) (lk := bt_lookup btr) as (v & V1 & V2).
  - apply HG; [exact L_present|exact L_leaf].
  - intros q. apply HG.
  - exact near_lookup.
  - exists v. split; [exact V1|]. eapply Rle_trans; [exact V2|]. apply Req_le. unfold bound3.
    replace (cN ky p cap h K) with (roundings3 ky p cap K h). 2:{ unfold roundings3, cN, cL, cB, cM, Nop. rewrite Nat2Z.id, Nat.sub_0_r. ring. }
    rewrite ge_growth, k1_INR. reflexivity.
Qed.
End Main.

Theorem rounded_bal_constructs3 rnd hyp w ky A mforce lforce p tb h m M srcs : double_like rnd hyp -> 0 <= w <= 1 / 2 -> accurate_harmonics w ky A -> (1 <= p)%nat -> tb3_for tb (Z.of_nat p) ->
  bal_range3 h m M srcs ->
  exists f, bt_height (b_tree f) = h /\ forall r, make_bal_r rnd hyp (ops3_r A mforce lforce p) 3 h srcs tb r <-> r = Ok f.
Proof.
  intros HD Hw HA Hp Htb HR. destruct HR as (H32 & Hdim & Hsur & Hmod).
  destruct (bfacts3_of rnd hyp h srcs m M HD H32 Hdim Hsur Hmod) as (c & l & ch & F).
  destruct (bconstructed rnd hyp w Hw A ky HA mforce lforce p Hp tb Htb h (length srcs) srcs H32 Hdim m M (proj1 Hmod) c l ch F) as (mm & _ & U).
  - intros b _ _. rewrite AnyTree.sub_filter. generalize srcs. intros ss. induction ss as [|s ss IH]; [apply le_n|]. cbn [filter]. destruct (addr_eqb _ b); cbn [length]; lia.
  - eexists. split; [|exact U]. reflexivity.
Qed.

Section Eval.
Variable rnd : R -> R.
Variable hyp : list R -> R.
Variable lg : R -> R.
Variables w u e : R.
Hypothesis HD : double_like rnd hyp.
Hypothesis HE : accurate_space w u e rnd hyp.
Variable ky : nat.
Variable A : harith.
Hypothesis HA : accurate_harmonics w ky A.
Variables mforce lforce : se3 -> list R -> outcome (list R).
Variable p : nat.
Hypothesis Hp : (1 <= p)%nat.
Variables h cap : nat.
Variables m M : R.
Variable srcs : list (psrc R).
Hypothesis HR : bal_range3 h m M srcs.
Variable tb : tb3.
Hypothesis Htb : tb3_for tb (Z.of_nat p).
Variable f : @bfmm se3 se3 tb3.
Hypothesis Hf : make_bal_r rnd hyp (ops3_r A mforce lforce p) 3 h srcs tb (Ok f).
Hypothesis Hcap : leaves_within cap f.
Variable x : list R.
Hypothesis Hx : among 3 (@ps_pos R) srcs x.
Hypothesis Hrep : representable rnd x.
Notation ls := (ListProofs.final 3 (fun _ : psrc R => @nil R) (repeat 0 3) 1 0 (@nil (psrc R)) (ByDepth h) h).

Lemma beval_setup : exists c l ch mm, bfacts3 rnd hyp h srcs m M c l ch /\
  f = BFmm (@any_bal R (psrc R) (NumRnd rnd) 3 c l srcs h (fun s => leaf_at rnd 3 h c l (ps_pos s)) ch) ls mm /\
  bgood rnd w ky p h cap srcs m c l mm /\
  forall b, @AnyTree.present R (psrc R) (NumRnd rnd) 3 (cpos rnd h c l) c l cap srcs (ByDepth h) b ->
    @AnyTree.refined R (psrc R) (NumRnd rnd) 3 (cpos rnd h c l) c l cap srcs (ByDepth h) b = false -> (length (@AnyTree.sub R (psrc R) (NumRnd rnd) 3 (cpos rnd h c l) c l srcs b) <= cap)%nat.
Proof.
  destruct HE as (E1 & E2 & E3 & _). destruct HR as (H32 & Hdim & Hsur & Hmod). assert (HB := bal_built _ _ _ _ _ _ _ _ Hf).
  destruct (bfacts3_of rnd hyp h srcs m M HD H32 Hdim Hsur Hmod) as (c & l & ch & F). exists c, l, ch.
  rewrite (b3_build _ _ _ _ _ _ _ _ _ F) in HB. injection HB as ET ELs.
  assert (HC : forall b, @AnyTree.present R (psrc R) (NumRnd rnd) 3 (cpos rnd h c l) c l cap srcs (ByDepth h) b ->
    @AnyTree.refined R (psrc R) (NumRnd rnd) 3 (cpos rnd h c l) c l cap srcs (ByDepth h) b = false -> (length (@AnyTree.sub R (psrc R) (NumRnd rnd) 3 (cpos rnd h c l) c l srcs b) <= cap)%nat).
  { intros b P N. assert (Pb := proj1 (pres rnd h srcs H32 c l cap b) P). rewrite rf in N. apply Nat.ltb_ge in N.
    assert (Lb : length b = h) by lia.
    assert (I : In (@AnyTree.mk R (psrc R) (NumRnd rnd) 3 (cpos rnd h c l) c l cap srcs (ByDepth h) b) (bt_leaves (b_tree f))).
    { rewrite <- ET. unfold any_bal. cbn [bt_leaves]. rewrite (lvl_map rnd hyp h srcs m M H32 Hdim c l ch F cap h). apply in_map. apply AnyTree.in_level. split; [exact Lb|exact P]. }
    apply Hcap in I. unfold AnyTree.mk in I. rewrite rf, (proj2 (Nat.ltb_ge _ _)) in I by lia. exact I. }
  destruct (bconstructed rnd hyp w ltac:(lra) A ky HA mforce lforce p Hp tb Htb h cap srcs H32 Hdim m M (proj1 Hmod) c l ch F HC) as (mm & G & U).
  exists mm. split; [exact F|]. split; [apply U in Hf; injection Hf as Hf'; exact Hf'|]. split; [exact G|exact HC].
Qed.
Theorem rounded_bal_potential3 field : exists v, bal_pot_r rnd hyp lg (ops3_r A mforce lforce p) 3 field f x = Ok v /\
  Rabs (v - direct_potential 3 field (others x srcs) x) <= bound3 w p h (roundings3 ky p cap 189 h) m (others x srcs) x.
Proof.
  destruct beval_setup as (c & l & ch & mm & F & Ef & G & HC). destruct HE as (E1 & E2 & E3 & E4 & E5). destruct HR as (H32 & Hdim & Hsur & Hmod).
  destruct (bevaluated rnd hyp w ltac:(lra) A ky HA mforce lforce p Hp h cap srcs H32 Hdim m M (proj1 Hmod) c l ch F HC lg u e ltac:(lra) ltac:(lra) E4 E5 mm G x Hx Hrep field) as (v & V1 & V2).
  exists v. split; [rewrite Ef; exact V1|exact V2].
Qed.
End Eval.
Lemma leaves_within_all3 rnd hyp h m M srcs {ME LE Tb} (o : ops ME LE Tb) tb f : double_like rnd hyp -> bal_range3 h m M srcs -> make_bal_r rnd hyp o 3 h srcs tb (Ok f) ->
  leaves_within (length srcs) f.
Proof.
  intros HD (H32 & Hdim & Hsur & Hmod) Hf n Hn. assert (HB := bal_built _ _ _ _ _ _ _ _ Hf).
  destruct (bfacts3_of rnd hyp h srcs m M HD H32 Hdim Hsur Hmod) as (c & l & ch & F). rewrite (b3_build _ _ _ _ _ _ _ _ _ F) in HB. injection HB as ET _.
  rewrite <- ET in Hn. unfold any_bal in Hn. cbn [bt_leaves] in Hn. apply in_map_iff in Hn. destruct Hn as (q & <- & _). unfold AnyBalanced.mk, set_srcs, part.
  destruct (length q <? h)%nat; cbn [mk0 an_srcs length]; [lia|]. clear. induction srcs as [|s ss IH]; [apply le_n|]. cbn [filter]. destruct (addr_eqb _ q); cbn [length]; lia.
Qed.
Lemma bal_range3_le h k m M srcs : (k <= h)%nat -> bal_range3 h m M srcs -> bal_range3 k m M srcs.
Proof.
  intros L (H32 & Hd & Hs & Hm). split; [lia|]. split; [exact Hd|]. split; [exact Hs|]. assert (HM := m_le_M h srcs m M Hs Hm). destruct Hm as (P1 & P2 & P3). split; [exact P1|]. split; [exact P2|].
  assert (2 ^ k <= 2 ^ h) by (apply Rle_pow; [lra|exact L]). assert (M * 2 ^ k <= M * 2 ^ h) by (apply Rmult_le_compat_l; lra). lra.
Qed.

(** The whole constructor. *)
Section Constructor.
Variable rnd : R -> R.
Variable hyp : list R -> R.
Variable lg : R -> R.
Variables w u e : R.
Hypothesis HD : double_like rnd hyp.
Hypothesis HE : accurate_space w u e rnd hyp.
Hypothesis HL : accurate_log e lg.
Hypothesis Hw : w <= / 10000000.
Variable ky : nat.
Variable A : harith.
Hypothesis HA : accurate_harmonics w ky A.
Variables mforce lforce : se3 -> list R -> outcome (list R).
Variable eps : R.
Variable srcs : list (psrc R).
Hypothesis Heps : 0 < eps.
Hypothesis Hn : INR (length srcs) * u <= / 10000.
Hypothesis Hq : 1001 / 1000 * eps < abs_charge srcs <= 2 ^ 41 * eps.
Variable cap H : nat.
Variables m M : R.
Hypothesis Hcap : (1 <= cap)%nat.
Hypothesis Hlo : 1001 / 1000 * INR cap <= INR (length srcs) * 8.
Hypothesis Hhi : 1001 / 1000 * INR (length srcs) <= INR cap * 8 ^ H.
Hypothesis HR : bal_range3 H m M srcs.
Variable orders : list nat.
Variable tb0 : tb3.
Hypothesis Htb0 : tables3_after orders = Ok tb0.

Lemma pow8 k : (2 ^ 3) ^ k = 8 ^ k. Proof. f_equal. ring. Qed.
Lemma height_chosen3 : exists h, bal_height_r rnd lg 3 (length srcs) cap = Ok h /\ (h <= H)%nat /\ INR (length srcs) <= 1001 / 1000 * (INR cap * 8 ^ h) /\
  (forall j, (j < h)%nat -> INR cap * 8 ^ j < 1001 / 1000 * INR (length srcs)).
Proof.
  destruct HE as (E1 & E2 & E3 & E4 & E5). assert (U : 0 <= u <= / 10000000) by lra. assert (E : 0 <= e <= / 10000000) by lra. assert (PC : 0 < INR cap) by (apply lt_0_INR; lia). assert (PN := pos_INR (length srcs)).
  assert (HQ : / 2 ^ 64 <= INR (length srcs) / INR cap <= 2 ^ 64).
  { assert (H16 : (H <= 10)%nat) by (destruct HR; lia). assert (P : 8 <= 2 ^ 64) by (change 64%nat with (3 + 61)%nat; rewrite pow_add; assert (1 <= 2 ^ 61) by (apply pow_R1_Rle; lra); lra).
    assert (/ 2 ^ 64 <= / 8) by (apply Rinv_le_contravar; lra).
    assert (8 ^ H <= 2 ^ 64). { rewrite <- pow8, <- pow_mult. apply Rle_pow; [lra|lia]. }
    assert (X : INR (length srcs) / INR cap * INR cap = INR (length srcs)) by (field; lra).
    split; apply (Rmult_le_reg_r (INR cap)); try exact PC; rewrite X.
    - assert (/ 2 ^ 64 * INR cap <= / 8 * INR cap) by (apply Rmult_le_compat_r; lra). lra.
    - assert (INR cap * 8 ^ H <= INR cap * 2 ^ 64) by (apply Rmult_le_compat_l; lra). lra. }
  destruct (height_rounded rnd lg u e U E E4 HL 3 (length srcs) cap ltac:(lia) Hcap HQ) as (h & X1 & X2 & X3).
  { replace (2 ^ 3) with 8 by ring. exact Hlo. }
  rewrite pow8 in X2. assert (X3' : forall j, (j < h)%nat -> INR cap * 8 ^ j < 1001 / 1000 * INR (length srcs)) by (intros j Hj; rewrite <- pow8; apply X3; exact Hj).
  exists h. split; [exact X1|]. split; [|split; assumption]. apply Nat.nlt_ge. intros X. specialize (X3' H X). lra.
Qed.
Theorem balanced_rounded3 : exists o,
  (forall r, balanced_fmm3_r rnd hyp lg A mforce lforce cap eps srcs tb0 r <-> r = Ok o) /\
  abs_charge srcs / 2 ^ b3_order o <= 1001 / 1000 * eps /\
  INR (length srcs) <= 1001 / 1000 * (INR cap * 8 ^ bt_height (b_tree (b3_fmm o))) /\ (bt_height (b_tree (b3_fmm o)) <= H)%nat /\ leaves_within (length srcs) (b3_fmm o) /\
  forall K x field, leaves_within K (b3_fmm o) -> among 3 (@ps_pos R) srcs x -> representable rnd x ->
    exists v, bal_potential3_at_r rnd hyp lg A mforce lforce field o x = Ok v /\
      Rabs (v - direct_potential 3 field (others x srcs) x) <=
        bound3 w (b3_order o) (bt_height (b_tree (b3_fmm o))) (roundings3 ky (b3_order o) K 189 (bt_height (b_tree (b3_fmm o)))) m (others x srcs) x.
Proof.
  destruct height_chosen3 as (h & H1 & H2 & H3 & _). assert (HR' := bal_range3_le _ _ _ _ _ H2 HR).
  destruct HE as (E1 & E2 & E3 & E4 & E5).
  assert (P41 : 2 ^ 41 <= 2 ^ 100) by (apply Rle_pow; [lra|lia]).
  destruct (order_chosen rnd hyp lg w u e (conj E1 (conj E2 (conj E3 (conj E4 (conj E5 HL))))) Hw eps srcs Heps Hn) as (p & P1 & P2 & P3 & P4).
  { split; [apply Hq|]. eapply Rle_trans; [apply Hq|]. apply Rmult_le_compat_r; lra. }
  assert (P42 : (p <= 42)%nat).
  { apply Nat.nlt_ge. intros X. specialize (P4 42%nat X). assert (Y : abs_charge srcs / 2 ^ 42 <= eps / 2).
    { apply (Rmult_le_reg_r (2 ^ 42)); [apply pow_lt; lra|]. unfold Rdiv at 1. rewrite Rmult_assoc, Rinv_l by (apply pow_nonzero; lra). rewrite Rmult_1_r.
      eapply Rle_trans; [apply Hq|]. apply Req_le. change 42%nat with (S 41). rewrite <- tech_pow_Rmult. field. }
    lra. }
  destruct (tables3_grown orders tb0 p Htb0 ltac:(lia)) as (tb & T1 & T2 & _).
  destruct (rounded_bal_constructs3 rnd hyp w ky A mforce lforce p tb h m M srcs HD ltac:(lra) HA P2 T2 HR') as (f & Hh & UN).
  exists (Bal3Obj p f). cbn [b3_order b3_fmm]. rewrite Hh. split; [|split; [exact P3|split; [exact H3|split; [exact H2|split; [apply (leaves_within_all3 rnd hyp h m M srcs (ops3_r A mforce lforce p) tb f HD HR'), UN; reflexivity|]]]]].
  - intros r. split; [|intros ->].
    + intros X. inversion X as [r0 Er NE Er'|p0 r0 Ep Er NE Er'|p0 h0 r0 Ep Eh Er NE Er'|p0 h0 tb1 r0 Ep Eh Et Hm Er'].
      * exfalso. apply (NE p). congruence.
      * exfalso. apply (NE h). congruence.
      * exfalso. rewrite P1 in Ep. injection Ep as <-. apply (NE tb). congruence.
      * rewrite P1 in Ep. injection Ep as <-. rewrite H1 in Eh. injection Eh as <-. rewrite T1 in Et. injection Et as <-. apply UN in Hm. subst r0. reflexivity.
    + change (Ok (Bal3Obj p f)) with (omap (Bal3Obj p) (Ok f)). eapply bfr3_make; [exact P1|exact H1|exact T1|apply UN; reflexivity].
  - intros K x field HK Hx Hrep. unfold bal_potential3_at_r. cbn [b3_order b3_fmm].
    exact (rounded_bal_potential3 rnd hyp lg w u e HD HE ky A HA mforce lforce p P2 h K m M srcs HR' tb T2 f (proj2 (UN _) eq_refl) HK x Hx Hrep field).
Qed.
End Constructor.
