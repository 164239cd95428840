(** The constructors of the trees of the plane in rounded arithmetic, from the sources, the capacity and the accuracy alone. *)
From Coq Require Import List Bool ZArith Arith Lia Lra Reals.
From Coquelicot Require Import Coquelicot.
From Verif Require Import Num Outcome Vec Orthtree AdaptiveTree BalancedTree TreeSpec CAux FieldSpec FmmPasses FmmApi FmmApiProofs BalancedFmm BalancedApiProofs Tables Expansion2D Exp2Theorems Exp2Errors RoundedSpec RoundedProofs RoundedCases
  RoundedTree RoundedTreeSpec RoundedTreeCases RoundedExpansion2D RoundedComplexSpec TextbookComplex RoundedFmmSpec RoundedFmmTheorems RoundedFmmCases RoundedBalancedFmm RoundedBalancedSpec RoundedBalancedTheorems RoundedBalancedCases
  RoundedApi RoundedHeight.
Import ListNotations.
Local Open Scope R_scope.

Lemma bal_range_le h k m M srcs : (k <= h)%nat -> bal_range h m M srcs -> bal_range k m M srcs.
Proof.
  intros L (H32 & Hd & Hs & Hm). split; [lia|]. split; [exact Hd|]. split; [exact Hs|]. assert (HM := m_le_M h srcs m M Hs Hm). destruct Hm as (P1 & P2 & P3). split; [exact P1|]. split; [exact P2|].
  assert (2 ^ k <= 2 ^ h) by (apply Rle_pow; [lra|exact L]). assert (M * 2 ^ k <= M * 2 ^ h) by (apply Rmult_le_compat_l; lra). lra.
Qed.
Lemma logs_within_le h k m M B : 0 < m -> (k <= h)%nat -> logs_within h m M B -> logs_within k m M B.
Proof.
  intros Hm L H r Hr. apply H. assert (P : 0 < 2 ^ k) by (apply pow_lt; lra). assert (2 ^ k <= 2 ^ h) by (apply Rle_pow; [lra|exact L]).
  assert (/ 2 ^ h <= / 2 ^ k) by (apply Rinv_le_contravar; assumption). assert (m * / 2 ^ h <= m * / 2 ^ k) by (apply Rmult_le_compat_l; lra). unfold Rdiv in *. lra.
Qed.

Section Constructors.
Variable rnd : R -> R.
Variable hyp : list R -> R.
Variable lg : R -> R.
Variable w u e : R.
Variable A : carith.
Hypothesis HD : double_like rnd hyp.
Hypothesis HE : accurate_real w u e rnd hyp lg.
Hypothesis Hw : w <= / 10000000.
Hypothesis HA : accurate_complex w A.
Variable eps : R.
Variable srcs : list (psrc R).
Hypothesis Heps : 0 < eps.
Hypothesis Hn : INR (length srcs) * u <= / 10000.
Hypothesis Hq : 1001 / 1000 * eps < abs_charge srcs <= 2 ^ 100 * eps.

Lemma ue : (0 <= u <= / 10000000) /\ (0 <= e <= / 10000000) /\ accurate_rounding u rnd /\ accurate_log e lg /\ 0 <= w <= 1 / 2.
Proof. destruct HE as (E1 & E2 & E3 & E4 & E5 & E6). repeat split; try lra; assumption. Qed.
Lemma order_chosen : exists p, order_of_r rnd lg eps srcs = Ok p /\ (1 <= p)%nat /\ abs_charge srcs / 2 ^ p <= 1001 / 1000 * eps /\ (forall q, (q < p)%nat -> eps < 1001 / 1000 * (abs_charge srcs / 2 ^ q)).
Proof.
  destruct ue as (U & E & R & G & _).
  assert (HQ : / 2 ^ 100 <= abs_charge srcs / eps <= 2 ^ 100).
  { assert (P : 1 <= 2 ^ 100) by (apply pow_R1_Rle; lra). assert (/ 2 ^ 100 <= / 1) by (apply Rinv_le_contravar; lra). split.
    - apply (Rmult_le_reg_r eps); [exact Heps|]. replace (abs_charge srcs / eps * eps) with (abs_charge srcs) by (field; lra).
      assert (/ 2 ^ 100 * eps <= 1 * eps) by (apply Rmult_le_compat_r; lra). lra.
    - apply (Rmult_le_reg_r eps); [exact Heps|]. replace (abs_charge srcs / eps * eps) with (abs_charge srcs) by (field; lra). lra. }
  destruct (order_rounded rnd lg u e U E R G eps srcs Heps Hn HQ ltac:(lra)) as (p & E1 & E2 & E3). exists p. split; [exact E1|]. split; [|split; assumption].
  destruct p as [|p]; [|lia]. cbn [pow] in E2. lra.
Qed.

(** *** The balanced tree *)
Section Balanced.
Variable cap H : nat.
Variable m M B : R.
Hypothesis Hcap : (1 <= cap)%nat.
Hypothesis Hlo : 1001 / 1000 * INR cap <= INR (length srcs) * 4.
Hypothesis Hhi : 1001 / 1000 * INR (length srcs) <= INR cap * 4 ^ H.
Hypothesis HR : bal_range H m M srcs.
Hypothesis HL : logs_within H m M B.
Lemma pow4 k : (2 ^ 2) ^ k = 4 ^ k. Proof. f_equal. ring. Qed.
Lemma height_chosen : exists h, bal_height_r rnd lg 2 (length srcs) cap = Ok h /\ (h <= H)%nat /\ INR (length srcs) <= 1001 / 1000 * (INR cap * 4 ^ h) /\
  (forall j, (j < h)%nat -> INR cap * 4 ^ j < 1001 / 1000 * INR (length srcs)).
Proof.
  destruct ue as (U & E & R & G & _). assert (PC : 0 < INR cap) by (apply lt_0_INR; lia). assert (PN := pos_INR (length srcs)).
  assert (HQ : / 2 ^ 64 <= INR (length srcs) / INR cap <= 2 ^ 64).
  { assert (H16 : (H <= 16)%nat) by (destruct HR; lia). assert (P : 4 <= 2 ^ 64) by (change 64%nat with (2 + 62)%nat; rewrite pow_add; assert (1 <= 2 ^ 62) by (apply pow_R1_Rle; lra); lra).
    assert (/ 2 ^ 64 <= / 4) by (apply Rinv_le_contravar; lra).
    assert (4 ^ H <= 2 ^ 64). { rewrite <- pow4, <- pow_mult. apply Rle_pow; [lra|lia]. }
    assert (X : INR (length srcs) / INR cap * INR cap = INR (length srcs)) by (field; lra).
    split; apply (Rmult_le_reg_r (INR cap)); try exact PC; rewrite X.
    - assert (/ 2 ^ 64 * INR cap <= / 4 * INR cap) by (apply Rmult_le_compat_r; lra). lra.
    - assert (INR cap * 4 ^ H <= INR cap * 2 ^ 64) by (apply Rmult_le_compat_l; lra). lra. }
  destruct (height_rounded rnd lg u e U E R G 2 (length srcs) cap ltac:(lia) Hcap HQ) as (h & E1 & E2 & E3).
  { replace (2 ^ 2) with 4 by ring. exact Hlo. }
  rewrite pow4 in E2. assert (E3' : forall j, (j < h)%nat -> INR cap * 4 ^ j < 1001 / 1000 * INR (length srcs)) by (intros j Hj; rewrite <- pow4; apply E3; exact Hj).
  exists h. split; [exact E1|]. split; [|split; assumption]. apply Nat.nlt_ge. intros X. specialize (E3' H X). lra.
Qed.
Theorem balanced_rounded orders : exists o,
  (forall r, balanced_fmm2_r rnd hyp lg A cap eps srcs (table_after orders) r <-> r = Ok o) /\
  abs_charge srcs / 2 ^ bo_order o <= 1001 / 1000 * eps /\
  INR (length srcs) <= 1001 / 1000 * (INR cap * 4 ^ bt_height (b_tree (bo_fmm o))) /\ (bt_height (b_tree (bo_fmm o)) <= H)%nat /\
  forall K x field, leaves_within K (bo_fmm o) -> among 2 (@ps_pos R) srcs x -> representable rnd x ->
    exists v, bal_potential_at_r rnd hyp lg A field o x = Ok v /\
      Rabs (v - direct_potential 2 field (others x srcs) x) <=
        ((3 / 4) ^ S (bo_order o) / (INR (S (bo_order o)) * (1 - 3 / 4)) + - ln ((1 - e) * (1 - u))) * abs_charge (others x srcs)
        + rounding_part w (roundings (bo_order o) K 27 (bt_height (b_tree (bo_fmm o)))) B (- ln ((1 - e) * (1 - u))) (others x srcs) x.
Proof.
  destruct order_chosen as (p & P1 & P2 & P3 & _). destruct height_chosen as (h & E1 & E2 & E3 & _). destruct ue as (_ & _ & _ & _ & W).
  assert (HR' := bal_range_le _ _ _ _ _ E2 HR). assert (HL' := logs_within_le _ _ _ _ _ (proj1 (proj2 (proj2 (proj2 HR)))) E2 HL).
  destruct (rounded_bal_constructs rnd hyp w A p orders h m M srcs HD W HA P2 HR') as (f & Hh & UN).
  exists (BalObj p f). cbn [bo_order bo_fmm]. rewrite Hh. split; [|split; [exact P3|split; [exact E3|split; [exact E2|]]]].
  - intros r. split; [|intros ->].
    + intros X. inversion X as [r0 Er NE Er'|p0 r0 Ep Er NE Er'|p0 h0 r0 Ep Eh Hm Er'].
      * exfalso. apply (NE p). congruence.
      * exfalso. apply (NE h). congruence.
      * rewrite P1 in Ep. injection Ep as <-. rewrite E1 in Eh. injection Eh as <-. apply UN in Hm. subst r0. reflexivity.
    + change (Ok (BalObj p f)) with (omap (BalObj p) (Ok f)). eapply bfr_make; [exact P1|exact E1|apply UN; reflexivity].
  - intros K x field HK Hx Hrep. unfold bal_potential_at_r. cbn [bo_order bo_fmm].
    exact (rounded_bal_potential rnd hyp lg w u e HD HE A HA p P2 h K m M srcs HR' orders f (proj2 (UN _) eq_refl) HK x Hx Hrep B field HL').
Qed.
End Balanced.

(** *** The adaptive tree *)
Section Adaptive.
Variable cap fuel h : nat.
Hypothesis Hcap : (1 <= cap)%nat.
Hypothesis Hfuel : (h <= fuel)%nat.
Hypothesis HR : in_refinable_range 2 h (@ps_pos R) srcs.
Theorem adaptive_rounded orders : exists o,
  (forall r, adaptive_fmm2_r rnd hyp lg A cap fuel eps srcs (table_after orders) r <-> r = Ok o) /\
  abs_charge srcs / 2 ^ fo_order o <= 1001 / 1000 * eps /\ (at_height (f_tree (fo_fmm o)) <= h)%nat /\
  forall m M B K x field n, plane_range h m M srcs -> logs_within h m M B -> lists_within K (fo_fmm o) -> length x = 2%nat -> representable rnd x ->
    containing_leaf (N := NumRnd rnd) 2 (f_tree (fo_fmm o)) x = Ok (Some n) ->
    exists v, potential_at_r rnd hyp lg A field srcs o x = Ok v /\
      Rabs (v - direct_potential 2 field (others x srcs) x) <=
        ((3 / 4) ^ S (fo_order o) / (INR (S (fo_order o)) * (1 - 3 / 4)) + - ln ((1 - e) * (1 - u))) * abs_charge (others x srcs)
        + rounding_part w (roundings (fo_order o) cap K (at_height (f_tree (fo_fmm o)))) B (- ln ((1 - e) * (1 - u))) (others x srcs) x.
Proof.
  destruct order_chosen as (p & P1 & P2 & P3 & _). destruct ue as (_ & _ & _ & _ & W).
  destruct (rounded_constructs rnd hyp w A p orders h cap fuel srcs HD W HA P2 HR Hcap Hfuel) as (f & Hh & UN).
  exists (FmmObj p f). cbn [fo_order fo_fmm]. split; [|split; [exact P3|split; [exact Hh|]]].
  - intros r. split; [|intros ->].
    + intros X. inversion X as [r0 Er NE Er'|p0 r0 Ep Hm Er'].
      * exfalso. apply (NE p). congruence.
      * rewrite P1 in Ep. injection Ep as <-. apply UN in Hm. subst r0. reflexivity.
    + change (Ok (FmmObj p f)) with (omap (FmmObj p) (Ok f)). eapply afr_make; [exact P1|apply UN; reflexivity].
  - intros m M B K x field n HP HL HK Hx Hrep CL. unfold potential_at_r. cbn [fo_order fo_fmm].
    exact (rounded_potential_found rnd hyp lg w u e HD HE A HA p P2 h cap fuel K m M B srcs HP HL orders f (proj2 (UN _) eq_refl) Hh HK x Hx Hrep field n CL).
Qed.
End Adaptive.
End Constructors.

(** *** The nine charges *)
Lemma charges_total : abs_charge charges = 9.
Proof. unfold abs_charge, charges, nine. cbn [map ps_q rsum fold_right]. assert (E : Rabs (-1) = 1) by (rewrite Rabs_left; lra). rewrite !E. ring. Qed.
Lemma charges_height : exists k, bal_height_r double_round double_log 2 (length charges) 2 = Ok k /\ bal_height 2 (length charges) 2 = Ok k.
Proof.
  apply (height_same double_round double_log (/ 9007199254740992) (/ 4503599627370496)); try lia; try lra.
  - exact double_accurate.
  - exact double_log_accurate.
  - change (length charges) with 9%nat. assert (1 <= 2 ^ 60) by (apply pow_R1_Rle; lra). assert (2 ^ 64 = 16 * 2 ^ 60) by (change 64%nat with (4 + 60)%nat; rewrite pow_add; ring).
    rewrite H0. replace (INR 9 / INR 2) with (9 / 2) by (cbn [INR]; field). split; [|lra]. assert (/ (16 * 2 ^ 60) <= / 1) by (apply Rinv_le_contravar; lra). lra.
  - change (length charges) with 9%nat. cbn [INR pow]. lra.
  - intros j. change (length charges) with 9%nat. replace (INR 9) with 9 by (cbn [INR]; ring). replace (INR 2) with 2 by (cbn [INR]; ring).
    rewrite pow4. destruct j as [|[|j]]; [right; cbn [pow]; lra|right; cbn [pow]; lra|left]. cbn [pow]. assert (1 <= 4 ^ j) by (apply pow_R1_Rle; lra). lra.
Qed.
Lemma charges_order_data : 1001 / 1000 * (1 / 100) < abs_charge charges <= 2 ^ 100 * (1 / 100) /\ INR (length charges) * / 9007199254740992 <= / 10000.
Proof.
  rewrite charges_total. change (length charges) with 9%nat. replace (INR 9) with 9 by (cbn [INR]; ring).
  assert (2 ^ 10 <= 2 ^ 100) by (apply Rle_pow; [lra|lia]). assert (E : 2 ^ 10 = 1024) by ring. lra.
Qed.
Lemma charges_bal_data : 1001 / 1000 * INR 2 <= INR (length charges) * 4 /\ 1001 / 1000 * INR (length charges) <= INR 2 * 4 ^ 3 /\ exists m M, bal_range 3 m M charges.
Proof.
  change (length charges) with 9%nat. replace (INR 9) with 9 by (cbn [INR]; ring). replace (INR 2) with 2 by (cbn [INR]; ring).
  split; [lra|]. split; [cbn [pow]; lra|exact charges_bal].
Qed.
