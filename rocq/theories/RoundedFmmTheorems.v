(** Construction and evaluation of the two-dimensional adaptive tree in rounded arithmetic. *)
From Coq Require Import List Bool ZArith Arith Lia Lra Reals Permutation.
From Coquelicot Require Import Coquelicot.
From Verif Require Import Num Outcome Vec VecProofs Tables Orthtree AdaptiveTree TreeSpec GeometryProofs TreeGeometry AdaptiveProofs BfsProofs ListProofs ListContents
  BuildProofs Schedule CAux TableProofs Expansion2D Exp2Proofs M2LError Fields FieldSpec FieldProofs Exp2Errors FmmPasses PassProofs PassSteps PassTree AnyTree AnyLists AnyTheorems AnyPasses
  RoundedFields RoundedSpec RoundedProofs RoundedTree RoundedTreeSpec RoundedTreeProofs RoundedAdaptive RoundedExpansion2D RoundedComplexSpec ApproxC RoundedSeries RoundedLocal RoundedConvert
  RoundedGood RoundedPasses RoundedFmmEval RoundedGeometry RoundedFmmSpec Exp2Theorems.
Import ListNotations.
Local Open Scope R_scope.
Arguments Cmod x%C.
Arguments src_at ctr%C s.
Arguments ap w n%nat x'%C x%C X%R.

Lemma others_none x S : (forall s, In s S -> ps_pos s <> x) -> others x S = S.
Proof.
  induction S as [|s S IH]; intros H; [reflexivity|].
  unfold others. cbn [filter]. rewrite (proj2 (is_at_false x s)) by (apply H; left; reflexivity). cbn [negb]. f_equal. apply IH. intros; apply H; right; assumption.
Qed.
Section Main.
Variable rnd : R -> R.
Variable hyp : list R -> R.
Hypothesis HD : double_like rnd hyp.
Notation NN := (NumRnd rnd).
Notation pos := (@ps_pos R).
Variable w : R.
Hypothesis Hw : 0 <= w <= 1 / 2.
Variable A : carith.
Hypothesis HA : accurate_complex w A.
Variable p : nat.
Hypothesis Hp1 : (1 <= p)%nat.
Variable tb : btab.
Hypothesis Htb : bt_ok tb.
Variables h cap fuel : nat.
Variable srcs : list (psrc R).
Hypothesis Hh32 : (h < 32)%nat.
Hypothesis Hdim : same_dim 2 srcs.
Variables m M : R.
Hypothesis Hsur : surround 2 pos srcs m M.
Hypothesis Hmod : moderate h m M.
Variable B : R.
Hypothesis HB : logs_within h m M B.
Variable t : @atree R (psrc R).
Hypothesis Hbuild : build_adaptive (N := NN) 2 pos cap fuel srcs = Ok t.
Hypothesis Ht : (at_height t <= h)%nat.
Notation rc := (ByCount (rr cap srcs)).
Notation o := (ops2_r A p).
Notation mkf := (make_fmm_r rnd hyp o 2 cap fuel srcs tb).

Lemma HR : in_adaptive_range 2 h pos srcs.
Proof. split; [exact (le_S 1 1 (le_n 1))|]. split; [exact Hh32|]. split; [exact Hdim|]. exists m, M. split; assumption. Qed.
Lemma m_le_M : 0 < m <= M.
Proof. destruct Hmod as (P & _). split; [exact P|]. destruct (Hsur 0%nat Nat.lt_0_2) as (_ & (s & Hs & G) & D). specialize (D s Hs). apply abs2 in D. lra. Qed.

(** Everything known of the root box [c], [l] and the height [k]. *)
Record tfacts (c : list R) (l : R) (k : nat) : Prop := {
  f_a : afacts rnd hyp 2 h pos srcs cap t c l k;
  f_c : length c = 2%nat;
  f_l : 2 * m <= l <= 3 * M;
  f_ctr : forall b, (length b <= h)%nat -> length (@AnyTree.ctr R NN 2 c l b) = 2%nat /\ forall j, (j < 2)%nat ->
    Rabs (nth j (@AnyTree.ctr R NN 2 c l b) 0 - nth j (box_ctr 2 c l b) 0) <= l / 2 ^ h / 5000;
  f_pt : forall x k j, among 2 pos srcs x -> (k <= h)%nat -> (j < 2)%nat ->
    Rabs (nth j x 0 - nth j (box_ctr 2 c l (@AnyTree.path R NN 2 c l x k)) 0) <= l / 2 ^ k / 2 + l / 2 ^ h / 100;
  f_in : forall x b j, (length b <= h)%nat -> (j < 2)%nat -> @contains R NN 2 (@AnyTree.ctr R NN 2 c l b) (@AnyTree.blen R NN l b) x = true ->
    Rabs (nth j x 0 - nth j (box_ctr 2 c l b) 0) <= l / 2 ^ length b / 2 + l / 2 ^ h / 100 }.
Lemma tfacts_of : exists c l k, tfacts c l k.
Proof.
  destruct (afacts_of rnd hyp HD 2 h pos srcs HR cap fuel t Hbuild Ht) as (c & l & k & F).
  destruct HD as ((u & Hu & Hacc) & Hint & Hhyp). destruct Hmod as (P1 & P2 & P3).
  destruct (fine_facts rnd u Hu Hacc Hint 2 m M h (le_S 1 1 (le_n 1)) Hh32 m_le_M P2 P3 pos srcs Hdim Hsur) as (c' & l' & R0 & Hc & Hl & F1 & F2 & F3).
  rewrite (a_root _ _ _ _ _ _ _ _ _ _ _ F) in R0. injection R0 as <- <-. exists c, l, k. split; assumption.
Qed.

Section Tree.
Variable c : list R.
Variable l : R.
Variable k : nat.
Hypothesis F : tfacts c l k.
Notation present := (@AnyTree.present R (psrc R) NN 2 pos c l cap srcs rc).
Notation refined := (@AnyTree.refined R (psrc R) NN 2 pos c l cap srcs rc).
Notation mk := (@AnyTree.mk R (psrc R) NN 2 pos c l cap srcs rc).
Notation ls := (@AnyLists.final R (psrc R) NN 2 pos c l cap srcs rc k).
Notation rd := (rad l).
Let FA := f_a c l k F.
Let Hk := a_ok _ _ _ _ _ _ _ _ _ _ _ FA.

Lemma leaf_cap b : present b -> refined b = false -> (length (@AnyTree.sub R (psrc R) NN 2 pos c l srcs b) <= cap)%nat.
Proof.
  intros P N. destruct (adaptive_sources rnd hyp HD 2 h pos srcs HR cap fuel t Hbuild Ht) as (_ & S). destruct (S (mk b)) as (C & _).
  - apply (leaf_is rnd hyp 2 h pos srcs cap t c l k FA). exists b. auto.
  - unfold AnyTree.mk in C. rewrite N in C. exact C.
Qed.
Lemma tree_is : t = @AnyTree.spec_tree R (psrc R) NN 2 pos c l cap srcs rc k.
Proof. exact (a_t _ _ _ _ _ _ _ _ _ _ _ FA). Qed.
Lemma lists_is : all_lists (N := NN) (D := DistRnd hyp) 2 t = Ok ls.
Proof. exact (lists_final rnd hyp 2 h pos srcs cap t Ht c l k FA). Qed.

Variable K : nat.
Hypothesis HK : forall n, In n (heap t) -> (length (nl_inter ls (an_addr n)) <= K)%nat /\ (length (nl_X ls (an_addr n)) <= K)%nat /\
  (length (nl_W ls (an_addr n)) <= K)%nat /\ (length (nl_near ls (an_addr n)) <= K)%nat.
Lemma HKp b : present b -> (length (nl_inter ls b) <= K)%nat /\ (length (nl_X ls b) <= K)%nat /\ (length (nl_W ls b) <= K)%nat /\ (length (nl_near ls b) <= K)%nat.
Proof. intros P. apply (HK (mk b)). apply (heap_is rnd hyp 2 h pos srcs cap t c l k FA). exists b. auto. Qed.
Notation MEk := (@MEok w p NN c l cap srcs k pos rd).
Notation LEk := (@LEok w p (3 / 4) B NN c l cap srcs k pos ls K rd).
Definition good (mm : @mem se2 se2 btab) : Prop :=
  (forall b, present b -> refined b = false -> exists e, m_le mm b = Some e /\ LEk b e) /\
  (forall q, present q -> (2 <= length q)%nat -> exists e, m_me mm q = Some e /\ MEk q e).

Let Hm0 : 0 < m. Proof. apply m_le_M. Qed.
Let g0 := geo0 rnd hyp h cap srcs t Ht c l k FA m M Hm0 (f_l _ _ _ F) (f_ctr _ _ _ F).
Let g1 := geo1 rnd hyp h cap srcs HR t Ht c l k FA m M Hm0 (f_l _ _ _ F) (f_ctr _ _ _ F) (f_pt _ _ _ F).
Let g2 := geo2 rnd hyp h cap srcs t Ht c l k FA m M Hm0 (f_c _ _ _ F) (f_l _ _ _ F) (f_ctr _ _ _ F).
Let g3 := geo3 rnd hyp h cap srcs t Ht c l k FA m M Hm0 (f_c _ _ _ F) (f_l _ _ _ F) (f_ctr _ _ _ F) B HB.
Let g4 := geo4 rnd hyp h cap srcs HR t Ht c l k FA m M Hm0 (f_c _ _ _ F) (f_l _ _ _ F) (f_ctr _ _ _ F) (f_pt _ _ _ F) B HB.
Let g5 := geo5 rnd hyp h cap srcs t Ht c l k FA (f_c _ _ _ F).
Let gL := geoL rnd hyp h cap srcs t Ht c l k FA m M Hm0 (f_l _ _ _ F) (f_ctr _ _ _ F) (f_in _ _ _ F).
Let gW := geoW rnd hyp h cap srcs t Ht c l k FA m M Hm0 (f_c _ _ _ F) (f_l _ _ _ F) (f_ctr _ _ _ F) (f_in _ _ _ F) B HB.
Let B0 := Lam0 h l m M Hm0 (f_l _ _ _ F) B HB.

Lemma constructed : exists mm, good mm /\ forall r, mkf r <-> r = Ok (Fmm t ls mm).
Proof.
  assert (LS := lists_is). assert (TR := tree_is).
  destruct (le_lt_dec (length srcs) cap) as [Small|Big].
  - assert (K0 : k = 0%nat).
    { destruct Hk as (_ & X). destruct k as [|k']; [reflexivity|exfalso]. apply (X 0%nat); [lia|]. cbn [AnyTree.level filter]. unfold AnyTree.refined, rr.
      apply Nat.leb_le in Small. rewrite Small. reflexivity. }
    exists (mem0 o t tb). split; [split|].
    + intros b P N. assert (D := @AnyTree.present_depth R (psrc R) NN 2 pos c l cap srcs rc k Hk b P). exists (fst (o_zero o tb (@AnyTree.ctr R NN 2 c l b))). split.
      * cbn [mem0 m_le]. rewrite TR. rewrite (@AnyTree.lookup_mk R (psrc R) NN 2 pos c l cap srcs rc k Hk b P). reflexivity.
      * apply (@hzero w Hw A p Hp1 (3 / 4) B NN tb c l cap srcs rc k pos ls K rd g5); [exact P|lia].
    + intros q P L2. assert (D := @AnyTree.present_depth R (psrc R) NN 2 pos c l cap srcs rc k Hk q P). lia.
    + intros r. split.
      * intros X. destruct X as [r E N|t' r E1 E2 N|t' ls' E1 E2 E3|t' ls' E1 E2 E3 E4|t' ls' r E1 E2 E3 E4 E5 E6]; try (exfalso; lia).
        -- exfalso. apply (N t). congruence.
        -- rewrite Hbuild in E1. injection E1 as <-. exfalso. apply (N ls). congruence.
        -- rewrite Hbuild in E1. injection E1 as <-. rewrite LS in E2. injection E2 as <-. reflexivity.
      * intros ->. apply mr_leaf; assumption.
  - assert (K1 : (1 <= k)%nat).
    { assert (RT : refined [] = true). { unfold AnyTree.refined, rr. apply negb_true_iff, Nat.leb_gt. exact Big. }
      assert (D := @AnyTree.refined_depth R (psrc R) NN 2 pos c l cap srcs rc k Hk [] I RT). cbn [length] in D. lia. }
    destruct (@passes_fine w Hw A HA p Hp1 (3 / 4) B ltac:(lra) NN tb Htb c l cap srcs rc k pos ls Hk Hdim leaf_cap K) with (rad := rd) as (mm & G & U); try assumption.
    + intros b P. split; apply (HKp b P).
    + exists mm. split; [split|].
      * intros b P N. apply G; auto.
      * intros q P L2. apply G; auto.
      * rewrite <- TR in U. intros r. split.
        -- intros X. destruct X as [r E N|t' r E1 E2 N|t' ls' E1 E2 E3|t' ls' E1 E2 E3 E4|t' ls' r E1 E2 E3 E4 E5 E6]; try (exfalso; lia).
           ++ exfalso. apply (N t). congruence.
           ++ rewrite Hbuild in E1. injection E1 as <-. exfalso. apply (N ls). congruence.
           ++ rewrite Hbuild in E1. injection E1 as <-. exfalso. rewrite TR in E4. cbn [spec_tree at_height at_nodes at_leaves] in E4. rewrite !map_length, !seq_length in E4. lia.
           ++ rewrite Hbuild in E1. injection E1 as <-. rewrite LS in E2. injection E2 as <-. apply U in E6. subst r. reflexivity.
        -- intros ->. change (Ok (Fmm t ls mm)) with (omap (fun m => Fmm t ls m) (Ok mm)). apply mr_passes; try assumption.
           ++ rewrite TR. cbn [spec_tree at_height at_nodes]. rewrite map_length, seq_length. reflexivity.
           ++ rewrite TR. cbn [spec_tree at_height at_leaves]. rewrite map_length, seq_length. lia.
           ++ apply U. reflexivity.
Qed.

Variable lg : R -> R.
Variables u e : R.
Hypothesis Hu : 0 <= u < 1.
Hypothesis He : 0 <= e < 1.
Hypothesis Huw : u <= w.
Hypothesis Hew : e <= w.
Hypothesis Hrnd : accurate_rounding u rnd.
Hypothesis Hhyp : accurate_norm e hyp.
Hypothesis Hlg : accurate_log e lg.
Variable mm : @mem se2 se2 btab.
Hypothesis HG : good mm.
Variable x : list R.
Hypothesis Hx : length x = 2%nat.
Hypothesis Hrep : representable rnd x.
Notation sl := (log_slack u e).

Let Sy := adjb_comm rnd 2 pos srcs cap c l.
Let g3' b q (P : present b) (Hq : In q (nl_inter ls b)) : present q := proj1 (g3 b q P Hq).
Lemma eval_pot_leaf field L : containing_leaf (N := NN) 2 t x = Ok (Some (mk L)) ->
  eval_pot_r rnd hyp lg o 2 field srcs (Fmm t ls mm) x = leaf_pot rnd hyp lg A p ls L x mm (lookup t) field.
Proof. intros CL. unfold eval_pot_r. cbn [f_tree f_lists f_mem]. rewrite CL. reflexivity. Qed.
Lemma eval_force_leaf field eps L : containing_leaf (N := NN) 2 t x = Ok (Some (mk L)) ->
  eval_force_r rnd hyp o 2 field eps srcs (Fmm t ls mm) x = leaf_force rnd hyp A p ls L x mm (lookup t) field eps.
Proof. intros CL. unfold eval_force_r. cbn [f_tree f_lists f_mem]. rewrite CL. reflexivity. Qed.
Lemma near_lookup L q : present L -> refined L = false -> In q (nl_near ls L) -> lookup t q = Some (mk q).
Proof.
  intros P N Hq. rewrite tree_is. apply (@AnyTree.lookup_mk R (psrc R) NN 2 pos c l cap srcs rc k Hk). apply (near_pres rnd c l cap srcs rc k Sy Hk L P N q Hq).
Qed.
Lemma evaluated_in field n : containing_leaf (N := NN) 2 t x = Ok (Some n) -> exists v, eval_pot_r rnd hyp lg o 2 field srcs (Fmm t ls mm) x = Ok v /\
  Rabs (v - direct_potential 2 field (others x srcs) x) <=
    (trunc_bound (3 / 4) p + sl) * abs_charge (others x srcs) + rounding_part w (roundings p cap K k) B sl (others x srcs) x.
Proof.
  intros CL. assert (TR := tree_is). assert (CL' := CL). unfold containing_leaf in CL'. rewrite TR in CL'.
  destruct (@AnyTree.descend_root R (psrc R) NN 2 pos c l cap srcs rc k Hk x) as (L & D & N & P & E). rewrite D in CL'. unfold omap in CL'; cbn [bind] in CL'.
  destruct (contains 2 (an_center (mk L)) (an_len (mk L)) x) eqn:C; [|discriminate]. injection CL' as <-. cbn [AnyTree.mk an_center an_len] in C.
  rewrite (eval_pot_leaf field L CL).
  destruct (eval_fine w Hw rnd hyp lg u e Hu He Huw Hew Hrnd Hhyp Hlg A HA p Hp1 (3 / 4) B ltac:(lra) B0 c l cap srcs rc k pos ls Hk Hdim leaf_cap K rd g0 g1 g2 g3 g4
    L x P Hx Hrep (gL L x P C) (fun q => gW L x q P C)) with (m := mm) (field := field) (lk := lookup t) as (v & V1 & V2).
  - destruct (HKp L P) as (_ & _ & X). exact X.
  - exact (W_pres rnd c l cap srcs rc k Hk L P).
  - exact (near_pres rnd c l cap srcs rc k Sy Hk L P N).
  - exact (cover rnd c l cap srcs rc k Sy Hk g3' L P N).
  - exact (near_other rnd c l cap srcs rc L x P N E).
  - apply HG; assumption.
  - intros q. apply HG.
  - intros q. apply near_lookup; assumption.
  - exists v. split; [exact V1|]. eapply Rle_trans; [exact V2|]. apply Req_le. unfold rounding_part, roundings, cN, gain. f_equal. f_equal. apply rsum_ext. intros s _. field.
Qed.
Lemma evaluated_out field : containing_leaf (N := NN) 2 t x = Ok None -> (forall s, In s srcs -> ps_pos s <> x) ->
  exists v, eval_pot_r rnd hyp lg o 2 field srcs (Fmm t ls mm) x = Ok v /\
  Rabs (v - direct_potential 2 field srcs x) <= sl * abs_charge srcs + rounding_part w (length srcs + 2) B sl srcs x.
Proof.
  intros CL NS. assert (OT := others_none x srcs NS).
  destruct (plane_potential_error rnd hyp lg u e field false srcs x Hu He Hrnd Hhyp Hlg Hx Hdim Hrep) as (v & V1 & V2); [right; exact NS|].
  exists v. unfold eval_pot_r. cbn [f_tree]. rewrite CL. cbn [bind]. split; [exact V1|]. rewrite OT in V2. fold (log_slack u e) in V2.
  eapply Rle_trans; [exact V2|]. set (S1 := rsum (fun s => Rabs (ps_q s) * Rabs (ln (dist (ps_pos s) x))) srcs) in *.
  assert (S0 := sl_pos u e Hu He). assert (Q0 := abs_charge_pos srcs). assert (P1 : 0 <= S1) by (apply rsum_nonneg; intros s _; apply Rmult_le_pos; apply Rabs_pos).
  set (g := (1 + u) ^ (length srcs + 1) * (1 + e)). assert (G : 1 <= g <= (1 + w) ^ (length srcs + 2)).
  { assert (1 <= (1 + u) ^ (length srcs + 1)) by (apply pow_R1_Rle; lra). assert ((1 + u) ^ (length srcs + 1) <= (1 + w) ^ (length srcs + 1)) by (apply pow_incr; lra).
    unfold g. split; [nra|]. replace (length srcs + 2)%nat with (S (length srcs + 1)) by lia. cbn [pow]. rewrite (Rmult_comm (1 + w)). apply Rmult_le_compat; lra. }
  unfold rounding_part. set (ww := (1 + w) ^ (length srcs + 2)) in *.
  assert (E : rsum (fun s => Rabs (ps_q s) * (B + 4 + sl + Rabs (ln (dist (ps_pos s) x)))) srcs = (B + 4 + sl) * abs_charge srcs + S1).
  { unfold abs_charge, S1. rewrite <- rsum_const_mul, <- rsum_plus. apply rsum_ext. intros s _. ring. }
  rewrite E. assert (X1 : (g - 1) * S1 <= (ww - 1) * S1) by (apply Rmult_le_compat_r; lra). assert (X2 : 0 <= sl * abs_charge srcs) by (apply Rmult_le_pos; assumption).
  assert (X3 : (g - 1) * (sl * abs_charge srcs) <= (ww - 1) * (sl * abs_charge srcs)) by (apply Rmult_le_compat_r; lra).
  assert (X4 : 0 <= (ww - 1) * ((B + 4) * abs_charge srcs)) by (apply Rmult_le_pos; [lra|]; apply Rmult_le_pos; [|exact Q0]; assert (Z := B0); lra).
  replace (g * sl * abs_charge srcs) with (sl * abs_charge srcs + (g - 1) * (sl * abs_charge srcs)) by ring. lra.
Qed.
Lemma evaluated_force_in field eps n : 0 <= eps -> containing_leaf (N := NN) 2 t x = Ok (Some n) ->
  exists near far v, Permutation (near ++ far) (others x srcs) /\ (forall s, In s far -> m / 2 ^ k / 3 <= dist (ps_pos s) x) /\
  eval_force_r rnd hyp o 2 field eps srcs (Fmm t ls mm) x = Ok v /\ length v = 2%nat /\ forall j, (j < 2)%nat ->
  Rabs (nth j v 0 - (rsum (fun s => force_on 2 field eps s x j) near + rsum (fun s => force_on 2 field 0 s x j) far)) <=
    3 * (3 / 4) ^ p / (m / 2 ^ k) * abs_charge far
    + ((1 + w) ^ roundings p cap K k - 1) * (3 / (m / 2 ^ k) * abs_charge far + rsum (fun s => Rabs (force_on 2 field eps s x j)) near).
Proof.
  intros Ep CL. assert (TR := tree_is). assert (CL' := CL). unfold containing_leaf in CL'. rewrite TR in CL'.
  destruct (@AnyTree.descend_root R (psrc R) NN 2 pos c l cap srcs rc k Hk x) as (L & D & N & P & E). rewrite D in CL'. unfold omap in CL'; cbn [bind] in CL'.
  destruct (contains 2 (an_center (mk L)) (an_len (mk L)) x) eqn:C; [|discriminate]. injection CL' as <-. cbn [AnyTree.mk an_center an_len] in C. rewrite (eval_force_leaf field eps L CL).
  assert (P2 := pow2_pos k). assert (El : 0 < m / 2 ^ k) by (apply Rdiv_lt_0_compat; assumption).
  assert (Hr : forall b, present b -> m / 2 ^ k <= rd b).
  { intros b Pb. assert (Db := @AnyTree.present_depth R (psrc R) NN 2 pos c l cap srcs rc k Hk b Pb). assert (Lm := proj1 (f_l _ _ _ F)).
    assert (S1 : l / 2 ^ k <= side l b) by (unfold side, Rdiv; apply Rmult_le_compat_l; [lra|]; apply Rinv_le_contravar; [apply pow2_pos|apply Rle_pow; [lra|exact Db]]).
    assert (S2 : 2 * (m / 2 ^ k) <= l / 2 ^ k) by (unfold Rdiv; rewrite <- Rmult_assoc; apply Rmult_le_compat_r; [left; apply Rinv_0_lt_compat; exact P2|exact Lm]).
    unfold rad. lra. }
  assert (C34 : 0 < 3 / 4 < 1) by lra.
  destruct (eval_force_fine w Hw rnd hyp u e Hu He Huw Hrnd Hhyp A HA p Hp1 (3 / 4) B C34 c l cap srcs rc k pos ls Hk Hdim leaf_cap K rd g0 g1
    L x P Hx Hrep (gL L x P C) (fun q => gW L x q P C)) with (m := mm) (field := field) (eps := eps) (lk := lookup t) (ell := m / 2 ^ k) as (v & V1 & V2 & V3); try assumption.
  - destruct (HKp L P) as (_ & _ & X). exact X.
  - exact (W_pres rnd c l cap srcs rc k Hk L P).
  - exact (near_pres rnd c l cap srcs rc k Sy Hk L P N).
  - exact (near_other rnd c l cap srcs rc L x P N E).
  - apply HG; assumption.
  - intros q. apply HG.
  - intros q. apply near_lookup; assumption.
  - assert (PM := near_far_perm rnd (3 / 4) B C34 c l cap srcs rc pos ls Hdim rd g0 g1 g2 g3 g4 L x P (gL L x P C) (fun q => gW L x q P C)
      (W_pres rnd c l cap srcs rc k Hk L P) (cover rnd c l cap srcs rc k Sy Hk g3' L P N)).
    eexists. eexists. exists v. split; [exact PM|]. split; [|split; [exact V1|split; [exact V2|]]].
    + intros s Hs. assert (FD := far_dist rnd (3 / 4) B C34 c l cap srcs rc pos ls Hdim rd g0 g1 g2 g3 g4 L x P (gL L x P C) (fun q => gW L x q P C)
        (W_pres rnd c l cap srcs rc k Hk L P) (m / 2 ^ k) El Hr s Hs).
      assert (Is : In s srcs). { assert (Y : In s (others x srcs)) by (eapply Permutation_in; [exact PM|apply in_or_app; right; exact Hs]). apply filter_In in Y. apply Y. }
      rewrite dist_Cmod by (try exact Hx; apply Hdim; exact Is). eapply Rle_trans; [|exact FD]. apply Req_le. field. apply Rgt_not_eq. exact P2.
    + intros j Hj. eapply Rle_trans; [exact (V3 j Hj)|]. apply Req_le. unfold roundings, cN. cbn [pow]. field. repeat split; apply Rgt_not_eq; assumption.
Qed.
End Tree.
End Main.

Lemma logs_within_ex h m M : 0 < m <= M -> exists B, logs_within h m M B.
Proof.
  intros Hm. assert (P := pow2_pos h). assert (Q : 0 < m / 2 ^ h) by (apply Rdiv_lt_0_compat; lra). exists (Rabs (ln (m / 2 ^ h)) + Rabs (ln (8 * M))).
  intros r Hr. assert (L1 : ln (m / 2 ^ h) <= ln r). { destruct (Rle_lt_or_eq_dec _ _ (proj1 Hr)) as [L|E]; [left; apply ln_increasing; assumption|rewrite <- E; lra]. }
  assert (L2 : ln r <= ln (8 * M)). { destruct (Rle_lt_or_eq_dec _ _ (proj2 Hr)) as [L|E]; [left; apply ln_increasing; lra|rewrite E; lra]. }
  assert (A1 := Rabs_pos (ln (m / 2 ^ h))). assert (A2 := Rabs_pos (ln (8 * M))). assert (A3 := Rle_abs (ln (8 * M))). assert (A4 := Rle_abs (- ln (m / 2 ^ h))). rewrite Rabs_Ropp in A4.
  apply Rabs_le. lra.
Qed.
Lemma max_of {X} (f : X -> nat) (xs : list X) : exists K, forall a, In a xs -> (f a <= K)%nat.
Proof.
  induction xs as [|a xs (K & IH)]; [exists 0%nat; intros a []|]. exists (f a + K)%nat. intros b [<-|H]; [lia|]. specialize (IH b H). lia.
Qed.
Lemma lists_within_ex {ME LE Tb} (f : @fmm ME LE Tb) : exists K, lists_within K f.
Proof.
  destruct (max_of (fun n => (length (nl_inter (f_lists f) (an_addr n)) + length (nl_X (f_lists f) (an_addr n)) + length (nl_W (f_lists f) (an_addr n))
    + length (nl_near (f_lists f) (an_addr n)))%nat) (heap (f_tree f))) as (K & H).
  exists K. intros n Hn. specialize (H n Hn). cbn beta in H. lia.
Qed.
Lemma tree_built rnd hyp {ME LE Tb} (o : ops ME LE Tb) d cap fuel srcs tb f : make_fmm_r rnd hyp o d cap fuel srcs tb (Ok f) ->
  build_adaptive (N := NumRnd rnd) d (@ps_pos R) cap fuel srcs = Ok (f_tree f) /\ all_lists (N := NumRnd rnd) (D := DistRnd hyp) d (f_tree f) = Ok (f_lists f).
Proof.
  intros H. inversion H as [r E N Q|t r E1 E2 N Q|t ls E1 E2 E3 Q|t ls E1 E2 E3 E4 Q|t ls r E1 E2 E3 E4 E5 E6 Q].
  - destruct r as [t| | | | |]; try discriminate. exfalso. apply (N t). reflexivity.
  - destruct r as [ls| | | | |]; try discriminate. exfalso. apply (N ls). reflexivity.
  - split; assumption.
  - destruct r as [mm| | | | |]; try discriminate. unfold omap in Q; cbn [bind] in Q. injection Q as <-. split; assumption.
Qed.

Theorem rounded_constructs rnd hyp w A p orders h cap fuel srcs : double_like rnd hyp -> 0 <= w <= 1 / 2 -> accurate_complex w A -> (1 <= p)%nat ->
  in_refinable_range 2 h (@ps_pos R) srcs -> (1 <= cap)%nat -> (h <= fuel)%nat ->
  exists f, (at_height (f_tree f) <= h)%nat /\ forall r, make_fmm_r rnd hyp (ops2_r A p) 2 cap fuel srcs (table_after orders) r <-> r = Ok f.
Proof.
  intros HD Hw HA Hp RG Hc Hf. destruct (adaptive_ends rnd hyp 2 h (@ps_pos R) srcs cap fuel HD RG Hc Hf) as (t & HB & Ht).
  destruct RG as (_ & H32 & Hdim & m & M & Hsur & Hmod & _). destruct (logs_within_ex h m M (m_le_M h srcs m M Hsur Hmod)) as (B & HL).
  destruct (tfacts_of rnd hyp HD h cap fuel srcs (proj2 H32) Hdim m M Hsur Hmod t HB Ht) as (c & l & k & F).
  set (ls := @AnyLists.final R (psrc R) (NumRnd rnd) 2 (@ps_pos R) c l cap srcs (ByCount (rr cap srcs)) k).
  destruct (lists_within_ex (Fmm t ls (mem0 (ops2_r A p) t (table_after orders)))) as (K & HK). unfold lists_within in HK. cbn [f_tree f_lists] in HK.
  destruct (constructed rnd hyp HD w Hw A HA p Hp (table_after orders) (table_after_ok orders) h cap fuel srcs (proj2 H32) Hdim m M Hsur Hmod B HL t HB Ht c l k F K HK) as (mm & _ & U).
  exists (Fmm t ls mm). split; [exact Ht|exact U].
Qed.

Section Eval.
Variable rnd : R -> R.
Variable hyp : list R -> R.
Variable lg : R -> R.
Variables w u e : R.
Hypothesis HD : double_like rnd hyp.
Hypothesis HE : accurate_real w u e rnd hyp lg.
Variable A : carith.
Hypothesis HA : accurate_complex w A.
Variable p : nat.
Hypothesis Hp : (1 <= p)%nat.
Variables h cap fuel K : nat.
Variables m M B : R.
Variable srcs : list (psrc R).
Hypothesis HR : plane_range h m M srcs.
Hypothesis HL : logs_within h m M B.
Variable orders : list nat.
Variable f : @fmm se2 se2 btab.
Hypothesis Hf : make_fmm_r rnd hyp (ops2_r A p) 2 cap fuel srcs (table_after orders) (Ok f).
Hypothesis Ht : (at_height (f_tree f) <= h)%nat.
Hypothesis HK : lists_within K f.
Variable x : list R.
Hypothesis Hx : length x = 2%nat.
Hypothesis Hrep : representable rnd x.
Notation sl := (log_slack u e).

Lemma eval_setup : exists c l k mm, tfacts rnd hyp h cap srcs m M (f_tree f) c l k /\ k = at_height (f_tree f) /\
  f = Fmm (f_tree f) (@AnyLists.final R (psrc R) (NumRnd rnd) 2 (@ps_pos R) c l cap srcs (ByCount (rr cap srcs)) k) mm /\
  good rnd w p cap srcs B c l k K mm /\
  forall n, In n (heap (f_tree f)) -> let ls := @AnyLists.final R (psrc R) (NumRnd rnd) 2 (@ps_pos R) c l cap srcs (ByCount (rr cap srcs)) k in
  (length (nl_inter ls (an_addr n)) <= K)%nat /\ (length (nl_X ls (an_addr n)) <= K)%nat /\ (length (nl_W ls (an_addr n)) <= K)%nat /\ (length (nl_near ls (an_addr n)) <= K)%nat.
Proof.
  destruct HE as (E1 & E2 & E3 & _). destruct HR as (H32 & Hdim & Hsur & Hmod). destruct (tree_built _ _ _ _ _ _ _ _ _ Hf) as (HB & HLS).
  destruct (tfacts_of rnd hyp HD h cap fuel srcs H32 Hdim m M Hsur Hmod (f_tree f) HB Ht) as (c & l & k & F). exists c, l, k.
  assert (LS := lists_is rnd hyp h cap srcs m M (f_tree f) Ht c l k F). assert (TR := tree_is rnd hyp h cap srcs m M (f_tree f) c l k F).
  rewrite LS in HLS. injection HLS as EL. assert (HK' := HK). unfold lists_within in HK'. rewrite <- EL in HK'.
  destruct (constructed rnd hyp HD w ltac:(lra) A HA p Hp (table_after orders) (table_after_ok orders) h cap fuel srcs H32 Hdim m M Hsur Hmod B HL (f_tree f) HB Ht c l k F K HK') as (mm & G & U).
  exists mm. split; [exact F|]. split; [rewrite TR; reflexivity|]. split; [apply U in Hf; injection Hf as Hf'; exact Hf'|]. split; [exact G|exact HK'].
Qed.
Theorem rounded_potential_found field n : containing_leaf (N := NumRnd rnd) 2 (f_tree f) x = Ok (Some n) ->
  exists v, eval_pot_r rnd hyp lg (ops2_r A p) 2 field srcs f x = Ok v /\
  Rabs (v - direct_potential 2 field (others x srcs) x) <=
    (trunc_bound (3 / 4) p + sl) * abs_charge (others x srcs) + rounding_part w (roundings p cap K (at_height (f_tree f))) B sl (others x srcs) x.
Proof.
  intros CL. destruct eval_setup as (c & l & k & mm & F & Ek & Ef & G & HK'). destruct HE as (E1 & E2 & E3 & E4 & E5 & E6). destruct HR as (H32 & Hdim & Hsur & Hmod).
  destruct (tree_built _ _ _ _ _ _ _ _ _ Hf) as (HB & HLS). rewrite <- Ek.
  destruct (evaluated_in rnd hyp HD w ltac:(lra) A HA p Hp h cap fuel srcs H32 Hdim m M Hsur Hmod B HL (f_tree f) HB Ht c l k F K HK' lg u e ltac:(lra) ltac:(lra) ltac:(lra) ltac:(lra) E4 E5 E6 mm G x Hx Hrep field n CL) as (v & V1 & V2).
  exists v. split; [rewrite Ef; exact V1|exact V2].
Qed.
Theorem rounded_potential_outside field : containing_leaf (N := NumRnd rnd) 2 (f_tree f) x = Ok None -> (forall s, In s srcs -> ps_pos s <> x) ->
  exists v, eval_pot_r rnd hyp lg (ops2_r A p) 2 field srcs f x = Ok v /\
  Rabs (v - direct_potential 2 field srcs x) <= sl * abs_charge srcs + rounding_part w (length srcs + 2) B sl srcs x.
Proof.
  intros CL NS. destruct eval_setup as (c & l & k & mm & F & Ek & Ef & G & HK'). destruct HE as (E1 & E2 & E3 & E4 & E5 & E6). destruct HR as (H32 & Hdim & Hsur & Hmod).
  destruct (tree_built _ _ _ _ _ _ _ _ _ Hf) as (HB & HLS).
  destruct (evaluated_out rnd hyp w A p Hp h cap srcs H32 Hdim m M Hsur Hmod B HL (f_tree f) Ht c l k F lg u e ltac:(lra) ltac:(lra) ltac:(lra) ltac:(lra) E4 E5 E6 mm x Hx Hrep field CL NS) as (v & V1 & V2).
  exists v. split; [rewrite Ef; exact V1|exact V2].
Qed.
Theorem rounded_lookup_ends : exists ol, containing_leaf (N := NumRnd rnd) 2 (f_tree f) x = Ok ol.
Proof.
  destruct eval_setup as (c & l & k & mm & F & _). assert (TR := tree_is rnd hyp h cap srcs m M (f_tree f) c l k F).
  assert (Hk := a_ok _ _ _ _ _ _ _ _ _ _ _ (f_a _ _ _ _ _ _ _ _ _ _ _ F)).
  destruct (@AnyTree.descend_root R (psrc R) (NumRnd rnd) 2 (@ps_pos R) c l cap srcs (ByCount (rr cap srcs)) k Hk x) as (L & D & _). rewrite <- TR in D.
  unfold containing_leaf. rewrite D. unfold omap; cbn [bind]. eexists. reflexivity.
Qed.
Notation ell := (m / 2 ^ at_height (f_tree f)).
Lemma Hm_pos : 0 < m.
Proof. destruct HR as (H32 & Hdim & Hsur & Hmod). apply (m_le_M h srcs m M Hsur Hmod). Qed.
Theorem rounded_force_found field eps n : 0 <= eps -> containing_leaf (N := NumRnd rnd) 2 (f_tree f) x = Ok (Some n) ->
  exists near far v, Permutation (near ++ far) (others x srcs) /\ (forall s, In s far -> ell / 3 <= dist (ps_pos s) x) /\
  eval_force_r rnd hyp (ops2_r A p) 2 field eps srcs f x = Ok v /\ length v = 2%nat /\ forall j, (j < 2)%nat ->
  Rabs (nth j v 0 - (rsum (fun s => force_on 2 field eps s x j) near + rsum (fun s => force_on 2 field 0 s x j) far)) <=
    3 * (3 / 4) ^ p / ell * abs_charge far
    + ((1 + w) ^ roundings p cap K (at_height (f_tree f)) - 1) * (3 / ell * abs_charge far + rsum (fun s => Rabs (force_on 2 field eps s x j)) near).
Proof.
  intros Ep CL. destruct eval_setup as (c & l & k & mm & F & Ek & Ef & G & HK'). destruct HE as (E1 & E2 & E3 & E4 & E5 & E6). destruct HR as (H32 & Hdim & Hsur & Hmod).
  destruct (tree_built _ _ _ _ _ _ _ _ _ Hf) as (HB & HLS). rewrite <- Ek.
  destruct (evaluated_force_in rnd hyp HD w ltac:(lra) A HA p Hp h cap fuel srcs H32 Hdim m M Hsur Hmod B HL (f_tree f) HB Ht c l k F K HK' u e ltac:(lra) ltac:(lra) ltac:(lra) E4 E5 mm G x Hx Hrep field eps n Ep CL)
    as (near & far & v & V1 & V2 & V3 & V4 & V5).
  exists near, far, v. rewrite Ef at 1. auto.
Qed.
Theorem rounded_force_plain field n : containing_leaf (N := NumRnd rnd) 2 (f_tree f) x = Ok (Some n) ->
  exists v, eval_force_r rnd hyp (ops2_r A p) 2 field 0 srcs f x = Ok v /\ length v = 2%nat /\ forall j, (j < 2)%nat ->
  Rabs (nth j v 0 - nth j (direct_force 2 field 0 (others x srcs) x) 0) <=
    3 * (3 / 4) ^ p / ell * abs_charge (others x srcs)
    + ((1 + w) ^ roundings p cap K (at_height (f_tree f)) - 1) * rsum (fun s => 3 / ell * Rabs (ps_q s) + Rabs (force_on 2 field 0 s x j)) (others x srcs).
Proof.
  intros CL. destruct (rounded_force_found field 0 n (Rle_refl 0) CL) as (near & far & v & PM & _ & V & L & H). exists v. split; [exact V|]. split; [exact L|]. intros j Hj.
  assert (D : nth j (direct_force 2 field 0 (others x srcs) x) 0 = rsum (fun s => force_on 2 field 0 s x j) near + rsum (fun s => force_on 2 field 0 s x j) far).
  { rewrite <- rsum_app. rewrite (rsum_perm (fun s => force_on 2 field 0 s x j) _ _ PM). unfold direct_force. destruct j as [|[|j]]; [reflexivity|reflexivity|lia]. }
  rewrite D. eapply Rle_trans; [exact (H j Hj)|]. rewrite rsum_plus, rsum_const_mul. unfold abs_charge. rewrite <- !(rsum_perm _ _ _ PM), !rsum_app.
  assert (El : 0 < ell) by (apply Rdiv_lt_0_compat; [exact Hm_pos|apply pow2_pos]).
  assert (N1 : 0 <= rsum (fun s => Rabs (ps_q s)) near) by (apply rsum_nonneg; intros; apply Rabs_pos).
  assert (N2 : 0 <= rsum (fun s => Rabs (force_on 2 field 0 s x j)) far) by (apply rsum_nonneg; intros; apply Rabs_pos).
  assert (T : 0 <= 3 * (3 / 4) ^ p / ell) by (apply Rdiv_le_0_compat; [apply Rmult_le_pos; [lra|apply pow_le; lra]|exact El]).
  assert (T3 : 0 <= 3 / ell) by (apply Rdiv_le_0_compat; lra).
  assert (G : 1 <= (1 + w) ^ roundings p cap K (at_height (f_tree f))) by (apply pow_R1_Rle; destruct HE; lra).
  apply Rplus_le_compat; [apply Rmult_le_compat_l; [exact T|lra]|]. apply Rmult_le_compat_l; [lra|]. assert (0 <= 3 / ell * rsum (fun s => Rabs (ps_q s)) near) by (apply Rmult_le_pos; assumption). lra.
Qed.
Theorem rounded_force_outside field eps : 0 <= eps -> containing_leaf (N := NumRnd rnd) 2 (f_tree f) x = Ok None -> (forall s, In s srcs -> ps_pos s <> x) ->
  exists v, eval_force_r rnd hyp (ops2_r A p) 2 field eps srcs f x = Ok v /\ length v = 2%nat /\ forall j, (j < 2)%nat ->
  Rabs (nth j v 0 - nth j (direct_force 2 field eps srcs x) 0) <= ((1 + w) ^ (length srcs + 14) - 1) * rsum (fun s => Rabs (force_on 2 field eps s x j)) srcs.
Proof.
  intros Ep CL NS. destruct HE as (E1 & E2 & E3 & E4 & E5 & E6). destruct HR as (H32 & Hdim & Hsur & Hmod).
  destruct (force_error rnd hyp u e 2 field false eps srcs x ltac:(lra) ltac:(lra) E4 E5 Hx Hdim Hrep (or_intror NS) Ep) as (v & V1 & V2 & V3).
  exists v. unfold eval_force_r. rewrite CL. cbn [bind]. split; [exact V1|]. split; [exact V2|]. intros j Hj. rewrite <- (others_none x srcs NS) at 1 3.
  eapply Rle_trans; [exact (V3 j Hj)|]. apply Rmult_le_compat_r; [apply rsum_nonneg; intros; apply Rabs_pos|]. cbn [Nat.eqb].
  assert (G := growth_14 w ltac:(lra) u e ltac:(lra) ltac:(lra) (1 / 2) ltac:(lra)). unfold force_growth, den_lo in G. cbn [Nat.eqb] in G.
  assert (X : (1 + u) ^ (length srcs + 4) / (1 - u) ^ 5 = (1 + u) ^ length srcs * ((1 + u) ^ 4 / (1 - u) ^ 5)) by (rewrite pow_add; unfold Rdiv; ring). rewrite X, pow_add.
  assert (P1 : (1 + u) ^ length srcs <= (1 + w) ^ length srcs) by (apply pow_incr; lra).
  assert (P2 : 0 <= (1 + u) ^ length srcs) by (apply pow_le; lra).
  assert (P3 : 0 <= (1 + u) ^ 4 / (1 - u) ^ 5) by (apply Rdiv_le_0_compat; [apply pow_le; lra|apply pow_lt; lra]).
  assert (Y := Rmult_le_compat _ _ _ _ P2 P3 P1 G). lra.
Qed.
End Eval.

(** The same without the bound on the logarithms, which the force field does not need. *)
Lemma plane_logs h m M srcs : plane_range h m M srcs -> exists B, logs_within h m M B.
Proof. intros (_ & _ & S & Md). apply logs_within_ex. eapply m_le_M; eassumption. Qed.
Theorem rounded_force rnd hyp lg w u e A p h cap fuel K m M srcs orders f x field eps n :
  double_like rnd hyp -> accurate_real w u e rnd hyp lg -> accurate_complex w A -> (1 <= p)%nat -> plane_range h m M srcs ->
  make_fmm_r rnd hyp (ops2_r A p) 2 cap fuel srcs (table_after orders) (Ok f) -> (at_height (f_tree f) <= h)%nat -> lists_within K f ->
  length x = 2%nat -> representable rnd x -> 0 <= eps -> containing_leaf (N := NumRnd rnd) 2 (f_tree f) x = Ok (Some n) ->
  exists near far v, Permutation (near ++ far) (others x srcs) /\ (forall s, In s far -> m / 2 ^ at_height (f_tree f) / 3 <= dist (ps_pos s) x) /\
  eval_force_r rnd hyp (ops2_r A p) 2 field eps srcs f x = Ok v /\ length v = 2%nat /\ forall j, (j < 2)%nat ->
  Rabs (nth j v 0 - (rsum (fun s => force_on 2 field eps s x j) near + rsum (fun s => force_on 2 field 0 s x j) far)) <=
    3 * (3 / 4) ^ p / (m / 2 ^ at_height (f_tree f)) * abs_charge far
    + ((1 + w) ^ roundings p cap K (at_height (f_tree f)) - 1) *
      (3 / (m / 2 ^ at_height (f_tree f)) * abs_charge far + rsum (fun s => Rabs (force_on 2 field eps s x j)) near).
Proof.
  intros HD HE HA Hp HR Hf Ht HK Hx Hrep. destruct (plane_logs _ _ _ _ HR) as (B & HL).
  exact (rounded_force_found rnd hyp lg w u e HD HE A HA p Hp h cap fuel K m M B srcs HR HL orders f Hf Ht HK x Hx Hrep field eps n).
Qed.
Theorem rounded_force_0 rnd hyp lg w u e A p h cap fuel K m M srcs orders f x field n :
  double_like rnd hyp -> accurate_real w u e rnd hyp lg -> accurate_complex w A -> (1 <= p)%nat -> plane_range h m M srcs ->
  make_fmm_r rnd hyp (ops2_r A p) 2 cap fuel srcs (table_after orders) (Ok f) -> (at_height (f_tree f) <= h)%nat -> lists_within K f ->
  length x = 2%nat -> representable rnd x -> containing_leaf (N := NumRnd rnd) 2 (f_tree f) x = Ok (Some n) ->
  exists v, eval_force_r rnd hyp (ops2_r A p) 2 field 0 srcs f x = Ok v /\ length v = 2%nat /\ forall j, (j < 2)%nat ->
  Rabs (nth j v 0 - nth j (direct_force 2 field 0 (others x srcs) x) 0) <=
    3 * (3 / 4) ^ p / (m / 2 ^ at_height (f_tree f)) * abs_charge (others x srcs)
    + ((1 + w) ^ roundings p cap K (at_height (f_tree f)) - 1) *
      rsum (fun s => 3 / (m / 2 ^ at_height (f_tree f)) * Rabs (ps_q s) + Rabs (force_on 2 field 0 s x j)) (others x srcs).
Proof.
  intros HD HE HA Hp HR Hf Ht HK Hx Hrep. destruct (plane_logs _ _ _ _ HR) as (B & HL).
  exact (rounded_force_plain rnd hyp lg w u e HD HE A HA p Hp h cap fuel K m M B srcs HR HL orders f Hf Ht HK x Hx Hrep field n).
Qed.
