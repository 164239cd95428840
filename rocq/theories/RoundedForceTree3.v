(** The force field of the three-dimensional adaptive tree in double precision fails in a cone about the vertical line through the centre of
    every leaf. *)
From Coq Require Import List Bool ZArith Arith Lia Lra Psatz Reals Permutation.
From Coquelicot Require Import Rcomplements Complex.
From Flocq Require Import Core.
From Verif Require Import Num Outcome Vec VecProofs Tables Tables3D Orthtree AdaptiveTree AdaptiveProofs BuildProofs TreeSpec CAux FieldSpec FmmPasses FmmTree3D Expansion2D Expansion3D Exp3Loops Exp3Theorems BalancedTree BalancedSpec AnyTree AnyLists
  RoundedFields RoundedSpec RoundedCases RoundedPairCases RoundedTree RoundedTreeSpec RoundedTreeCases RoundedAdaptive RoundedExpansion2D RoundedExpansion3D RoundedComplexSpec RoundedHarmonicSpec
  RoundedGood3 RoundedFmmSpec RoundedFmmSpec3 RoundedFmmTheorems RoundedApi RoundedApi3 RoundedApiProofs RoundedPasses3 RoundedFmmTheorems3 RoundedFmmCases RoundedFmmCases3 RoundedHarmonicTable RoundedTableSpec RoundedTable RoundedTableCases
  RoundedForce3D RoundedForceSpec3 RoundedForceApi3 RoundedForceCases3 RoundedForceFinal3.
Import ListNotations.
Local Open Scope R_scope.

(** The local expansion of the leaf of a point is centred at the leaf. *)
Lemma leaf_expansion rnd hyp w u e ky A mforce lforce p h cap fuel K m M srcs tb f x n : double_like rnd hyp -> accurate_space w u e rnd hyp -> accurate_harmonics w ky A -> (1 <= p)%nat ->
  space_range h m M srcs -> tb3_for tb (Z.of_nat p) -> make_fmm_r rnd hyp (ops3_r A mforce lforce p) 3 cap fuel srcs tb (Ok f) -> (at_height (f_tree f) <= h)%nat -> lists_within K f ->
  containing_leaf (N := NumRnd rnd) 3 (f_tree f) x = Ok (Some n) -> length (an_center n) = 3%nat /\ exists e0, m_le (f_mem f) (an_addr n) = Some e0 /\ s3_ctr e0 = an_center n.
Proof.
  intros HD HE HA Hp HR Htb Hf Ht HK CL.
  destruct (eval_setup rnd hyp w u e HD HE ky A HA mforce lforce p Hp h cap fuel K m M srcs HR tb Htb f Hf Ht HK) as (c & l & k & mm & F & Ek & Ef & [G _] & _).
  assert (TR := tree_is rnd hyp h cap srcs m M (f_tree f) c l k F). assert (Hk := a_ok _ _ _ _ _ _ _ _ _ _ _ (f_a _ _ _ _ _ _ _ _ _ _ _ F)).
  assert (CL' := CL). unfold containing_leaf in CL'. rewrite TR in CL'.
  destruct (@AnyTree.descend_root R (psrc R) (NumRnd rnd) 3 (@ps_pos R) c l cap srcs (ByCount (rr cap srcs)) k Hk x) as (L & D & N & P & E). rewrite D in CL'. unfold omap in CL'; cbn [bind] in CL'.
  match type of CL' with Ok (if ?b then _ else _) = _ => destruct b; [|discriminate] end. injection CL' as <-. rewrite Ef. cbn [f_mem AnyTree.mk an_addr an_center].
  split. { destruct (f_ctr _ _ _ _ _ _ _ _ _ _ _ F L) as (X & _); [|exact X]. assert (Z := pres_h rnd hyp 3 h (@ps_pos R) srcs cap (f_tree f) Ht c l k (f_a _ _ _ _ _ _ _ _ _ _ _ F) L P). exact Z. }
  destruct (G L P N) as (e0 & E0 & (_ & f' & f0 & E1 & E2 & _)). exists e0. split; [exact E0|]. rewrite E2. reflexivity.
Qed.

Theorem cone_tree rnd hyp lg w u e ky G eps srcs cap fuel h orders tb : double_like rnd hyp -> accurate_space w u e rnd hyp -> accurate_log e lg -> w <= / 10000000 -> accurate_harmonics w ky (g_h G) ->
  0 < eps -> INR (length srcs) * u <= / 10000 -> 1001 / 1000 * eps < abs_charge srcs <= 2 ^ 41 * eps ->
  (1 <= cap)%nat -> (h <= fuel)%nat -> in_refinable_range 3 h (@ps_pos R) srcs -> tables3_after orders = Ok tb ->
  (forall x y, h_dif (g_h G) x y = double_round (x - y)) -> (forall x y, y_hyp (g_y G) x y = double_round (sqrt (x * x + y * y))) ->
  (forall y x, y_atan2 (g_y G) y x = double_round (atan2 y x)) -> (forall t, y_cos (g_y G) t = double_round (cos t)) ->
  exists o, (forall r, adaptive_fmm3_r rnd hyp lg (g_h G) (me3_force_r G) (le3_force_r G) cap fuel eps srcs tb r <-> r = Ok o) /\
  forall x1 x2 x3 n field del, containing_leaf (N := NumRnd rnd) 3 (f_tree (f3_fmm o)) [x1; x2; x3] = Ok (Some n) ->
    let c j := nth j (an_center n) 0 in x3 <> c 2%nat -> sqrt ((x1 - c 0%nat) * (x1 - c 0%nat) + (x2 - c 1%nat) * (x2 - c 1%nat)) <= / 268435456 * Rabs (x3 - c 2%nat) ->
    force3_at_r rnd hyp G field del srcs o [x1; x2; x3] = NonFinite.
Proof.
  intros HD HE HL Hw HA Heps Hn Hq Hcap Hfu HR HT H1 H2 H3 H4.
  destruct (adaptive_rounded3 rnd hyp lg w u e HD HE HL Hw ky (g_h G) HA (me3_force_r G) (le3_force_r G) eps srcs Heps Hn Hq cap fuel h Hcap Hfu HR orders tb HT) as (o & U & _ & Hh & _).
  exists o. split; [exact U|]. intros x1 x2 x3 n field del CL cj Hz Hs. unfold cj in Hz, Hs; clear cj.
  assert (X := proj2 (U _) eq_refl). inversion X as [r0 Er NE Er'|p0 r0 Ep Er NE Er'|p0 tb1 r0 Ep Et Hm Er'].
  { destruct r0; discriminate. } { destruct r0; discriminate. }
  destruct r0 as [f| | | | |]; try discriminate. cbn [omap bind] in Er'. injection Er' as <-. cbn [f3_fmm f3_order] in *.
  destruct HE as (E1 & E2 & E3 & E4 & E5). assert (P41 : 2 ^ 41 <= 2 ^ 100) by (apply Rle_pow; [lra|lia]).
  destruct (order_chosen rnd hyp lg w u e (conj E1 (conj E2 (conj E3 (conj E4 (conj E5 HL))))) Hw eps srcs Heps Hn) as (p & P1 & P2 & P3 & P4).
  { split; [apply Hq|]. eapply Rle_trans; [apply Hq|]. apply Rmult_le_compat_r; lra. }
  rewrite P1 in Ep. injection Ep as <-.
  assert (P42 : (p <= 42)%nat).
  { apply Nat.nlt_ge. intros Y. specialize (P4 42%nat Y). assert (Z : abs_charge srcs / 2 ^ 42 <= eps / 2).
    { apply (Rmult_le_reg_r (2 ^ 42)); [apply pow_lt; lra|]. unfold Rdiv at 1. rewrite Rmult_assoc, Rinv_l by (apply pow_nonzero; lra). rewrite Rmult_1_r.
      eapply Rle_trans; [apply Hq|]. apply Req_le. change 42%nat with (S 41). rewrite <- tech_pow_Rmult. field. }
    lra. }
  destruct (tables3_grown orders tb p HT ltac:(lia)) as (tb' & T1 & T2 & _). rewrite T1 in Et. injection Et as <-.
  destruct HR as (_ & H32 & Hdim & m & M & Hsur & Hmod & _). destruct (lists_within_ex f) as (K & HK).
  destruct (leaf_expansion rnd hyp w u e ky (g_h G) _ _ p h cap fuel K m M srcs tb' f _ n HD (conj E1 (conj E2 (conj E3 (conj E4 E5)))) HA P2 (conj (proj2 H32) (conj Hdim (conj Hsur Hmod))) T2 Hm Hh HK CL) as (L0 & e0 & L1 & L2).
  destruct (an_center n) as [|a [|b [|c [|? ?]]]] eqn:Ec; try discriminate. cbn [nth] in Hz, Hs.
  unfold force3_at_r, eval_force_r. cbn [f3_fmm f3_order]. rewrite CL. cbn [bind]. rewrite L1. cbn [of_option bind].
  unfold ops3_force_r at 1. cbn [o_lforce ops3_r]. rewrite (proj2 (cone_forces G e0 x1 x2 x3 a b c H1 H2 H3 H4 L2 Hz Hs)). reflexivity.
Qed.

(** Two charges in opposite corners of a cube. *)
Definition corners : list (psrc R) := [PSrc [1; 1; 1] (-1); PSrc [-1; -1; -1] (-1)].
Theorem corners_refinable : in_refinable_range 3 12 (@ps_pos R) corners.
Proof.
  split; [lia|]. split; [lia|]. split; [intros s Hs; cbn in Hs; intuition (subst; reflexivity)|]. exists 1, 1. split; [|split].
  - intros j Hj. split; [|split].
    + exists (PSrc [-1; -1; -1] (-1)). split; [right; left; reflexivity|]. destruct j as [|[|[|j]]]; [| | |lia]; cbn; lra.
    + exists (PSrc [1; 1; 1] (-1)). split; [left; reflexivity|]. destruct j as [|[|[|j]]]; [| | |lia]; cbn; lra.
    + intros s Hs. apply Rabs_le. destruct j as [|[|[|j]]]; [| | |lia]; cbn in Hs; intuition (subst; cbn; lra).
  - split; [lra|split; cbn; lra].
  - split.
    + repeat constructor; intros H; cbn in H; repeat destruct H as [H|H]; try (injection H; intros; lra); destruct H.
    + intros s s' Hs Hs' NE. exists 0%nat. split; [lia|]. replace (2 ^ 12) with 4096 by (cbn; lra). cbn in Hs, Hs'.
      repeat destruct Hs as [Hs|Hs]; try contradiction; repeat destruct Hs' as [Hs'|Hs']; try contradiction; subst; try (exfalso; apply NE; reflexivity);
      cbn [nth ps_pos]; unfold Rabs; destruct Rcase_abs; lra.
Qed.
Lemma corners_order : 1001 / 1000 * (1 / 100) < abs_charge corners <= 2 ^ 41 * (1 / 100) /\ INR (length corners) * / 9007199254740992 <= / 10000.
Proof.
  replace (abs_charge corners) with 2.
  2:{ unfold abs_charge, rsum, corners. cbn [map fold_right ps_q]. unfold Rabs. destruct Rcase_abs; lra. }
  replace (INR (length corners)) with 2 by (cbn; lra). cbn [pow]. lra.
Qed.
Lemma corners_box : exists l c0 c1 c2, root_box (N := NumRnd double_round) 3 (map (@ps_pos R) corners) = Some ([c0; c1; c2], l) /\ 2 <= l <= 200004 / 100000 /\
  Rabs c0 <= / 1000000 /\ Rabs c1 <= / 1000000 /\ Rabs c2 <= / 1000000.
Proof.
  assert (DA : forall x b, - b <= x <= b -> x - b * / 9007199254740992 <= double_round x <= x + b * / 9007199254740992).
  { intros x b H. assert (A := double_accurate x). assert (B : Rabs x <= b) by (apply Rabs_le; lra). apply Rabs_le_between in A.
    assert (/ 9007199254740992 * Rabs x <= / 9007199254740992 * b) by (apply Rmult_le_compat_l; lra). lra. }
  assert (B : @raw_range R (NumRnd double_round) 3 (map (@ps_pos R) corners) = (map Some [-1; -1; -1], map Some [1; 1; 1])).
  { assert (E1 : Rleb 1 1 = true) by (unfold Rleb; destruct (Rle_dec 1 1); [reflexivity|lra]). assert (E2 : Rltb (-1) 1 = true) by (unfold Rltb; destruct (Rlt_dec (-1) 1); [reflexivity|lra]).
    assert (E3 : Rltb 1 (-1) = false) by (unfold Rltb; destruct (Rlt_dec 1 (-1)); [lra|reflexivity]).
    unfold corners, raw_range, range_step, lower_step, upper_step, map2, fold_left. cbn. rewrite E1, E2, E3. reflexivity. }
  unfold root_box, data_range. rewrite B. cbn. replace (-1 / 1) with (-1) by lra.
  assert (Q1 := DA (1 / 100000) 1 ltac:(lra)). set (q := double_round (1 / 100000)) in *.
  assert (Q2 := DA (1 * q) 1 ltac:(lra)). set (q2 := double_round (1 * q)) in *. assert (Q3 := DA (-1 * q) 1 ltac:(lra)). set (q3 := double_round (-1 * q)) in *.
  assert (Q4 := DA (1 + q2) 2 ltac:(lra)). set (hi := double_round (1 + q2)) in *. assert (Q5 := DA (-1 + q3) 2 ltac:(lra)). set (lo := double_round (-1 + q3)) in *.
  assert (Q6 := DA (-1) 1 ltac:(lra)). set (mi := double_round (-1)) in *. assert (Q7 := DA (lo * mi) 2 ltac:(nra)). set (ml := double_round (lo * mi)) in *.
  assert (X7 : lo * mi <= 1000011 / 1000000 /\ 1000009 / 1000000 <= lo * mi) by (split; nra).
  assert (Q8 := DA (hi + ml) 3 ltac:(lra)). set (ll := double_round (hi + ml)) in *.
  assert (Q9 := DA (lo + hi) 1 ltac:(lra)). set (cc := double_round (lo + hi)) in *. assert (Q10 := DA (1 / 2) 1 ltac:(lra)). set (hf := double_round (1 / 2)) in *.
  assert (X : - (/ 2000000) <= cc * hf <= / 2000000) by (split; nra). assert (Q11 := DA (cc * hf) 1 ltac:(lra)). set (c := double_round (cc * hf)) in *.
  exists ll, c, c, c. destruct (Rltb ll ll) eqn:EL; rewrite ?EL; (split; [reflexivity|]); (split; [lra|]); repeat split; apply Rabs_le; lra.
Qed.

(** The tree of the two charges for accuracy 1/100 in double precision: a point off the axis of its leaf at which no force is computed. *)
Theorem corners_case : exists tb o n x1 x2 x3, tables3_after [] = Ok tb /\
  adaptive_fmm3_r double_round double_norm double_log (g_h double_gradient) (me3_force_r double_gradient) (le3_force_r double_gradient) 1 12 (1 / 100) corners tb (Ok o) /\
  containing_leaf (N := NumRnd double_round) 3 (f_tree (f3_fmm o)) [x1; x2; x3] = Ok (Some n) /\ 0 < across [x1; x2; x3] (an_center n) /\
  force3_at_r double_round double_norm double_gradient true 0 corners o [x1; x2; x3] = NonFinite.
Proof.
  destruct (cone_tree double_round double_norm double_log _ _ _ _ double_gradient (1 / 100) corners 1 12 12 [] _ double_is_double_like double_space double_log_accurate ltac:(lra)
    (ag_h _ _ _ _ double_gradient_accurate) ltac:(lra) (proj2 corners_order) (proj1 corners_order) ltac:(lia) ltac:(lia) corners_refinable eq_refl
    (fun _ _ => eq_refl) (fun _ _ => eq_refl) (fun _ _ => eq_refl) (fun _ => eq_refl)) as (o & U & CT).
  assert (Hf := proj2 (U _) eq_refl).
  destruct (adaptive_rounded3 double_round double_norm double_log _ _ _ double_is_double_like double_space double_log_accurate ltac:(lra) _ (g_h double_gradient) (ag_h _ _ _ _ double_gradient_accurate)
    (me3_force_r double_gradient) (le3_force_r double_gradient) (1 / 100) corners ltac:(lra) (proj2 corners_order) (proj1 corners_order) 1 12 12 ltac:(lia) ltac:(lia) corners_refinable [] _ eq_refl) as (o' & U' & _ & Hh & _).
  assert (X := proj1 (U' _) Hf). assert (X' : o = o') by congruence. subst o'. clear U' X.
  assert (HB : exists t, build_adaptive (N := NumRnd double_round) 3 (@ps_pos R) 1 12 corners = Ok t /\ t = f_tree (f3_fmm o)).
  { inversion Hf as [r0 Er NE Er'|p0 r0 Ep Er NE Er'|p0 tb1 r0 Ep Et Hm Er']. { destruct r0; discriminate. } { destruct r0; discriminate. }
    destruct r0 as [f| | | | |]; try discriminate. cbn [omap bind] in Er'. injection Er' as <-. cbn [f3_fmm].
    assert (Hm' := Hm). remember (Ok f) as rf eqn:Erf. destruct Hm as [r Hb Hn|t r Hb Hl Hn|t ls Hb Hl Hc|t ls Hb Hl Hc Hx|t ls r Hb Hl Hc H1 H2 Hp].
    - destruct r as [t0| | | | |]; try discriminate. exfalso. apply (Hn t0). reflexivity.
    - destruct r as [t0| | | | |]; try discriminate. exfalso. apply (Hn t0). reflexivity.
    - injection Erf as <-. exists t. auto.
    - discriminate.
    - destruct r; try discriminate. cbn [omap bind] in Erf. injection Erf as <-. exists t. auto. }
  destruct HB as (t & HB & Et). rewrite <- Et in *.
  assert (AR : in_adaptive_range 3 12 (@ps_pos R) corners). { destruct corners_refinable as (A1 & A2 & A3 & m & M & A4 & A5 & _). repeat split; try lia; try assumption. exists m, M. auto. }
  assert (A0 : among 3 (@ps_pos R) corners [1; 1; 1]).
  { split; [reflexivity|]. intros j Hj. exists (PSrc [1; 1; 1] (-1)), (PSrc [1; 1; 1] (-1)). split; [left; reflexivity|]. split; [left; reflexivity|]. destruct j as [|[|[|j]]]; [| | |lia]; cbn; lra. }
  destruct (adaptive_descent double_round double_norm double_is_double_like 3 12 _ corners AR 1 12 t HB Hh _ A0) as (n & _ & Hn & _).
  destruct (adaptive_grid double_round double_norm double_is_double_like 3 12 _ corners AR 1 12 t HB Hh) as (cc & l & R0 & Hl & G).
  destruct corners_box as (l' & c0 & c1 & c2 & R1 & L1 & C0 & C1 & C2). rewrite R1 in R0. injection R0 as <- <-.
  assert (Hn' : In n (heap t)). { unfold heap. apply in_or_app. right. exact Hn. }
  destruct (G n Hn') as (Dn & idx & (Il & Ir) & Gl & Gc). set (k := an_depth n) in *. set (w := l' / 2 ^ k) in *.
  assert (P0 : 0 < 2 ^ k) by (apply pow_lt; lra). assert (P1 : 2 ^ k <= 4096). { replace 4096 with (2 ^ 12) by (cbn; lra). apply Rle_pow; [lra|lia]. }
  assert (Ew : 2 ^ k * w = l') by (unfold w; field; lra). assert (W0 : 2 <= 4096 * w) by (assert (0 < w) by (unfold w; apply Rdiv_lt_0_compat; lra); nra).
  assert (CJ : forall j, (j < 3)%nat -> Rabs (nth j (an_center n) 0) <= 100003 / 100000 - 49 / 100 * w).
  { intros j Hj. specialize (Gc j Hj). assert (IJ : (0 <= nth j idx 0%Z < 2 ^ Z.of_nat k)%Z) by (apply Ir, nth_In; lia).
    assert (I1 : 0 <= IZR (nth j idx 0%Z)) by (apply IZR_le; lia). assert (I2 : IZR (nth j idx 0%Z) <= 2 ^ k - 1).
    { rewrite pow_IZR, <- minus_IZR. apply IZR_le. lia. }
    assert (Cj : Rabs (nth j [c0; c1; c2] 0) <= / 1000000) by (destruct j as [|[|[|j]]]; [exact C0|exact C1|exact C2|lia]).
    apply Rabs_le_between in Gc, Cj. apply Rabs_le. set (z := IZR (nth j idx 0%Z)) in *. assert (Z1 : 0 <= z * w) by (apply Rmult_le_pos; lra).
    assert (Z2 : z * w <= (2 ^ k - 1) * w) by (apply Rmult_le_compat_r; lra). lra. }
  set (c j := nth j (an_center n) 0). assert (D0 := CJ 0%nat ltac:(lia)). assert (D1 := CJ 1%nat ltac:(lia)). assert (D2 := CJ 2%nat ltac:(lia)). apply Rabs_le_between in D0, D1, D2, Gl. fold (c 0%nat) in D0. fold (c 1%nat) in D1. fold (c 2%nat) in D2.
  set (x1 := c 0%nat + w / 1099511627776). set (x3 := c 2%nat + w / 8).
  assert (AM : among 3 (@ps_pos R) corners [x1; c 1%nat; x3]).
  { split; [reflexivity|]. intros j Hj. exists (PSrc [-1; -1; -1] (-1)), (PSrc [1; 1; 1] (-1)). split; [right; left; reflexivity|]. split; [left; reflexivity|].
    destruct j as [|[|[|j]]]; [| | |lia]; cbn [ps_pos nth]; unfold x1, x3; lra. }
  destruct (adaptive_containing double_round double_norm double_is_double_like 3 12 _ corners AR 1 12 t HB Hh _ AM) as (_ & _ & CL).
  specialize (CL n Hn). assert (IN : inside 3 n [x1; c 1%nat; x3]).
  { intros j Hj. destruct j as [|[|[|j]]]; [| | |lia]; cbn [nth]; apply Rabs_le; [fold (c 0%nat)|fold (c 1%nat)|fold (c 2%nat)]; unfold x1, x3; lra. }
  specialize (CL IN). eexists. exists o, n, x1, (c 1%nat), x3. split; [reflexivity|]. split; [exact Hf|]. split; [rewrite <- Et; exact CL|].
  assert (HO : (x1 - c 0%nat) * (x1 - c 0%nat) + (c 1%nat - c 1%nat) * (c 1%nat - c 1%nat) = (w / 1099511627776) * (w / 1099511627776)) by (unfold x1; ring).
  split.
  - unfold across. cbn [vget nth]. change (vget (an_center n) 0) with (c 0%nat). change (vget (an_center n) 1) with (c 1%nat). change (vget [x1; c 1%nat; x3] 0) with x1. change (vget [x1; c 1%nat; x3] 1) with (c 1%nat).
    rewrite HO, sqrt_square; lra.
  - apply (CT x1 (c 1%nat) x3 n true 0 CL).
    + fold (c 2%nat). unfold x3. lra.
    + fold (c 0%nat) (c 1%nat) (c 2%nat). rewrite HO, sqrt_square by lra. replace (x3 - c 2%nat) with (w / 8) by (unfold x3; ring). rewrite Rabs_pos_eq by lra. lra.
Qed.
