(** Evaluation of the two-dimensional adaptive tree in rounded arithmetic, given the geometry of the boxes and the expansions. *)
From Coq Require Import List Bool ZArith Arith Lia Lra Reals Permutation.
From Coquelicot Require Import Coquelicot.
From Verif Require Import Num Outcome Vec VecProofs Tables Orthtree AdaptiveTree TreeSpec GeometryProofs AdaptiveProofs BfsProofs ListProofs ListContents
  BuildProofs Schedule CAux TableProofs Expansion2D Exp2Proofs M2LError Fields FieldSpec FieldProofs Exp2Errors FmmPasses PassProofs PassSteps PassTree AnyTree AnyLists AnyPasses
  RoundedFields RoundedSpec RoundedProofs RoundedTree RoundedExpansion2D RoundedComplexSpec ApproxC RoundedSeries RoundedLocal RoundedConvert RoundedGood RoundedForce RoundedPasses.
Import ListNotations.
Local Open Scope R_scope.
Arguments Cmod x%C.
Arguments Re z%C.
Arguments Im z%C.
Arguments ap w n%nat x'%C x%C X%R.
Arguments src_at ctr%C s.
Arguments field_of v%C.

Section Eval.
Variable w : R.
Hypothesis Hw : 0 <= w <= 1 / 2.
Variable rnd : R -> R.
Variable hyp : list R -> R.
Variable lg : R -> R.
Variables u e : R.
Hypothesis Hu : 0 <= u < 1.
Hypothesis He : 0 <= e < 1.
Hypothesis Huw : u <= w.
Hypothesis Hew : e <= w.
Hypothesis Hrnd : accurate_rounding u rnd.
Hypothesis Hhyp : accurate_norm e hyp.
Hypothesis Hlg : accurate_log e lg.
Notation rap n v t M := (ap w n (RtoC v) (RtoC t) M).
Notation sl := (log_slack u e).

Lemma rnd_close y : close_norm w (RtoC (rnd y)) (RtoC y).
Proof. unfold close_norm. rewrite <- RtoC_minus, !Cmod_R. eapply Rle_trans; [apply Hrnd|]. apply Rmult_le_compat_r; [apply Rabs_pos|exact Huw]. Qed.
Lemma rap_add n v t M v' t' M' : rap n v t M -> rap n v' t' M' -> rap (S n) (rnd (v + v')) (t + t') (M + M').
Proof.
  intros H H'. eapply (ap_round w Hw); [|apply rnd_close]. rewrite !RtoC_plus. apply ap_add; assumption.
Qed.
Lemma fold_rap {X} (g : X -> outcome R) (ex bd Mx : X -> R) n xs : (forall a, In a xs -> exists v t, g a = Ok v /\ rap n v t (Mx a) /\ Rabs (t - ex a) <= bd a) ->
  forall m z t0 M0 e0 b0, (n <= m)%nat -> rap m z t0 M0 -> Rabs (t0 - e0) <= b0 ->
  exists v t, ofold (fun acc a => bind (g a) (fun v => Ok (rnd (acc + v)))) xs z = Ok v /\ rap (m + length xs) v t (M0 + rsum Mx xs) /\
    Rabs (t - (e0 + rsum ex xs)) <= b0 + rsum bd xs.
Proof.
  induction xs as [|a xs IH]; intros H m z t0 M0 e0 b0 Hm Hz Hb.
  - cbn [ofold length]. exists z, t0. split; [reflexivity|]. change (rsum Mx []) with 0. change (rsum ex []) with 0. change (rsum bd []) with 0.
    rewrite !Rplus_0_r, Nat.add_0_r. split; assumption.
  - destruct (H a (or_introl eq_refl)) as (v & t & E & P & B). cbn [ofold]. rewrite E. cbn [bind].
    destruct (IH (fun b Hin => H b (or_intror Hin)) (S m) (rnd (z + v)) (t0 + t) (M0 + Mx a) (e0 + ex a) (b0 + bd a)) as (v2 & t2 & E2 & P2 & B2).
    + lia.
    + apply rap_add; [exact Hz|]. eapply ap_weaken; [exact Hw|exact P|exact Hm|apply Rle_refl].
    + replace (t0 + t - (e0 + ex a)) with ((t0 - e0) + (t - ex a)) by ring. eapply Rle_trans; [apply Rabs_triang|]. lra.
    + exists v2, t2. split; [exact E2|]. rewrite !rsum_cons. cbn [length]. replace (m + S (length xs))%nat with (S m + length xs)%nat by lia.
      replace (M0 + (Mx a + rsum Mx xs)) with (M0 + Mx a + rsum Mx xs) by ring. split; [exact P2|].
      replace (e0 + (ex a + rsum ex xs)) with (e0 + ex a + rsum ex xs) by ring. lra.
Qed.

Lemma sl_pos : 0 <= sl.
Proof.
  unfold log_slack. assert (P := lo_pos u Hu e He). assert ((1 - e) * (1 - u) <= 1) by nra.
  destruct (Req_dec ((1 - e) * (1 - u)) 1) as [->|N]; [rewrite ln_1; lra|]. assert (ln ((1 - e) * (1 - u)) < ln 1) by (apply ln_increasing; lra). rewrite ln_1 in *. lra.
Qed.
Lemma opp_of x : representable rnd x -> exact_opp rnd x.
Proof. intros H y Hy. replace (y * -1) with (- y) by ring. apply H. exact Hy. Qed.
(** One source in the near field. *)
Definition kmaj (s : psrc R) (x : list R) : R := Rabs (ps_q s) * (Rabs (ln (dist (ps_pos s) x)) + sl).
Lemma near_one safe s x : length x = 2%nat -> length (ps_pos s) = 2%nat -> representable rnd x -> safe = true \/ ps_pos s <> x ->
  exists v t, potential_r rnd hyp lg 2 true safe s x = Ok v /\ rap 2 v t (if negb (is_at x s) then kmaj s x else 0) /\
    Rabs (t - (if negb (is_at x s) then kernel 2 (ps_q s) (dist (ps_pos s) x) else 0)) <= (if negb (is_at x s) then Rabs (ps_q s) * sl else 0).
Proof.
  intros Lx Ls X SF. destruct (is_at x s) eqn:At; cbn [negb].
  - apply is_at_true in At. destruct SF as [->|SF]; [|contradiction]. exists 0, 0.
    rewrite (potential_r_at rnd u Hu Hrnd hyp lg e He (norm_of_spec e hyp Hhyp) 2 true s x (opp_of x X) At).
    split; [reflexivity|]. split; [apply (ap_exact w Hw); rewrite Cmod_R, Rabs_R0; lra|]. rewrite Rminus_0_r, Rabs_R0. lra.
  - apply is_at_false in At. assert (LL : length (ps_pos s) = length x) by congruence.
    assert (D := dist_rel rnd u Hu Hrnd hyp e He (norm_of_spec e hyp Hhyp) _ _ LL (opp_of x X)). assert (D0 := dist_pos _ _ LL At). set (r := dist (ps_pos s) x) in *.
    unfold potential_r. set (r' := hyp (vsub_r rnd (ps_pos s) x)) in *. assert (LP := lo_pos u Hu e He).
    assert (R0 : 0 < r') by (eapply rel_pos; [exact LP|exact D0|exact D]).
    assert (B := ln_rel u Hu e He r' r D0 D).
    replace (Req_bool r' 0) with false by (symmetry; apply Req_bool_false; lra). rewrite andb_false_r. cbn [Nat.eqb]. destruct (Req_EM_T r' 0) as [|_]; [lra|]. cbn [bind].
    exists (rnd (ps_q s * lg r')), (ps_q s * ln r'). split; [reflexivity|]. unfold kmaj. fold r. split.
    + eapply (ap_round w Hw); [|apply rnd_close]. rewrite !RtoC_mult. assert (BM : Rabs (ln r') <= Rabs (ln r) + sl).
      { replace (ln r') with (ln r + (ln r' - ln r)) by ring. eapply Rle_trans; [apply Rabs_triang|]. lra. }
      apply (ap_mul w 0 1); [apply (ap_exact w Hw); rewrite Cmod_R; apply Rle_refl|].
      eapply (ap_weaken w Hw); [apply close_real; unfold close|apply le_n|exact BM].
      eapply Rle_trans; [apply Hlg; exact R0|]. apply Rmult_le_compat_r; [apply Rabs_pos|exact Hew].
    + unfold kernel. cbn [Nat.eqb]. replace (ps_q s * ln r' - ps_q s * ln r) with (ps_q s * (ln r' - ln r)) by ring. rewrite Rabs_mult. apply Rmult_le_compat_l; [apply Rabs_pos|exact B].
Qed.
Lemma near_sum safe S x : length x = 2%nat -> same_dim 2 S -> representable rnd x -> (safe = true \/ forall s, In s S -> ps_pos s <> x) ->
  exists v t, potential_sum_r rnd hyp lg 2 true safe S x = Ok v /\ rap (2 + length S) v t (rsum (fun s => kmaj s x) (others x S)) /\
    Rabs (t - direct_potential 2 true (others x S) x) <= abs_charge (others x S) * sl.
Proof.
  intros Lx HD X SF. unfold potential_sum_r.
  destruct (fold_rap (fun s => potential_r rnd hyp lg 2 true safe s x) (fun s => if negb (is_at x s) then kernel 2 (ps_q s) (dist (ps_pos s) x) else 0)
    (fun s => if negb (is_at x s) then Rabs (ps_q s) * sl else 0) (fun s => if negb (is_at x s) then kmaj s x else 0) 2 S) with (m := 2%nat) (z := 0) (t0 := 0) (M0 := 0) (e0 := 0) (b0 := 0)
    as (v & t & E & P & B).
  - intros s Hs. apply near_one; try assumption; [apply HD; exact Hs|]. destruct SF as [->|SF]; [left; reflexivity|right; apply SF; exact Hs].
  - lia.
  - apply (ap_exact w Hw). rewrite Cmod_R, Rabs_R0. lra.
  - rewrite Rminus_0_r, Rabs_R0. lra.
  - exists v, t. split; [exact E|]. rewrite !Rplus_0_l in *. unfold direct_potential, field_sign, abs_charge, others.
    rewrite !rsum_filter. split; [exact P|].
    rewrite (rsum_ext (fun a => if negb (is_at x a) then 1 * kernel 2 (ps_q a) (dist (ps_pos a) x) else 0)
      (fun s => if negb (is_at x s) then kernel 2 (ps_q s) (dist (ps_pos s) x) else 0)) by (intros s _; destruct (negb (is_at x s)); ring).
    eapply Rle_trans; [exact B|]. right. rewrite <- rsum_scal_r. apply rsum_ext. intros s _. destruct (negb (is_at x s)); ring.
Qed.

(** The tree. *)
Variable A : carith.
Hypothesis HA : accurate_complex w A.
Variable p : nat.
Hypothesis Hp1 : (1 <= p)%nat.
Variable rho Lam : R.
Hypothesis Hrho : 0 < rho < 1.
Hypothesis HLam : 0 <= Lam.
Notation NN := (NumRnd rnd).
Variable tb0 : btab.
Variable c : list R.
Variable l : R.
Variable cap : nat.
Variable srcs : list (psrc R).
Variable rr : rule.
Variable h : nat.
Notation o := (ops2_r A p).
Notation tb := (se_table tb0 p).
Variable pos : psrc R -> list R.
Notation refined := (@AnyTree.refined R (psrc R) NN 2 pos c l cap srcs rr).
Notation present := (@AnyTree.present R (psrc R) NN 2 pos c l cap srcs rr).
Notation sub := (@AnyTree.sub R (psrc R) NN 2 pos c l srcs).
Notation mk := (@AnyTree.mk R (psrc R) NN 2 pos c l cap srcs rr).
Notation ctr := (@AnyTree.ctr R NN 2 c l).
Notation path := (@AnyTree.path R NN 2 c l).
Variable ls : nlists.
Hypothesis Hh : @AnyTree.height_ok R (psrc R) NN 2 pos c l cap srcs rr h.
Hypothesis Hdim : same_dim 2 srcs.
Hypothesis Hcap : forall b, present b -> refined b = false -> (length (sub b) <= cap)%nat.
Variable K : nat.
Variable rad : addr -> R.
Hypothesis G0 : forall b, present b -> 0 < rad b /\ length (ctr b) = 2%nat.
Hypothesis G1 : forall b s, present b -> In s (sub b) -> dist (ps_pos s) (ctr b) <= rad b.
Hypothesis G2 : forall i b, present (i :: b) -> rad (i :: b) + Cmod (cplx (ctr (i :: b)) - cplx (ctr b)) <= rad b.
Hypothesis G3 : forall b q, present b -> In q (nl_inter ls b) ->
  present q /\ (2 <= length q)%nat /\ rad b + rad q <= rho * Cmod (cplx (ctr q) - cplx (ctr b)) /\ Rabs (ln (Cmod (cplx (ctr q) - cplx (ctr b)))) <= Lam.
Hypothesis G4 : forall b q, present b -> In q (nl_X ls b) -> present q /\ refined q = false /\
  forall s, In s (sub q) -> rad b <= rho * Cmod (src_at (cplx (ctr b)) s) /\ Rabs (ln (Cmod (src_at (cplx (ctr b)) s))) <= Lam.
Notation rfar := (@rfar NN c l srcs pos ls).
Notation ofar := (@ofar NN c l srcs pos ls).
Notation MEok := (@MEok w p NN c l cap srcs h pos rad).
Notation LEok := (@LEok w p rho Lam NN c l cap srcs h pos ls K rad).

Variable L : addr.
Variable x : list R.
Hypothesis PL : present L.
Hypothesis NL : refined L = false.
Hypothesis Hx : length x = 2%nat.
Hypothesis Hrep : representable rnd x.
Hypothesis HxL : Cmod (cplx x - cplx (ctr L)) <= rad L.
Hypothesis HxW : forall q, In q (nl_W ls L) -> (2 <= length q)%nat /\ rad q <= rho * Cmod (cplx x - cplx (ctr q)) /\ Rabs (ln (Cmod (cplx x - cplx (ctr q)))) <= Lam.
Hypothesis HKL : (length (nl_W ls L) <= K)%nat /\ (length (nl_near ls L) <= K)%nat.

Notation near_srcs := (flat_map sub (nl_near ls L)).
Notation W_srcs := (flat_map sub (nl_W ls L)).

Hypothesis W_pres : forall q, In q (nl_W ls L) -> present q.
Hypothesis near_pres : forall q, In q (nl_near ls L) -> present q /\ refined q = false.
Hypothesis cover : Permutation (near_srcs ++ W_srcs ++ rfar L) srcs.
Hypothesis near_other : forall q s, present q -> refined q = false -> q <> L -> In s (sub q) -> ps_pos s <> x.
Lemma cplx_src s : src_at (cplx x) s = (cplx (ps_pos s) - cplx x)%C. Proof. reflexivity. Qed.
Lemma sub_at q s : present q -> In s (sub q) -> Cmod (cplx (ps_pos s) - cplx (ctr q)) <= rad q.
Proof.
  intros P Hs. assert (D := G1 q s P Hs). rewrite dist_Cmod in D; [exact D| |apply G0; exact P]. apply Hdim. exact (@AnyTree.sub_incl R (psrc R) NN 2 pos c l srcs _ _ Hs).
Qed.
Lemma x_anc a : In a (ancestors_or_self L) -> Cmod (cplx x - cplx (ctr a)) <= rad a.
Proof.
  clear - HxL PL G2. revert PL HxL. induction L as [|i b IH]; intros P H [<-|Ha]; try assumption; [destruct Ha|].
  apply IH; [apply P| |exact Ha]. assert (G := G2 i b P).
  replace (cplx x - cplx (ctr b))%C with ((cplx x - cplx (ctr (i :: b))) + (cplx (ctr (i :: b)) - cplx (ctr b)))%C by ring. eapply Rle_trans; [apply Cmod_triangle|]. lra.
Qed.
Lemma far_away s : In s (W_srcs ++ rfar L) -> ps_pos s <> x.
Proof.
  intros Hs Ex. apply in_app_iff in Hs. destruct Hs as [Hs|Hs].
  - apply in_flat_map in Hs. destruct Hs as (q & Hq & Hs). destruct (HxW q Hq) as (_ & B & _). assert (P := W_pres q Hq).
    assert (D := sub_at q s P Hs). rewrite Ex in D. destruct (G0 q P). nra.
  - apply in_flat_map in Hs. destruct Hs as (a & Ha & Hs). assert (Pa : present a) by (eapply AnyLists.present_suf; eassumption).
    assert (D := x_anc a Ha). destruct (G0 a Pa) as [Ra _].
    unfold RoundedPasses.ofar in Hs. apply in_app_iff in Hs. destruct Hs as [Hs|Hs]; apply in_flat_map in Hs; destruct Hs as (q & Hq & Hs).
    + destruct (G3 a q Pa Hq) as (Pq & _ & B & _). assert (D' := sub_at q s Pq Hs). rewrite Ex in D'. destruct (G0 q Pq) as [Rq _].
      assert (T : Cmod (cplx (ctr q) - cplx (ctr a)) <= rad q + rad a).
      { replace (cplx (ctr q) - cplx (ctr a))%C with (- (cplx x - cplx (ctr q)) + (cplx x - cplx (ctr a)))%C by ring. eapply Rle_trans; [apply Cmod_triangle|]. rewrite Cmod_opp. lra. }
      nra.
    + destruct (G4 a q Pa Hq) as (_ & _ & GS). destruct (GS s Hs) as [B _]. unfold src_at in B. rewrite Ex in B. nra.
Qed.
Lemma others_away S : (forall s, In s S -> ps_pos s <> x) -> others x S = S.
Proof.
  induction S as [|s S IH]; intros H; [reflexivity|]. unfold others. cbn [filter]. rewrite (proj2 (is_at_false x s)) by (apply H; left; reflexivity).
  cbn [negb]. f_equal. apply IH. intros; apply H; right; assumption.
Qed.
Lemma others_split f : rsum f (others x srcs) = rsum f (others x near_srcs) + (rsum f W_srcs + rsum f (rfar L)).
Proof.
  unfold others. rewrite <- (rsum_perm f _ _ (filter_perm _ _ _ cover)), filter_app, rsum_app. f_equal.
  rewrite <- rsum_app. fold (others x (W_srcs ++ rfar L)). rewrite others_away; [reflexivity|exact far_away].
Qed.
Lemma others_flat qs : others x (flat_map sub qs) = flat_map (fun q => others x (sub q)) qs.
Proof. unfold others. induction qs as [|q qs IH]; [reflexivity|]. cbn [flat_map]. rewrite filter_app, IH. reflexivity. Qed.
Lemma rsum_flat {X} (f : psrc R -> R) (g : X -> list (psrc R)) qs : rsum f (flat_map g qs) = rsum (fun q => rsum f (g q)) qs.
Proof. induction qs as [|q qs IH]; [reflexivity|]. cbn [flat_map]. rewrite rsum_app, rsum_cons, IH. reflexivity. Qed.

Variable m : @mem se2 se2 btab.
Hypothesis HLE : exists e, m_le m L = Some e /\ LEok L e.
Hypothesis HME : forall q, present q -> (2 <= length q)%nat -> exists e, m_me m q = Some e /\ MEok q e.

Definition cN : nat := (17 * p + 13 + 2 * cap + 3 * K + h * (6 * p + 11 + K))%nat.
Notation tau := (trunc_bound rho p).
(** The evaluation once the leaf has been found; [lk] is the look-up of boxes. *)
Variable lk : addr -> option (@anode R (psrc R)).
Hypothesis Hlk : forall q, In q (nl_near ls L) -> lk q = Some (mk q).
Definition leaf_pot (field : bool) : outcome R :=
  bind (of_option (m_le m L)) (fun le => bind (o_lpot o le x) (fun p0 =>
  bind (ofold (fun pot q => bind (of_option (m_me m q)) (fun e => bind (o_mpot o e x) (fun v => Ok (rnd (pot + v))))) (nl_W ls L) p0) (fun p1 =>
  bind (ofold (fun pot q => bind (of_option (lk q)) (fun n =>
    if an_leaf n then bind (potential_sum_r rnd hyp lg 2 true (addr_eqb q L) (an_srcs n) x) (fun v => Ok (rnd (pot + v))) else UB)) (nl_near ls L) p1) (fun p2 =>
  Ok (if field then p2 else - p2))))).
Definition leaf_force (field : bool) (eps : R) : outcome (list R) :=
  bind (of_option (m_le m L)) (fun le => bind (o_lforce o le x) (fun p0 =>
  bind (ofold (fun frc q => bind (of_option (m_me m q)) (fun e => bind (o_mforce o e x) (fun v => Ok (vadd_r rnd frc v)))) (nl_W ls L) p0) (fun p1 =>
  bind (ofold (fun frc q => bind (of_option (lk q)) (fun n =>
    if an_leaf n then bind (forcefield_sum_r rnd hyp 2 true (addr_eqb q L) eps (an_srcs n) x) (fun v => Ok (vadd_r rnd frc v)) else UB)) (nl_near ls L) p1) (fun p2 =>
  Ok (if field then p2 else vneg_r rnd p2))))).
Theorem eval_fine field : exists v, leaf_pot field = Ok v /\
  Rabs (v - direct_potential 2 field (others x srcs) x) <=
    (tau + sl) * abs_charge (others x srcs)
    + ((1 + w) ^ cN - 1) * rsum (fun s => Rabs (ps_q s) * (gain rho Lam + sl + Rabs (ln (dist (ps_pos s) x)))) (others x srcs).
Proof.
  assert (Dp := AnyTree.present_depth 2 pos c l cap srcs rr h Hh L PL). set (N0 := (cL p cap h K (length L) + 3 * p + 4)%nat).
  assert (T0 : 0 <= tau) by (apply trunc_bound_nonneg; lra). assert (S0 := sl_pos).
  assert (GP : 0 <= gain rho Lam). { unfold gain. assert (0 <= rho / (1 - rho)) by (apply Rmult_le_pos; [lra|left; apply Rinv_0_lt_compat; lra]). lra. }
  unfold leaf_pot.
  destruct HLE as (e0 & E0 & Q0). rewrite E0. cbn [of_option bind o_lpot ops2_r].
  destruct (lgood_value w Hw A HA p Hp1 rho Lam _ _ _ _ e0 x Q0 Hx HxL) as (t0 & P0 & B0). fold N0 in P0.
  destruct (fold_rap (fun q => bind (of_option (m_me m q)) (fun e => me2_pot_r A e x)) (fun q => direct_potential 2 true (sub q) x) (fun q => abs_charge (sub q) * tau)
      (fun q => gain rho Lam * abs_charge (sub q)) N0 (nl_W ls L)) with (m := N0) (z := le2_pot_r A e0 x) (t0 := t0) (M0 := gain rho Lam * abs_charge (rfar L))
      (e0 := direct_potential 2 true (rfar L) x) (b0 := abs_charge (rfar L) * tau) as (v1 & t1 & E1 & P1 & B1); [|apply le_n|exact P0|exact B0|].
  { intros q Hq. assert (Pq := W_pres q Hq). destruct (HxW q Hq) as (L2 & X1 & X2). destruct (HME q Pq L2) as (g & Hg & Mg). rewrite Hg. cbn [of_option bind].
    destruct (G0 q Pq) as [Rq Lq].
    destruct (mgood_value w Hw A HA p Hp1 rho Lam ltac:(lra) _ _ _ _ g x Lq Hx (sub_dim2 c l srcs pos Hdim q) Mg) as (v & t' & V & Pv & Bv); try assumption.
    - intros s Hs. apply G1; assumption.
    - lra.
    - nra.
    - exists v, t'. split; [exact V|]. split; [|exact Bv]. eapply (ap_weaken w Hw); [exact Pv| |apply Rle_refl].
      assert (X := cM_mono p Hp1 cap h q). unfold N0, cL, cB. lia. }
  assert (E1' : forall f, (forall pot q, f pot q = bind (bind (of_option (m_me m q)) (fun e => me2_pot_r A e x)) (fun v => Ok (rnd (pot + v)))) ->
    ofold f (nl_W ls L) (le2_pot_r A e0 x) = Ok v1).
  { intros f Hf. rewrite <- E1. clear - Hf. generalize (le2_pot_r A e0 x). induction (nl_W ls L) as [|q qs IH]; intros z; [reflexivity|]. cbn [ofold]. rewrite Hf.
    destruct (bind (of_option (m_me m q)) (fun e => me2_pot_r A e x)) as [v| | | | |]; cbn [bind]; try reflexivity. apply IH. }
  rewrite E1' by (intros pot q; cbn [o_mpot ops2_r]; destruct (m_me m q); reflexivity). cbn [bind]. clear E1 E1'.
  destruct (fold_rap (fun q => potential_sum_r rnd hyp lg 2 true (addr_eqb q L) (sub q) x) (fun q => direct_potential 2 true (others x (sub q)) x) (fun q => abs_charge (others x (sub q)) * sl)
      (fun q => rsum (fun s => kmaj s x) (others x (sub q))) (2 + cap) (nl_near ls L)) with (m := (N0 + length (nl_W ls L))%nat) (z := v1) (t0 := t1)
      (M0 := gain rho Lam * abs_charge (rfar L) + rsum (fun q => gain rho Lam * abs_charge (sub q)) (nl_W ls L))
      (e0 := direct_potential 2 true (rfar L) x + rsum (fun q => direct_potential 2 true (sub q) x) (nl_W ls L))
      (b0 := abs_charge (rfar L) * tau + rsum (fun q => abs_charge (sub q) * tau) (nl_W ls L)) as (v2 & t2 & E2 & P2 & B2); [| |exact P1|exact B1|].
  { intros q Hq. destruct (near_pres q Hq) as [Pq Nq].
    destruct (near_sum (addr_eqb q L) (sub q) x Hx (sub_dim2 c l srcs pos Hdim q) Hrep) as (v & t' & V & Pv & Bv).
    - destruct (addr_eqb q L) eqn:Eq; [left; reflexivity|right]. intros s Hs. apply (near_other q s Pq Nq); [|exact Hs]. intros ->. rewrite addr_eqb_refl in Eq. discriminate.
    - exists v, t'. split; [exact V|]. split; [|exact Bv]. eapply (ap_weaken w Hw); [exact Pv| |apply Rle_refl]. specialize (Hcap q Pq Nq). lia. }
  { unfold N0, cL, cB. lia. }
  assert (E2' : forall f, (forall pot q, In q (nl_near ls L) -> f pot q = bind (potential_sum_r rnd hyp lg 2 true (addr_eqb q L) (sub q) x) (fun v => Ok (rnd (pot + v)))) ->
    ofold f (nl_near ls L) v1 = Ok v2).
  { intros f Hf. rewrite <- E2. clear - Hf. revert Hf. generalize v1. induction (nl_near ls L) as [|q qs IH]; intros z Hf; [reflexivity|]. cbn [ofold]. rewrite Hf by (left; reflexivity).
    destruct (potential_sum_r rnd hyp lg 2 true (addr_eqb q L) (sub q) x) as [v| | | | |]; cbn [bind]; try reflexivity. apply IH. intros; apply Hf; right; assumption. }
  rewrite E2'.
  2:{ intros pot q Hq. destruct (near_pres q Hq) as [Pq Nq]. rewrite (Hlk q Hq). cbn [of_option bind].
      unfold AnyTree.mk at 1. cbn [an_leaf]. rewrite Nq. cbn [negb]. unfold AnyTree.mk. cbn [an_srcs]. rewrite Nq. reflexivity. }
  cbn [bind]. clear E2 E2'. eexists. split; [reflexivity|].
  assert (U : forall S, direct_potential 2 field S x = field_sign field * direct_potential 2 true S x).
  { intros S. unfold direct_potential. rewrite <- rsum_const_mul. apply rsum_ext. intros s _. unfold field_sign. ring. }
  assert (SG : Rabs ((if field then v2 else - v2) - direct_potential 2 field (others x srcs) x) = Rabs (v2 - direct_potential 2 true (others x srcs) x)).
  { rewrite U. unfold field_sign. destruct field; [f_equal; ring|]. rewrite <- Rabs_Ropp. f_equal. ring. }
  rewrite SG. clear SG U.
  assert (UE : direct_potential 2 true (rfar L) x + rsum (fun q => direct_potential 2 true (sub q) x) (nl_W ls L) + rsum (fun q => direct_potential 2 true (others x (sub q)) x) (nl_near ls L)
    = direct_potential 2 true (others x srcs) x).
  { unfold direct_potential. rewrite (others_split _), others_flat, !rsum_flat. ring. }
  rewrite UE in B2. clear UE.
  assert (QE : forall k kf, rsum (fun q => k * abs_charge (others x (sub q))) (nl_near ls L) + (kf * abs_charge (rfar L) + rsum (fun q => kf * abs_charge (sub q)) (nl_W ls L))
    = k * abs_charge (others x near_srcs) + kf * (abs_charge W_srcs + abs_charge (rfar L))).
  { intros k kf. rewrite !rsum_const_mul. unfold abs_charge. rewrite others_flat, !rsum_flat. ring. }
  assert (QT : abs_charge (others x srcs) = abs_charge (others x near_srcs) + (abs_charge W_srcs + abs_charge (rfar L))) by apply others_split.
  assert (QN := abs_charge_pos (others x near_srcs)). assert (QW := abs_charge_pos W_srcs). assert (QF := abs_charge_pos (rfar L)).
  assert (BT : Rabs (t2 - direct_potential 2 true (others x srcs) x) <= (tau + sl) * abs_charge (others x srcs)).
  { eapply Rle_trans; [exact B2|]. assert (Z := QE sl tau).
    rewrite (rsum_ext (fun q => abs_charge (others x (sub q)) * sl) (fun q => sl * abs_charge (others x (sub q)))) by (intros; ring).
    rewrite (rsum_ext (fun q => abs_charge (sub q) * tau) (fun q => tau * abs_charge (sub q))) by (intros; ring). rewrite QT.
    assert (0 <= tau * abs_charge (others x near_srcs)) by (apply Rmult_le_pos; assumption).
    assert (0 <= sl * (abs_charge W_srcs + abs_charge (rfar L))) by (apply Rmult_le_pos; lra). lra. }
  set (MM := rsum (fun s => Rabs (ps_q s) * (gain rho Lam + sl + Rabs (ln (dist (ps_pos s) x)))) (others x srcs)).
  assert (MB : gain rho Lam * abs_charge (rfar L) + rsum (fun q => gain rho Lam * abs_charge (sub q)) (nl_W ls L) + rsum (fun q => rsum (fun s => kmaj s x) (others x (sub q))) (nl_near ls L) <= MM).
  { unfold MM. rewrite others_split, rsum_const_mul. rewrite others_flat, <- (rsum_flat (fun s => kmaj s x)).
    assert (Z : rsum (fun q => abs_charge (sub q)) (nl_W ls L) = abs_charge W_srcs) by (unfold abs_charge; rewrite rsum_flat; reflexivity). rewrite Z.
    assert (ZF : forall S, gain rho Lam * abs_charge S <= rsum (fun s => Rabs (ps_q s) * (gain rho Lam + sl + Rabs (ln (dist (ps_pos s) x)))) S).
    { intros S. unfold abs_charge. rewrite <- rsum_const_mul. apply rsum_le. intros s _. assert (0 <= Rabs (ps_q s)) by apply Rabs_pos.
      assert (0 <= Rabs (ln (dist (ps_pos s) x))) by apply Rabs_pos. nra. }
    assert (ZN : rsum (fun s => kmaj s x) (flat_map (fun q => others x (sub q)) (nl_near ls L)) <=
      rsum (fun s => Rabs (ps_q s) * (gain rho Lam + sl + Rabs (ln (dist (ps_pos s) x)))) (flat_map (fun q => others x (sub q)) (nl_near ls L))).
    { apply rsum_le. intros s _. unfold kmaj. apply Rmult_le_compat_l; [apply Rabs_pos|]. lra. }
    assert (Z1 := ZF W_srcs). assert (Z2 := ZF (rfar L)). lra. }
  assert (PF := ap_weaken w Hw _ cN _ _ _ MM P2). destruct PF as [_ PF].
  { unfold N0, cN, cL, cB, cM. destruct HKL as [K1 K2]. assert (MX : (length L * (3 * p + 5 + K) <= h * (3 * p + 5 + K))%nat) by (apply Nat.mul_le_mono_r; exact Dp).
    rewrite Nat.sub_0_r. replace (h * (6 * p + 11 + K))%nat with (h * (3 * p + 6) + h * (3 * p + 5 + K))%nat by ring. lia. }
  { exact MB. }
  rewrite <- RtoC_minus, Cmod_R in PF.
  replace (v2 - direct_potential 2 true (others x srcs) x) with ((t2 - direct_potential 2 true (others x srcs) x) + (v2 - t2)) by ring.
  eapply Rle_trans; [apply Rabs_triang|]. lra.
Qed.

(** ** Forces *)
(** [v] is an approximation of the vector with components [ex]: truncated up to [bd], rounded [n] times relative to [M]. *)
Definition vgood (n : nat) (v : list R) (ex bd M : nat -> R) : Prop := length v = 2%nat /\
  forall k, (k < 2)%nat -> exists t, rap n (nth k v 0) t (M k) /\ Rabs (t - ex k) <= bd k.
Lemma vgood_le n n' v ex bd M bd' M' : vgood n v ex bd M -> (n <= n')%nat -> (forall k, (k < 2)%nat -> bd k <= bd' k /\ M k <= M' k) -> vgood n' v ex bd' M'.
Proof.
  intros [H1 H2] Hn H. split; [exact H1|]. intros k Hk. destruct (H2 k Hk) as (t0 & P & B). destruct (H k Hk). exists t0. split; [|lra].
  eapply (ap_weaken w Hw); eassumption.
Qed.
Lemma vgood_field n v t0 S y bd M : ap w n v t0 M -> (forall k, (k < 2)%nat -> Rabs (nth k (field_of t0) 0 - rsum (fun s => force_on 2 true 0 s y k) S) <= bd) ->
  vgood n (field_of v) (fun k => rsum (fun s => force_on 2 true 0 s y k) S) (fun _ => bd) (fun _ => M).
Proof. intros H B. split; [reflexivity|]. intros k Hk. eexists. split; [apply field_ap; exact H|apply B; exact Hk]. Qed.
Lemma vgood_add n v ex bd M v' ex' bd' M' : vgood n v ex bd M -> vgood n v' ex' bd' M' ->
  vgood (S n) (vadd_r rnd v v') (fun k => ex k + ex' k) (fun k => bd k + bd' k) (fun k => M k + M' k).
Proof.
  intros [H1 H2] [K1 K2]. split; [unfold vadd_r, map2; rewrite map_length, combine_length; lia|]. intros k Hk. destruct (H2 k Hk) as (t0 & P & B), (K2 k Hk) as (t1 & P' & B').
  exists (t0 + t1). split.
  - unfold vadd_r. rewrite nth_map2_R by lia. apply rap_add; assumption.
  - replace (t0 + t1 - (ex k + ex' k)) with ((t0 - ex k) + (t1 - ex' k)) by ring. eapply Rle_trans; [apply Rabs_triang|]. lra.
Qed.
Lemma vgood_ext n v ex bd M ex' bd' M' : vgood n v ex bd M -> (forall k, (k < 2)%nat -> ex k = ex' k /\ bd k = bd' k /\ M k = M' k) -> vgood n v ex' bd' M'.
Proof. intros [H1 H2] E. split; [exact H1|]. intros k Hk. destruct (E k Hk) as (<- & <- & <-). apply H2. exact Hk. Qed.
Lemma fold_vgood {X} (g : X -> outcome (list R)) (ex bd Mx : X -> nat -> R) n xs : (forall a, In a xs -> exists v, g a = Ok v /\ vgood n v (ex a) (bd a) (Mx a)) ->
  forall f m z e0 b0 M0, (forall acc a, In a xs -> f acc a = bind (g a) (fun v => Ok (vadd_r rnd acc v))) -> (n <= m)%nat -> vgood m z e0 b0 M0 ->
  exists v, ofold f xs z = Ok v /\ vgood (m + length xs) v (fun k => e0 k + rsum (fun a => ex a k) xs) (fun k => b0 k + rsum (fun a => bd a k) xs) (fun k => M0 k + rsum (fun a => Mx a k) xs).
Proof.
  induction xs as [|a xs IH]; intros H f m0 z e0 b0 M0 Hf Hm Hz.
  - cbn [ofold length]. exists z. split; [reflexivity|]. rewrite Nat.add_0_r. eapply vgood_ext; [exact Hz|]. intros k _. cbn [rsum fold_right]. rewrite !Rplus_0_r. auto.
  - destruct (H a (or_introl eq_refl)) as (v & E & P). cbn [ofold]. rewrite Hf by (left; reflexivity). rewrite E. cbn [bind].
    destruct (IH (fun b Hin => H b (or_intror Hin)) f (S m0) (vadd_r rnd z v) (fun k => e0 k + ex a k) (fun k => b0 k + bd a k) (fun k => M0 k + Mx a k)) as (v2 & E2 & P2).
    + intros acc b Hb. apply Hf. right. exact Hb.
    + lia.
    + apply vgood_add; [exact Hz|]. eapply vgood_le; [exact P|exact Hm|]. intros k _. split; apply Rle_refl.
    + exists v2. split; [exact E2|]. cbn [length]. replace (m0 + S (length xs))%nat with (S m0 + length xs)%nat by lia.
      eapply vgood_ext; [exact P2|]. intros k _. rewrite !rsum_cons. repeat split; ring.
Qed.
Lemma growth_14 : force_growth u e 2 <= (1 + w) ^ 14.
Proof.
  unfold force_growth, den_lo. cbn [Nat.eqb]. assert (U : 0 <= u <= 1 / 2) by lra.
  assert (I : / (1 - u) <= (1 + u) ^ 2). { apply (Rmult_le_reg_l (1 - u)); [lra|]. rewrite Rinv_r by lra. nra. }
  assert (I0 : 0 < / (1 - u)) by (apply Rinv_0_lt_compat; lra).
  unfold Rdiv. rewrite Rinv_pow by lra. apply Rle_trans with ((1 + u) ^ 4 * ((1 + u) ^ 2) ^ 5).
  - apply Rmult_le_compat_l; [apply pow_le; lra|]. apply pow_incr. lra.
  - replace ((1 + u) ^ 4 * ((1 + u) ^ 2) ^ 5) with ((1 + u) ^ 14) by ring. apply pow_incr. lra.
Qed.
Definition away {X} (y : list R) (s : psrc R) (a b : X) : X := if negb (is_at y s) then a else b.
Lemma near_one_force safe eps s y : length y = 2%nat -> length (ps_pos s) = 2%nat -> representable rnd y -> 0 <= eps -> safe = true \/ ps_pos s <> y ->
  exists v, forcefield_r rnd hyp 2 true safe eps s y = Ok v /\
    vgood 14 v (fun k => away y s (force_on 2 true eps s y k) 0) (fun _ => 0) (fun k => away y s (Rabs (force_on 2 true eps s y k)) 0).
Proof.
  intros Ly Ls Y Ep SF. destruct (forcefield_r_term rnd u Hu Hrnd hyp e He (norm_of_spec e hyp Hhyp) 2 true safe eps s y Ly Ls (opp_of y Y) Ep SF) as (f & F & Lf & Rf).
  exists f. split; [exact F|]. split; [exact Lf|]. intros k Hk. specialize (Rf k Hk). unfold away. destruct (shrink_growth u Hu e He 2) as [S0 S1].
  exists (if negb (is_at y s) then force_on 2 true eps s y k else 0). split; [|rewrite Rminus_eq_0, Rabs_R0; lra].
  replace (if negb (is_at y s) then Rabs (force_on 2 true eps s y k) else 0) with (Rabs (if negb (is_at y s) then force_on 2 true eps s y k else 0)) by (destruct (negb (is_at y s)); [reflexivity|apply Rabs_R0]).
  set (b := if negb (is_at y s) then force_on 2 true eps s y k else 0) in *. split; [rewrite Cmod_R; apply Rle_refl|].
  rewrite <- RtoC_minus, Cmod_R. eapply Rle_trans; [exact (rel_err _ _ _ _ S0 S1 Rf)|]. assert (G := growth_14). assert (0 <= Rabs b) by apply Rabs_pos. nra.
Qed.
Lemma near_sum_force safe eps S y : length y = 2%nat -> same_dim 2 S -> representable rnd y -> 0 <= eps -> (safe = true \/ forall s, In s S -> ps_pos s <> y) ->
  exists v, forcefield_sum_r rnd hyp 2 true safe eps S y = Ok v /\
    vgood (14 + length S) v (fun k => rsum (fun s => force_on 2 true eps s y k) (others y S)) (fun _ => 0) (fun k => rsum (fun s => Rabs (force_on 2 true eps s y k)) (others y S)).
Proof.
  intros Ly HD Y Ep SF. unfold forcefield_sum_r.
  destruct (fold_vgood (fun s => forcefield_r rnd hyp 2 true safe eps s y) (fun s k => away y s (force_on 2 true eps s y k) 0) (fun _ _ => 0)
    (fun s k => away y s (Rabs (force_on 2 true eps s y k)) 0) 14 S) with (f := fun frc s => bind (forcefield_r rnd hyp 2 true safe eps s y) (fun f => Ok (vadd_r rnd frc f))) (m := 14%nat) (z := vzero 2)
    (e0 := fun _ : nat => 0) (b0 := fun _ : nat => 0) (M0 := fun _ : nat => 0) as (v & E & P).
  - intros s Hs. apply near_one_force; try assumption; [apply HD; exact Hs|]. destruct SF as [->|SF]; [left; reflexivity|right; apply SF; exact Hs].
  - reflexivity.
  - lia.
  - split; [reflexivity|]. intros k Hk. exists 0. rewrite nth_vzero. split; [apply (ap_exact w Hw); rewrite Cmod_R, Rabs_R0; lra|rewrite Rminus_0_r, Rabs_R0; lra].
  - exists v. split; [exact E|]. eapply vgood_ext; [exact P|]. intros k _. unfold others. rewrite !rsum_filter, !Rplus_0_l. split; [reflexivity|]. split; [|reflexivity].
    apply rsum_zero.
Qed.
Lemma vgood_neg n v ex bd M : vgood n v ex bd M -> vgood (S n) (vneg_r rnd v) (fun k => - ex k) bd M.
Proof.
  intros [H1 H2]. split; [unfold vneg_r, vscale_r; rewrite map_length; exact H1|]. intros k Hk. destruct (H2 k Hk) as (t0 & P & B). exists (- t0). split.
  - unfold vneg_r, vscale_r. rewrite (nth_indep _ 0 (rnd (0 * -1))) by (rewrite map_length; lia). rewrite (map_nth (fun c => rnd (c * -1))).
    eapply (ap_round w Hw); [|apply rnd_close]. replace (nth k v 0 * -1) with (- nth k v 0) by ring. rewrite !RtoC_opp. apply ap_opp. exact P.
  - replace (- t0 - - ex k) with (- (t0 - ex k)) by ring. rewrite Rabs_Ropp. exact B.
Qed.

Variable ell : R.
Hypothesis Hell : 0 < ell.
Hypothesis Hrad : forall b, present b -> ell <= rad b.
Notation far_srcs := (W_srcs ++ rfar L).
Lemma near_far_perm : Permutation (others x near_srcs ++ far_srcs) (others x srcs).
Proof.
  unfold others. etransitivity; [|apply (filter_perm _ _ _ cover)]. rewrite filter_app. apply Permutation_app_head.
  fold (others x far_srcs). rewrite others_away; [reflexivity|exact far_away].
Qed.
Lemma far_dist s : In s far_srcs -> ell * (1 / rho - 1) <= Cmod (cplx (ps_pos s) - cplx x).
Proof.
  intros Hs. assert (R1 : 0 < 1 / rho - 1). { assert (1 < 1 / rho); [|lra]. apply (Rmult_lt_reg_r rho); [lra|]. unfold Rdiv. rewrite Rmult_assoc, Rinv_l by lra. lra. }
  assert (RI : forall a b, a <= rho * b -> a * (1 / rho) <= b). { intros a b H. apply (Rmult_le_reg_r rho); [lra|]. unfold Rdiv. rewrite Rmult_1_l, Rmult_assoc, Rinv_l by lra. lra. }
  assert (LR : forall b, present b -> ell * (1 / rho - 1) <= rad b * (1 / rho - 1)) by (intros b P; apply Rmult_le_compat_r; [lra|apply Hrad; exact P]).
  apply in_app_iff in Hs. destruct Hs as [Hs|Hs].
  - apply in_flat_map in Hs. destruct Hs as (q & Hq & Hs). destruct (HxW q Hq) as (_ & B & _). assert (P := W_pres q Hq). assert (D := sub_at q s P Hs). apply RI in B. specialize (LR q P).
    assert (T : Cmod (cplx x - cplx (ctr q)) <= Cmod (cplx (ps_pos s) - cplx x) + rad q).
    { replace (cplx x - cplx (ctr q))%C with (- (cplx (ps_pos s) - cplx x) + (cplx (ps_pos s) - cplx (ctr q)))%C by ring. eapply Rle_trans; [apply Cmod_triangle|]. rewrite Cmod_opp. lra. }
    lra.
  - apply in_flat_map in Hs. destruct Hs as (a & Ha & Hs). assert (Pa : present a) by (eapply AnyLists.present_suf; eassumption).
    assert (D := x_anc a Ha). assert (LA := LR a Pa).
    unfold RoundedPasses.ofar in Hs. apply in_app_iff in Hs. destruct Hs as [Hs|Hs]; apply in_flat_map in Hs; destruct Hs as (q & Hq & Hs).
    + destruct (G3 a q Pa Hq) as (Pq & _ & B & _). assert (D' := sub_at q s Pq Hs). apply RI in B. specialize (LR q Pq).
      assert (T : Cmod (cplx (ctr q) - cplx (ctr a)) <= rad q + (Cmod (cplx (ps_pos s) - cplx x) + rad a)).
      { replace (cplx (ctr q) - cplx (ctr a))%C with (- (cplx (ps_pos s) - cplx (ctr q)) + ((cplx (ps_pos s) - cplx x) + (cplx x - cplx (ctr a))))%C by ring.
        eapply Rle_trans; [apply Cmod_triangle|]. rewrite Cmod_opp. assert (T1 := Cmod_triangle (cplx (ps_pos s) - cplx x)%C (cplx x - cplx (ctr a))%C). lra. }
      assert (0 < ell * (1 / rho - 1)) by (apply Rmult_lt_0_compat; assumption). lra.
    + destruct (G4 a q Pa Hq) as (_ & _ & GS). destruct (GS s Hs) as [B _]. unfold src_at in B. apply RI in B.
      assert (T : Cmod (cplx (ps_pos s) - cplx (ctr a)) <= Cmod (cplx (ps_pos s) - cplx x) + rad a).
      { replace (cplx (ps_pos s) - cplx (ctr a))%C with ((cplx (ps_pos s) - cplx x) + (cplx x - cplx (ctr a)))%C by ring. eapply Rle_trans; [apply Cmod_triangle|]. lra. }
      lra.
Qed.
Notation fgain := (rho / (1 - rho)).
Notation ftau := (rho ^ Datatypes.S p / (1 - rho)).
Theorem eval_force_fine field eps : 0 <= eps -> exists v, leaf_force field eps = Ok v /\ length v = 2%nat /\
  forall k, (k < 2)%nat -> Rabs (nth k v 0 - (rsum (fun s => force_on 2 field eps s x k) (others x near_srcs) + rsum (fun s => force_on 2 field 0 s x k) far_srcs)) <=
    ftau / ell * abs_charge far_srcs + ((1 + w) ^ cN - 1) * (fgain / ell * abs_charge far_srcs + rsum (fun s => Rabs (force_on 2 field eps s x k)) (others x near_srcs)).
Proof.
  intros Ep. assert (Dp := AnyTree.present_depth 2 pos c l cap srcs rr h Hh L PL). set (N0 := (cL p cap h K (length L) + 3 * p + 3)%nat).
  assert (FG : 0 <= fgain) by (apply Rmult_le_pos; [lra|left; apply Rinv_0_lt_compat; lra]).
  assert (FT : 0 <= ftau) by (apply Rmult_le_pos; [apply pow_le; lra|left; apply Rinv_0_lt_compat; lra]).
  assert (DV : forall a b, present b -> 0 <= a -> a / rad b <= a / ell).
  { intros a b P Ha. unfold Rdiv. apply Rmult_le_compat_l; [exact Ha|]. apply Rinv_le_contravar; [exact Hell|apply Hrad; exact P]. }
  unfold leaf_force.
  destruct HLE as (e0 & E0 & Q0). rewrite E0. cbn [of_option bind o_lforce ops2_r]. destruct (G0 L PL) as [RL _].
  destruct (lgood_force w Hw A HA p Hp1 rho Lam ltac:(lra) _ _ _ _ e0 x Q0 RL Hx HxL) as (v0 & t0 & V0 & P0 & B0). rewrite V0.
  assert (P0' := vgood_field _ _ _ (rfar L) x _ _ P0 B0).
  assert (P0'' : vgood N0 (field_of v0) (fun k => rsum (fun s => force_on 2 true 0 s x k) (rfar L)) (fun _ => ftau / ell * abs_charge (rfar L)) (fun _ => fgain / ell * abs_charge (rfar L))).
  { eapply vgood_le; [exact P0'|unfold N0; lia|]. intros k _. assert (AQ := abs_charge_pos (rfar L)).
    replace (ftau / ell * abs_charge (rfar L)) with (abs_charge (rfar L) * ftau / ell) by (unfold Rdiv; ring). replace (fgain / ell * abs_charge (rfar L)) with (fgain * abs_charge (rfar L) / ell) by (unfold Rdiv; ring).
    split; apply DV; try assumption; apply Rmult_le_pos; assumption. }
  clear P0 B0 P0'.
  destruct (fold_vgood (fun q => bind (of_option (m_me m q)) (fun e => me2_force_r A e x)) (fun q k => rsum (fun s => force_on 2 true 0 s x k) (sub q)) (fun q _ => ftau / ell * abs_charge (sub q))
      (fun q _ => fgain / ell * abs_charge (sub q)) N0 (nl_W ls L)) with (f := fun frc q => bind (of_option (m_me m q)) (fun e => bind (o_mforce o e x) (fun v => Ok (vadd_r rnd frc v))))
      (m := N0) (z := field_of v0) (e0 := fun k => rsum (fun s => force_on 2 true 0 s x k) (rfar L)) (b0 := fun _ : nat => ftau / ell * abs_charge (rfar L))
      (M0 := fun _ : nat => fgain / ell * abs_charge (rfar L)) as (v1 & E1 & P1); [| |apply le_n|exact P0''|].
  { intros q Hq. assert (Pq := W_pres q Hq). destruct (HxW q Hq) as (L2 & X1 & X2). destruct (HME q Pq L2) as (g & Hg & Mg). rewrite Hg. cbn [of_option bind].
    destruct (G0 q Pq) as [Rq Lq].
    destruct (mgood_force w Hw A HA p Hp1 rho ltac:(lra) _ _ _ _ g x Lq Hx (sub_dim2 c l srcs pos Hdim q) Mg) as (v & t' & V & Pv & Bv); try assumption.
    - intros s Hs. apply G1; assumption.
    - lra.
    - nra.
    - exists (field_of v). split; [exact V|]. eapply vgood_le; [eapply vgood_field; [exact Pv|exact Bv]| |].
      + assert (X := cM_mono p Hp1 cap h q). unfold N0, cL, cB. lia.
      + intros k _. assert (AQ := abs_charge_pos (sub q)).
        replace (ftau / ell * abs_charge (sub q)) with (abs_charge (sub q) * ftau / ell) by (unfold Rdiv; ring). replace (fgain / ell * abs_charge (sub q)) with (fgain * abs_charge (sub q) / ell) by (unfold Rdiv; ring).
        split; apply DV; try assumption; apply Rmult_le_pos; assumption. }
  { intros acc q _. cbn [o_mforce ops2_r]. destruct (m_me m q); reflexivity. }
  rewrite E1. cbn [bind]. clear E1 P0''.
  destruct (fold_vgood (fun q => forcefield_sum_r rnd hyp 2 true (addr_eqb q L) eps (sub q) x) (fun q k => rsum (fun s => force_on 2 true eps s x k) (others x (sub q))) (fun _ _ => 0)
      (fun q k => rsum (fun s => Rabs (force_on 2 true eps s x k)) (others x (sub q))) (14 + cap) (nl_near ls L)) with
      (f := fun frc q => bind (of_option (lk q)) (fun n => if an_leaf n then bind (forcefield_sum_r rnd hyp 2 true (addr_eqb q L) eps (an_srcs n) x) (fun v => Ok (vadd_r rnd frc v)) else UB))
      (m := (N0 + length (nl_W ls L))%nat) (z := v1) (e0 := fun k => rsum (fun s => force_on 2 true 0 s x k) (rfar L) + rsum (fun q => rsum (fun s => force_on 2 true 0 s x k) (sub q)) (nl_W ls L))
      (b0 := fun _ : nat => ftau / ell * abs_charge (rfar L) + rsum (fun q => ftau / ell * abs_charge (sub q)) (nl_W ls L))
      (M0 := fun _ : nat => fgain / ell * abs_charge (rfar L) + rsum (fun q => fgain / ell * abs_charge (sub q)) (nl_W ls L)) as (v2 & E2 & P2); [| | |exact P1|].
  { intros q Hq. destruct (near_pres q Hq) as [Pq Nq].
    destruct (near_sum_force (addr_eqb q L) eps (sub q) x Hx (sub_dim2 c l srcs pos Hdim q) Hrep Ep) as (v & V & Pv).
    - destruct (addr_eqb q L) eqn:Eq; [left; reflexivity|right]. intros s Hs. apply (near_other q s Pq Nq); [|exact Hs]. intros ->. rewrite addr_eqb_refl in Eq. discriminate.
    - exists v. split; [exact V|]. eapply vgood_le; [exact Pv| |intros k _; split; apply Rle_refl]. specialize (Hcap q Pq Nq). lia. }
  { intros acc q Hq. destruct (near_pres q Hq) as [Pq Nq]. rewrite (Hlk q Hq). cbn [of_option bind].
    unfold AnyTree.mk at 1. cbn [an_leaf]. rewrite Nq. cbn [negb]. unfold AnyTree.mk. cbn [an_srcs]. rewrite Nq. reflexivity. }
  { unfold N0, cL, cB, cM. lia. }
  rewrite E2. cbn [bind]. clear E2 P1.
  assert (P3 : vgood cN (if field then v2 else vneg_r rnd v2)
    (fun k => rsum (fun s => force_on 2 field eps s x k) (others x near_srcs) + rsum (fun s => force_on 2 field 0 s x k) far_srcs)
    (fun _ => ftau / ell * abs_charge far_srcs) (fun k => fgain / ell * abs_charge far_srcs + rsum (fun s => Rabs (force_on 2 field eps s x k)) (others x near_srcs))).
  { assert (CN : (S (N0 + length (nl_W ls L) + length (nl_near ls L)) <= cN)%nat).
    { unfold N0, cN, cL, cB, cM. destruct HKL as [K1 K2]. assert (MX : (length L * (3 * p + 5 + K) <= h * (3 * p + 5 + K))%nat) by (apply Nat.mul_le_mono_r; exact Dp).
      rewrite Nat.sub_0_r. replace (h * (6 * p + 11 + K))%nat with (h * (3 * p + 6) + h * (3 * p + 5 + K))%nat by ring. lia. }
    assert (SG : forall ep s k, force_on 2 field ep s x k = field_sign field * force_on 2 true ep s x k) by (intros; unfold force_on, field_sign; ring).
    assert (AC : forall a, a * abs_charge (rfar L) + rsum (fun q => a * abs_charge (sub q)) (nl_W ls L) = a * abs_charge far_srcs).
    { intros a. rewrite rsum_const_mul. unfold abs_charge. rewrite rsum_app, !rsum_flat. ring. }
    assert (FR : forall k, rsum (fun s => force_on 2 true 0 s x k) (rfar L) + rsum (fun q => rsum (fun s => force_on 2 true 0 s x k) (sub q)) (nl_W ls L)
       + rsum (fun q => rsum (fun s => force_on 2 true eps s x k) (others x (sub q))) (nl_near ls L)
       = rsum (fun s => force_on 2 true eps s x k) (others x near_srcs) + rsum (fun s => force_on 2 true 0 s x k) far_srcs).
    { intros k. rewrite others_flat, rsum_app, !rsum_flat. ring. }
    assert (MN : forall k, rsum (fun s => Rabs (force_on 2 field eps s x k)) (others x near_srcs) = rsum (fun q => rsum (fun s => Rabs (force_on 2 true eps s x k)) (others x (sub q))) (nl_near ls L)).
    { intros k. rewrite others_flat, rsum_flat. apply rsum_ext. intros q _. apply rsum_ext. intros s _. rewrite SG, Rabs_mult. unfold field_sign. destruct field; [rewrite Rabs_R1|rewrite Rabs_left by lra]; ring. }
    destruct field.
    - eapply vgood_ext; [eapply vgood_le; [exact P2|lia|intros k _; split; apply Rle_refl]|]. intros k _. cbv beta. rewrite FR, rsum_zero, !AC, MN. split; [reflexivity|]. split; ring.
    - eapply vgood_ext; [eapply vgood_le; [apply vgood_neg; exact P2|exact CN|intros k _; split; apply Rle_refl]|]. intros k _. cbv beta. rewrite FR, rsum_zero, !AC, MN. split; [|split; ring].
      rewrite !(rsum_ext (fun s => force_on 2 false _ s x k) _ _ (fun s _ => SG _ s k)). rewrite !rsum_const_mul. unfold field_sign. ring. }
  eexists. split; [reflexivity|]. destruct P3 as [P3 P4]. split; [exact P3|]. intros k Hk. destruct (P4 k Hk) as (t3 & [_ P5] & B5). rewrite <- RtoC_minus, Cmod_R in P5.
  set (v3 := nth k (if field then v2 else vneg_r rnd v2) 0) in *. set (ex := rsum (fun s => force_on 2 field eps s x k) (others x near_srcs) + rsum (fun s => force_on 2 field 0 s x k) far_srcs) in *.
  replace (v3 - ex) with ((t3 - ex) + (v3 - t3)) by ring. eapply Rle_trans; [apply Rabs_triang|]. lra.
Qed.
End Eval.

(** The adaptive tree: the lists of a leaf cover all sources, and sources at the point of evaluation are in its leaf. *)
Section Cover.
Variable rnd : R -> R.
Variable c : list R.
Variable l : R.
Variable cap : nat.
Variable srcs : list (psrc R).
Variable rr : rule.
Variable h : nat.
Notation NN := (NumRnd rnd).
Notation pos := (@ps_pos R).
Notation refined := (@AnyTree.refined R (psrc R) NN 2 pos c l cap srcs rr).
Notation present := (@AnyTree.present R (psrc R) NN 2 pos c l cap srcs rr).
Notation sub := (@AnyTree.sub R (psrc R) NN 2 pos c l srcs).
Notation path := (@AnyTree.path R NN 2 c l).
Notation t := (@AnyTree.spec_tree R (psrc R) NN 2 pos c l cap srcs rr h).
Notation ls := (@AnyLists.final R (psrc R) NN 2 pos c l cap srcs rr h).
Hypothesis Hsym : forall a b, @adjb R (psrc R) NN 2 pos c l cap srcs rr a b = @adjb R (psrc R) NN 2 pos c l cap srcs rr b a.
Hypothesis Hh : @AnyTree.height_ok R (psrc R) NN 2 pos c l cap srcs rr h.
Hypothesis G3 : forall b q, present b -> In q (nl_inter ls b) -> present q.
Notation rfar := (@rfar NN c l srcs pos ls).
Variable L : addr.
Variable x : list R.
Hypothesis PL : present L.
Hypothesis NL : refined L = false.
Hypothesis Hpath : path x (length L) = L.
Notation near_srcs := (flat_map sub (nl_near ls L)).
Notation W_srcs := (flat_map sub (nl_W ls L)).

Lemma W_pres q : In q (nl_W ls L) -> present q.
Proof. intros H. apply final_W_in in H; [apply H|assumption|assumption]. Qed.
Lemma near_pres q : In q (nl_near ls L) -> present q /\ refined q = false.
Proof. intros H. apply final_near_leaf in H; [tauto|assumption..]. Qed.
Lemma cover : Permutation (near_srcs ++ W_srcs ++ rfar L) srcs.
Proof.
  assert (G := Permutation_flat_map sub (AnyLists.interactions_perm 2 pos c l cap srcs rr Hsym h Hh L PL NL)).
  rewrite (AnyTree.sub_leaves_perm 2 pos c l cap srcs rr h Hh) in G.
  unfold interactions in G. rewrite !flat_map_app in G. etransitivity; [|exact G].
  assert (B : forall qs, (forall q, In q qs -> present q) -> Permutation (flat_map sub qs) (flat_map sub (flat_map (leaves_below t) qs))).
  { induction qs as [|q qs IH]; intros Hq; [constructor|]. cbn [flat_map]. rewrite flat_map_app. apply Permutation_app.
    - unfold leaves_below. rewrite AnyLists.leaf_list_eq. symmetry. apply AnyTree.sub_below; [exact Hh|]. apply Hq. left. reflexivity.
    - apply IH. intros; apply Hq; right; assumption. }
  apply Permutation_app_head. apply Permutation_app.
  - apply B. exact W_pres.
  - unfold RoundedPasses.rfar. rewrite !flat_map_concat_map, concat_map, map_map.
    assert (PA : forall a, In a (ancestors_or_self L) -> present a) by (intros a Ha; eapply AnyLists.present_suf; eassumption).
    clear G. induction (ancestors_or_self L) as [|a As IH]; [constructor|]. cbn [map concat].
    rewrite concat_app. apply Permutation_app; [|apply IH; intros; apply PA; right; assumption].
    rewrite <- flat_map_concat_map, flat_map_app. unfold RoundedPasses.ofar. apply Permutation_app; [|reflexivity].
    apply B. intros q Hq. apply (G3 a q); [|exact Hq]. apply PA. left. reflexivity.
Qed.
Lemma near_other q s : present q -> refined q = false -> q <> L -> In s (sub q) -> ps_pos s <> x.
Proof.
  intros Pq Nq NE Hs Ex. apply (@AnyTree.sub_path R (psrc R) NN 2 pos c l srcs) in Hs. destruct Hs as [_ Hs]. rewrite Ex in Hs.
  assert (G : forall a b, present a -> present b -> refined a = false -> a <> b -> path x (length a) = a -> path x (length b) = b ->
     (length a <= length b)%nat -> False).
  { intros a b Pa Pb Na Hne Ea Eb Hlen. assert (X : In a (ancestors_or_self b)).
    { rewrite <- Eb. apply (@AnyTree.anc_path R NN 2 c l). exists (length a). auto. }
    apply in_sufs_app in X. destruct X as (r & Er). destruct r as [|i r]; [simpl in Er; congruence|].
    rewrite Er in Pb. cbn [app] in Pb. apply (@AnyTree.present_app_refined R (psrc R) NN) in Pb. congruence. }
  destruct (le_lt_dec (length q) (length L)) as [Hlen|Hlen].
  - apply (G q L); auto.
  - apply (G L q); auto. lia.
Qed.
End Cover.
