(** The two-dimensional expansions satisfy what the passes need, so the tree is accurate. *)
From Coq Require Import List Bool ZArith Arith Lia Lra Reals Permutation.
From Coquelicot Require Import Complex.
From Verif Require Import Num Outcome Vec Orthtree AdaptiveTree TreeSpec VecProofs GeometrySpec GeometryProofs TreeGeometry
  AdaptiveProofs BuildProofs ListProofs ListContents TreeTheorems Tables Expansion2D CAux TableProofs Exp2Proofs Exp2Local Exp2Errors Exp2Theorems FieldSpec Schedule Fields FieldProofs
  FmmPasses PassProofs PassSteps PassTree PassSpec PassEval FmmTree2D.
Import ListNotations.
Local Open Scope R_scope.

(** *** Distances in boxes *)
Lemma sqrt2_pos : 0 < sqrt 2. Proof. apply sqrt_lt_R0; lra. Qed.
Lemma sqrt2_sq : sqrt 2 * sqrt 2 = 2. Proof. apply sqrt_sqrt; lra. Qed.
Lemma sqrt2_lt : 1.41 < sqrt 2 < 1.42.
Proof. assert (H := sqrt2_sq). assert (P := sqrt2_pos). split; nra. Qed.

Lemma in_box_dist c len x : length c = 2%nat -> length x = 2%nat -> 0 < len -> in_box 2 c len x -> dist x c <= sqrt 2 / 2 * len.
Proof.
  intros Hc Hx Hl H. unfold dist. rewrite Hx. cbn [seq rsum fold_right].
  assert (H0 := H 0%nat ltac:(lia)). assert (H1 := H 1%nat ltac:(lia)).
  set (a := nth 0 x 0 - nth 0 c 0) in *. set (b := nth 1 x 0 - nth 1 c 0) in *.
  assert (A : - (len / 2) <= a <= len / 2) by (unfold a; lra). assert (B : - (len / 2) <= b <= len / 2) by (unfold b; lra).
  assert (P := sqrt2_pos). assert (S2 := sqrt2_sq).
  rewrite <- (sqrt_Rsqr (sqrt 2 / 2 * len)) by (apply Rmult_le_pos; lra). apply sqrt_le_1_alt. unfold Rsqr.
  replace (sqrt 2 / 2 * len * (sqrt 2 / 2 * len)) with ((sqrt 2 * sqrt 2) * (len * len / 4)) by field. rewrite S2. nra.
Qed.
Lemma apart_dist d c x r : length c = d -> length x = d -> 0 <= r -> apart d c x r -> r <= dist c x.
Proof.
  intros Hc Hx Hr (j & Hj & A). unfold dist. rewrite Hc.
  assert (L : (nth j c 0 - nth j x 0) ^ 2 <= rsum (fun k => (nth k c 0 - nth k x 0) ^ 2) (seq 0 d)).
  { assert (G : forall ks, In j ks -> (nth j c 0 - nth j x 0) ^ 2 <= rsum (fun k => (nth k c 0 - nth k x 0) ^ 2) ks).
    { induction ks as [|k ks IH]; intros []; rewrite rsum_cons.
      - subst k. assert (0 <= rsum (fun k => (nth k c 0 - nth k x 0) ^ 2) ks) by (apply rsum_nonneg; intros; apply pow2_ge_0). lra.
      - specialize (IH H). assert (0 <= (nth k c 0 - nth k x 0) ^ 2) by apply pow2_ge_0. lra. }
    apply G. apply in_seq. lia. }
  rewrite <- (sqrt_Rsqr r) by exact Hr. apply sqrt_le_1_alt. eapply Rle_trans; [|exact L]. unfold Rsqr.
  rewrite <- (pow2_abs (nth j c 0 - nth j x 0)). nra.
Qed.

Section Instance.
Variable p : nat.
Hypothesis Hp : (1 <= p)%nat.
Variable tb0 : btab.
Hypothesis Hok : bt_ok tb0.
Notation tb := (se_table tb0 p).

Definition ratio2 : R := sqrt 2 / 2.
Lemma ratio2_lt : 0 <= ratio2 < 1. Proof. unfold ratio2. assert (H := sqrt2_lt). lra. Qed.
Lemma tb_id : se_table tb p = tb.
Proof. apply se_table_id. rewrite se_table_max. lia. Qed.
Lemma tb_ok : bt_ok tb.
Proof. apply se_table_ok. exact Hok. Qed.

Definition ME2 (c : list R) (S : list (psrc R)) (e : se2) : Prop := e = me2_sources c p S.
Definition LE2 (c : list R) (e : se2) : Prop := wf_se e /\ se_ord e = p /\ se_ctr e = cplx c.
Definition lv (i : unit) (e : se2) (x : list R) : R := le2_pot e x.
Definition dr (i : unit) (s : psrc R) (x : list R) : R := kernel 2 (ps_q s) (dist (ps_pos s) x).
Definition E2 (i : unit) (len : R) : R := trunc_bound ratio2 p.

Lemma dr_direct S x : rsum (fun s => dr tt s x) S = direct_potential 2 true S x.
Proof. unfold direct_potential. apply rsum_ext. intros s _. unfold dr, field_sign. ring. Qed.
Lemma zero_pot c x : le2_pot (se_zero c p) x = 0.
Proof.
  unfold le2_pot, se_zero. cbn [se_ctr se_co].
  assert (G : forall n z pw, le2_pot_loop z pw (RtoC 0) (repeat (RtoC 0) n) = RtoC 0).
  { induction n as [|n IH]; intros z pw; [reflexivity|]. cbn [repeat le2_pot_loop].
    replace (RtoC 0 + RtoC 0 * pw)%C with (RtoC 0) by ring. apply IH. }
  rewrite G. reflexivity.
Qed.
Lemma zero_LE c : LE2 c (se_zero c p).
Proof. split; [unfold wf_se, se_zero; cbn [se_co se_ord]; apply repeat_length|split; reflexivity]. Qed.
Lemma add_LE c a b : LE2 c a -> LE2 c b -> exists e, se_add a b = Ok e /\ LE2 c e /\ forall x, le2_pot e x = le2_pot a x + le2_pot b x.
Proof.
  intros (Wa & Oa & Ca) (Wb & Ob & Cb).
  destruct (add_pointwise a b) as (e & He & Ce & Le & _ & V & _).
  - unfold wf_se in *. rewrite Wa, Wb, Oa, Ob. reflexivity.
  - rewrite Ca, Cb. reflexivity.
  - exists e. split; [exact He|]. split; [|exact V].
    assert (Oe : se_ord e = p).
    { unfold se_add in He. destruct (negb _); [discriminate|]. destruct (Ceq_dec _ _); [|discriminate].
      assert (e = mkse (se_ord a) (se_ctr a) (map2 Cplus (se_co a) (se_co b))) by congruence. subst e. exact Oa. }
    split; [unfold wf_se in *; rewrite Le, Wa, Oa, Oe; reflexivity|]. split; [exact Oe|]. rewrite Ce. exact Ca.
Qed.

Lemma E_charge S r : r <= ratio2 -> 0 <= r -> abs_charge S * trunc_bound r p <= trunc_bound ratio2 p * abs_charge S.
Proof.
  intros H H0. rewrite Rmult_comm. apply Rmult_le_compat_r; [apply abs_charge_nonneg|].
  apply trunc_bound_mono; [exact H0|exact H|apply ratio2_lt].
Qed.
Lemma W_ratio len : 0 < len -> ratio2 * len / (3 / 2 * len) <= ratio2 /\ 0 <= ratio2 * len / (3 / 2 * len).
Proof.
  intros H. assert (R2 := ratio2_lt). replace (ratio2 * len / (3 / 2 * len)) with (ratio2 * (2 / 3)) by (field; lra). lra.
Qed.

(** One incoming multipole expansion. *)
Lemma m2l_one c len c1 S : length c = 2%nat -> 0 < len -> length c1 = 2%nat -> same_dim 2 S ->
  (forall s, In s S -> in_box 2 c1 len (ps_pos s)) -> apart 2 c c1 (2 * len) ->
  exists e, le2_m2l tb c (me2_sources c1 p S) = Ok (e, tb) /\ LE2 c e /\ forall x, length x = 2%nat -> in_box 2 c len x ->
    Rabs (le2_pot e x - direct_potential 2 true S x) <= trunc_bound ratio2 p * abs_charge S.
Proof.
  intros Hc Hl Hc1 HS Hin Hap. assert (S2 := sqrt2_lt).
  assert (HD : 2 * len <= dist c1 c). { rewrite dist_sym by congruence. apply (apart_dist 2); try assumption. lra. }
  assert (G : forall x, length x = 2%nat -> in_box 2 c len x ->
    exists e, le2_m2l tb c (me2_sources c1 p S) = Ok (e, se_table tb p) /\ se_ord e = p /\ se_ctr e = cplx c /\ wf_se e /\
      Rabs (le2_pot e x - direct_potential 2 true S x) <= abs_charge S * trunc_bound ((ratio2 * len + ratio2 * len) / (2 * len)) p).
  { intros x Hx Hix. unfold ratio2. apply m2l2_error; try assumption; try exact tb_ok; try nra.
    - intros s Hs. apply in_box_dist; [exact Hc1|apply HS; exact Hs|exact Hl|apply Hin; exact Hs].
    - apply in_box_dist; assumption. }
  assert (Q : (ratio2 * len + ratio2 * len) / (2 * len) = ratio2) by (field; lra). rewrite Q in G. rewrite tb_id in G.
  destruct (G c Hc) as (e & He & Oe & Ce & We & _).
  { intros j Hj. lra. }
  exists e. split; [exact He|]. split; [split; [exact We|split; assumption]|].
  intros x Hx Hix. destruct (G x Hx Hix) as (e' & He' & _ & _ & _ & B). assert (e' = e) by congruence. subst e'.
  rewrite (Rmult_comm (trunc_bound _ _)). exact B.
Qed.

Theorem sound2 : sound (ops2 p) 2 tb ME2 LE2 lv dr E2.
Proof.
  assert (S2 := sqrt2_lt). constructor.
  - intros c S Hc HS. exists (me2_sources c p S). split; [|reflexivity]. cbn [ops2 o_p2m]. rewrite tb_id. reflexivity.
  - intros c parts Hc Hne HM. exists (me2_sources c p (flat_map (fun u => snd (fst u)) parts)). split; [|reflexivity].
    cbn [ops2 o_m2m].
    replace (map snd parts) with (map (fun cs => me2_sources (fst cs) p (snd cs)) (map fst parts)).
    + rewrite me2_merge_exact; [|exact tb_ok|destruct parts; [congruence|discriminate]].
      rewrite tb_id. do 3 f_equal. rewrite !flat_map_concat_map, map_map. reflexivity.
    + rewrite map_map. apply map_ext_in. intros u Hu. symmetry. apply HM. exact Hu.
  - intros tb' c Hc. cbn [ops2 o_zero fst]. split; [apply zero_LE|]. intros i x. apply zero_pot.
  - intros c e (We & Oe & _). cbn [ops2 o_size]. unfold wf_se in We. lia.
  - intros c a b Ha Hb. cbn [ops2 o_add]. destruct (add_LE c a b Ha Hb) as (e & H1 & H2 & H3). exists e. split; [exact H1|]. split; [exact H2|].
    intros i x. apply H3.
  - intros c c' e Hc' (We & Oe & Ce). cbn [ops2 o_l2l]. rewrite le2_l2l_shift by (try assumption; lia). rewrite Oe, tb_id.
    eexists. split; [reflexivity|]. split.
    + split; [unfold wf_se; cbn [se_co se_ord]; rewrite hshift_length; unfold wf_se in We; lia|split; reflexivity].
    + intros i x. unfold lv. apply l2l_pot.
  - intros c len parts Hc Hl Hne HM. cbn [ops2 o_m2l]. unfold le2_m2l_many.
    assert (F : forall ps acc, (forall u, In u ps -> In u parts) -> LE2 c acc ->
      exists e, ofold (fun st e => bind (le2_m2l (snd st) c e) (fun r => bind (se_add (fst st) (fst r)) (fun s => Ok (s, snd r)))) (map snd ps) (acc, tb) = Ok (e, tb) /\
        LE2 c e /\ forall x, length x = 2%nat -> in_box 2 c len x ->
        Rabs (le2_pot e x - (le2_pot acc x + direct_potential 2 true (flat_map (fun u => snd (fst u)) ps) x)) <= trunc_bound ratio2 p * abs_charge (flat_map (fun u => snd (fst u)) ps)).
    { induction ps as [|u ps IH]; intros acc Hin Hacc.
      - exists acc. split; [reflexivity|]. split; [exact Hacc|]. intros x _ _. cbn [flat_map]. unfold direct_potential, abs_charge; cbn [rsum fold_right].
        replace (_ - _) with 0 by ring. rewrite Rabs_R0. lra.
      - destruct (HM u (Hin u (or_introl eq_refl))) as (M1 & M2 & M3 & M4 & M5).
        destruct (m2l_one c len (fst (fst u)) (snd (fst u)) Hc Hl M2 M3 M4 M5) as (e1 & He1 & L1 & B1).
        destruct (add_LE c acc e1 Hacc L1) as (e2 & He2 & L2 & V2).
        destruct (IH e2 (fun v Hv => Hin v (or_intror Hv)) L2) as (e3 & He3 & L3 & B3).
        exists e3. split.
        + cbn [map ofold fst snd]. rewrite M1, He1. cbn [bind fst snd]. rewrite He2. cbn [bind]. exact He3.
        + split; [exact L3|]. intros x Hx Hix. specialize (B1 x Hx Hix). specialize (B3 x Hx Hix). rewrite V2 in B3.
          cbn [flat_map]. rewrite direct_potential_app, abs_charge_app.
          set (DD := direct_potential 2 true (flat_map (fun u => snd (fst u)) ps) x) in *.
          replace (_ - _) with ((le2_pot e3 x - (le2_pot acc x + le2_pot e1 x + DD)) + (le2_pot e1 x - direct_potential 2 true (snd (fst u)) x)) by ring.
          eapply Rle_trans; [apply Rabs_triang|]. lra. }
    destruct (map snd parts) as [|e0 es] eqn:Ep; [destruct parts; [congruence|discriminate]|].
    assert (Oe : se_ord e0 = p).
    { destruct parts as [|u parts]; [congruence|]. cbn [map] in Ep. destruct (HM u (or_introl eq_refl)) as (M1 & _).
      assert (e0 = snd u) by congruence. subst e0. rewrite M1. reflexivity. }
    rewrite Oe, tb_id, <- Ep. destruct (F parts (se_zero c p) (fun u H => H) (zero_LE c)) as (e & He & Le & B).
    exists e. split; [exact He|]. split; [exact Le|]. intros i x Hx Hix. destruct i. rewrite dr_direct. unfold lv, E2.
    specialize (B x Hx Hix). rewrite zero_pot, Rplus_0_l in B. exact B.
  - intros c len S Hc Hl HS Hap. cbn [ops2 o_p2l]. destruct (W_ratio len Hl) as [R1 R2].
    assert (Hd : forall s, In s S -> 3 / 2 * len <= dist (ps_pos s) c).
    { intros s Hs. rewrite dist_sym by (rewrite (HS s Hs); congruence). apply (apart_dist 2); [exact Hc|apply HS; exact Hs|lra|apply Hap; exact Hs]. }
    assert (G : forall x, length x = 2%nat -> in_box 2 c len x -> exists e, le2_sources c p S = Ok e /\
       Rabs (le2_pot e x - direct_potential 2 true S x) <= abs_charge S * trunc_bound (ratio2 * len / (3 / 2 * len)) p).
    { intros x Hx Hix. apply le2_error; try assumption.
      - unfold ratio2. split; nra.
      - apply in_box_dist; assumption. }
    destruct (G c Hc) as (e & He & _); [intros j Hj; lra|].
    rewrite He. cbn [bind]. rewrite tb_id. exists e. split; [reflexivity|]. split.
    + assert (Q : exists cs, e = mkse p (cplx c) (div_tail cs) /\ length cs = Datatypes.S p).
      { unfold le2_sources in He. apply bind_ok in He. destruct He as (cs & Hcs & He). exists cs. split; [congruence|].
        clear - Hcs. assert (G : forall T cs0 cs, ofold (le2_add_source (cplx c)) T cs0 = Ok cs -> length cs = length cs0).
        { induction T as [|s T IH]; intros cs0 cs1 H; [cbn [ofold] in H; injection H as ->; reflexivity|]. cbn [ofold] in H. apply bind_ok in H. destruct H as (cs2 & H2 & H).
          rewrite (IH _ _ H). unfold le2_add_source in H2. apply bind_ok in H2. destruct H2 as (ip & _ & H2). apply bind_ok in H2. destruct H2 as (lg & _ & H2).
          destruct cs0 as [|a r]; [congruence|]. assert (cs2 = (a + RtoC (ps_q s) * lg)%C :: le2_acc (ps_q s) (cplx (ps_pos s) - cplx c)%C ip r) by congruence.
          subst cs2. cbn [length]. f_equal. clear. revert ip. induction r as [|b r IH]; intros ip; [reflexivity|]. cbn [le2_acc length]. rewrite IH. reflexivity. }
        rewrite (G _ _ _ Hcs). apply repeat_length. }
      destruct Q as (cs & -> & Lcs). split; [|split; reflexivity]. unfold wf_se. cbn [se_co se_ord].
      destruct cs as [|a r]; [discriminate|]. cbn [div_tail length]. cbn [length] in Lcs.
      assert (Q : forall r j, length (div_from j r) = length r) by (induction r0 as [|b r0 IH]; intros j; [reflexivity|cbn [div_from length]; rewrite IH; reflexivity]).
      rewrite Q. exact Lcs.
    + intros i x Hx Hix. destruct i. rewrite dr_direct. destruct (G x Hx Hix) as (e' & He' & B). assert (e' = e) by congruence. subst e'.
      eapply Rle_trans; [exact B|]. apply E_charge; assumption.
  - intros i l1 l2 _. unfold E2. lra.
Qed.

Lemma mpot2 c len S e y : ME2 c S e -> length c = 2%nat -> same_dim 2 S -> 0 < len ->
  (forall s, In s S -> in_box 2 c len (ps_pos s)) -> length y = 2%nat -> apart 2 c y (3 / 2 * len) ->
  exists v, o_mpot (ops2 p) e y = Ok v /\ Rabs (v - rsum (fun s => dr tt s y) S) <= E2 tt len * abs_charge S.
Proof.
  intros -> Hc HS Hl Hin Hy Hap. destruct (W_ratio len Hl) as [R1 R2]. assert (S2 := sqrt2_lt).
  destruct (me2_error c p S y (ratio2 * len) (3 / 2 * len)) as (v & Hv & B); try assumption.
  - unfold ratio2. split; nra.
  - intros s Hs. apply in_box_dist; [exact Hc|apply HS; exact Hs|exact Hl|apply Hin; exact Hs].
  - rewrite dist_sym by congruence. apply (apart_dist 2); [exact Hc|exact Hy|lra|exact Hap].
  - exists v. split; [exact Hv|]. rewrite dr_direct. eapply Rle_trans; [exact B|]. apply E_charge; assumption.
Qed.
End Instance.
