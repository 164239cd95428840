(** A set of five sources for which the adaptive tree misses the requested accuracy. *)
From Coq Require Import List Bool ZArith Arith Lia Lra Reals Permutation.
From Coquelicot Require Import Complex.
From Verif Require Import Num Outcome Vec Orthtree AdaptiveTree TreeSpec VecProofs GeometrySpec GeometryProofs TreeGeometry
  AdaptiveProofs BuildProofs ListProofs ListContents RootBoxProofs TreeTheorems TreeTheorems2 TreeTheorems3 Tables Expansion2D CAux TableProofs M2LError Exp2Proofs Exp2Local Exp2Errors
  Exp2Theorems FieldSpec Schedule Fields FieldProofs FmmPasses PassProofs PassSteps PassTree PassSpec PassEval FmmTree2D FmmTree2DProofs FmmTheorems
  FmmApi FmmApiProofs EpsNumbers.
Import ListNotations.
Local Open Scope R_scope.

(** One unit charge; the other sources have no charge and only shape the tree. *)
Definition s0 : psrc R := PSrc [49/50; 49/50] 1.
Definition hard : list (psrc R) :=
  [s0; PSrc [0; 199/100] 0; PSrc [7/2; 0] 0; PSrc [12/5; 1/2] 0; PSrc [400000/100001; 400000/100001] 0].
Definition x0 : list R := [101/50; 1/50].
Notation c0 := [2; 2].
Notation l0 := 4.
Notation p0 := 13%nat.
Notation tb0 := (table_after []).
Notation tb := (se_table tb0 p0).

Lemma p0_pos : (1 <= p0)%nat. Proof. lia. Qed.
Lemma tb_max : bt_max tb = p0.
Proof. rewrite se_table_max, table_after_max. reflexivity. Qed.
Lemma hard_charge s : In s hard -> s = s0 \/ ps_q s = 0.
Proof. intros [<-|[<-|[<-|[<-|[<-|[]]]]]]; auto. Qed.
Lemma hard_dim : same_dim 2 hard.
Proof. intros s [<-|[<-|[<-|[<-|[<-|[]]]]]]; reflexivity. Qed.
Lemma lt2 j : (j < 2)%nat -> j = 0%nat \/ j = 1%nat. Proof. lia. Qed.
Lemma hard_root : root_box 2 (map (@ps_pos R) hard) = Some (c0, l0).
Proof.
  destruct (root_box_spec 2 (map (@ps_pos R) hard) ltac:(lia)) as (lo & hi & c & l & (_ & _ & EB) & RB & Hc & CC & LL & (j0 & Hj0 & Ej)).
  { discriminate. }
  { intros x Hx. apply in_map_iff in Hx. destruct Hx as (s & <- & Hs). apply hard_dim. assumption. }
  assert (V : forall j, (j < 2)%nat -> nth j lo 0%R = 0%R /\ nth j hi 0%R = 400000/100001).
  { intros j Hj. destruct (EB j Hj) as (A & (x & Hx & Ex) & (y & Hy & Ey)).
    assert (A1 := A [0; 199/100] ltac:(simpl; tauto)). assert (A2 := A [7/2; 0] ltac:(simpl; tauto)).
    assert (A3 := A [400000/100001; 400000/100001] ltac:(simpl; tauto)).
    cbn [map hard s0 ps_pos] in Hx, Hy.
    assert (0 <= nth j x 0 /\ nth j y 0 <= 400000/100001).
    { destruct (lt2 j Hj) as [-> | ->].
      all: destruct Hx as [<-|[<-|[<-|[<-|[<-|[]]]]]]; destruct Hy as [<-|[<-|[<-|[<-|[<-|[]]]]]]; cbn [nth]; lra. }
    destruct (lt2 j Hj) as [-> | ->]; cbn [nth] in A1, A2, A3; lra. }
  rewrite RB. destruct (V j0 Hj0) as [V1 V2]. rewrite V1, V2 in Ej. unfold eps5 in *.
  assert (E0 := CC 0%nat ltac:(lia)). assert (E1 := CC 1%nat ltac:(lia)).
  destruct (V 0%nat ltac:(lia)) as [W1 W2]. destruct (V 1%nat ltac:(lia)) as [W3 W4].
  rewrite W1, W2 in E0. rewrite W3, W4 in E1.
  destruct c as [|a [|b [|]]]; try discriminate Hc. cbn [nth] in E0, E1.
  replace a with 2 by lra. replace b with 2 by lra. replace l with 4 by lra. reflexivity.
Qed.

(** *** The geometry of the case *)
Lemma grid_coord p j y : (j < 2)%nat -> in_box 2 (box_ctr 2 c0 l0 p) (box_len l0 p) y ->
  IZR (gco 2 j p) * (4 / 2 ^ length p) <= nth j y 0 <= (IZR (gco 2 j p) + 1) * (4 / 2 ^ length p).
Proof.
  intros Hj H. specialize (H j Hj). rewrite nth_box_ctr in H by (reflexivity || assumption). rewrite box_len_pow in H.
  assert (E : nth j c0 0 = 2) by (destruct (lt2 j Hj) as [-> | ->]; reflexivity). rewrite E in H. lra.
Qed.
Lemma ctr_of p a b : length p = 2%nat -> gco 2 0 p = a -> gco 2 1 p = b -> box_ctr 2 c0 l0 p = [IZR a + 1/2; IZR b + 1/2].
Proof.
  intros Hp Ha Hb. apply (nth_ext _ _ 0 0).
  - rewrite len_box_ctr by reflexivity. reflexivity.
  - intros j Hj. rewrite len_box_ctr in Hj by reflexivity. rewrite nth_box_ctr by (reflexivity || assumption). rewrite Hp.
    destruct (lt2 j Hj) as [-> | ->]; cbn [nth]; [rewrite Ha|rewrite Hb]; cbn [pow]; lra.
Qed.
Lemma IZR_between g y n : IZR g * 1 <= y <= (IZR g + 1) * 1 -> IZR n < y < IZR n + 1 -> g = n.
Proof.
  intros H1 H2. assert (g < n + 1)%Z by (apply lt_IZR; rewrite plus_IZR; lra). assert (n < g + 1)%Z by (apply lt_IZR; rewrite plus_IZR; lra). lia.
Qed.
Lemma x0_cell p : length p = 2%nat -> in_box 2 (box_ctr 2 c0 l0 p) (box_len l0 p) x0 -> gco 2 0 p = 2%Z /\ gco 2 1 p = 0%Z.
Proof.
  intros Hp H. assert (H0 := grid_coord p 0 x0 ltac:(lia) H). assert (H1 := grid_coord p 1 x0 ltac:(lia) H). rewrite Hp in *.
  replace (4 / 2 ^ 2) with 1 in * by (cbn [pow]; lra). cbn [x0 nth] in *.
  split; [apply (IZR_between _ _ _ H0)|apply (IZR_between _ _ _ H1)]; lra.
Qed.
Lemma s0_cell p : length p = 2%nat -> in_box 2 (box_ctr 2 c0 l0 p) (box_len l0 p) (ps_pos s0) -> gco 2 0 p = 0%Z /\ gco 2 1 p = 0%Z.
Proof.
  intros Hp H. assert (H0 := grid_coord p 0 _ ltac:(lia) H). assert (H1 := grid_coord p 1 _ ltac:(lia) H). rewrite Hp in *.
  replace (4 / 2 ^ 2) with 1 in * by (cbn [pow]; lra). cbn [s0 ps_pos nth] in *.
  split; [apply (IZR_between _ _ _ H0)|apply (IZR_between _ _ _ H1)]; lra.
Qed.
Lemma s0_cell1 p : length p = 1%nat -> in_box 2 (box_ctr 2 c0 l0 p) (box_len l0 p) (ps_pos s0) -> gco 2 0 p = 0%Z /\ gco 2 1 p = 0%Z.
Proof.
  intros Hp H. assert (H0 := grid_coord p 0 _ ltac:(lia) H). assert (H1 := grid_coord p 1 _ ltac:(lia) H). rewrite Hp in *.
  replace (4 / 2 ^ 1) with 2 in * by (cbn [pow]; lra). cbn [s0 ps_pos nth] in *.
  assert (G : forall g, IZR g * 2 <= 49 / 50 <= (IZR g + 1) * 2 -> g = 0%Z).
  { intros g [A B]. assert (g < 1)%Z by (apply lt_IZR; lra). assert (-1 < g)%Z by (apply lt_IZR; lra). lia. }
  split; apply G; lra.
Qed.
(** Boxes of the first three levels that do not touch are on level 2. *)
Lemma far_level p q : length q = length p -> (length p <= 2)%nat -> touch 2 p q = false -> length p = 2%nat.
Proof.
  intros E L T. destruct (touch_same_level 2 p q (eq_sym E) T) as (j & Hj & D).
  assert (B1 := gco_bounds 2 j p). assert (B2 := gco_bounds 2 j q). unfold p2 in *. rewrite E in B2.
  destruct (length p) as [|[|[|]]]; [| |reflexivity|lia]; cbn in B1, B2; lia.
Qed.
Lemma p2l_far p q : (length q < length p)%nat -> (length p <= 2)%nat -> touch 2 p q = false ->
  in_box 2 (box_ctr 2 c0 l0 p) (box_len l0 p) x0 -> ~ in_box 2 (box_ctr 2 c0 l0 q) (box_len l0 q) (ps_pos s0).
Proof.
  intros E L T Hx Hs. destruct q as [|i q]; [rewrite touch_sym, touch_root_l in T; discriminate|].
  assert (Lq : length (i :: q) = 1%nat) by (cbn [length] in *; lia). assert (Lp : length p = 2%nat) by (cbn [length] in *; lia).
  destruct (x0_cell p Lp Hx) as [G1 G2]. destruct (s0_cell1 (i :: q) Lq Hs) as [G3 G4].
  assert (X : touch 2 p (i :: q) = true); [|congruence].
  apply touch_iff. intros j Hj. unfold p2. rewrite Lp, Lq. destruct (lt2 j Hj) as [-> | ->].
  - rewrite G1, G3. cbn. lia.
  - rewrite G2, G4. cbn. lia.
Qed.

(** *** The value the conversion gives at [x0] *)
Definition VV : R := ln 2 - Re (m2l_poly yC yC 13 13).
Definition exact0 : R := ln (dist (ps_pos s0) x0).
Lemma Q2R_yq : yC = (6/25, 6/25).
Proof. unfold yC, toC, yq, Q2R. cbn. reflexivity. Qed.
Lemma dist_s0 : dist (ps_pos s0) x0 = 2 * Cmod (1 - (yC + yC))%C.
Proof.
  rewrite (dist_Cmod (ps_pos s0) x0) by reflexivity.
  rewrite <- (Cmod_opp (cplx (ps_pos s0) - cplx x0)%C).
  replace 2 with (Cmod (RtoC 2)) by (rewrite Cmod_R; apply Rabs_right; lra). rewrite <- Cmod_mult. f_equal. rewrite Q2R_yq.
  apply injective_projections; cbn; lra.
Qed.
Lemma gap_pos : 1 / 2 ^ 13 < VV - exact0.
Proof.
  assert (G := m2l_gap). unfold VV, exact0. rewrite dist_s0, ln_mult; [lra|lra|].
  apply Cmod_gt_0. rewrite Q2R_yq. intros E. apply (f_equal fst) in E. cbn in E. lra.
Qed.
Definition cs : list R := [1/2; 1/2].
Definition cx : list R := [5/2; 1/2].
Lemma conv_value : ps_q s0 * (ln (Cmod (cplx cs - cplx cx)%C)
        - Re (m2l_poly ((cplx x0 - cplx cx) / (cplx cs - cplx cx))%C
                       (- src_at (cplx cs) s0 / (cplx cs - cplx cx))%C p0 (bt_max (se_table tb p0)))) = VV.
Proof.
  rewrite (tb_id p0 p0_pos tb0), tb_max.
  assert (Z : (cplx cs - cplx cx)%C = RtoC (-2)) by (apply injective_projections; cbn; lra). rewrite Z.
  assert (N : RtoC (-2) <> RtoC 0) by (intros E; apply (f_equal fst) in E; cbn in E; lra).
  replace ((cplx x0 - cplx cx) / RtoC (-2))%C with yC.
  2:{ rewrite Q2R_yq. apply injective_projections; cbn; field. }
  replace (- src_at (cplx cs) s0 / RtoC (-2))%C with yC.
  2:{ rewrite Q2R_yq. apply injective_projections; cbn; field. }
  rewrite Cmod_R. replace (Rabs (-2)) with 2 by (rewrite Rabs_left; lra). unfold VV. cbn [s0 ps_q]. ring.
Qed.

(** *** The expansions of order 13 at [x0], with their exact value for the boxes of side at least 1 *)
Definition lvx (i : unit) (e : se2) (x : list R) : R := if list_R_eq_dec x x0 then le2_pot e x0 else 0.
Definition drx (i : unit) (s : psrc R) (x : list R) : R :=
  if list_R_eq_dec x x0 then ps_q s * (if list_R_eq_dec (ps_pos s) (ps_pos s0) then VV else ln (dist (ps_pos s) x0)) else 0.
Definition Ex (i : unit) (len : R) : R := if Rle_dec 1 len then 0 else trunc_bound ratio2 p0 + Rabs (VV - exact0).

Lemma lvx_at e : lvx tt e x0 = le2_pot e x0.
Proof. unfold lvx. destruct (list_R_eq_dec x0 x0); [reflexivity|congruence]. Qed.
Lemma drx_at s : drx tt s x0 = ps_q s * (if list_R_eq_dec (ps_pos s) (ps_pos s0) then VV else ln (dist (ps_pos s) x0)).
Proof. unfold drx. destruct (list_R_eq_dec x0 x0); [reflexivity|congruence]. Qed.
Lemma drx_s0 : drx tt s0 x0 = VV.
Proof. rewrite drx_at. destruct (list_R_eq_dec (ps_pos s0) (ps_pos s0)); [cbn [s0 ps_q]; ring|congruence]. Qed.
Lemma drx_neutral s : ps_q s = 0 -> drx tt s x0 = 0.
Proof. intros H. rewrite drx_at, H. ring. Qed.
Lemma drx_other s x : x <> x0 -> drx tt s x = 0.
Proof. intros H. unfold drx. destruct (list_R_eq_dec x x0); [contradiction|reflexivity]. Qed.
Lemma lvx_other e x : x <> x0 -> lvx tt e x = 0.
Proof. intros H. unfold lvx. destruct (list_R_eq_dec x x0); [contradiction|reflexivity]. Qed.
Lemma drx_near s : Rabs (drx tt s x0 - dr tt s x0) <= Rabs (VV - exact0) * Rabs (ps_q s).
Proof.
  rewrite drx_at. unfold dr, kernel. cbn [Nat.eqb]. destruct (list_R_eq_dec (ps_pos s) (ps_pos s0)) as [E|N].
  - rewrite E. fold exact0. rewrite <- Rabs_mult. right. f_equal. ring.
  - replace (_ - _) with 0 by ring. rewrite Rabs_R0. apply Rmult_le_pos; apply Rabs_pos.
Qed.
Lemma drx_sum_near S : Rabs (rsum (fun s => drx tt s x0) S - rsum (fun s => dr tt s x0) S) <= Rabs (VV - exact0) * abs_charge S.
Proof.
  induction S as [|s S IH]; [unfold abs_charge; cbn; rewrite Rminus_diag_eq, Rabs_R0 by reflexivity; lra|].
  unfold abs_charge in *. rewrite !rsum_cons. assert (H := drx_near s).
  replace (_ - _) with ((drx tt s x0 - dr tt s x0) + (rsum (fun s => drx tt s x0) S - rsum (fun s => dr tt s x0) S)) by ring.
  eapply Rle_trans; [apply Rabs_triang|]. lra.
Qed.
Lemma Ex_nonneg i len : 0 <= Ex i len.
Proof. unfold Ex. destruct (Rle_dec 1 len); [lra|]. assert (H := trunc_bound_nonneg ratio2 p0 ratio2_lt). assert (H2 := Rabs_pos (VV - exact0)). lra. Qed.
Lemma Ex_bound i len : ~ 1 <= len -> Ex i len = trunc_bound ratio2 p0 + Rabs (VV - exact0).
Proof. intros H. unfold Ex. destruct (Rle_dec 1 len); [contradiction|reflexivity]. Qed.
Lemma rsum_zero {A} (f : A -> R) xs : (forall a, In a xs -> f a = 0) -> rsum f xs = 0.
Proof. induction xs as [|a xs IH]; intros H; [reflexivity|]. rewrite rsum_cons, H, IH; [ring| |left; reflexivity]. intros; apply H; right; assumption. Qed.

Notation SO := (sound2 p0 p0_pos tb0 (table_after_ok [])).
Lemma small_box p : ~ 1 <= box_len l0 p -> (2 < length p)%nat.
Proof.
  rewrite box_len_pow. intros H. destruct (le_lt_dec (length p) 2) as [L|L]; [|exact L]. exfalso. apply H.
  destruct (length p) as [|[|[|]]]; cbn [pow]; lra || lia.
Qed.
Lemma big_box p : 1 <= box_len l0 p -> (length p <= 2)%nat.
Proof.
  rewrite box_len_pow. intros H. destruct (le_lt_dec (length p) 2) as [L|L]; [exact L|]. exfalso.
  assert (P : 2 ^ 3 <= 2 ^ length p) by (apply Rle_pow; [lra|lia]).
  assert (Q := pow2_pos (length p)). apply (Rmult_le_compat_r (2 ^ length p)) in H; [|lra].
  replace (4 / 2 ^ length p * 2 ^ length p) with 4 in H by (field; lra). cbn [pow] in P. lra.
Qed.
(** The incoming multipole expansions, by the value each contributes. *)
Lemma m2l_parts p (parts : list (list R * list (psrc R) * se2)) : (length p <= 2)%nat -> in_box 2 (box_ctr 2 c0 l0 p) (box_len l0 p) x0 ->
  (forall u, In u parts -> exists q, fst (fst u) = box_ctr 2 c0 l0 q /\ length q = length p /\ touch 2 p q = false /\
       ME2 p0 (fst (fst u)) (snd (fst u)) (snd u) /\ same_dim 2 (snd (fst u)) /\
       forall s, In s (snd (fst u)) -> In s hard /\ in_box 2 (box_ctr 2 c0 l0 q) (box_len l0 q) (ps_pos s)) ->
  forall acc, LE2 p0 (box_ctr 2 c0 l0 p) acc ->
  exists e, ofold (fun st e => bind (le2_m2l (snd st) (box_ctr 2 c0 l0 p) e) (fun r => bind (se_add (fst st) (fst r)) (fun s => Ok (s, snd r)))) (map snd parts) (acc, tb) = Ok (e, tb) /\
    LE2 p0 (box_ctr 2 c0 l0 p) e /\ le2_pot e x0 = le2_pot acc x0 + rsum (fun s => drx tt s x0) (flat_map (fun u => snd (fst u)) parts).
Proof.
  intros Hp Hx. induction parts as [|u parts IH]; intros HM acc Ha.
  - exists acc. split; [reflexivity|]. split; [exact Ha|]. cbn. ring.
  - destruct (HM u (or_introl eq_refl)) as (q & Eq & Lq & T & M & D & HS).
    assert (Lp := far_level p q Lq Hp T). destruct (x0_cell p Lp Hx) as [G1 G2].
    assert (Cp := ctr_of p 2 0 Lp G1 G2).
    destruct (touch_same_level 2 p q (eq_sym Lq) T) as (j & Hj & DD).
    assert (NZ : (cplx (box_ctr 2 c0 l0 q) - cplx (box_ctr 2 c0 l0 p))%C <> RtoC 0).
    { intros E0. assert (A := apart_centers 2 c0 l0 p q eq_refl ltac:(lra) (eq_sym Lq) T).
      assert (B := apart_dist 2 _ _ (2 * box_len l0 p) (len_box_ctr 2 c0 l0 p eq_refl) (len_box_ctr 2 c0 l0 q eq_refl)
         ltac:(assert (X := blen_pos l0 ltac:(lra) p); lra) A).
      rewrite dist_Cmod' in B by (apply len_box_ctr; reflexivity). rewrite E0, Cmod_0 in B. assert (X := blen_pos l0 ltac:(lra) p). lra. }
    destruct (m2l_sources_pot tb p0 (box_ctr 2 c0 l0 p) (box_ctr 2 c0 l0 q) (snd (fst u)) x0 (tb_ok p0 tb0 (table_after_ok [])) p0_pos NZ)
      as (e1 & He1 & O1 & C1 & W1 & V1).
    rewrite (tb_id p0 p0_pos tb0) in He1.
    destruct (add_LE p0 (box_ctr 2 c0 l0 p) acc e1 Ha (conj W1 (conj O1 C1))) as (e2 & He2 & L2 & V2).
    destruct (IH (fun v Hv => HM v (or_intror Hv)) e2 L2) as (e3 & He3 & L3 & V3).
    exists e3. split; [|split; [exact L3|]].
    + cbn [map ofold fst snd]. unfold ME2 in M. rewrite M, Eq, He1. cbn [bind fst snd]. rewrite He2. cbn [bind]. exact He3.
    + rewrite V3, V2, V1. cbn [flat_map]. rewrite rsum_app.
      rewrite (rsum_ext _ (fun s => drx tt s x0) (snd (fst u))); [ring|].
      intros s Hs. destruct (HS s Hs) as [Hh Hb]. destruct (hard_charge s Hh) as [-> |Z].
      * destruct (s0_cell q ltac:(congruence) Hb) as [G3 G4]. assert (Cq := ctr_of q 0 0 ltac:(congruence) G3 G4).
        rewrite drx_s0, Cp, Cq. replace (IZR 0 + 1 / 2) with (1/2) by lra. replace (IZR 2 + 1 / 2) with (5/2) by lra. apply conv_value.
      * rewrite (drx_neutral s Z), Z. ring.
Qed.

Lemma soundx : sound_in (ops2 p0) 2 tb (ME2 p0) (LE2 p0) lvx drx Ex c0 l0 (fun s => In s hard).
Proof.
  assert (HA : forall S, 0 <= abs_charge S) by apply abs_charge_nonneg.
  assert (EZ : forall i len S (x : list R) e, x <> x0 -> Rabs (lvx i e x - rsum (fun s => drx i s x) S) <= Ex i len * abs_charge S).
  { intros [] len S x e Hx. rewrite lvx_other by exact Hx. rewrite rsum_zero by (intros; apply drx_other; exact Hx).
    rewrite Rminus_diag_eq, Rabs_R0 by reflexivity. apply Rmult_le_pos; [apply Ex_nonneg|apply HA]. }
  assert (EB : forall S e, Rabs (lv tt e x0 - rsum (fun s => dr tt s x0) S) <= E2 p0 tt 0 * abs_charge S ->
     Rabs (lvx tt e x0 - rsum (fun s => drx tt s x0) S) <= (trunc_bound ratio2 p0 + Rabs (VV - exact0)) * abs_charge S).
  { intros S e B. rewrite lvx_at. assert (D := drx_sum_near S). unfold lv, E2 in B. rewrite Rmult_plus_distr_r.
    replace (_ - _) with ((le2_pot e x0 - rsum (fun s => dr tt s x0) S) - (rsum (fun s => drx tt s x0) S - rsum (fun s => dr tt s x0) S)) by ring.
    eapply Rle_trans; [apply Rabs_triang|]. rewrite Rabs_Ropp. lra. }
  constructor.
  - exact (so_p2m _ _ _ _ _ _ _ _ SO).
  - exact (so_m2m _ _ _ _ _ _ _ _ SO).
  - intros tb' c Hc. destruct (so_zero _ _ _ _ _ _ _ _ SO tb' c Hc) as [W V]. split; [exact W|]. intros [] x.
    unfold lvx. destruct (list_R_eq_dec x x0); [apply (V tt x0)|reflexivity].
  - exact (so_size _ _ _ _ _ _ _ _ SO).
  - intros c a b Ha Hb. destruct (so_add _ _ _ _ _ _ _ _ SO c a b Ha Hb) as (e & H1 & H2 & H3). exists e. split; [exact H1|]. split; [exact H2|].
    intros [] x. unfold lvx. destruct (list_R_eq_dec x x0); [apply (H3 tt x0)|ring].
  - intros c c' e Hc He. destruct (so_l2l _ _ _ _ _ _ _ _ SO c c' e Hc He) as (e' & H1 & H2 & H3). exists e'. split; [exact H1|]. split; [exact H2|].
    intros [] x. unfold lvx. destruct (list_R_eq_dec x x0); [apply (H3 tt x0)|ring].
  - intros p parts Hne HM.
    destruct (so_m2l _ _ _ _ _ _ _ _ SO (box_ctr 2 c0 l0 p) (box_len l0 p) parts (len_box_ctr 2 c0 l0 p eq_refl) (blen_pos l0 ltac:(lra) p) Hne)
      as (e & He & We & B).
    { intros u Hu. destruct (HM u Hu) as (q & Eq & Lq & T & M & D & HS). split; [exact M|]. split; [rewrite Eq; apply len_box_ctr; reflexivity|].
      split; [exact D|]. split.
      - intros s Hs. rewrite Eq. replace (box_len l0 p) with (box_len l0 q) by (rewrite !box_len_pow, Lq; reflexivity). apply HS. exact Hs.
      - rewrite Eq. apply apart_centers; [reflexivity|lra|congruence|exact T]. }
    exists e. split; [exact He|]. split; [exact We|]. intros [] x Hx Hin. destruct (list_R_eq_dec x x0) as [->|N]; [|apply EZ; exact N].
    destruct (Rle_dec 1 (box_len l0 p)) as [Big|Small].
    2:{ rewrite Ex_bound by exact Small. apply EB. exact (B tt x0 Hx Hin). }
    assert (Lp := big_box p Big).
    destruct (m2l_parts p parts Lp Hin HM (se_zero (box_ctr 2 c0 l0 p) p0) (zero_LE p0 _)) as (e' & He' & _ & V').
    assert (e' = e).
    { cbn [ops2 o_m2l] in He. unfold le2_m2l_many in He. destruct (map snd parts) as [|e0 es] eqn:Ep; [discriminate|].
      assert (Oe : se_ord e0 = p0).
      { destruct parts as [|u parts]; [congruence|]. cbn [map] in Ep. destruct (HM u (or_introl eq_refl)) as (q & _ & _ & _ & M & _).
        assert (e0 = snd u) by congruence. subst e0. rewrite M. reflexivity. }
      rewrite Oe, (tb_id p0 p0_pos tb0) in He. rewrite He in He'. congruence. }
    subst e'. rewrite lvx_at, V', zero_pot, Rplus_0_l, Rminus_diag_eq, Rabs_R0 by reflexivity.
    apply Rmult_le_pos; [apply Ex_nonneg|apply HA].
  - intros p q S Hlen T D HS.
    destruct (so_p2l _ _ _ _ _ _ _ _ SO (box_ctr 2 c0 l0 p) (box_len l0 p) S (len_box_ctr 2 c0 l0 p eq_refl) (blen_pos l0 ltac:(lra) p) D)
      as (e & He & We & B).
    { intros s Hs. apply (apart_gap 2 c0 l0 p q); [reflexivity|lra|lia|exact T|apply HS; exact Hs]. }
    exists e. split; [exact He|]. split; [exact We|]. intros [] x Hx Hin. destruct (list_R_eq_dec x x0) as [->|N]; [|apply EZ; exact N].
    destruct (Rle_dec 1 (box_len l0 p)) as [Big|Small].
    2:{ rewrite Ex_bound by exact Small. apply EB. exact (B tt x0 Hx Hin). }
    assert (Lp := big_box p Big).
    assert (Z : forall s, In s S -> ps_q s = 0).
    { intros s Hs. destruct (HS s Hs) as [Hh Hb]. destruct (hard_charge s Hh) as [-> |Z]; [|exact Z].
      exfalso. exact (p2l_far p q Hlen Lp T Hin Hb). }
    assert (A0 : abs_charge S = 0) by (apply rsum_zero; intros s Hs; rewrite (Z s Hs); apply Rabs_R0).
    specialize (B tt x0 Hx Hin). rewrite A0, Rmult_0_r in *.
    rewrite (rsum_zero _ S) in B by (intros s Hs; unfold dr, kernel; cbn [Nat.eqb]; rewrite (Z s Hs); ring).
    rewrite lvx_at, (rsum_zero _ S) by (intros s Hs; apply drx_neutral; apply Z; exact Hs). exact B.
  - intros i l1 l2 H. unfold Ex. destruct (Rle_dec 1 l1); destruct (Rle_dec 1 l2); try lra.
    assert (H0 := trunc_bound_nonneg ratio2 p0 ratio2_lt). assert (H2 := Rabs_pos (VV - exact0)). lra.
Qed.

(** *** The tree of the case *)
Notation pos := (@ps_pos R).
Notation sub := (sub 2 pos c0 l0 hard).
Notation path := (path 2 c0 l0).
Notation refined := (refined 2 pos c0 l0 1 hard true).
Notation present := (present 2 pos c0 l0 1 hard true).

Lemma orth a b x y : get_orthant 2 [a; b] [x; y] = ((if Rle_dec a x then 2 else 0) + (if Rle_dec b y then 1 else 0))%nat.
Proof.
  apply get_orthant_iff; [destruct (Rle_dec a x), (Rle_dec b y); simpl; lia|]. intros j Hj. unfold vget.
  destruct (lt2 j Hj) as [-> | ->]; cbn [nth Nat.sub]; destruct (Rle_dec a x), (Rle_dec b y); cbn; split; intros; try reflexivity; try discriminate; try lra.
Qed.
Lemma ctr_child i : (i < 4)%nat -> box_ctr 2 c0 l0 [i] = [if Nat.testbit i 1 then 3 else 1; if Nat.testbit i 0 then 3 else 1].
Proof.
  intros Hi. apply (nth_ext _ _ 0 0); [rewrite len_box_ctr by reflexivity; reflexivity|].
  intros j Hj. rewrite len_box_ctr in Hj by reflexivity. rewrite nth_box_ctr by (reflexivity || assumption).
  cbn [length]. destruct (lt2 j Hj) as [-> | ->]; cbn [gco Nat.sub nth]; destruct (Nat.testbit i _); cbn [pow]; cbn; lra.
Qed.
Lemma path_two x y : path [x; y] 2 = 
  let i := ((if Rle_dec 2 x then 2 else 0) + (if Rle_dec 2 y then 1 else 0))%nat in
  [((if Rle_dec (if Nat.testbit i 1 then 3 else 1) x then 2 else 0) + (if Rle_dec (if Nat.testbit i 0 then 3 else 1) y then 1 else 0))%nat; i].
Proof.
  cbn [BuildProofs.path box_ctr]. rewrite orth. cbv zeta. set (i := (_ + _)%nat).
  assert (Hi : (i < 4)%nat) by (unfold i; destruct (Rle_dec 2 x), (Rle_dec 2 y); lia).
  change (child_center 2 c0 (box_len l0 [] / 2) i) with (box_ctr 2 c0 l0 [i]).
  rewrite (ctr_child i Hi), orth. reflexivity.
Qed.
Ltac decide_rle a := match goal with |- context [Rle_dec a ?b] => destruct (Rle_dec a b); [try (exfalso; lra)|try (exfalso; lra)]; cbn [Nat.testbit Nat.add Nat.odd Nat.even negb Nat.div2] end.
Ltac path_tac := unfold x0, s0; cbn [ps_pos]; rewrite path_two; cbv zeta; repeat decide_rle 2; repeat decide_rle 1; repeat decide_rle 3; reflexivity.
Lemma path_s0 : path (pos s0) 2 = [0; 0]%nat. Proof. path_tac. Qed.
Lemma path_x0 : path x0 2 = [0; 2]%nat. Proof. path_tac. Qed.
Lemma paths : map (fun s => path (pos s) 2) hard = [[0; 0]; [1; 0]; [2; 2]; [0; 2]; [3; 3]]%nat.
Proof. unfold hard. cbn [map]. repeat (apply f_equal2; [path_tac|]). reflexivity. Qed.

Lemma sub_filter p : sub p = filter (fun s => addr_eqb (path (pos s) (length p)) p) hard.
Proof.
  induction p as [|i p IH].
  - cbn [AdaptiveProofs.sub length BuildProofs.path]. symmetry. apply filter_all. reflexivity.
  - cbn [AdaptiveProofs.sub length BuildProofs.path]. rewrite IH. clear IH. induction hard as [|s ss IH]; [reflexivity|]. cbn [filter].
    destruct (addr_eqb (path (pos s) (length p)) p) eqn:E.
    + apply addr_eqb_eq in E. rewrite E. cbn [filter]. rewrite IH.
      assert (X : addr_eqb (get_orthant 2 (box_ctr 2 c0 l0 p) (pos s) :: p) (i :: p) = (get_orthant 2 (box_ctr 2 c0 l0 p) (pos s) =? i)%nat).
      { destruct (Nat.eqb_spec (get_orthant 2 (box_ctr 2 c0 l0 p) (pos s)) i) as [->|N]; [apply addr_eqb_refl|]. apply addr_eqb_neq. congruence. }
      rewrite X. reflexivity.
    + rewrite IH. replace (addr_eqb (_ :: _) (i :: p)) with false; [reflexivity|]. symmetry. apply addr_eqb_neq. apply addr_eqb_neq in E. congruence.
Qed.
Lemma filter_map_len {A B} (f : A -> B) (g : B -> bool) xs : length (filter (fun a => g (f a)) xs) = length (filter g (map f xs)).
Proof. induction xs as [|a xs IH]; [reflexivity|]. cbn [filter map]. destruct (g (f a)); cbn [length]; rewrite IH; reflexivity. Qed.
Lemma sub_two p : length p = 2%nat -> (length (sub p) <= 1)%nat.
Proof.
  intros Hp. rewrite sub_filter, Hp, (filter_map_len (fun s => path (pos s) 2) (fun a => addr_eqb a p)), paths.
  destruct p as [|i [|j [|]]]; try discriminate Hp. cbn [filter].
  repeat match goal with |- context [addr_eqb ?a ?b] => let E := fresh "E" in destruct (addr_eqb a b) eqn:E; [apply addr_eqb_eq in E|] end;
    cbn [length]; try lia; congruence.
Qed.
Lemma sub_deep p : (2 <= length p)%nat -> (length (sub p) <= 1)%nat.
Proof.
  induction p as [|i p IH]; intros H; [simpl in H; lia|]. cbn [length] in H.
  destruct (Nat.eq_dec (length p) 1) as [E|N]; [apply sub_two; cbn [length]; lia|].
  cbn [AdaptiveProofs.sub]. assert (X := IH ltac:(lia)).
  eapply Nat.le_trans; [|exact X]. clear. induction (sub p) as [|s ss IH]; [reflexivity|]. cbn [filter]. destruct (Nat.eqb _ _); cbn [length]; lia.
Qed.
Lemma refined_shallow p : refined p = true -> (length p <= 1)%nat.
Proof.
  intros H. destruct (le_lt_dec (length p) 1) as [L|L]; [exact L|]. exfalso. destruct p as [|i p]; [simpl in L; lia|].
  cbn [AdaptiveProofs.refined] in H. apply Nat.ltb_lt in H. assert (X := sub_deep (i :: p) L). lia.
Qed.
Lemma present_depth2 p : present p -> (length p <= 2)%nat.
Proof. destruct p as [|i p]; intros H; [simpl; lia|]. destruct H as (_ & _ & H). apply refined_shallow in H. cbn [length]. lia. Qed.
Lemma sub_one i : (length (sub [i]) = length (filter (fun a => Nat.eqb (nth 1 a 9) i) (map (fun s => path (pos s) 2) hard)))%nat.
Proof.
  cbn [AdaptiveProofs.sub]. rewrite <- filter_map_len. f_equal.
Qed.
Lemma refined_one i : (i = 0 \/ i = 2)%nat -> refined [i] = true.
Proof.
  intros Hi. cbn [AdaptiveProofs.refined]. rewrite sub_one, paths. destruct Hi as [-> | ->]; reflexivity.
Qed.
Lemma height_two h : height_ok 2 pos c0 l0 1 hard true h -> (h <= 2)%nat.
Proof.
  intros [_ H]. destruct (le_lt_dec h 2) as [L|L]; [exact L|]. exfalso. apply (H 2%nat L).
  destruct (filter refined (level 2 pos c0 l0 1 hard true 2)) as [|p ps] eqn:E; [reflexivity|]. exfalso.
  assert (X : In p (filter refined (level 2 pos c0 l0 1 hard true 2))) by (rewrite E; left; reflexivity).
  apply filter_In in X. destruct X as [X R]. apply in_level in X. apply refined_shallow in R. lia.
Qed.
Lemma leaf_of y i j : path y 2 = [j; i] -> (i = 0 \/ i = 2)%nat ->
  forall p, present p -> refined p = false -> path y (length p) = p -> p = [j; i].
Proof.
  intros Ey Hi p P N E. assert (D := present_depth2 p P). destruct (length p) as [|[|[|]]] eqn:Lp; [| | |lia].
  - destruct p; [cbn in N; discriminate|discriminate].
  - assert (X : p = [i]). { rewrite <- E. change (path y 1) with (tl (path y 2)). rewrite Ey. reflexivity. }
    rewrite X, (refined_one i Hi) in N. discriminate.
  - congruence.
Qed.

(** *** The result *)
Lemma hard_abs : abs_charge hard = 1.
Proof. unfold abs_charge, hard, s0. cbn [rsum fold_right map ps_q]. rewrite Rabs_R0, Rabs_R1. lra. Qed.
Lemma hard_order : order_of (1 / 2 ^ 13) hard = Ok p0.
Proof.
  apply order_spec. rewrite hard_abs. split; [|split; [|split; [|split]]].
  - cbn [pow]; lra.
  - cbn [pow]; lra.
  - lia.
  - lra.
  - intros q Hq. apply Rmult_lt_compat_l; [lra|]. apply Rinv_lt_contravar; [apply Rmult_lt_0_compat; apply pow2_pos|].
    apply Rlt_pow; [lra|exact Hq].
Qed.
Lemma hard_straddles : straddles 2 hard.
Proof.
  intros j Hj. destruct (lt2 j Hj) as [-> | ->].
  - split; exists (PSrc [0; 199/100] 0); (split; [unfold hard; simpl; tauto|cbn; lra]).
  - split; exists (PSrc [7/2; 0] 0); (split; [unfold hard; simpl; tauto|cbn; lra]).
Qed.
Lemma hard_distinct : NoDup (map pos hard).
Proof. unfold hard, s0. cbn [map ps_pos]. repeat constructor; intros H; repeat destruct H as [H|H]; try (injection H; intros; lra); destruct H. Qed.
Lemma hard_builds : exists fuel t, build_adaptive 2 pos 1 fuel hard = Ok t.
Proof.
  apply adaptive_builds; [lia|discriminate|exact hard_dim|exact hard_straddles|].
  intros x. assert (ND := hard_distinct). apply (NoDup_count_occ list_R_eq_dec) with (x := x) in ND. exact ND.
Qed.
Lemma hard_box s : In s hard -> in_box 2 c0 l0 (pos s).
Proof. exact (root_box_contains 2 pos hard c0 l0 ltac:(lia) hard_dim hard_root hard_straddles s). Qed.
Lemma x0_in : in_box 2 c0 l0 x0.
Proof. intros j Hj. destruct (lt2 j Hj) as [-> | ->]; cbn; lra. Qed.
Lemma x0_free s : In s hard -> ps_pos s <> x0.
Proof. unfold x0, hard, s0. intros [<-|[<-|[<-|[<-|[<-|[]]]]]]; cbn [ps_pos]; intros E; injection E; intros; lra. Qed.

Theorem eps_refuted : exists fuel o v,
  (forall r, adaptive_fmm2 1 fuel (1 / 2 ^ 13) hard (table_after []) r <-> r = Ok o) /\
  potential_at true hard o x0 = Ok v /\ 1 / 2 ^ 13 < Rabs (v - direct_potential 2 true hard x0).
Proof.
  destruct hard_builds as (fuel & t & HB).
  destruct (make_fmm_in (ops2 p0) 2 tb0 tb (ME2 p0) (LE2 p0) lvx drx Ex eq_refl ltac:(lia) 1 fuel hard t c0 l0 (fun _ _ => soundx) hard_dim HB hard_root hard_box)
    as (f & U & Ef & _ & G).
  exists fuel, (FmmObj p0 f). 
  destruct G as [G _ _ _|h _ _ Hh Et El Em]; [unfold hard in G; cbn [length] in G; lia|].
  destruct (containing_leaf_spec 2 pos c0 l0 1 hard true h Hh x0 eq_refl) as (L & PL & NL & HP & [(_ & HxL & HCL)|(NB & _)]); [|contradiction (NB x0_in)].
  assert (EL := leaf_of x0 2 0 path_x0 ltac:(lia) L PL NL HP). 
  assert (Hh2 := height_two h Hh).
  destruct f as [ft fl fm]. cbn [f_tree f_lists f_mem] in Et, El, Em. subst ft fl.
  destruct Em as (_ & ME & LE).
  destruct (eval_pot_near (ops2 p0) 2 (ME2 p0) (LE2 p0) lvx drx Ex (si_E _ _ _ _ _ _ _ _ _ _ _ soundx) c0 l0 1 hard true h eq_refl ltac:(lra) Hh hard_dim hard_box
     L x0 PL NL HP eq_refl HxL HCL fm) with (ipot := tt) (grav := true) as (v & Hv & B).
  - apply LE; [exact PL|]. right. left. exact NL.
  - intros q Pq Lq. apply ME; [exact Pq|]. right. exact Lq.
  - intros len _. apply Ex_nonneg.
  - intros c e _. rewrite lvx_at. reflexivity.
  - intros q S e Hq. exfalso. apply (final_W_in 2 pos c0 l0 1 hard true h eq_refl Hh L q PL) in Hq.
    destruct Hq as (Pq & _ & V). unfold wrel in V. apply andb_true_iff in V. destruct V as [V _]. apply andb_true_iff in V. destruct V as [V _].
    apply Nat.ltb_lt in V. rewrite EL in V. cbn [length] in V. apply present_depth2 in Pq. lia.
  - intros s Hs. apply in_flat_map in Hs. destruct Hs as (q & Hq & Hs).
    apply (final_near_leaf 2 pos c0 l0 1 hard true h eq_refl Hh L q PL NL) in Hq. destruct Hq as (Pq & Nq & T).
    apply sub_path in Hs. destruct Hs as [Hh0 Hs].
    rewrite drx_at. unfold kernel. cbn [Nat.eqb]. destruct (list_R_eq_dec (pos s) (pos s0)) as [E|_]; [|reflexivity].
    exfalso. rewrite E in Hs. assert (EQ := leaf_of (pos s0) 0 0 path_s0 ltac:(lia) q Pq Nq Hs). rewrite EL, EQ in T. vm_compute in T. discriminate.
  - exists v. split; [|split].
    + apply (api_unique [] 1 fuel (1 / 2 ^ 13) hard p0 hard_order). exact U.
    + exact Hv.
    + assert (FA : filter (fun s => negb (is_at x0 s)) hard = hard).
      { apply filter_all. intros s Hs. rewrite (proj2 (is_at_false x0 s) (x0_free s Hs)). reflexivity. }
      rewrite FA in B.
      assert (E0 : Ex tt (4 / 2 ^ h) = 0).
      { unfold Ex. destruct (Rle_dec 1 (4 / 2 ^ h)) as [_|N]; [reflexivity|]. exfalso. apply N. destruct h as [|[|[|]]]; cbn [pow]; lra || lia. }
      rewrite E0, Rmult_0_l in B.
      assert (SD : rsum (fun s => drx tt s x0) hard = VV).
      { unfold hard. rewrite !rsum_cons, drx_s0, !drx_neutral by reflexivity. cbn [rsum map fold_right]. ring. }
      assert (SE : direct_potential 2 true hard x0 = exact0).
      { unfold direct_potential, hard. rewrite !rsum_cons. unfold kernel. cbn [Nat.eqb field_sign ps_q ps_pos s0]. unfold exact0. cbn [rsum map fold_right ps_pos s0]. ring. }
      rewrite SD in B. unfold field_sign in B. rewrite SE. assert (GP := gap_pos).
      assert (v = VV) by (unfold Rabs in B; destruct (Rcase_abs _) in B; lra).
      subst v. rewrite Rabs_right; lra.
Qed.

(** The bound that does hold: the error is of the order of the square root of eps. *)
Lemma trunc_sqrt A eps p : 0 <= A -> 0 < eps -> A / 2 ^ p <= eps ->
  trunc_bound (sqrt 2 / 2) p * A <= (1 + sqrt 2) / INR (S p) * sqrt (eps * A).
Proof.
  intros HA He HE. assert (S2 := sqrt2_sq). assert (SL := sqrt2_lt). set (r := sqrt 2) in *.
  assert (NP : 0 < INR (S p)) by (apply lt_0_INR; lia).
  assert (Q : trunc_bound (r / 2) p = (1 + r) / INR (S p) * (r / 2) ^ p).
  { unfold trunc_bound. cbn [pow]. apply (Rmult_eq_reg_r (INR (S p) * (1 - r / 2))); [|apply Rmult_integral_contrapositive; split; lra].
    unfold Rdiv at 1. rewrite Rmult_assoc, Rinv_l by (apply Rmult_integral_contrapositive; split; lra).
    replace ((1 + r) / INR (S p) * (r / 2) ^ p * (INR (S p) * (1 - r / 2))) with ((1 + r) * (1 - r / 2) * (r / 2) ^ p) by (field; lra).
    replace ((1 + r) * (1 - r / 2)) with (r / 2) by nra. ring. }
  rewrite Q, Rmult_assoc. apply Rmult_le_compat_l; [apply Rlt_le, Rdiv_lt_0_compat; lra|].
  assert (PP : 0 <= (r / 2) ^ p) by (apply pow_le; lra).
  rewrite <- (sqrt_Rsqr ((r / 2) ^ p * A)) by (apply Rmult_le_pos; assumption). apply sqrt_le_1_alt. unfold Rsqr.
  replace ((r / 2) ^ p * A * ((r / 2) ^ p * A)) with (((r / 2) ^ p * (r / 2) ^ p) * A * A) by ring. rewrite <- Rpow_mult_distr.
  replace (r / 2 * (r / 2)) with (/ 2) by nra. rewrite pow_inv. apply Rmult_le_compat_r; [exact HA|]. unfold Rdiv in HE. lra.
Qed.
Theorem eps_guarantee orders cap fuel eps srcs p t c l : same_dim 2 srcs -> order_of eps srcs = Ok p -> (1 <= p)%nat ->
  build_adaptive 2 pos cap fuel srcs = Ok t -> root_box 2 (map pos srcs) = Some (c, l) -> (forall s, In s srcs -> in_box 2 c l (ps_pos s)) ->
  exists o, (forall r, adaptive_fmm2 cap fuel eps srcs (table_after orders) r <-> r = Ok o) /\
  forall grav x, length x = 2%nat -> exists v, potential_at grav srcs o x = Ok v /\
    Rabs (v - direct_potential 2 grav (filter (fun s => negb (is_at x s)) srcs) x) <= (1 + sqrt 2) / INR (S p) * sqrt (eps * abs_charge srcs).
Proof.
  intros Hd Ho Hp HB HR Hb. destruct (fmm2_end_to_end orders cap fuel eps srcs p t c l Hd Ho Hp HB HR Hb) as (o & U & _ & _ & _ & V & _).
  exists o. split; [exact U|]. intros grav x Hx. destruct (V grav x Hx) as (v & Hv & B1 & B2). exists v. split; [exact Hv|].
  assert (HO := proj1 (order_spec _ _ _) Ho). destruct HO as (He & _ & _ & HA & _).
  assert (A0 := abs_charge_nonneg srcs). assert (TS := trunc_sqrt _ _ p A0 He HA).
  assert (T0 : 0 <= trunc_bound (sqrt 2 / 2) p * abs_charge srcs) by (apply Rmult_le_pos; [apply trunc_bound_nonneg; apply ratio2_lt|exact A0]).
  destruct (in_box_dec 2 ltac:(lia) c l x) as [Hin|Hout].
  - specialize (B1 Hin). destruct (length srcs <=? cap)%nat; lra.
  - rewrite (B2 Hout). rewrite filter_all; [rewrite Rminus_diag_eq, Rabs_R0 by reflexivity; lra|].
    intros s Hs. rewrite (proj2 (is_at_false x s)); [reflexivity|]. apply (not_in_box_away 2 c l srcs x Hb Hout s Hs).
Qed.
Theorem requested_accuracy_missed : exists cap fuel eps srcs x c l o v, same_dim 2 srcs /\ NoDup (map pos srcs) /\ 0 < eps < abs_charge srcs /\
  root_box 2 (map pos srcs) = Some (c, l) /\ (forall s, In s srcs -> in_box 2 c l (ps_pos s)) /\ in_box 2 c l x /\
  (forall s, In s srcs -> ps_pos s <> x) /\
  (forall r, adaptive_fmm2 cap fuel eps srcs (table_after []) r <-> r = Ok o) /\
  potential_at true srcs o x = Ok v /\ eps < Rabs (v - direct_potential 2 true srcs x).
Proof.
  destruct eps_refuted as (fuel & o & v & H1 & H2 & H3). exists 1%nat, fuel, (1 / 2 ^ 13), hard, x0, c0, l0, o, v.
  split; [exact hard_dim|]. split; [exact hard_distinct|]. split; [rewrite hard_abs; cbn [pow]; lra|]. split; [exact hard_root|].
  split; [exact hard_box|]. split; [exact x0_in|]. split; [exact x0_free|]. split; [exact H1|]. split; [exact H2|exact H3].
Qed.
