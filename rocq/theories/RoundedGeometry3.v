(** Geometry of the boxes of the three-dimensional adaptive tree in rounded arithmetic, with the constants of the error bounds. *)
From Coq Require Import List Bool ZArith Arith Lia Lra Psatz Reals Permutation.
From Coquelicot Require Import Coquelicot.
From Verif Require Import Num Outcome Vec Orthtree AdaptiveTree TreeSpec VecProofs GeometrySpec GeometryProofs TreeGeometry AdaptiveProofs
  BfsProofs ListProofs ListContents RootBoxProofs BuildProofs CAux Fields FieldSpec FieldProofs Exp3Errors PassTree AnyTree AnyLists AnyTheorems
  RoundedSpec RoundedTree RoundedTreeSpec RoundedTreeProofs RoundedAdaptive RoundedGeometry RoundedGood3.
Import ListNotations.
Local Open Scope R_scope.

Lemma dist_three_coords a b : length a = 3%nat -> dist a b = sqrt ((nth 0 a 0 - nth 0 b 0) ^ 2 + (nth 1 a 0 - nth 1 b 0) ^ 2 + (nth 2 a 0 - nth 2 b 0) ^ 2).
Proof. intros H. unfold dist. rewrite H. cbn [seq]. rewrite !rsum_cons. unfold rsum. cbn [fold_right map]. f_equal. ring. Qed.
Lemma dist_le_coord (a b : list R) r : length a = 3%nat -> (forall j, (j < 3)%nat -> Rabs (nth j a 0 - nth j b 0) <= r) -> dist a b <= 1733 / 1000 * r.
Proof.
  intros L H. assert (H0 := H 0%nat ltac:(lia)). assert (H1 := H 1%nat ltac:(lia)). assert (H2 := H 2%nat ltac:(lia)).
  assert (R0 : 0 <= r) by (eapply Rle_trans; [apply Rabs_pos|exact H0]). rewrite dist_three_coords by exact L. apply abs2 in H0, H1, H2.
  set (a0 := nth 0 a 0 - nth 0 b 0) in *. set (a1 := nth 1 a 0 - nth 1 b 0) in *. set (a2 := nth 2 a 0 - nth 2 b 0) in *. clearbody a0 a1 a2.
  assert (S0 : a0 ^ 2 <= r ^ 2) by nra. assert (S1 : a1 ^ 2 <= r ^ 2) by nra. assert (S2 : a2 ^ 2 <= r ^ 2) by nra.
  assert (P0 := pow2_ge_0 a0). assert (P1 := pow2_ge_0 a1). assert (P2 := pow2_ge_0 a2).
  apply Rsqr_incr_0_var; [|lra]. rewrite Rsqr_sqrt by lra. unfold Rsqr. nra.
Qed.
Lemma dist_ge_coord (a b : list R) j r : length a = 3%nat -> (j < 3)%nat -> r <= Rabs (nth j a 0 - nth j b 0) -> r <= dist a b.
Proof.
  intros L Hj H. eapply Rle_trans; [exact H|]. rewrite dist_three_coords by exact L. rewrite <- sqrt_Rsqr_abs. apply sqrt_le_1_alt. unfold Rsqr.
  assert (P0 := pow2_ge_0 (nth 0 a 0 - nth 0 b 0)). assert (P1 := pow2_ge_0 (nth 1 a 0 - nth 1 b 0)). assert (P2 := pow2_ge_0 (nth 2 a 0 - nth 2 b 0)).
  destruct j as [|[|[|j]]]; [| | |lia]; lra.
Qed.

Section Fine.
Variable rnd : R -> R.
Variable hyp : list R -> R.
Hypothesis HD : double_like rnd hyp.
Notation NN := (NumRnd rnd).
Variables h cap fuel : nat.
Variable srcs : list (psrc R).
Notation pos := (@ps_pos R).
Hypothesis HR : in_adaptive_range 3 h pos srcs.
Variable t : @atree R (psrc R).
Hypothesis Ht : (at_height t <= h)%nat.
Variable c : list R.
Variable l : R.
Variable h0 : nat.
Hypothesis F : afacts rnd hyp 3 h pos srcs cap t c l h0.
Notation rc := (ByCount (rr cap srcs)).
Notation present := (@present R (psrc R) NN 3 pos c l cap srcs rc).
Notation refined := (@refined R (psrc R) NN 3 pos c l cap srcs rc).
Notation path := (@AnyTree.path R NN 3 c l).
Notation ctr := (@AnyTree.ctr R NN 3 c l).
Notation blen := (@AnyTree.blen R NN l).
Notation sub := (@sub R (psrc R) NN 3 pos c l srcs).
Notation ls := (@final R (psrc R) NN 3 pos c l cap srcs rc h0).
Variables m M : R.
Hypothesis Hm : 0 < m.
Hypothesis Hc : length c = 3%nat.
Hypothesis Hl : 2 * m <= l <= 3 * M.
Hypothesis Hctr : forall p, (length p <= h)%nat -> length (ctr p) = 3%nat /\ forall j, (j < 3)%nat -> Rabs (nth j (ctr p) 0 - nth j (box_ctr 3 c l p) 0) <= l / 2 ^ h / 5000.
Hypothesis Hpt : forall x k j, among 3 pos srcs x -> (k <= h)%nat -> (j < 3)%nat ->
  Rabs (nth j x 0 - nth j (box_ctr 3 c l (path x k)) 0) <= l / 2 ^ k / 2 + l / 2 ^ h / 100.
Hypothesis Hin : forall x p j, (length p <= h)%nat -> (j < 3)%nat -> @contains R NN 3 (ctr p) (blen p) x = true ->
  Rabs (nth j x 0 - nth j (box_ctr 3 c l p) 0) <= l / 2 ^ length p / 2 + l / 2 ^ h / 100.
Variable p0 : nat.

Definition side (p : addr) : R := l / 2 ^ length p.
Definition rad (p : addr) : R := 885 / 1000 * side p.
Notation wh := (l / 2 ^ h).

Lemma l0 : 0 < l. Proof. lra. Qed.
Lemma side_pos p : 0 < side p.
Proof. unfold side. apply Rdiv_lt_0_compat; [apply l0|apply pow2_pos]. Qed.
Lemma wh_pos : 0 < wh.
Proof. apply Rdiv_lt_0_compat; [apply l0|apply pow2_pos]. Qed.
Lemma wh_side p : (length p <= h)%nat -> wh <= side p.
Proof.
  intros Hp. unfold side, Rdiv. apply Rmult_le_compat_l; [apply Rlt_le, l0|]. apply Rinv_le_contravar; [apply pow2_pos|]. apply Rle_pow; [lra|exact Hp].
Qed.
Lemma side_l p : side p <= l.
Proof.
  unfold side. assert (1 <= 2 ^ length p) by (apply pow_R1_Rle; lra). assert (L := l0). apply (Rmult_le_reg_r (2 ^ length p)); [lra|]. unfold Rdiv. rewrite Rmult_assoc, Rinv_l by lra. nra.
Qed.
Lemma wh_m : 2 * (m / 2 ^ h) <= wh.
Proof. unfold Rdiv. rewrite <- Rmult_assoc. apply Rmult_le_compat_r; [|lra]. apply Rlt_le, Rinv_0_lt_compat, pow2_pos. Qed.
Lemma half_side i p : side (i :: p) = side p / 2.
Proof. unfold side. cbn [length pow]. field. apply pow_nonzero. lra. Qed.

(** [y] is in the box [p], up to the tolerance of the look-up. *)
Definition near_box (p : addr) (y : list R) : Prop := forall j, (j < 3)%nat -> Rabs (nth j y 0 - nth j (box_ctr 3 c l p) 0) <= side p / 2 + wh / 100.
Lemma near_ctr p y : (length p <= h)%nat -> near_box p y -> forall j, (j < 3)%nat -> Rabs (nth j y 0 - nth j (ctr p) 0) <= side p / 2 + wh * (51 / 5000).
Proof. intros Hp Hy j Hj. specialize (Hy j Hj). destruct (Hctr p Hp) as (_ & C). specialize (C j Hj). apply abs2 in Hy, C. apply Rabs_le. lra. Qed.
Lemma near_rad p y : length y = 3%nat -> (length p <= h)%nat -> near_box p y -> dist y (ctr p) <= rad p.
Proof.
  intros Ly Hp Hy. eapply Rle_trans; [apply dist_le_coord; [exact Ly|apply near_ctr; assumption]|]. assert (A := wh_side p Hp). assert (B := wh_pos). unfold rad. lra.
Qed.
Lemma mu_pos : 0 < m / 2 ^ h.
Proof. apply Rdiv_lt_0_compat; [exact Hm|apply pow2_pos]. Qed.
(** The truncation error of one conversion between boxes, relative to the charge. *)
Definition tau : R := 5 * (4 / 5) ^ Datatypes.S p0 / (m / 2 ^ h).
Lemma frac_scale a r s : 0 < s -> 0 < r -> a * s / (r * s) = a / r.
Proof. intros Hs Hr. field. lra. Qed.
Lemma tau_of k x : 0 <= x <= 4 / 5 -> 0 < k -> forall s, 2 * (m / 2 ^ h) <= s -> 1 / 5 <= k -> x ^ Datatypes.S p0 / (k * s) <= tau / 2.
Proof.
  intros Hx Hk s Hs K. assert (MU := mu_pos). unfold tau. replace (5 * (4 / 5) ^ Datatypes.S p0 / (m / 2 ^ h) / 2) with ((4 / 5) ^ Datatypes.S p0 * / (1 / 5 * (2 * (m / 2 ^ h)))).
  2:{ field. split; [apply pow_nonzero; lra|lra]. }
  unfold Rdiv at 1. apply Rmult_le_compat; [apply pow_le; lra|left; apply Rinv_0_lt_compat, Rmult_lt_0_compat; lra|apply pow_incr; lra|].
  apply Rinv_le_contravar; [lra|]. apply Rmult_le_compat; lra.
Qed.
Lemma tau_pos : 0 < tau.
Proof. unfold tau. apply Rdiv_lt_0_compat; [|exact mu_pos]. apply Rmult_lt_0_compat; [lra|]. apply pow_lt. lra. Qed.
Lemma tau_two s : 2 * (m / 2 ^ h) <= s -> trunc3_two (885 / 1000 * s) (885 / 1000 * s) (1999 / 1000 * s) p0 <= tau.
Proof.
  intros Hs. assert (MU := mu_pos). assert (S0 : 0 < s) by lra. unfold trunc3_two.
  replace (1999 / 1000 * s - 885 / 1000 * s) with (1114 / 1000 * s) by lra. replace (1114 / 1000 * s - 885 / 1000 * s) with (229 / 1000 * s) by lra.
  rewrite frac_scale by lra. assert (T := tau_of (229 / 1000) (885 / 1000 / (1114 / 1000)) ltac:(lra) ltac:(lra) s Hs ltac:(lra)). unfold Rdiv in *. rewrite Rmult_plus_distr_r. lra.
Qed.
Lemma tau_one s : 2 * (m / 2 ^ h) <= s -> trunc3 (885 / 1000 * s) (148 / 100 * s) p0 <= tau.
Proof.
  intros Hs. assert (MU := mu_pos). assert (S0 : 0 < s) by lra. unfold trunc3.
  replace (148 / 100 * s - 885 / 1000 * s) with (595 / 1000 * s) by lra.
  rewrite frac_scale by lra. assert (T := tau_of (595 / 1000) (885 / 1000 / (148 / 100)) ltac:(lra) ltac:(lra) s Hs ltac:(lra)). assert (T' := tau_pos). lra.
Qed.

Lemma pres_len p : present p -> (length p <= h)%nat.
Proof. apply (pres_h rnd hyp 3 h pos srcs cap t Ht c l h0 F). Qed.
Lemma source_near p s : present p -> In s (sub p) -> near_box p (pos s).
Proof.
  intros P Hs j Hj. destruct (proj1 (@AnyTree.sub_path R (psrc R) NN 3 pos c l srcs _ _) Hs) as (HI & HP).
  rewrite <- HP at 1. assert (Lp := pres_len p P). unfold side. apply Hpt; [|exact Lp|exact Hj].
  destruct HR as (_ & _ & D & _). split; [apply D, HI|]. intros i Hi. exists s, s. split; [exact HI|]. split; [exact HI|]. lra.
Qed.
Lemma contains_near p x : (length p <= h)%nat -> @contains R NN 3 (ctr p) (blen p) x = true -> near_box p x.
Proof. intros Hp C j Hj. unfold side. apply Hin; assumption. Qed.

Lemma gap_ctr p q y : length y = 3%nat -> (length p <= h)%nat -> (length q <= length p)%nat -> touch 3 p q = false -> near_box q y ->
  148 / 100 * side p <= dist y (ctr p).
Proof.
  intros Ly Hp Hq T Hy. destruct (apart_gap_tol 3 c l p q y (wh / 100) Hc l0 Hq T) as (j & Hj & G); [assert (W := wh_pos); lra|exact Hy|].
  apply (dist_ge_coord y (ctr p) j); [exact Ly|exact Hj|]. fold (side p) in G. destruct (Hctr p Hp) as (_ & C). specialize (C j Hj). assert (W := wh_side p Hp). assert (W' := wh_pos).
  rewrite (Rabs_minus_sym (nth j (ctr p) 0)) in C. set (a := nth j (box_ctr 3 c l p) 0) in *. set (b := nth j (ctr p) 0) in *. set (z := nth j y 0) in *.
  replace (a - z) with ((a - b) + (b - z)) in G by ring. assert (TT := Rabs_triang (a - b) (b - z)). rewrite (Rabs_minus_sym b z) in TT. lra.
Qed.
Lemma gap_centers p q : (length p <= h)%nat -> length p = length q -> touch 3 p q = false -> 1999 / 1000 * side p <= dist (ctr q) (ctr p).
Proof.
  intros Hp E T. destruct (apart_centers 3 c l p q Hc l0 E T) as (j & Hj & G). rewrite box_len_pow in G. fold (side p) in G.
  apply (dist_ge_coord (ctr q) (ctr p) j); [apply Hctr; lia|exact Hj|]. destruct (Hctr p Hp) as (_ & C). specialize (C j Hj). destruct (Hctr q ltac:(lia)) as (_ & C'). specialize (C' j Hj).
  assert (W := wh_side p Hp). assert (W' := wh_pos). revert G C C'. generalize (nth j (box_ctr 3 c l p) 0) (nth j (box_ctr 3 c l q) 0) (nth j (ctr p) 0) (nth j (ctr q) 0).
  intros a b a' b' G C C'. unfold Rabs in *. repeat destruct (Rcase_abs _); lra.
Qed.

Lemma sub_len p s : In s (sub p) -> length (pos s) = 3%nat.
Proof. intros Hs. destruct HR as (_ & _ & D & _). apply D. eapply (@AnyTree.sub_incl R (psrc R) NN 3 pos c l srcs); exact Hs. Qed.
Lemma side_mu p : (length p <= h)%nat -> 2 * (m / 2 ^ h) <= side p.
Proof. intros Hp. assert (A := wh_side p Hp). assert (B := wh_m). lra. Qed.
Lemma geo0 b : present b -> 0 < rad b /\ length (ctr b) = 3%nat.
Proof. intros P. split; [unfold rad; assert (S := side_pos b); lra|]. apply Hctr, pres_len, P. Qed.
Lemma geo1 b s : present b -> In s (sub b) -> dist (pos s) (ctr b) <= rad b.
Proof.
  intros P Hs. apply near_rad; [eapply sub_len; exact Hs|exact (pres_len b P)|exact (source_near b s P Hs)].
Qed.
Lemma geo2 i b : present (i :: b) -> rad (i :: b) + dist (ctr (i :: b)) (ctr b) <= rad b.
Proof.
  intros P. assert (Lb := pres_len _ P). cbn [length] in Lb. assert (W := wh_side (i :: b) ltac:(cbn [length]; lia)). assert (W' := wh_pos). assert (HS := half_side i b).
  assert (X : dist (ctr (i :: b)) (ctr b) <= 1733 / 1000 * (side b / 4 + wh / 2500)).
  { apply dist_le_coord; [apply (Hctr (i :: b)); exact Lb|]. intros j Hj. destruct (Hctr (i :: b) ltac:(cbn [length]; lia)) as (_ & C). specialize (C j Hj). destruct (Hctr b ltac:(lia)) as (_ & C'). specialize (C' j Hj).
    assert (B := box_ctr_child 3 c l i b j Hc l0 Hj). fold (side b) in B. revert B C C'.
    generalize (nth j (box_ctr 3 c l (i :: b)) 0) (nth j (box_ctr 3 c l b) 0) (nth j (ctr (i :: b)) 0) (nth j (ctr b) 0). intros a a1 a2 a3 B C C'.
    assert (B' := Req_le _ _ B). apply abs2 in B', C, C'. apply Rabs_le. lra. }
  unfold rad. lra.
Qed.
Lemma shallow p q : (length p <= 1)%nat -> length q = length p -> touch 3 p q = true.
Proof.
  intros Hp Hq. destruct p as [|i [|j p]]; [apply touch_root_l| |cbn [length] in Hp; lia]. destruct q as [|i' [|j q]]; cbn [length] in Hq; try lia. apply touch_siblings.
Qed.
Lemma tch_t p q : present p -> present q -> @tch R (psrc R) NN 3 pos c l cap srcs rc p q = touch 3 p q.
Proof. intros P Q. apply (tch_touch rnd hyp 3 h pos srcs cap t Ht c l h0 F); apply pres_len; assumption. Qed.
Lemma geo3 b q : present b -> In q (nl_inter ls b) -> present q /\ (2 <= length q)%nat /\
  exists r, rad q + rad b < r /\ r <= dist (ctr q) (ctr b) /\ trunc3_two (rad q) (rad b) r p0 <= tau.
Proof.
  intros P Hq. apply (final_inter_in _ _ _ _ _ _ _ _ (a_ok _ _ _ _ _ _ _ _ _ _ _ F) b q P) in Hq. destruct Hq as (Q & V). unfold vrel in V. rewrite !andb_true_iff in V.
  destruct V as (((V1 & V2) & _) & V3). apply Nat.eqb_eq in V1. apply negb_true_iff in V3. rewrite tch_t in V3 by assumption.
  assert (LB := pres_len b P). assert (LQ := pres_len q Q). split; [exact Q|]. split.
  { destruct (le_lt_dec (length b) 1) as [Z|Z]; [|lia]. rewrite shallow in V3 by lia. discriminate. }
  assert (G := gap_centers b q LB V1 V3). assert (S := side_pos b). assert (E : side q = side b) by (unfold side; rewrite V1; reflexivity).
  exists (1999 / 1000 * side b). unfold rad. rewrite E. split; [lra|]. split; [exact G|]. apply tau_two, side_mu. exact LB.
Qed.
Lemma geo4 b q : present b -> In q (nl_X ls b) -> present q /\ refined q = false /\
  exists r, rad b < r /\ trunc3 (rad b) r p0 <= tau /\ forall s, In s (sub q) -> r <= dist (pos s) (ctr b).
Proof.
  intros P Hq. apply (final_X_in _ _ _ _ _ _ _ _ (a_ok _ _ _ _ _ _ _ _ _ _ _ F) b q P) in Hq. destruct Hq as (Q & Nq & V). unfold xrel in V. rewrite !andb_true_iff in V.
  destruct V as ((V1 & _) & V3). apply Nat.ltb_lt in V1. apply negb_true_iff in V3. rewrite tch_t in V3 by assumption.
  split; [exact Q|]. split; [exact Nq|]. assert (LB := pres_len b P). assert (S := side_pos b). exists (148 / 100 * side b). split; [unfold rad; lra|].
  split; [apply tau_one, side_mu; exact LB|]. intros s Hs. apply (gap_ctr b q (pos s)); [eapply sub_len; exact Hs|exact LB|lia|exact V3|apply source_near; assumption].
Qed.
Lemma geo5 b : present b -> (length b <= 1)%nat -> nl_inter ls b = [] /\ nl_X ls b = [].
Proof.
  intros P Lb. split.
  - destruct (nl_inter ls b) as [|q r] eqn:E; [reflexivity|exfalso]. assert (Hq : In q (nl_inter ls b)) by (rewrite E; left; reflexivity).
    apply (final_inter_in _ _ _ _ _ _ _ _ (a_ok _ _ _ _ _ _ _ _ _ _ _ F) b q P) in Hq. destruct Hq as (Q & V). unfold vrel in V. rewrite !andb_true_iff in V.
    destruct V as (((V1 & V2) & _) & V3). apply Nat.eqb_eq in V1. apply negb_true_iff in V3. rewrite tch_t, shallow in V3 by (assumption || lia). discriminate.
  - destruct (nl_X ls b) as [|q r] eqn:E; [reflexivity|exfalso]. assert (Hq : In q (nl_X ls b)) by (rewrite E; left; reflexivity).
    apply (final_X_in _ _ _ _ _ _ _ _ (a_ok _ _ _ _ _ _ _ _ _ _ _ F) b q P) in Hq. destruct Hq as (Q & Nq & V). unfold xrel in V. rewrite !andb_true_iff in V.
    destruct V as ((V1 & _) & V3). apply Nat.ltb_lt in V1. apply negb_true_iff in V3. rewrite tch_t in V3 by assumption.
    destruct q; [|cbn [length] in V1; lia]. rewrite touch_sym, touch_root_l in V3. discriminate.
Qed.
Lemma geoL L x : length x = 3%nat -> present L -> @contains R NN 3 (ctr L) (blen L) x = true -> dist x (ctr L) <= rad L.
Proof. intros Lx P C. assert (LL := pres_len L P). apply near_rad; [exact Lx|exact LL|]. apply contains_near; assumption. Qed.
Lemma geoW L x q : length x = 3%nat -> present L -> @contains R NN 3 (ctr L) (blen L) x = true -> In q (nl_W ls L) ->
  (2 <= length q)%nat /\ exists r, rad q < r /\ r <= dist x (ctr q) /\ trunc3 (rad q) r p0 <= tau.
Proof.
  intros Lx P C Hq. apply (final_W_in _ _ _ _ _ _ _ _ (a_ok _ _ _ _ _ _ _ _ _ _ _ F) L q P) in Hq. destruct Hq as (Q & Np & V). unfold wrel in V. rewrite !andb_true_iff in V.
  destruct V as ((V1 & _) & V3). apply Nat.ltb_lt in V1. apply negb_true_iff in V3. rewrite tch_t in V3 by assumption.
  assert (LL := pres_len L P). assert (LQ := pres_len q Q). split.
  { destruct L; [rewrite touch_sym, touch_root_l in V3; discriminate|cbn [length] in V1; lia]. }
  assert (N := contains_near L x LL C). assert (G := gap_ctr q L x Lx LQ ltac:(lia) V3 N). assert (S := side_pos q).
  exists (148 / 100 * side q). split; [unfold rad; lra|]. split; [exact G|]. apply tau_one, side_mu. exact LQ.
Qed.
End Fine.
