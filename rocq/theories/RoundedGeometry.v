(** Geometry of the boxes of the two-dimensional adaptive tree in rounded arithmetic, with the constants of the error bounds. *)
From Coq Require Import List Bool ZArith Arith Lia Lra Reals Permutation.
From Coquelicot Require Import Coquelicot.
From Verif Require Import Num Outcome Vec Orthtree AdaptiveTree TreeSpec VecProofs GeometrySpec GeometryProofs TreeGeometry AdaptiveProofs
  BfsProofs ListProofs ListContents RootBoxProofs BuildProofs CAux Expansion2D Exp2Proofs Fields FieldSpec FieldProofs Exp2Errors PassTree AnyTree AnyLists AnyTheorems
  RoundedSpec RoundedTree RoundedTreeSpec RoundedTreeProofs RoundedAdaptive.
Import ListNotations.
Local Open Scope R_scope.
Arguments Cmod x%C.
Arguments src_at ctr%C s.

Lemma Cmod_le_coord (a b : list R) r : (forall j, (j < 2)%nat -> Rabs (nth j a 0 - nth j b 0) <= r) -> Cmod (cplx a - cplx b) <= 1415 / 1000 * r.
Proof.
  intros H. assert (H0 := H 0%nat ltac:(lia)). assert (H1 := H 1%nat ltac:(lia)). assert (R0 : 0 <= r) by (eapply Rle_trans; [apply Rabs_pos|exact H0]).
  unfold cplx, vget in *. cbn [n0 NumR] in *. set (x0 := nth 0 a 0) in *. set (y0 := nth 0 b 0) in *. set (x1 := nth 1 a 0) in *. set (y1 := nth 1 b 0) in *.
  unfold Cmod, Cminus, Cplus, Copp; cbn [fst snd]. apply abs2 in H0, H1.
  set (a0 := x0 + - y0). set (a1 := x1 + - y1). assert (A0 : - r <= a0 <= r) by (unfold a0; lra). assert (A1 : - r <= a1 <= r) by (unfold a1; lra). clearbody a0 a1.
  assert (S0 : a0 ^ 2 <= r ^ 2) by nra. assert (S1 : a1 ^ 2 <= r ^ 2) by nra. assert (P0 := pow2_ge_0 a0). assert (P1 := pow2_ge_0 a1).
  apply Rsqr_incr_0_var; [|lra]. rewrite Rsqr_sqrt by lra. unfold Rsqr. nra.
Qed.
Lemma Cmod_ge_coord (a b : list R) j r : (j < 2)%nat -> r <= Rabs (nth j a 0 - nth j b 0) -> r <= Cmod (cplx a - cplx b).
Proof.
  intros Hj H. eapply Rle_trans; [exact H|]. assert (M := Rmax_Cmod (cplx a - cplx b)%C). unfold cplx, vget, Cminus, Cplus, Copp in M; cbn [n0 NumR fst snd] in M.
  eapply Rle_trans; [|exact M]. destruct j as [|[|j]]; [apply Rmax_l|apply Rmax_r|lia].
Qed.

(** [apart_gap] up to a tolerance. *)
Lemma apart_gap_tol d c l p q y t : length c = d -> 0 < l -> (length q <= length p)%nat -> touch d p q = false -> 0 <= t ->
  (forall j, (j < d)%nat -> Rabs (nth j y 0 - nth j (box_ctr d c l q) 0) <= l / 2 ^ length q / 2 + t) ->
  exists j, (j < d)%nat /\ 3 / 2 * (l / 2 ^ length p) - t <= Rabs (nth j (box_ctr d c l p) 0 - nth j y 0).
Proof.
  intros Hc Hl Hle NT Ht Hy. set (wq := l / 2 ^ length q) in *.
  assert (W0 : 0 < wq) by (apply Rdiv_lt_0_compat; [exact Hl|apply pow2_pos]).
  set (cl := fun j => Rmax (nth j (box_ctr d c l q) 0 - wq / 2) (Rmin (nth j y 0) (nth j (box_ctr d c l q) 0 + wq / 2))).
  set (y' := map cl (seq 0 d)).
  assert (NY : forall j, (j < d)%nat -> nth j y' 0 = cl j).
  { intros j Hj. unfold y'. rewrite (nth_indep _ 0 (cl 0%nat)) by (rewrite map_length, seq_length; exact Hj). rewrite map_nth, seq_nth by exact Hj. reflexivity. }
  destruct (apart_gap d c l p q y' Hc Hl Hle NT) as (j & Hj & G).
  - intros j Hj. rewrite NY by exact Hj. rewrite box_len_pow. fold wq. unfold cl. split; [apply Rmax_l|]. apply Rmax_lub; [lra|]. apply Rmin_r.
  - exists j. split; [exact Hj|]. rewrite NY in G by exact Hj. rewrite box_len_pow in G. specialize (Hy j Hj). apply abs2 in Hy.
    assert (D : Rabs (nth j y 0 - cl j) <= t).
    { unfold cl. apply Rabs_le. unfold Rmax, Rmin. repeat destruct (Rle_dec _ _); lra. }
    set (a := nth j (box_ctr d c l p) 0) in *. replace (a - cl j) with ((a - nth j y 0) + (nth j y 0 - cl j)) in G by ring.
    assert (T := Rabs_triang (a - nth j y 0) (nth j y 0 - cl j)). lra.
Qed.
Lemma box_ctr_child d c l i p j : length c = d -> 0 < l -> (j < d)%nat -> Rabs (nth j (box_ctr d c l (i :: p)) 0 - nth j (box_ctr d c l p) 0) = l / 2 ^ length p / 4.
Proof.
  intros Hc Hl Hj. rewrite !(nth_box_ctr d c l _ j Hc Hj). cbn [gco length]. set (w := l / 2 ^ length p).
  assert (P := pow2_pos (length p)). assert (W0 : 0 < w) by (apply Rdiv_lt_0_compat; lra).
  replace (l / 2 ^ S (length p)) with (w / 2) by (unfold w; cbn [pow]; field; lra).
  rewrite plus_IZR, mult_IZR. destruct (Nat.testbit i (d - 1 - j)); cbv [IZR IPR IPR_2].
  - replace (_ - _)%R with (w / 4) by (unfold w; field; lra). apply Rabs_pos_eq; lra.
  - replace (_ - _)%R with (- (w / 4)) by (unfold w; field; lra). rewrite Rabs_Ropp. apply Rabs_pos_eq; lra.
Qed.
Lemma box_ctr_span d c l p j : length c = d -> 0 < l -> (j < d)%nat ->
  nth j c 0 - l / 2 + l / 2 ^ length p / 2 <= nth j (box_ctr d c l p) 0 <= nth j c 0 + l / 2 - l / 2 ^ length p / 2.
Proof.
  intros Hc Hl Hj. rewrite (nth_box_ctr d c l _ j Hc Hj). set (w := l / 2 ^ length p). assert (P := pow2_pos (length p)). assert (W0 : 0 < w) by (apply Rdiv_lt_0_compat; lra).
  destruct (gco_bounds d j p) as (G0 & G1). assert (G2 : (gco d j p + 1 <= p2 p)%Z) by lia. apply IZR_le in G0, G2. rewrite plus_IZR, IZR_p2 in G2.
  assert (E : 2 ^ length p * w = l) by (unfold w; field; lra). split; [nra|]. rewrite <- E at 2. assert ((IZR (gco d j p) + 1) * w <= 2 ^ length p * w) by (apply Rmult_le_compat_r; lra). lra.
Qed.

Section Fine.
Variable rnd : R -> R.
Variable hyp : list R -> R.
Hypothesis HD : double_like rnd hyp.
Notation NN := (NumRnd rnd).
Variables h cap fuel : nat.
Variable srcs : list (psrc R).
Notation pos := (@ps_pos R).
Hypothesis HR : in_adaptive_range 2 h pos srcs.
Variable t : @atree R (psrc R).
Hypothesis Ht : (at_height t <= h)%nat.
Variable c : list R.
Variable l : R.
Variable h0 : nat.
Hypothesis F : afacts rnd hyp 2 h pos srcs cap t c l h0.
Notation rc := (ByCount (rr cap srcs)).
Notation present := (@present R (psrc R) NN 2 pos c l cap srcs rc).
Notation refined := (@refined R (psrc R) NN 2 pos c l cap srcs rc).
Notation path := (@AnyTree.path R NN 2 c l).
Notation ctr := (@AnyTree.ctr R NN 2 c l).
Notation blen := (@AnyTree.blen R NN l).
Notation sub := (@sub R (psrc R) NN 2 pos c l srcs).
Notation ls := (@final R (psrc R) NN 2 pos c l cap srcs rc h0).
Variables m M : R.
Hypothesis Hm : 0 < m.
Hypothesis Hc : length c = 2%nat.
Hypothesis Hl : 2 * m <= l <= 3 * M.
Hypothesis Hctr : forall p, (length p <= h)%nat -> length (ctr p) = 2%nat /\ forall j, (j < 2)%nat -> Rabs (nth j (ctr p) 0 - nth j (box_ctr 2 c l p) 0) <= l / 2 ^ h / 5000.
Hypothesis Hpt : forall x k j, among 2 pos srcs x -> (k <= h)%nat -> (j < 2)%nat ->
  Rabs (nth j x 0 - nth j (box_ctr 2 c l (path x k)) 0) <= l / 2 ^ k / 2 + l / 2 ^ h / 100.
Hypothesis Hin : forall x p j, (length p <= h)%nat -> (j < 2)%nat -> @contains R NN 2 (ctr p) (blen p) x = true ->
  Rabs (nth j x 0 - nth j (box_ctr 2 c l p) 0) <= l / 2 ^ length p / 2 + l / 2 ^ h / 100.
Variable Lam : R.
Hypothesis HLam : forall r, m / 2 ^ h <= r <= 8 * M -> Rabs (ln r) <= Lam.

Definition side (p : addr) : R := l / 2 ^ length p.
Definition rad (p : addr) : R := 73 / 100 * side p.
Notation wh := (l / 2 ^ h).

Lemma l0 : 0 < l. Proof. lra. Qed.
Lemma side_pos p : 0 < side p.
Proof. unfold side. apply Rdiv_lt_0_compat; [apply l0|apply pow2_pos]. Qed.
Lemma wh_pos : 0 < wh.
Proof. apply Rdiv_lt_0_compat; [apply l0|apply pow2_pos]. Qed.
Lemma wh_side p : (length p <= h)%nat -> wh <= side p.
Proof.
  intros Hp. unfold side, Rdiv. apply Rmult_le_compat_l; [apply Rlt_le, l0|]. apply Rinv_le_contravar; [apply pow2_pos|]. apply Rle_pow; [lra|exact Hp].
Qed.
Lemma side_l p : side p <= l.
Proof.
  unfold side. assert (1 <= 2 ^ length p) by (apply pow_R1_Rle; lra). assert (L := l0). apply (Rmult_le_reg_r (2 ^ length p)); [lra|]. unfold Rdiv. rewrite Rmult_assoc, Rinv_l by lra. nra.
Qed.
Lemma wh_m : 2 * (m / 2 ^ h) <= wh.
Proof. unfold Rdiv. rewrite <- Rmult_assoc. apply Rmult_le_compat_r; [|lra]. apply Rlt_le, Rinv_0_lt_compat, pow2_pos. Qed.
Lemma half_side i p : side (i :: p) = side p / 2.
Proof. unfold side. cbn [length pow]. field. apply pow_nonzero. lra. Qed.

(** [y] is in the box [p], up to the tolerance of the look-up. *)
Definition near_box (p : addr) (y : list R) : Prop := forall j, (j < 2)%nat -> Rabs (nth j y 0 - nth j (box_ctr 2 c l p) 0) <= side p / 2 + wh / 100.
Lemma near_ctr p y : (length p <= h)%nat -> near_box p y -> forall j, (j < 2)%nat -> Rabs (nth j y 0 - nth j (ctr p) 0) <= side p / 2 + wh * (51 / 5000).
Proof. intros Hp Hy j Hj. specialize (Hy j Hj). destruct (Hctr p Hp) as (_ & C). specialize (C j Hj). apply abs2 in Hy, C. apply Rabs_le. lra. Qed.
Lemma near_rad p y : (length p <= h)%nat -> near_box p y -> Cmod (cplx y - cplx (ctr p)) <= rad p.
Proof.
  intros Hp Hy. eapply Rle_trans; [apply Cmod_le_coord, near_ctr; assumption|]. assert (A := wh_side p Hp). assert (B := wh_pos). unfold rad. lra.
Qed.
Lemma near_span p y j : (j < 2)%nat -> near_box p y -> nth j c 0 - l / 2 - wh / 100 <= nth j y 0 <= nth j c 0 + l / 2 + wh / 100.
Proof. intros Hj Hy. specialize (Hy j Hj). assert (B := box_ctr_span 2 c l p j Hc l0 Hj). fold (side p) in B. apply abs2 in Hy. lra. Qed.
Lemma ctr_span p j : (length p <= h)%nat -> (j < 2)%nat -> nth j c 0 - l / 2 - wh / 100 <= nth j (ctr p) 0 <= nth j c 0 + l / 2 + wh / 100.
Proof.
  intros Hp Hj. destruct (Hctr p Hp) as (_ & C). specialize (C j Hj). assert (B := box_ctr_span 2 c l p j Hc l0 Hj). fold (side p) in B. apply abs2 in C.
  assert (A := side_pos p). assert (A' := wh_pos). lra.
Qed.
Lemma span_ln y z r : (forall j, (j < 2)%nat -> nth j c 0 - l / 2 - wh / 100 <= nth j y 0 <= nth j c 0 + l / 2 + wh / 100) ->
  (forall j, (j < 2)%nat -> nth j c 0 - l / 2 - wh / 100 <= nth j z 0 <= nth j c 0 + l / 2 + wh / 100) -> wh <= r -> r <= Cmod (cplx y - cplx z) ->
  Rabs (ln (Cmod (cplx y - cplx z))) <= Lam.
Proof.
  intros Hy Hz Hr HC. apply HLam. split; [assert (W := wh_m); assert (0 < m / 2 ^ h) by (apply Rdiv_lt_0_compat; [exact Hm|apply pow2_pos]); lra|].
  eapply Rle_trans; [apply (Cmod_le_coord y z (102 / 100 * l))|lra].
  intros j Hj. specialize (Hy j Hj). specialize (Hz j Hj). assert (W := side_l (repeat 0%nat h)). unfold side in W. rewrite repeat_length in W. apply Rabs_le. lra.
Qed.

Lemma pres_len p : present p -> (length p <= h)%nat.
Proof. apply (pres_h rnd hyp 2 h pos srcs cap t Ht c l h0 F). Qed.
Lemma source_near p s : present p -> In s (sub p) -> near_box p (pos s).
Proof.
  intros P Hs j Hj. destruct (proj1 (@AnyTree.sub_path R (psrc R) NN 2 pos c l srcs _ _) Hs) as (HI & HP).
  rewrite <- HP at 1. assert (Lp := pres_len p P). unfold side. apply Hpt; [|exact Lp|exact Hj].
  destruct HR as (_ & _ & D & _). split; [apply D, HI|]. intros i Hi. exists s, s. split; [exact HI|]. split; [exact HI|]. lra.
Qed.
Lemma contains_near p x : (length p <= h)%nat -> @contains R NN 2 (ctr p) (blen p) x = true -> near_box p x.
Proof. intros Hp C j Hj. unfold side. apply Hin; assumption. Qed.

Lemma gap_ctr p q y : (length p <= h)%nat -> (length q <= length p)%nat -> touch 2 p q = false -> near_box q y ->
  148 / 100 * side p <= Cmod (cplx y - cplx (ctr p)).
Proof.
  intros Hp Hq T Hy. destruct (apart_gap_tol 2 c l p q y (wh / 100) Hc l0 Hq T) as (j & Hj & G); [assert (W := wh_pos); lra|exact Hy|].
  apply (Cmod_ge_coord y (ctr p) j); [exact Hj|]. fold (side p) in G. destruct (Hctr p Hp) as (_ & C). specialize (C j Hj). assert (W := wh_side p Hp). assert (W' := wh_pos).
  rewrite (Rabs_minus_sym (nth j (ctr p) 0)) in C. set (a := nth j (box_ctr 2 c l p) 0) in *. set (b := nth j (ctr p) 0) in *. set (z := nth j y 0) in *.
  replace (a - z) with ((a - b) + (b - z)) in G by ring. assert (TT := Rabs_triang (a - b) (b - z)). rewrite (Rabs_minus_sym b z) in TT. lra.
Qed.
Lemma gap_centers p q : (length p <= h)%nat -> length p = length q -> touch 2 p q = false -> 1999 / 1000 * side p <= Cmod (cplx (ctr q) - cplx (ctr p)).
Proof.
  intros Hp E T. destruct (apart_centers 2 c l p q Hc l0 E T) as (j & Hj & G). rewrite box_len_pow in G. fold (side p) in G.
  apply (Cmod_ge_coord (ctr q) (ctr p) j); [exact Hj|]. destruct (Hctr p Hp) as (_ & C). specialize (C j Hj). destruct (Hctr q ltac:(lia)) as (_ & C'). specialize (C' j Hj).
  assert (W := wh_side p Hp). assert (W' := wh_pos). revert G C C'. generalize (nth j (box_ctr 2 c l p) 0) (nth j (box_ctr 2 c l q) 0) (nth j (ctr p) 0) (nth j (ctr q) 0).
  intros a b a' b' G C C'. unfold Rabs in *. repeat destruct (Rcase_abs _); lra.
Qed.

Lemma geo0 b : present b -> 0 < rad b /\ length (ctr b) = 2%nat.
Proof. intros P. split; [unfold rad; assert (S := side_pos b); lra|]. apply Hctr, pres_len, P. Qed.
Lemma geo1 b s : present b -> In s (sub b) -> dist (pos s) (ctr b) <= rad b.
Proof.
  intros P Hs. assert (N := near_rad b (pos s) (pres_len b P) (source_near b s P Hs)).
  rewrite dist_Cmod; [exact N| |apply geo0, P]. destruct HR as (_ & _ & D & _). apply D. eapply (@AnyTree.sub_incl R (psrc R) NN 2 pos c l srcs); exact Hs.
Qed.
Lemma geo2 i b : present (i :: b) -> rad (i :: b) + Cmod (cplx (ctr (i :: b)) - cplx (ctr b)) <= rad b.
Proof.
  intros P. assert (Lb := pres_len _ P). cbn [length] in Lb. assert (W := wh_side (i :: b) ltac:(cbn [length]; lia)). assert (W' := wh_pos). assert (HS := half_side i b).
  assert (X : Cmod (cplx (ctr (i :: b)) - cplx (ctr b)) <= 1415 / 1000 * (side b / 4 + wh / 2500)).
  { apply Cmod_le_coord. intros j Hj. destruct (Hctr (i :: b) ltac:(cbn [length]; lia)) as (_ & C). specialize (C j Hj). destruct (Hctr b ltac:(lia)) as (_ & C'). specialize (C' j Hj).
    assert (B := box_ctr_child 2 c l i b j Hc l0 Hj). fold (side b) in B. revert B C C'.
    generalize (nth j (box_ctr 2 c l (i :: b)) 0) (nth j (box_ctr 2 c l b) 0) (nth j (ctr (i :: b)) 0) (nth j (ctr b) 0). intros a a1 a2 a3 B C C'.
    assert (B' := Req_le _ _ B). apply abs2 in B', C, C'. apply Rabs_le. lra. }
  unfold rad. lra.
Qed.
Lemma shallow p q : (length p <= 1)%nat -> length q = length p -> touch 2 p q = true.
Proof.
  intros Hp Hq. destruct p as [|i [|j p]]; [apply touch_root_l| |cbn [length] in Hp; lia]. destruct q as [|i' [|j q]]; cbn [length] in Hq; try lia. apply touch_siblings.
Qed.
Lemma tch_t p q : present p -> present q -> @tch R (psrc R) NN 2 pos c l cap srcs rc p q = touch 2 p q.
Proof. intros P Q. apply (tch_touch rnd hyp 2 h pos srcs cap t Ht c l h0 F); apply pres_len; assumption. Qed.
Lemma geo3 b q : present b -> In q (nl_inter ls b) -> present q /\ (2 <= length q)%nat /\
  rad b + rad q <= 3 / 4 * Cmod (cplx (ctr q) - cplx (ctr b)) /\ Rabs (ln (Cmod (cplx (ctr q) - cplx (ctr b)))) <= Lam.
Proof.
  intros P Hq. apply (final_inter_in _ _ _ _ _ _ _ _ (a_ok _ _ _ _ _ _ _ _ _ _ _ F) b q P) in Hq. destruct Hq as (Q & V). unfold vrel in V. rewrite !andb_true_iff in V.
  destruct V as (((V1 & V2) & _) & V3). apply Nat.eqb_eq in V1. apply negb_true_iff in V3. rewrite tch_t in V3 by assumption.
  assert (LB := pres_len b P). assert (LQ := pres_len q Q). split; [exact Q|]. split.
  { destruct (le_lt_dec (length b) 1) as [Z|Z]; [|lia]. rewrite shallow in V3 by lia. discriminate. }
  assert (G := gap_centers b q LB V1 V3). assert (S := side_pos b). assert (E : side q = side b) by (unfold side; rewrite V1; reflexivity). split.
  - unfold rad. rewrite E. lra.
  - apply (span_ln (ctr q) (ctr b) (1999 / 1000 * side b)); [intros j Hj; apply ctr_span; assumption..| |exact G]. assert (W := wh_side b LB). lra.
Qed.
Lemma geo4 b q : present b -> In q (nl_X ls b) -> present q /\ refined q = false /\
  forall s, In s (sub q) -> rad b <= 3 / 4 * Cmod (src_at (cplx (ctr b)) s) /\ Rabs (ln (Cmod (src_at (cplx (ctr b)) s))) <= Lam.
Proof.
  intros P Hq. apply (final_X_in _ _ _ _ _ _ _ _ (a_ok _ _ _ _ _ _ _ _ _ _ _ F) b q P) in Hq. destruct Hq as (Q & Nq & V). unfold xrel in V. rewrite !andb_true_iff in V.
  destruct V as ((V1 & _) & V3). apply Nat.ltb_lt in V1. apply negb_true_iff in V3. rewrite tch_t in V3 by assumption.
  split; [exact Q|]. split; [exact Nq|]. intros s Hs. assert (LB := pres_len b P). assert (N := source_near q s Q Hs).
  assert (G := gap_ctr b q (pos s) LB ltac:(lia) V3 N). assert (S := side_pos b). unfold src_at. split; [unfold rad; lra|].
  apply (span_ln (pos s) (ctr b) (148 / 100 * side b)); [intros j Hj; apply (near_span q); assumption|intros j Hj; apply ctr_span; assumption| |exact G]. assert (W := wh_side b LB). lra.
Qed.
Lemma geo5 b : present b -> (length b <= 1)%nat -> nl_inter ls b = [] /\ nl_X ls b = [].
Proof.
  intros P Lb. split.
  - destruct (nl_inter ls b) as [|q r] eqn:E; [reflexivity|exfalso]. assert (Hq : In q (nl_inter ls b)) by (rewrite E; left; reflexivity).
    apply (final_inter_in _ _ _ _ _ _ _ _ (a_ok _ _ _ _ _ _ _ _ _ _ _ F) b q P) in Hq. destruct Hq as (Q & V). unfold vrel in V. rewrite !andb_true_iff in V.
    destruct V as (((V1 & V2) & _) & V3). apply Nat.eqb_eq in V1. apply negb_true_iff in V3. rewrite tch_t, shallow in V3 by (assumption || lia). discriminate.
  - destruct (nl_X ls b) as [|q r] eqn:E; [reflexivity|exfalso]. assert (Hq : In q (nl_X ls b)) by (rewrite E; left; reflexivity).
    apply (final_X_in _ _ _ _ _ _ _ _ (a_ok _ _ _ _ _ _ _ _ _ _ _ F) b q P) in Hq. destruct Hq as (Q & Nq & V). unfold xrel in V. rewrite !andb_true_iff in V.
    destruct V as ((V1 & _) & V3). apply Nat.ltb_lt in V1. apply negb_true_iff in V3. rewrite tch_t in V3 by assumption.
    destruct q; [|cbn [length] in V1; lia]. rewrite touch_sym, touch_root_l in V3. discriminate.
Qed.
Lemma geoL L x : present L -> @contains R NN 2 (ctr L) (blen L) x = true -> Cmod (cplx x - cplx (ctr L)) <= rad L.
Proof. intros P C. assert (LL := pres_len L P). apply near_rad; [exact LL|]. apply contains_near; assumption. Qed.
Lemma geoW L x q : present L -> @contains R NN 2 (ctr L) (blen L) x = true -> In q (nl_W ls L) ->
  (2 <= length q)%nat /\ rad q <= 3 / 4 * Cmod (cplx x - cplx (ctr q)) /\ Rabs (ln (Cmod (cplx x - cplx (ctr q)))) <= Lam.
Proof.
  intros P C Hq. apply (final_W_in _ _ _ _ _ _ _ _ (a_ok _ _ _ _ _ _ _ _ _ _ _ F) L q P) in Hq. destruct Hq as (Q & Np & V). unfold wrel in V. rewrite !andb_true_iff in V.
  destruct V as ((V1 & _) & V3). apply Nat.ltb_lt in V1. apply negb_true_iff in V3. rewrite tch_t in V3 by assumption.
  assert (LL := pres_len L P). assert (LQ := pres_len q Q). split.
  { destruct L; [rewrite touch_sym, touch_root_l in V3; discriminate|cbn [length] in V1; lia]. }
  assert (N := contains_near L x LL C). assert (G := gap_ctr q L x LQ ltac:(lia) V3 N). assert (S := side_pos q). split; [unfold rad; lra|].
  apply (span_ln x (ctr q) (148 / 100 * side q)); [intros j Hj; apply (near_span L); assumption|intros j Hj; apply ctr_span; assumption| |exact G]. assert (W := wh_side q LQ). lra.
Qed.
Lemma Lam0 : 0 <= Lam.
Proof.
  assert (P := pow2_pos h). assert (1 <= 2 ^ h) by (apply pow_R1_Rle; lra). assert (m / 2 ^ h <= m). { apply (Rmult_le_reg_r (2 ^ h)); [exact P|]. unfold Rdiv. rewrite Rmult_assoc, Rinv_l by lra. nra. }
  eapply Rle_trans; [apply Rabs_pos|apply (HLam m)]. lra.
Qed.
End Fine.
