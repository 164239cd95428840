(** The balanced tree of the plane in rounded arithmetic: its structure, and its boxes against the exact grid. *)
From Coq Require Import List Bool ZArith Arith Lia Lra Reals Permutation.
From Verif Require Import Num Outcome Vec Orthtree AdaptiveTree TreeSpec VecProofs GeometrySpec GeometryProofs TreeGeometry AdaptiveProofs
  BfsProofs ListProofs ListContents RootBoxProofs BuildProofs CAux FieldSpec BalancedTree BalancedSpec BalancedIndex BalancedAddr BalancedProofs AnyTree AnyBalanced
  RoundedSpec RoundedTree RoundedTreeSpec RoundedTreeProofs.
Import ListNotations.
Local Open Scope R_scope.

Section Facts.
Variable rnd : R -> R.
Variable hyp : list R -> R.
Notation NN := (NumRnd rnd).
Notation DD := (DistRnd hyp).
Notation pos := (@ps_pos R).
Variable h : nat.
Variable srcs : list (psrc R).
Variables m M : R.
Notation pos0 := (fun _ : psrc R => @nil R).
Notation c0 := (repeat 0 2).
Notation ss0 := (@nil (psrc R)).
Notation present := (AdaptiveProofs.present 2 pos0 c0 1 0 ss0 (ByDepth h)).
Notation chs := (BalancedProofs.chs 2 pos0 c0 1 ss0 h).
Notation final := (ListProofs.final 2 pos0 c0 1 0 ss0 (ByDepth h) h).
Notation leaf c l x := (leaf_at rnd 2 h c l x).

(** Everything known of the root box [c], [l] and of the children [ch]. *)
Record bfacts (c : list R) (l : R) (ch : addr -> list addr) : Prop := {
  b_c : length c = 2%nat;
  b_l : 2 * m <= l <= 3 * M;
  b_build : @bal_build R NN DD (psrc R) 2 pos h srcs = Ok (@any_bal R (psrc R) NN 2 c l srcs h (fun s => leaf c l (pos s)) ch, final);
  b_ch : forall p, present p -> ch p = chs p;
  b_ctr : forall b, (length b <= h)%nat -> length (@AnyTree.ctr R NN 2 c l b) = 2%nat /\ forall j, (j < 2)%nat ->
    Rabs (nth j (@AnyTree.ctr R NN 2 c l b) 0 - nth j (box_ctr 2 c l b) 0) <= l / 2 ^ h / 5000;
  b_leaf : forall x, among 2 pos srcs x -> length (leaf c l x) = h /\ valid 2 (leaf c l x) /\
    @leaf_box_indices R NN 2 h c l x = Ok (gcos 2 (leaf c l x)) /\
    forall j, (j < 2)%nat -> Rabs (nth j x 0 - nth j (box_ctr 2 c l (leaf c l x)) 0) <= l / 2 ^ h / 2 + l / 2 ^ h / 500;
  b_path : forall p, valid 2 p -> (length p <= h)%nat -> @AnyTree.path R NN 2 c l (@AnyTree.ctr R NN 2 c l p) (length p) = p }.

Hypothesis HD : double_like rnd hyp.
Hypothesis Hh32 : (2 * h <= 32)%nat.
Hypothesis Hdim : same_dim 2 srcs.
Hypothesis Hsur : surround 2 pos srcs m M.
Hypothesis Hmod : moderate h m M.

Theorem bfacts_of : exists c l ch, bfacts c l ch.
Proof.
  destruct HD as ((u & Hu & Hacc) & Hint & Hhyp). destruct Hmod as (P1 & HmM & HmMh).
  assert (HM : 0 < m <= M).
  { split; [exact P1|]. destruct (Hsur 0%nat Nat.lt_0_2) as (_ & (s & Hs & G) & D). specialize (D s Hs). apply abs2 in D. lra. }
  assert (Hh : (h < 32)%nat) by lia. assert (Hd : (1 <= 2)%nat) by lia.
  destruct (root_rounded rnd u Hu Hacc Hint 2 m M h Hd Hh HM HmM pos srcs Hdim Hsur) as (c & l & HR & Hc & Hl & HJ).
  assert (Hcj : forall j, (j < 2)%nat -> Rabs (nth j c 0) <= 2 * M) by (intros j Hj; apply HJ; exact Hj).
  assert (IN : forall x, among 2 pos srcs x -> inner 2 m c l x).
  { intros x [Hx H]. split; [exact Hx|]. intros j Hj. destruct (H j Hj) as (a & b & Ha & Hb & AB). destruct (HJ j Hj) as [_ Q].
    assert (Qa := Q a Ha). assert (Qb := Q b Hb). lra. }
  assert (LK : forall x, among 2 pos srcs x -> length (leaf c l x) = h /\ valid 2 (leaf c l x) /\ @leaf_box_indices R NN 2 h c l x = Ok (gcos 2 (leaf c l x))).
  { intros x Hx. eapply (leaf_at_ok rnd); try eassumption. apply IN. exact Hx. }
  assert (AS : forall s, In s srcs -> among 2 pos srcs (pos s)).
  { intros s Hs. split; [apply Hdim, Hs|]. intros j Hj. exists s, s. repeat split; try assumption; lra. }
  assert (E : exists ch, (forall p, present p -> ch p = chs p) /\
     @bal_build R NN DD (psrc R) 2 pos h srcs = Ok (@any_bal R (psrc R) NN 2 c l srcs h (fun s => leaf c l (pos s)) ch, final)).
  { destruct (Nat.eq_dec h 0) as [Z|Z].
    - exists (fun _ => []). split.
      + intros p P. apply shape_present in P; [|exact Hd]. unfold BalancedProofs.chs. rewrite refined_eq, (proj2 (Nat.ltb_ge _ _)) by lia. reflexivity.
      + unfold bal_build. rewrite HR. rewrite Z. unfold any_bal. cbn [seq flat_map map AdaptiveProofs.level bal_nbhd bind].
        assert (ES : @AnyBalanced.mk R (psrc R) NN 2 c l srcs 0 (fun s => leaf_at rnd 2 0 c l (pos s)) [] = ANode [] c l 0 true srcs).
        { unfold AnyBalanced.mk, set_srcs, mk0, part. cbn. f_equal. induction srcs as [|s ss IH]; [reflexivity|]. cbn [filter].
          replace (addr_eqb (leaf_at rnd 2 0 c l (pos s)) []) with true; [f_equal; apply filter_true|].
          - intros s' _. unfold leaf_at. cbn. reflexivity.
          - reflexivity. }
        rewrite ES. reflexivity.
    - destruct (any_bal_build (NT := NN) (DT := DD) 2 pos c l srcs h Hd Hh Hh32 (fun s => leaf c l (pos s))) as (ch & CH & E).
      + intros s Hs. apply LK, AS, Hs.
      + intros p Lp _. eapply (ctr_indices rnd); eassumption.
      + intros p q _ _ HL L. eapply (adjacent_rounded rnd); eassumption.
      + intros p q _ _ HL L T. eapply (close_rounded rnd); eassumption.
      + lia.
      + exact HR.
      + exists ch. split; assumption. }
  destruct E as (ch & CH & E).
  assert (E0 := eta0 u Hu m M HM). assert (EW : 4194304 * eta u M <= l / 2 ^ h) by (eapply (eta_W u); try eassumption; apply le_n).
  assert (GC : forall p j, (j < 2)%nat -> nth j (box_ctr 2 c l p) 0 = nth j c 0 - l / 2 + (IZR (gco 2 j p) + / 2) * (l / 2 ^ length p)).
  { intros p j Hj. rewrite nth_box_ctr by assumption. assert (P := pow2_pos (length p)). field. lra. }
  assert (CE : forall p j, (length p <= h)%nat -> (j < 2)%nat -> Rabs (nth j (@AnyTree.ctr R NN 2 c l p) 0 - nth j (box_ctr 2 c l p) 0) <= 640 * eta u M).
  { intros p j L Hj. rewrite GC by exact Hj. assert (C : nth j c 0 - l / 2 + (IZR (gco 2 j p) + / 2) * (l / 2 ^ length p) - 640 * eta u M <= nth j (@AnyTree.ctr R NN 2 c l p) 0 <=
      nth j c 0 - l / 2 + (IZR (gco 2 j p) + / 2) * (l / 2 ^ length p) + 640 * eta u M) by (eapply (ctr_eta rnd); try eassumption; lia). apply Rabs_le. lra. }
  exists c, l, ch. split; try assumption.
  - intros b L. split.
    + eapply (len_ctr rnd); eassumption.
    + intros j Hj. eapply Rle_trans; [apply (CE b j L Hj)|]. lra.
  - intros x Hx. destruct (LK x Hx) as (L1 & L2 & L3). split; [exact L1|]. split; [exact L2|]. split; [exact L3|]. intros j Hj.
    rewrite GC by exact Hj. rewrite L1. assert (IX := IN x Hx).
    assert (B : Rabs (nth j x 0) <= 6 * M /\ 0 <= nth j x 0 - (nth j c 0 - l / 2) <= l) by (eapply (inner_bound 2 m M); eassumption). destruct B as [B Rg].
    assert (D : Rabs (ind rnd 2 h c l x j - (nth j x 0 - (nth j c 0 - l / 2)) / (l / 2 ^ h)) <= 1 / 1000) by (eapply (ind_err rnd); eassumption).
    assert (WP : 0 < l / 2 ^ h) by (apply Rdiv_lt_0_compat; [lra|apply pow2_pos]).
    assert (G : gco 2 j (leaf c l x) = Int_part (ind rnd 2 h c l x j)).
    { rewrite <- gcos_nth by exact Hj. unfold leaf_at. rewrite box_at_gcos; [|exact Hh|eapply (leaf_index_tuple rnd); eassumption].
      unfold leaf_index. rewrite (nth_map_lt _ (seq 0 2) j 0%nat 0%Z) by (rewrite seq_length; exact Hj). rewrite seq_nth by exact Hj. reflexivity. }
    rewrite G. assert (F := base_Int_part (ind rnd 2 h c l x j)). set (z := IZR (Int_part (ind rnd 2 h c l x j))) in *. set (w := l / 2 ^ h) in *.
    set (a := nth j x 0 - (nth j c 0 - l / 2)) in *. apply abs2 in D.
    assert (A : a = a / w * w) by (unfold Rdiv; rewrite Rmult_assoc, Rinv_l by lra; ring).
    assert (A1 : (z - 1 / 1000) * w <= a) by (rewrite A; apply Rmult_le_compat_r; lra).
    assert (A2 : a <= (z + 1 + 1 / 1000) * w) by (rewrite A; apply Rmult_le_compat_r; lra).
    apply Rabs_le. unfold a in *. lra.
  - intros p V L. eapply (path_grid rnd); try eassumption. intros j Hj. assert (C := CE p j L Hj). rewrite GC in C by exact Hj.
    eapply Rle_trans; [exact C|].
    assert (WM : l / 2 ^ h <= l / 2 ^ length p). { unfold Rdiv. apply Rmult_le_compat_l; [lra|]. apply Rinv_le_contravar; [apply pow2_pos|apply Rle_pow; [lra|exact L]]. }
    assert (WP : 0 < l / 2 ^ h) by (apply Rdiv_lt_0_compat; [lra|apply pow2_pos]). lra.
Qed.
End Facts.
