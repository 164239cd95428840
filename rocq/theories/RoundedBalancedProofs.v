(** The balanced tree of the plane in rounded arithmetic: its passes are those of a tree refined down to depth [h] in which each source
    sits at the centre of its leaf; geometry of its boxes. *)
From Coq Require Import List Bool ZArith Arith Lia Lra Reals Permutation FunctionalExtensionality.
From Coquelicot Require Import Coquelicot.
From Verif Require Import Num Outcome Vec VecProofs Tables Orthtree AdaptiveTree TreeSpec GeometrySpec GeometryProofs TreeGeometry AdaptiveProofs BfsProofs ListProofs ListContents
  RootBoxProofs BuildProofs Schedule CAux Expansion2D Exp2Proofs Fields FieldSpec FieldProofs Exp2Errors FmmPasses PassProofs PassSteps PassTree
  BalancedTree BalancedSpec BalancedIndex BalancedAddr BalancedProofs BalancedFmm BalancedFmmProofs AnyTree AnyLists AnyBalanced AnyPasses BalancedCounts
  RoundedSpec RoundedTree RoundedTreeSpec RoundedTreeProofs RoundedBalancedTree RoundedPasses RoundedGeometry RoundedBalancedFmm.
Import ListNotations.
Arguments Cmod x%C.
Arguments src_at ctr%C s.

Local Open Scope R_scope.
Section Bal.
Variable rnd : R -> R.
Variable hyp : list R -> R.
Notation NN := (NumRnd rnd).
Notation DD := (DistRnd hyp).
Variable h : nat.
Variable srcs : list (psrc R).
Variables m M : R.
Hypothesis Hm : 0 < m.
Hypothesis Hh32 : (2 * h <= 32)%nat.
Hypothesis Hdim : same_dim 2 srcs.
Variable c : list R.
Variable l : R.
Variable ch : addr -> list addr.
Hypothesis F : bfacts rnd hyp h srcs m M c l ch.
Variable cap : nat.

Notation pos0 := (fun _ : psrc R => @nil R).
Notation c0 := (repeat 0 2).
Notation ss0 := (@nil (psrc R)).
Notation ls := (ListProofs.final 2 pos0 c0 1 0 ss0 (ByDepth h) h).
Notation spresent := (AdaptiveProofs.present 2 pos0 c0 1 0 ss0 (ByDepth h)).
Notation slevel := (AdaptiveProofs.level 2 pos0 c0 1 0 ss0 (ByDepth h)).
Notation leaf x := (leaf_at rnd 2 h c l x).
Notation lf := (fun s => leaf_at rnd 2 h c l (ps_pos s)).
Notation ctr := (@AnyTree.ctr R NN 2 c l).
Notation blen := (@AnyTree.blen R NN l).
Notation path := (@AnyTree.path R NN 2 c l).
(** The centre of the leaf that holds the source. *)
Definition cpos (s : psrc R) : list R := ctr (leaf (ps_pos s)).
Notation rc := (ByDepth h).
Notation refined := (@AnyTree.refined R (psrc R) NN 2 cpos c l cap srcs rc).
Notation present := (@AnyTree.present R (psrc R) NN 2 cpos c l cap srcs rc).
Notation level := (@AnyTree.level R (psrc R) NN 2 cpos c l cap srcs rc).
Notation sub := (@AnyTree.sub R (psrc R) NN 2 cpos c l srcs).
Notation mk := (@AnyTree.mk R (psrc R) NN 2 cpos c l cap srcs rc).
Notation spec := (@AnyTree.spec_tree R (psrc R) NN 2 cpos c l cap srcs rc h).
Notation bmk := (@AnyBalanced.mk R (psrc R) NN 2 c l srcs h lf).
Notation btr := (@any_bal R (psrc R) NN 2 c l srcs h lf ch).
Notation order := (@AnyTree.order R (psrc R) NN 2 cpos c l cap srcs rc h).

Let H2 : (1 <= 2)%nat. Proof. lia. Qed.
Let Hh : (h < 32)%nat. Proof. lia. Qed.
Lemma among_src s : In s srcs -> among 2 (@ps_pos R) srcs (ps_pos s).
Proof. intros Hs. split; [apply Hdim, Hs|]. intros j Hj. exists s, s. repeat split; try assumption; lra. Qed.
Lemma rf p : refined p = (length p <? h)%nat. Proof. reflexivity. Qed.
Lemma pres_s p : present p <-> spresent p.
Proof. induction p as [|i p IH]; cbn [AnyTree.present AdaptiveProofs.present]; [tauto|]. rewrite IH. reflexivity. Qed.
Lemma pres p : present p <-> valid 2 p /\ (length p <= h)%nat.
Proof. rewrite pres_s. apply shape_present. exact H2. Qed.
Lemma lvl_s k : level k = slevel k.
Proof. induction k as [|k IH]; cbn [AnyTree.level AdaptiveProofs.level]; [reflexivity|]. rewrite IH. reflexivity. Qed.
Lemma lvl k : (k <= h)%nat -> level k = all_boxes 2 k.
Proof. intros L. rewrite lvl_s. apply shape_level; assumption. Qed.
Lemma Hok : @AnyTree.height_ok R (psrc R) NN 2 cpos c l cap srcs rc h.
Proof.
  destruct (height_ok_bal 2 pos0 c0 1 ss0 h H2 (Hc0 2)) as (A & B). split; [rewrite lvl_s; exact A|]. intros k Hk. rewrite lvl_s. apply B. exact Hk.
Qed.

(** *** The sources of a box *)
Lemma path_leaf s : In s srcs -> path (cpos s) h = lf s.
Proof.
  intros Hs. destruct (b_leaf _ _ _ _ _ _ _ _ _ F _ (among_src s Hs)) as (L & V & _). assert (P := b_path _ _ _ _ _ _ _ _ _ F _ V ltac:(rewrite L; apply le_n)).
  rewrite L in P. exact P.
Qed.
Lemma sub_leaf p : length p = h -> sub p = filter (fun s => addr_eqb (lf s) p) srcs.
Proof. intros L. rewrite AnyTree.sub_filter, L. apply filter_ext_in. intros s Hs. rewrite (path_leaf s Hs). reflexivity. Qed.
Lemma mk_eq p : present p -> mk p = bmk p.
Proof.
  intros P. apply pres in P. destruct P as [V L]. unfold AnyTree.mk, AnyBalanced.mk. rewrite rf. unfold mk0. destruct (Nat.ltb_spec (length p) h) as [Lt|Ge].
  - reflexivity.
  - unfold set_srcs; cbn. f_equal. apply sub_leaf. lia.
Qed.

(** *** The passes *)
Lemma bt_lookup_eq p : bt_lookup btr p = lookup spec p.
Proof.
  assert (DEC : present p \/ ~ present p).
  { destruct (in_dec addr_eq_dec p order) as [H|H]; [left; apply (@AnyTree.in_order R (psrc R) NN 2 cpos c l cap srcs rc h Hok) in H; exact H|].
    right. intros P. apply H. apply (@AnyTree.in_order R (psrc R) NN 2 cpos c l cap srcs rc h Hok). exact P. }
  destruct DEC as [P|P].
  - rewrite (@AnyTree.lookup_mk R (psrc R) NN 2 cpos c l cap srcs rc h Hok p P), (mk_eq p P). apply any_lookup; [exact H2|]. apply pres_s. exact P.
  - rewrite (@AnyTree.lookup_None R (psrc R) NN 2 cpos c l cap srcs rc h Hok p P).
    unfold bt_lookup, any_bal. cbn [bt_nodes bt_leaves]. rewrite <- map_app.
    match goal with |- find _ (map bmk ?ps) = None => assert (NI : ~ In p ps) end.
    { intros K. apply P, pres_s. apply in_app_or in K. destruct K as [K|K].
      - apply in_flat_map in K. destruct K as (k & _ & K). apply AdaptiveProofs.in_level in K. apply K.
      - apply AdaptiveProofs.in_level in K. apply K. }
    clear P. revert NI. generalize (flat_map slevel (seq 0 h) ++ slevel h). intros ps. induction ps as [|q ps IH]; intros NI; [reflexivity|].
    cbn [map find]. rewrite an_addr_mk. destruct (addr_eqb q p) eqn:Eq.
    + apply addr_eqb_eq in Eq. subst q. exfalso. apply NI. left. reflexivity.
    + apply IH. intros K. apply NI. right. exact K.
Qed.
Lemma lvl_map k : map bmk (slevel k) = map mk (level k).
Proof.
  rewrite lvl_s. apply map_ext_in. intros p Hp. symmetry. apply mk_eq, pres_s. apply AdaptiveProofs.in_level in Hp. apply Hp.
Qed.
Lemma X_nil p : present p -> nl_X ls p = [].
Proof.
  intros P. apply pres_s in P. destruct (nl_X ls p) as [|q qs] eqn:EX; [reflexivity|]. exfalso.
  assert (Q : In q (nl_X ls p)) by (rewrite EX; left; reflexivity).
  apply (ListContents.final_X_in 2 pos0 c0 1 0 ss0 (ByDepth h) h (Hc0 2) (height_ok_bal 2 pos0 c0 1 ss0 h H2 (Hc0 2)) p q P) in Q. destruct Q as (Pq & Rq & X).
  rewrite refined_eq in Rq. apply Nat.ltb_ge in Rq. unfold xrel in X. apply andb_true_iff in X. destruct X as [X _].
  apply andb_true_iff in X. destruct X as [X _]. apply Nat.ltb_lt in X. apply (shape_present (psrc R) 2 h H2) in P. lia.
Qed.
Lemma W_nil p : present p -> nl_W ls p = [].
Proof.
  intros P. apply pres_s in P. destruct (nl_W ls p) as [|q qs] eqn:EX; [reflexivity|]. exfalso.
  assert (Q : In q (nl_W ls p)) by (rewrite EX; left; reflexivity).
  apply (ListContents.final_W_in 2 pos0 c0 1 0 ss0 (ByDepth h) h (Hc0 2) (height_ok_bal 2 pos0 c0 1 ss0 h H2 (Hc0 2)) p q P) in Q. destruct Q as (Pq & Rq & X).
  rewrite refined_eq in Rq. apply Nat.ltb_ge in Rq. unfold wrel in X. apply andb_true_iff in X. destruct X as [X _].
  apply andb_true_iff in X. destruct X as [X _]. apply Nat.ltb_lt in X. apply (shape_present (psrc R) 2 h H2) in Pq. lia.
Qed.

Section Arrays.
Context {ME LE Tb : Type}.
Variable o : ops ME LE Tb.
Variable tb0 : Tb.
Lemma bmem0_eq : bmem0 o btr tb0 = mem0 o spec tb0.
Proof. unfold bmem0, mem0. f_equal; apply functional_extensionality; intros a; rewrite bt_lookup_eq; reflexivity. Qed.
Lemma bal_level_ok k : (k < h)%nat -> bal_level 2 btr k = Ok (map mk (level k)).
Proof.
  intros Hk. unfold bal_level, any_bal. cbn [bt_nodes].
  assert (SP : seq 0 h = seq 0 k ++ k :: seq (Datatypes.S k) (h - Datatypes.S k)).
  { replace (k :: seq (Datatypes.S k) (h - Datatypes.S k)) with (seq k (Datatypes.S (h - Datatypes.S k))) by reflexivity.
    rewrite <- (seq_app k _ 0). f_equal. lia. }
  rewrite SP, flat_map_app, map_app. cbn [flat_map]. rewrite map_app.
  assert (OF : ((n_children 2 ^ k - 1) / (n_children 2 - 1))%nat = length (map bmk (flat_map slevel (seq 0 k)))).
  { rewrite map_length, (nodes_count 2 pos0 c0 1 ss0 h H2 (Hc0 2)) by lia. assert (N := nc_ge 2 pos0 c0 ss0 H2 (Hc0 2) (Hpos0 2)).
    rewrite <- (geom 2 c0 H2 (Hc0 2) (n_children 2) k N), Nat.add_sub, Nat.mul_comm. apply Nat.div_mul. lia. }
  assert (LN : (n_children 2 ^ k)%nat = length (map bmk (slevel k))).
  { rewrite map_length, shape_level by (assumption || lia). symmetry. apply all_boxes_length. }
  rewrite OF. rewrite LN. rewrite (slice_ok 2 c0 h H2 (Hc0 2) Hh Hh32). rewrite lvl_map. reflexivity.
Qed.
Lemma in_level_present k p : In p (level k) -> present p.
Proof. intros H. apply AnyTree.in_level in H. apply H. Qed.
Lemma bit_m2m_eq k p : In p (level k) -> bit_m2m o btr (mk p) = it_m2m o 2 spec (mk p).
Proof.
  intros H. assert (P := in_level_present _ _ H). unfold bit_m2m, it_m2m. cbn [AnyTree.mk an_addr any_bal bt_children].
  rewrite (@AnyTree.children_eq R (psrc R) NN 2 cpos c l cap srcs rc h Hok p P), (b_ch _ _ _ _ _ _ _ _ _ F p) by (apply pres_s; exact P). reflexivity.
Qed.
Lemma bit_local_eq k p : In p (level k) -> bit_local o ls (mk p) = it_local o spec ls (mk p).
Proof.
  intros H. assert (P := in_level_present _ _ H). unfold bit_local, it_local. cbn [AnyTree.mk an_addr].
  rewrite X_nil by exact P. cbn [map]. rewrite !app_nil_r. reflexivity.
Qed.
Notation leaf_level := (@AnyTree.leaf_level R (psrc R) NN 2 cpos c l cap srcs rc).
Notation inner_level := (@AnyTree.inner_level R (psrc R) NN 2 cpos c l cap srcs rc).
Lemma lvl_len k p : In p (level k) -> length p = k.
Proof. intros H. apply AnyTree.in_level in H. apply H. Qed.
Lemma leaf_level_lt k : (k < h)%nat -> leaf_level k = [].
Proof.
  intros H. unfold AnyTree.leaf_level. rewrite filter_false; [reflexivity|]. intros p Hp. apply lvl_len in Hp.
  rewrite rf, (proj2 (Nat.ltb_lt _ _)) by lia. reflexivity.
Qed.
Lemma leaf_level_h : leaf_level h = map mk (level h).
Proof.
  unfold AnyTree.leaf_level. rewrite filter_true; [reflexivity|]. intros p Hp. apply lvl_len in Hp. rewrite rf, Hp, Nat.ltb_irrefl. reflexivity.
Qed.
Lemma inner_level_lt k : (k < h)%nat -> inner_level k = map mk (level k).
Proof.
  intros H. unfold AnyTree.inner_level. rewrite filter_true; [reflexivity|]. intros p Hp. apply lvl_len in Hp. rewrite rf, (proj2 (Nat.ltb_lt _ _)) by lia. reflexivity.
Qed.
Lemma nth_nodes k : (k < h)%nat -> nth k (at_nodes spec) [] = map mk (level k).
Proof.
  intros H. unfold AnyTree.spec_tree; cbn [at_nodes]. rewrite <- (inner_level_lt k H).
  rewrite (nth_indep _ [] (inner_level 0)) by (rewrite map_length, seq_length; exact H).
  rewrite map_nth, seq_nth by exact H. reflexivity.
Qed.
Lemma nth_leaves k : (k <= h)%nat -> nth k (at_leaves spec) [] = leaf_level k.
Proof.
  intros H. unfold AnyTree.spec_tree; cbn [at_leaves].
  rewrite (nth_indep _ [] (leaf_level 0)) by (rewrite map_length, seq_length; lia).
  rewrite map_nth, seq_nth by lia. reflexivity.
Qed.
Lemma bal_regions_ok : (1 <= h)%nat -> exists rgs, bal_regions o 2 btr ls = Ok rgs /\
  forall m r, passes_result rgs m r <-> passes_result (regions o 2 spec ls) m r.
Proof.
  intros H1. unfold bal_regions, regions. change (bt_height btr) with h. change (at_height spec) with h.
  change (bt_leaves btr) with (map bmk (slevel h)). rewrite lvl_map.
  rewrite (omapM_ok _ (fun k => map (it_m2m o 2 spec) (nth k (at_nodes spec) [])) (rev (seq 2 (h - 2)))).
  2:{ intros k Hk. apply in_rev in Hk. apply in_seq in Hk. rewrite bal_level_ok by lia. unfold omap; cbn [bind]. f_equal.
      rewrite nth_nodes by lia. rewrite !map_map. apply map_ext_in. intros p Hp. eapply bit_m2m_eq. exact Hp. }
  cbn [bind].
  rewrite (omapM_ok _ (fun k => map (it_local o spec ls) (nth k (at_nodes spec) [] ++ nth k (at_leaves spec) [])) (seq 2 (h - 2))).
  2:{ intros k Hk. apply in_seq in Hk. rewrite bal_level_ok by lia. unfold omap; cbn [bind]. f_equal.
      rewrite nth_nodes, nth_leaves, leaf_level_lt by lia. rewrite app_nil_r, !map_map. apply map_ext_in. intros p Hp. eapply bit_local_eq. exact Hp. }
  cbn [bind]. eexists. split; [reflexivity|]. intros mm r.
  match goal with |- _ <-> passes_result (?A ++ ?B) mm r => 
    assert (EA : A = map (fun _ => []) (seq 0 h) ++ [map (it_p2m o) (map mk (level h))]) end.
  { unfold AnyTree.spec_tree; cbn [at_leaves]. rewrite seq_S, !map_app. cbn [map Nat.add]. rewrite leaf_level_h. f_equal.
    rewrite map_map. apply map_ext_in. intros k Hk. apply in_seq in Hk. rewrite leaf_level_lt by lia. reflexivity. }
  rewrite EA, <- app_assoc. rewrite (passes_skips (map (fun _ => []) (seq 0 h))).
  2:{ intros e He. apply in_map_iff in He. destruct He as (? & <- & _). reflexivity. }
  rewrite nth_leaves, leaf_level_h by lia.
  assert (EL : map (bit_local o ls) (map mk (level h)) = map (it_local o spec ls) (map mk (level h))).
  { rewrite !map_map. apply map_ext_in. intros p Hp. eapply bit_local_eq. exact Hp. }
  rewrite EL. reflexivity.
Qed.
End Arrays.

(** *** Geometry *)
Let Hc := b_c _ _ _ _ _ _ _ _ _ F.
Let Hl := b_l _ _ _ _ _ _ _ _ _ F.
Let Hctr := b_ctr _ _ _ _ _ _ _ _ _ F.
Notation rd := (rad l).
Let Hl0 : 0 < l. Proof. lra. Qed.
Lemma pres_len p : present p -> (length p <= h)%nat. Proof. intros P. apply pres in P. apply P. Qed.
Lemma descent x k n j : (j < 2)%nat -> Rabs (nth j (box_ctr 2 c l (path x (k + n))) 0 - nth j (box_ctr 2 c l (path x k)) 0) <= (l / 2 ^ k - l / 2 ^ (k + n)) / 2.
Proof.
  intros Hj. induction n as [|n IH].
  - rewrite Nat.add_0_r. unfold Rminus. rewrite !Rplus_opp_r, Rabs_R0. lra.
  - rewrite Nat.add_succ_r. cbn [AnyTree.path]. 
    match goal with |- Rabs (nth j (box_ctr 2 c l (?i :: ?p)) 0 - _) <= _ => assert (B := box_ctr_child 2 c l i p j Hc Hl0 Hj) end.
    rewrite AnyTree.path_length in B. assert (P := pow2_pos (k + n)). replace (l / 2 ^ S (k + n)) with (l / 2 ^ (k + n) / 2) by (cbn [pow]; field; lra).
    apply Req_le in B. apply abs2 in B, IH. apply Rabs_le. lra.
Qed.
Lemma path_trunc s b : In s (sub b) -> (length b <= h)%nat -> path (cpos s) (length b) = b /\ path (cpos s) h = lf s.
Proof. intros Hs _. apply AnyTree.sub_path in Hs. destruct Hs as [Hs E]. split; [exact E|]. apply path_leaf. exact Hs. Qed.
Lemma source_near s b : In s (sub b) -> (length b <= h)%nat -> near_box h c l b (ps_pos s).
Proof.
  intros Hs Lb j Hj. destruct (path_trunc s b Hs Lb) as (E1 & E2). assert (Is := @AnyTree.sub_incl R (psrc R) NN 2 cpos c l srcs _ _ Hs).
  destruct (b_leaf _ _ _ _ _ _ _ _ _ F _ (among_src s Is)) as (_ & _ & _ & G). specialize (G j Hj).
  assert (D := descent (cpos s) (length b) (h - length b) j Hj). replace (length b + (h - length b))%nat with h in D by lia. rewrite E1, E2 in D.
  unfold side. assert (W := wh_pos h l m M Hm Hl). apply abs2 in G, D. apply Rabs_le. lra.
Qed.

Definition dummy : @atree R (psrc R) := spec.
Lemma dummy_h : (at_height dummy <= h)%nat. Proof. apply le_n. Qed.
Lemma inter_facts b q : present b -> In q (nl_inter ls b) -> present q /\ length q = length b /\ (1 <= length b)%nat /\ touch 2 (tl b) (tl q) = true /\ touch 2 b q = false.
Proof.
  intros P Hq. apply (proj2 (shape_inter (psrc R) 2 h H2 b (proj1 (pres_s b) P)) q) in Hq. destruct Hq as (Q & X). split; [apply pres_s; exact Q|exact X].
Qed.
Lemma near_facts b q : present b -> In q (nl_near ls b) <-> present q /\ length q = length b /\ touch 2 b q = true.
Proof. intros P. rewrite (proj2 (shape_near (psrc R) 2 h H2 b (proj1 (pres_s b) P)) q), pres_s. reflexivity. Qed.
Lemma inter_count b : present b -> (length (nl_inter ls b) <= 27)%nat.
Proof.
  intros P. apply (count_inter b); [apply (shape_inter (psrc R) 2 h H2 b (proj1 (pres_s b) P))|]. intros q Hq. destruct (inter_facts b q P Hq) as (Q & X). split; [apply pres, Q|exact X].
Qed.
Lemma near_count b : present b -> (length (nl_near ls b) <= 9)%nat.
Proof.
  intros P. apply (count_near b); [apply (shape_near (psrc R) 2 h H2 b (proj1 (pres_s b) P))|]. intros q Hq. apply (near_facts b q P) in Hq. destruct Hq as (Q & X). split; [apply pres, Q|exact X].
Qed.
Lemma geo0 b : present b -> 0 < rd b /\ length (ctr b) = 2%nat.
Proof. intros P. split; [unfold rad; assert (S := side_pos l m M Hm Hl b); lra|]. apply Hctr, pres_len, P. Qed.
Lemma geo1 b s : present b -> In s (sub b) -> dist (ps_pos s) (ctr b) <= rd b.
Proof.
  intros P Hs. assert (N := near_rad rnd h c l m M Hm Hl Hctr b (ps_pos s) (pres_len b P) (source_near s b Hs (pres_len b P))).
  rewrite dist_Cmod; [exact N| |apply geo0, P]. apply Hdim. exact (@AnyTree.sub_incl R (psrc R) NN 2 cpos c l srcs _ _ Hs).
Qed.
Lemma geo2 i b : present (i :: b) -> rd (i :: b) + Cmod (cplx (ctr (i :: b)) - cplx (ctr b)) <= rd b.
Proof.
  intros P. assert (Lb := pres_len _ P). cbn [length] in Lb. assert (W := wh_side h l m M Hm Hl (i :: b) ltac:(cbn [length]; lia)). assert (W' := wh_pos h l m M Hm Hl). assert (HS := half_side l i b).
  assert (X : Cmod (cplx (ctr (i :: b)) - cplx (ctr b)) <= 1415 / 1000 * (side l b / 4 + l / 2 ^ h / 2500)).
  { apply Cmod_le_coord. intros j Hj. destruct (Hctr (i :: b) ltac:(cbn [length]; lia)) as (_ & C). specialize (C j Hj). destruct (Hctr b ltac:(lia)) as (_ & C'). specialize (C' j Hj).
    assert (B := box_ctr_child 2 c l i b j Hc Hl0 Hj). fold (side l b) in B. revert B C C'.
    generalize (nth j (box_ctr 2 c l (i :: b)) 0) (nth j (box_ctr 2 c l b) 0) (nth j (ctr (i :: b)) 0) (nth j (ctr b) 0). intros a a1 a2 a3 B C C'.
    assert (B' := Req_le _ _ B). apply abs2 in B', C, C'. apply Rabs_le. lra. }
  unfold rad. lra.
Qed.
Variable Lam : R.
Hypothesis HLam : forall r, m / 2 ^ h <= r <= 8 * M -> Rabs (ln r) <= Lam.
Lemma geo3 b q : present b -> In q (nl_inter ls b) -> present q /\ (2 <= length q)%nat /\
  rd b + rd q <= 3 / 4 * Cmod (cplx (ctr q) - cplx (ctr b)) /\ Rabs (ln (Cmod (cplx (ctr q) - cplx (ctr b)))) <= Lam.
Proof.
  intros P Hq. destruct (inter_facts b q P Hq) as (Q & V1 & _ & _ & V3).
  assert (LB := pres_len b P). assert (LQ := pres_len q Q). split; [exact Q|]. split.
  { destruct (le_lt_dec (length b) 1) as [Z|Z]; [|lia]. rewrite (shallow h dummy dummy_h c Hc) in V3 by lia. discriminate. }
  assert (G := gap_centers rnd h dummy dummy_h c l m M Hm Hc Hl Hctr b q LB (eq_sym V1) V3). assert (S := side_pos l m M Hm Hl b). assert (E : side l q = side l b) by (unfold side; rewrite V1; reflexivity). split.
  - unfold rad. rewrite E. lra.
  - apply (span_ln h c l m M Hm Hl Lam HLam (ctr q) (ctr b) (1999 / 1000 * side l b)); [intros j Hj; apply (ctr_span rnd h c l m M Hm Hc Hl Hctr); assumption..| |exact G].
    assert (W := wh_side h l m M Hm Hl b LB). lra.
Qed.
Lemma geo4 b q : present b -> In q (nl_X ls b) -> present q /\ refined q = false /\
  forall s, In s (sub q) -> rd b <= 3 / 4 * Cmod (src_at (cplx (ctr b)) s) /\ Rabs (ln (Cmod (src_at (cplx (ctr b)) s))) <= Lam.
Proof. intros P Hq. rewrite (X_nil b P) in Hq. destruct Hq. Qed.
Lemma geo5 b : present b -> (length b <= 1)%nat -> nl_inter ls b = [] /\ nl_X ls b = [].
Proof.
  intros P Lb. split; [|apply X_nil; exact P]. destruct (nl_inter ls b) as [|q r] eqn:E; [reflexivity|exfalso]. assert (Hq : In q (nl_inter ls b)) by (rewrite E; left; reflexivity).
  destruct (inter_facts b q P Hq) as (Q & V1 & _ & _ & V3). rewrite (shallow h dummy dummy_h c Hc) in V3 by lia. discriminate.
Qed.

(** *** The sources reach a leaf once *)
Notation leaf_addrs := (@AnyTree.leaf_addrs R (psrc R) NN 2 cpos c l cap srcs rc h).
Lemma leaf_addrs_eq : leaf_addrs = all_boxes 2 h.
Proof.
  unfold AnyTree.leaf_addrs. rewrite seq_S, flat_map_app. cbn [flat_map Nat.add]. rewrite app_nil_r.
  rewrite (filter_true _ (level h)) by (intros p Hp; apply lvl_len in Hp; rewrite rf, Hp, Nat.ltb_irrefl; reflexivity).
  rewrite flat_map_nil; [apply lvl; apply le_n|]. intros k Hk. apply in_seq in Hk. rewrite filter_false; [reflexivity|]. intros p Hp. apply lvl_len in Hp.
  rewrite rf, (proj2 (Nat.ltb_lt _ _)) by lia. reflexivity.
Qed.
Notation rfar := (@rfar NN c l srcs cpos ls).
Lemma cover L : present L -> refined L = false -> Permutation (flat_map sub (nl_near ls L) ++ flat_map sub (nl_W ls L) ++ rfar L) srcs.
Proof.
  intros P N. rewrite (W_nil L P). cbn [flat_map app]. assert (PL := proj1 (pres L) P). rewrite rf in N. apply Nat.ltb_ge in N.
  assert (C := shape_coverage (psrc R) 2 h H2 L (proj1 PL) ltac:(lia)). apply (Permutation_flat_map sub) in C. rewrite flat_map_app in C.
  transitivity (flat_map sub (all_boxes 2 h)).
  - rewrite <- C. apply Permutation_app_head. unfold RoundedPasses.rfar. 
    assert (AP : forall a, In a (ancestors_or_self L) -> present a) by (intros a Ha; eapply AnyLists.present_suf; eassumption).
    revert AP. generalize (ancestors_or_self L) as As. intros As. induction As as [|a As IH]; intros AP; [reflexivity|]. cbn [flat_map]. rewrite flat_map_app.
    apply Permutation_app; [|apply IH; intros; apply AP; right; assumption]. assert (Pa := AP a (or_introl eq_refl)).
    unfold RoundedPasses.ofar. rewrite (X_nil a Pa). cbn [flat_map]. rewrite app_nil_r.
    assert (IP : forall q, In q (nl_inter ls a) -> present q) by (intros q Hq; apply (inter_facts a q Pa Hq)).
    revert IP. generalize (nl_inter ls a) as Is. intros Is. induction Is as [|q Is IHI]; intros IP; [reflexivity|]. cbn [flat_map]. rewrite flat_map_app.
    apply Permutation_app; [|apply IHI; intros; apply IP; right; assumption]. symmetry.
    rewrite <- leaf_addrs_eq. apply AnyTree.sub_below; [exact Hok|]. apply IP. left. reflexivity.
  - rewrite <- leaf_addrs_eq. apply AnyTree.sub_leaves_perm. exact Hok.
Qed.
Lemma near_other x q s : present q -> refined q = false -> q <> leaf x -> In s (sub q) -> ps_pos s <> x.
Proof.
  intros P N NE Hs E. rewrite rf in N. apply Nat.ltb_ge in N. assert (LQ := pres_len q P). assert (L : length q = h) by lia.
  rewrite (sub_leaf q L) in Hs. apply filter_In in Hs. destruct Hs as [_ Hs]. apply addr_eqb_eq in Hs. apply NE. rewrite <- Hs, E. reflexivity.
Qed.
End Bal.
