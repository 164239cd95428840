(** The properties of the adaptive tree in rounded arithmetic. *)
From Coq Require Import List Bool ZArith Arith Lia Lra Reals Permutation.
From Verif Require Import Num Outcome Vec Orthtree AdaptiveTree TreeSpec VecProofs GeometrySpec GeometryProofs TreeGeometry AdaptiveProofs
  BfsProofs ListProofs ListContents RootBoxProofs BuildProofs BalancedTree BalancedSpec BalancedIndex BalancedAddr AnyBalanced AnyTree AnyLists AnyTheorems
  RoundedSpec RoundedTree RoundedTreeSpec RoundedTreeProofs.
Import ListNotations.
Local Open Scope R_scope.

Lemma touch_drop d a b : forall p q, touch d p q = true -> touch d (skipn a p) (skipn b q) = true.
Proof.
  assert (L : forall n p q, touch d p q = true -> touch d (skipn n p) q = true).
  { induction n as [|n IH]; intros p q T; [exact T|]. destruct p as [|i p]; [exact T|]. cbn [skipn]. apply IH. eapply touch_up_l. exact T. }
  intros p q T. apply L. rewrite touch_sym. apply L. rewrite touch_sym. exact T.
Qed.

Section Theorems.
Variable rnd : R -> R.
Variable hyp : list R -> R.
Hypothesis HD : double_like rnd hyp.
Notation NN := (NumRnd rnd).
Notation DD := (DistRnd hyp).
Context {Src : Type}.
Variables d h : nat.
Variable pos : Src -> list R.
Variable srcs : list Src.
Hypothesis HR : in_adaptive_range d h pos srcs.
Variables cap fuel : nat.
Variable t : @atree R Src.
Hypothesis HB : @build_adaptive R NN Src d pos cap fuel srcs = Ok t.
Hypothesis Ht : (at_height t <= h)%nat.

Notation rc := (rr cap srcs).

(** What is known of the tree. *)
Record afacts (c : list R) (l : R) (h0 : nat) : Prop := {
  a_root : @root_box R NN d (map pos srcs) = Some (c, l);
  a_len : 0 < l;
  a_ok : @height_ok R Src NN d pos c l cap srcs rc h0;
  a_t : t = @spec_tree R Src NN d pos c l cap srcs rc h0;
  a_h : (h0 <= h)%nat;
  a_grid : forall p, (length p <= h)%nat -> let w := l / 2 ^ length p in Rabs (@blen R NN l p - w) <= w / 1000 /\
     forall j, (j < d)%nat -> Rabs (nth j (@ctr R NN d c l p) 0 - (nth j c 0 - l / 2 + (IZR (gco d j p) + 1 / 2) * w)) <= w / 1000;
  a_adj : forall p q, (length p <= h)%nat -> (length q <= h)%nat ->
     @adjacent R NN d (@ctr R NN d c l p) (@blen R NN l p) (@ctr R NN d c l q) (@blen R NN l q) = touch d p q;
  a_gap : forall p q, (length p <= h)%nat -> (length q <= h)%nat ->
     (touch d p q = true -> forall j, (j < d)%nat -> Rabs (nth j (@ctr R NN d c l p) 0 - nth j (@ctr R NN d c l q) 0) <=
        (@blen R NN l p + @blen R NN l q) / 2 + Rmin (@blen R NN l p) (@blen R NN l q) / 400) /\
     (touch d p q = false -> exists j, (j < d)%nat /\
        (@blen R NN l p + @blen R NN l q) / 2 + 98 / 100 * Rmin (@blen R NN l p) (@blen R NN l q) <=
        Rabs (nth j (@ctr R NN d c l p) 0 - nth j (@ctr R NN d c l q) 0));
  a_apart : forall p q, length q = length p -> (length p <= h)%nat -> touch d p q = false ->
     @too_close R NN DD Src (@mk0 R Src NN d c l h p) (@mk0 R Src NN d c l h q) = false /\
     exists j, (j < d)%nat /\ 199 / 100 * @blen R NN l p <= Rabs (nth j (@ctr R NN d c l p) 0 - nth j (@ctr R NN d c l q) 0);
  a_path : forall x, among d pos srcs x -> forall k j, (k <= h)%nat -> (j < d)%nat ->
     Rabs (nth j x 0 - nth j (@ctr R NN d c l (@AnyTree.path R NN d c l x k)) 0) <= 51 / 100 * @blen R NN l (@AnyTree.path R NN d c l x k);
  a_in : forall x p, (length p <= h)%nat ->
     (forall j, (j < d)%nat -> Rabs (nth j x 0 - nth j (@ctr R NN d c l p) 0) <= 499 / 1000 * @blen R NN l p) ->
     @contains R NN d (@ctr R NN d c l p) (@blen R NN l p) x = true /\ (valid d p -> @AnyTree.path R NN d c l x (length p) = p) }.

Lemma afacts_of : exists c l h0, afacts c l h0.
Proof.
  destruct HD as ((u & Hu & Hacc) & Hint & Hhyp). destruct HR as (Hd & Hh & Hpos & m & M & Hsur & Hm & HmM & HmMh).
  assert (HM : 0 < m <= M).
  { split; [exact Hm|]. destruct (Hsur 0%nat ltac:(lia)) as (_ & (s & Hs & G) & B). specialize (B s Hs). apply abs2 in B. lra. }
  edestruct (box_facts rnd hyp) as (c & l & R0 & Hl & G & A & GA & AP & P & I); try eassumption.
  destruct (@any_inv R Src NN d pos cap fuel srcs t HB) as (c' & l' & h0 & R1 & Hok & E). rewrite R0 in R1. injection R1 as <- <-.
  exists c, l, h0. split; try assumption; try lra. rewrite E in Ht. exact Ht.
Qed.

Section Facts.
Variable c : list R.
Variable l : R.
Variable h0 : nat.
Hypothesis F : afacts c l h0.
Notation pres := (@present R Src NN d pos c l cap srcs rc).
Notation refd := (@refined R Src NN d pos c l cap srcs rc).
Notation node := (@mk R Src NN d pos c l cap srcs rc).
Notation fin := (@final R Src NN d pos c l cap srcs rc h0).
Notation tchd := (@tch R Src NN d pos c l cap srcs rc).
Notation spec := (@spec_tree R Src NN d pos c l cap srcs rc h0).
Notation leafs := (@leaf_addrs R Src NN d pos c l cap srcs rc h0).

Lemma pres_h p : pres p -> (length p <= h)%nat.
Proof. intros P. assert (A := @present_depth R Src NN d pos c l cap srcs rc h0 (a_ok _ _ _ F) p P). assert (B := a_h _ _ _ F). lia. Qed.
Lemma adjb_touch p q : (length p <= h)%nat -> (length q <= h)%nat -> @adjb R Src NN d pos c l cap srcs rc p q = touch d p q.
Proof. intros Hp Hq. apply (a_adj _ _ _ F); assumption. Qed.
Lemma tch_touch p q : (length p <= h)%nat -> (length q <= h)%nat -> tchd p q = touch d p q.
Proof.
  intros Hp Hq. unfold tch, anc. apply eq_true_iff_eq. rewrite forallb_forall. split.
  - intros A. destruct (Nat.eq_dec (Nat.max (length p) (length q)) 0) as [Z|Z].
    + destruct p; [apply touch_root_l|cbn [length] in Z; lia].
    + specialize (A (Nat.max (length p) (length q)) ltac:(apply in_seq; lia)).
      replace (length p - Nat.max (length p) (length q))%nat with 0%nat in A by lia.
      replace (length q - Nat.max (length p) (length q))%nat with 0%nat in A by lia. cbn [skipn] in A. rewrite adjb_touch in A; assumption.
  - intros T k _. rewrite adjb_touch; [apply touch_drop; exact T| |]; rewrite skipn_length; lia.
Qed.
Lemma adjb_comm p q : @adjb R Src NN d pos c l cap srcs rc p q = @adjb R Src NN d pos c l cap srcs rc q p.
Proof. unfold adjb, nodes_adjacent. apply adjacent_sym. apply nmin_sym. Qed.
Lemma not_bad p : pres p -> @bad R Src NN DD d pos c l cap srcs rc p = false.
Proof.
  intros P. destruct p as [|i p]; [reflexivity|]. cbn [bad]. apply not_true_is_false. intros B. apply existsb_exists in B.
  destruct B as (pn & Hpn & B). cbn [present] in P. destruct P as (Hi & P & Rp).
  apply (@own_near_in R Src NN d pos c l cap srcs rc) in Hpn; [|exact P]. destruct Hpn as (Pn & _ & LL). rewrite Rp in LL.
  unfold bad_neighbour, AnyLists.leaf in B. destruct (refd pn) eqn:Rn; cbn [negb] in B; [|discriminate].
  destruct LL as [LL|[_ LL]]; [|discriminate]. apply existsb_exists in B. destruct B as (q & Hq & B). unfold bad_child in B.
  apply andb_true_iff in B. destruct B as [B1 B2]. apply negb_true_iff in B1.
  assert (PP : pres (i :: p)) by (cbn [present]; auto).
  unfold kids in Hq. apply in_map_iff in Hq. destruct Hq as (j & <- & Hj). apply in_seq in Hj.
  assert (PQ : pres (j :: pn)) by (cbn [present]; split; [lia|auto]).
  rewrite tch_touch in B1 by (apply pres_h; assumption).
  assert (X := proj1 (a_apart _ _ _ F (i :: p) (j :: pn) ltac:(cbn [length]; lia) (pres_h _ PP) B1)).
  unfold too_close in B2, X. cbn [mk mk0 an_center an_len] in B2, X. congruence.
Qed.
Lemma lists_final : @all_lists R NN DD Src d t = Ok fin.
Proof.
  rewrite (a_t _ _ _ F). rewrite (@all_lists_events R Src NN DD d pos c l cap srcs rc h0 (a_ok _ _ _ F)).
  replace (existsb _ _) with false; [reflexivity|]. symmetry. apply not_true_is_false. intros B. apply existsb_exists in B.
  destruct B as (p & Hp & B). apply (@in_order R Src NN d pos c l cap srcs rc h0 (a_ok _ _ _ F)) in Hp. rewrite not_bad in B; [discriminate|exact Hp].
Qed.
Lemma leaf_is n : In n (leaf_nodes t) <-> exists p, pres p /\ refd p = false /\ n = node p.
Proof. rewrite (a_t _ _ _ F). apply (in_leaf_nodes d pos c l cap srcs h0 n (a_ok _ _ _ F)). Qed.
Lemma heap_is n : In n (heap t) <-> exists p, pres p /\ n = node p.
Proof. rewrite (a_t _ _ _ F). apply (@in_heap R Src NN d pos c l cap srcs rc h0 (a_ok _ _ _ F)). Qed.
Lemma meet_touch p q : pres p -> pres q -> (touch d p q = true <-> boxes_meet d (node p) (node q)).
Proof.
  intros P Q. apply pres_h in P, Q. destruct (a_gap _ _ _ F p q P Q) as [A B]. split; [exact A|]. intros Mt.
  destruct (touch d p q); [reflexivity|]. destruct (B eq_refl) as (j & Hj & X). specialize (Mt j Hj). cbn [mk an_center an_len] in Mt.
  assert (G := proj1 (a_grid _ _ _ F p P)). assert (G' := proj1 (a_grid _ _ _ F q Q)). apply abs2 in G, G'. assert (LP := a_len _ _ _ F).
  assert (W1 : 0 < l / 2 ^ length p) by (apply Rdiv_lt_0_compat; [exact LP|apply pow2_pos]).
  assert (W2 : 0 < l / 2 ^ length q) by (apply Rdiv_lt_0_compat; [exact LP|apply pow2_pos]).
  assert (0 < Rmin (@blen R NN l p) (@blen R NN l q)) by (apply Rmin_glb_lt; lra). exfalso. lra.
Qed.
Lemma apart_touch p q : pres p -> pres q -> touch d p q = false -> boxes_apart d (node p) (node q).
Proof. intros P Q T. apply pres_h in P, Q. apply (a_gap _ _ _ F p q P Q). exact T. Qed.
End Facts.

Theorem adaptive_lists_ok : exists ls, @all_lists R NN DD Src d t = Ok ls.
Proof. destruct afacts_of as (c & l & h0 & F). eexists. eapply lists_final; exact F. Qed.
Variable ls : nlists.
Hypothesis HL : @all_lists R NN DD Src d t = Ok ls.

Theorem adaptive_near n : In n (leaf_nodes t) -> NoDup (nl_near ls (an_addr n)) /\
  forall q, In q (nl_near ls (an_addr n)) <-> exists m, In m (leaf_nodes t) /\ an_addr m = q /\ boxes_meet d n m.
Proof.
  destruct afacts_of as (c & l & h0 & F). rewrite (lists_final c l h0 F) in HL. injection HL as <-.
  intros Hn. apply (leaf_is c l h0 F) in Hn. destruct Hn as (p & P & N & ->). cbn [mk an_addr]. split.
  { apply final_near_leaf_NoDup; [exact (a_ok _ _ _ F)|exact P|exact N]. }
  intros q. rewrite (final_near_leaf _ _ _ _ _ _ _ (adjb_comm c l) _ (a_ok _ _ _ F) p q P N). split.
  - intros (Q & Nq & T). rewrite (tch_touch c l h0 F) in T by (apply (pres_h c l h0 F); assumption).
    exists (@mk R Src NN d pos c l cap srcs rc q). split; [apply (leaf_is c l h0 F); exists q; auto|]. split; [reflexivity|].
    apply (meet_touch c l h0 F); assumption.
  - intros (m & Hm & <- & T). apply (leaf_is c l h0 F) in Hm. destruct Hm as (q & Q & Nq & ->). cbn [mk an_addr].
    split; [exact Q|]. split; [exact Nq|]. rewrite (tch_touch c l h0 F) by (apply (pres_h c l h0 F); assumption).
    apply (meet_touch c l h0 F); assumption.
Qed.
Theorem adaptive_inter n q : In n (heap t) -> In q (nl_inter ls (an_addr n)) -> exists m, In m (heap t) /\ an_addr m = q /\ an_depth m = an_depth n /\
  exists j, (j < d)%nat /\ 199 / 100 * an_len n <= Rabs (nth j (an_center n) 0 - nth j (an_center m) 0).
Proof.
  destruct afacts_of as (c & l & h0 & F). rewrite (lists_final c l h0 F) in HL. injection HL as <-.
  intros Hn Hq. apply (heap_is c l h0 F) in Hn. destruct Hn as (p & P & ->). cbn [mk an_addr] in Hq.
  apply (final_inter_in _ _ _ _ _ _ _ _ (a_ok _ _ _ F) p q P) in Hq. destruct Hq as (Q & V). unfold vrel in V. rewrite !andb_true_iff in V.
  destruct V as (((V1 & V2) & _) & V3). apply Nat.eqb_eq in V1. apply negb_true_iff in V3.
  rewrite (tch_touch c l h0 F) in V3 by (apply (pres_h c l h0 F); assumption).
  exists (@mk R Src NN d pos c l cap srcs rc q). split; [apply (heap_is c l h0 F); exists q; auto|]. split; [reflexivity|].
  split; [cbn [mk an_depth]; lia|]. cbn [mk an_len an_center]. apply (a_apart _ _ _ F); [lia|apply (pres_h c l h0 F); exact P|exact V3].
Qed.
Theorem adaptive_X n q : In n (heap t) -> In q (nl_X ls (an_addr n)) -> exists m, In m (leaf_nodes t) /\ an_addr m = q /\
  (an_depth m < an_depth n)%nat /\ boxes_apart d n m.
Proof.
  destruct afacts_of as (c & l & h0 & F). rewrite (lists_final c l h0 F) in HL. injection HL as <-.
  intros Hn Hq. apply (heap_is c l h0 F) in Hn. destruct Hn as (p & P & ->). cbn [mk an_addr] in Hq.
  apply (final_X_in _ _ _ _ _ _ _ _ (a_ok _ _ _ F) p q P) in Hq. destruct Hq as (Q & Nq & V). unfold xrel in V. rewrite !andb_true_iff in V.
  destruct V as ((V1 & _) & V3). apply Nat.ltb_lt in V1. apply negb_true_iff in V3.
  rewrite (tch_touch c l h0 F) in V3 by (apply (pres_h c l h0 F); assumption).
  exists (@mk R Src NN d pos c l cap srcs rc q). split; [apply (leaf_is c l h0 F); exists q; auto|]. split; [reflexivity|].
  split; [exact V1|]. apply (apart_touch c l h0 F); assumption.
Qed.
Theorem adaptive_W n q : In n (heap t) -> In q (nl_W ls (an_addr n)) -> an_leaf n = true /\ exists m, In m (heap t) /\ an_addr m = q /\
  (an_depth n < an_depth m)%nat /\ boxes_apart d n m.
Proof.
  destruct afacts_of as (c & l & h0 & F). rewrite (lists_final c l h0 F) in HL. injection HL as <-.
  intros Hn Hq. apply (heap_is c l h0 F) in Hn. destruct Hn as (p & P & ->). cbn [mk an_addr] in Hq.
  apply (final_W_in _ _ _ _ _ _ _ _ (a_ok _ _ _ F) p q P) in Hq. destruct Hq as (Q & Np & V). unfold wrel in V. rewrite !andb_true_iff in V.
  destruct V as ((V1 & _) & V3). apply Nat.ltb_lt in V1. apply negb_true_iff in V3.
  rewrite (tch_touch c l h0 F) in V3 by (apply (pres_h c l h0 F); assumption).
  split; [unfold mk; cbn [an_leaf]; rewrite Np; reflexivity|].
  exists (@mk R Src NN d pos c l cap srcs rc q). split; [apply (heap_is c l h0 F); exists q; auto|]. split; [reflexivity|].
  split; [exact V1|]. rewrite touch_sym in V3. apply (apart_touch c l h0 F); assumption.
Qed.
Theorem adaptive_coverage L : In L (leaf_list t) ->
  Permutation (interactions t ls L) (leaf_list t) /\ Permutation (flat_map (leaf_sources t) (interactions t ls L)) srcs.
Proof.
  intros HI. destruct (@any_coverage R Src NN DD d pos cap fuel srcs t HB) as [X|(ls' & E & C)].
  - intros c l _ i j. apply nmin_sym.
  - congruence.
  - rewrite HL in E. injection E as <-. apply C. exact HI.
Qed.
Theorem adaptive_grid : exists c l, @root_box R NN d (map pos srcs) = Some (c, l) /\ 0 < l /\
  forall n, In n (heap t) -> (an_depth n <= at_height t)%nat /\ exists idx, grid_box d c l n idx.
Proof.
  destruct afacts_of as (c & l & h0 & F). exists c, l. split; [exact (a_root _ _ _ F)|]. split; [exact (a_len _ _ _ F)|].
  intros n Hn. split; [apply (@any_children R Src NN d pos cap fuel srcs t HB); exact Hn|].
  apply (heap_is c l h0 F) in Hn. destruct Hn as (p & P & ->). exists (gcos d p). assert (L := pres_h c l h0 F p P).
  destruct (a_grid _ _ _ F p L) as [G1 G2]. split; [|split].
  - split; [apply gcos_length|]. intros z Hz. apply (proj1 (Forall_forall _ _) (gcos_digits d p)). exact Hz.
  - exact G1.
  - intros j Hj. cbn [mk an_center an_depth]. rewrite gcos_nth by exact Hj. apply (G2 j Hj).
Qed.
Theorem adaptive_sources : Permutation (flat_map an_srcs (leaf_nodes t)) srcs /\
  (forall n, In n (leaf_nodes t) -> (length (an_srcs n) <= cap)%nat /\ forall s, In s (an_srcs n) -> almost_in d n (pos s)).
Proof.
  destruct afacts_of as (c & l & h0 & F). destruct (@any_partition R Src NN d pos cap fuel srcs t HB) as (P1 & P2 & _).
  split; [exact P1|]. intros n Hn. split; [apply (P2 n Hn)|]. apply (leaf_is c l h0 F) in Hn. destruct Hn as (p & P & N & ->).
  unfold mk; cbn [an_srcs]. rewrite N. intros s Hs. apply sub_path in Hs. destruct Hs as [Hs E]. intros j Hj. cbn [an_center an_len].
  assert (A := a_path _ _ _ F (pos s)). rewrite <- E. apply A; [|apply (pres_h c l h0 F); exact P|exact Hj].
  split; [apply HR; exact Hs|]. intros i Hi. exists s, s. repeat split; try assumption; lra.
Qed.
Theorem adaptive_descent x : among d pos srcs x -> exists n, @descend R NN Src d t (at_height t) [] x = Ok n /\ In n (leaf_nodes t) /\ almost_in d n x /\
  forall s, In s srcs -> pos s = x -> In s (an_srcs n).
Proof.
  intros A. destruct afacts_of as (c & l & h0 & F).
  destruct (@descend_root R Src NN d pos c l cap srcs rc h0 (a_ok _ _ _ F) x) as (p & D & N & P & E). rewrite <- (a_t _ _ _ F) in D.
  exists (@mk R Src NN d pos c l cap srcs rc p). split; [exact D|]. split; [apply (leaf_is c l h0 F); exists p; auto|]. split.
  - intros j Hj. cbn [mk an_center an_len]. rewrite <- E. apply (a_path _ _ _ F x A); [apply (pres_h c l h0 F); exact P|exact Hj].
  - intros s Hs Es. unfold mk; cbn [an_srcs]. rewrite N. apply sub_path. rewrite Es. auto.
Qed.
Theorem adaptive_containing x : among d pos srcs x ->
  (exists o, @containing_leaf R NN Src d t x = Ok o) /\
  (forall n, @containing_leaf R NN Src d t x = Ok (Some n) -> In n (leaf_nodes t) /\ almost_in d n x /\ forall s, In s srcs -> pos s = x -> In s (an_srcs n)) /\
  (forall n, In n (leaf_nodes t) -> inside d n x -> @containing_leaf R NN Src d t x = Ok (Some n)).
Proof.
  intros A. destruct (adaptive_descent x A) as (n & D & Hn & I & S). unfold containing_leaf. rewrite D. unfold omap; cbn [bind]. split; [|split].
  - eexists. reflexivity.
  - intros n' E. destruct (@contains R NN d (an_center n) (an_len n) x); [|discriminate]. injection E as <-. auto.
  - intros n' Hn' IN. destruct afacts_of as (c & l & h0 & F).
    destruct (@descend_root R Src NN d pos c l cap srcs rc h0 (a_ok _ _ _ F) x) as (p & D' & N & P & E). rewrite <- (a_t _ _ _ F), D in D'. injection D' as ->.
    apply (leaf_is c l h0 F) in Hn'. destruct Hn' as (q & Q & Nq & ->).
    destruct (a_in _ _ _ F x q (pres_h c l h0 F q Q) IN) as [C Eq]. specialize (Eq (present_forall _ _ _ _ _ _ _ q Q)).
    assert (p = q) as ->; [|unfold mk; cbn [an_center an_len]; rewrite C; reflexivity].
    assert (U : forall a b, @present R Src NN d pos c l cap srcs rc b -> @refined R Src NN d pos c l cap srcs rc a = false -> (length a < length b)%nat ->
      @path R NN d c l x (length a) = a -> @path R NN d c l x (length b) = b -> False).
    { intros a b Pb Na Lab Ea Eb.
      assert (X : forall k, exists r, length r = k /\ @path R NN d c l x (length a + k) = r ++ a).
      { induction k as [|k (r & Lr & Er)]; [exists []; rewrite Nat.add_0_r; auto|]. rewrite Nat.add_succ_r. cbn [path].
        exists (@get_orthant R NN d (@ctr R NN d c l (@path R NN d c l x (length a + k))) x :: r). split; [cbn [length]; lia|]. rewrite Er. reflexivity. }
      destruct (X (length b - length a)%nat) as (r & Lr & Er). replace (length a + (length b - length a))%nat with (length b) in Er by lia.
      destruct r as [|i r]; [cbn [length] in Lr; lia|]. rewrite Eb in Er. rewrite Er in Pb. apply present_app_refined in Pb. congruence. }
    destruct (lt_eq_lt_dec (length p) (length q)) as [[H|H]|H]; [exfalso; eapply (U p q); eassumption|congruence|exfalso; eapply (U q p); eassumption].
Qed.
End Theorems.

(** The refinement ends, by depth [h], if the sources are apart. *)
Theorem adaptive_ends rnd hyp {Src} d h (pos : Src -> list R) srcs cap fuel : double_like rnd hyp -> in_refinable_range d h pos srcs -> (1 <= cap)%nat ->
  (h <= fuel)%nat -> exists t, @build_adaptive R (NumRnd rnd) Src d pos cap fuel srcs = Ok t /\ (at_height t <= h)%nat.
Proof.
  intros HD HR Hcap Hf. destruct HD as ((u & Hu & Hacc) & Hint & Hhyp). destruct HR as (Hd & [Hh1 Hh] & Hpos & m & M & Hsur & (Hm & HmM & HmMh) & ND & AP).
  assert (HM : 0 < m <= M).
  { split; [exact Hm|]. destruct (Hsur 0%nat ltac:(lia)) as (_ & (s & Hs & G) & B). specialize (B s Hs). apply abs2 in B. lra. }
  destruct (box_facts rnd hyp u Hu Hacc Hint Hhyp d m M h Hd Hh HM HmM HmMh pos srcs Hpos Hsur) as (c & l & R0 & Hl & G & _ & _ & _ & P & _).
  assert (EMP : filter (@refined R Src (NumRnd rnd) d pos c l cap srcs (rr cap srcs)) (@level R Src (NumRnd rnd) d pos c l cap srcs (rr cap srcs) h) = []).
  { destruct (filter _ _) as [|p ps] eqn:E; [reflexivity|exfalso].
    assert (I : In p (p :: ps)) by (left; reflexivity). rewrite <- E in I. apply filter_In in I. destruct I as [I Rp]. apply in_level in I. destruct I as [L _].
    destruct p as [|i p]; [cbn [length] in L; lia|]. unfold refined, rr in Rp. cbn iota in Rp. apply Nat.ltb_lt in Rp. set (q := i :: p) in *.
    assert (NS : NoDup (@sub R Src (NumRnd rnd) d pos c l srcs q)) by (rewrite sub_filter; apply NoDup_filter; exact ND).
    destruct (@sub R Src (NumRnd rnd) d pos c l srcs q) as [|s [|s' ss]] eqn:ES; try (cbn [length] in Rp; lia).
    assert (S1 : In s (@sub R Src (NumRnd rnd) d pos c l srcs q)) by (rewrite ES; left; reflexivity).
    assert (S2 : In s' (@sub R Src (NumRnd rnd) d pos c l srcs q)) by (rewrite ES; right; left; reflexivity).
    assert (NE : s <> s') by (intros ->; apply NoDup_cons_iff in NS; apply (proj1 NS); left; reflexivity).
    apply sub_path in S1, S2. destruct S1 as [I1 E1], S2 as [I2 E2]. destruct (AP s s' I1 I2 NE) as (j & Hj & FAR).
    assert (AM : forall x, In x srcs -> among d pos srcs (pos x)).
    { intros x Hx. split; [apply Hpos; exact Hx|]. intros k Hk. exists x, x. repeat split; try assumption; lra. }
    assert (A1 := P (pos s) (AM s I1) (length q) j ltac:(lia) Hj). assert (A2 := P (pos s') (AM s' I2) (length q) j ltac:(lia) Hj). rewrite E1 in A1. rewrite E2 in A2.
    destruct (G q ltac:(lia)) as [B _]. rewrite L in B. set (w := l / 2 ^ h) in *. assert (PH := pow2_pos h).
    assert (W0 : 0 < w) by (apply Rdiv_lt_0_compat; lra). assert (WH : w * 2 ^ h = l) by (unfold w; field; lra).
    apply abs2 in A1, A2, B. set (a := nth j (pos s) 0) in *. set (b := nth j (pos s') 0) in *.
    assert (X : Rabs (a - b) <= 103 / 100 * w) by (apply Rabs_le; lra).
    assert (Y : Rabs (a - b) * 2 ^ h <= 103 / 100 * w * 2 ^ h) by (apply Rmult_le_compat_r; lra). rewrite Rmult_assoc, WH in Y. lra. }
  assert (EX : exists t, @build_adaptive R (NumRnd rnd) Src d pos cap fuel srcs = Ok t).
  { unfold build_adaptive. rewrite R0. unfold build_in_box. destruct (Nat.leb (length srcs) cap) eqn:E; [eexists; reflexivity|].
    assert (C := @build_from_root_complete R Src (NumRnd rnd) d pos c l cap srcs true fuel h eq_refl ltac:(lia)).
    unfold rr in EMP. rewrite E in EMP. cbn [negb] in EMP. specialize (C EMP). unfold root_entry, mk in C. cbn in C |- *.
    match type of C with ?x <> None => destruct x as [t|] eqn:ET end; [|congruence]. exists t. reflexivity. }
  destruct EX as [t HB]. exists t. split; [exact HB|].
  destruct (@any_inv R Src (NumRnd rnd) d pos cap fuel srcs t HB) as (c' & l' & h0 & R1 & [Z NZ] & E). rewrite R0 in R1. injection R1 as <- <-.
  rewrite E. cbn [at_height spec_tree]. destruct (Nat.le_gt_cases h0 h) as [|HG]; [assumption|]. exfalso. apply (NZ h HG). exact EMP.
Qed.
