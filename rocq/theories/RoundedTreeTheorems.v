(** The properties of the balanced tree in rounded arithmetic. *)
From Coq Require Import List Bool ZArith Arith Lia Lra Reals Permutation.
From Verif Require ListCounts.
From Verif Require Import AnyTree Num Outcome Vec Orthtree AdaptiveTree TreeSpec VecProofs GeometrySpec GeometryProofs TreeGeometry AdaptiveProofs
  BfsProofs ListProofs ListContents RootBoxProofs BuildProofs BalancedTree BalancedSpec BalancedIndex BalancedAddr BalancedProofs BalancedTheorems
  RoundedSpec RoundedTree RoundedTreeSpec AnyBalanced RoundedTreeProofs.
Import ListNotations.
Local Open Scope R_scope.

Section Theorems.
Variable rnd : R -> R.
Variable hyp : list R -> R.
Hypothesis HD : double_like rnd hyp.
Notation NN := (NumRnd rnd).
Notation DD := (DistRnd hyp).
Context {Src : Type}.
Variables d h : nat.
Variable pos : Src -> list R.
Variable srcs : list Src.
Hypothesis HR : in_range d h pos srcs.
Notation build := (@bal_build R NN DD Src d pos h srcs).
Notation pos0 := (fun _ : Src => @nil R).
Notation c0 := (repeat 0 d).
Notation present := (AdaptiveProofs.present d pos0 c0 1 0 (@nil Src) (ByDepth h)).
Notation level := (AdaptiveProofs.level d pos0 c0 1 0 (@nil Src) (ByDepth h)).
Notation final := (ListProofs.final d pos0 c0 1 0 (@nil Src) (ByDepth h) h).

(** Everything the construction yields, with the geometry of the boxes. *)
Record facts (t : @btree R Src) (ls : nlists) (mkn : addr -> @anode R Src) (leaf : list R -> addr) : Prop := {
  f_root : @root_box R NN d (map pos srcs) = Some (bt_center t, bt_len t);
  f_len : 0 < bt_len t;
  f_height : bt_height t = h;
  f_nodes : bt_nodes t = map mkn (flat_map level (seq 0 h));
  f_leaves : bt_leaves t = map mkn (level h);
  f_ls : ls = final;
  f_addr : forall p, an_addr (mkn p) = p;
  f_depth : forall p, an_depth (mkn p) = length p;
  f_flag : forall p, an_leaf (mkn p) = negb (length p <? h)%nat;
  f_srcs : forall p, an_srcs (mkn p) = if (length p <? h)%nat then [] else filter (fun s => addr_eqb (leaf (pos s)) p) srcs;
  f_grid : forall p, present p -> grid_box d (bt_center t) (bt_len t) (mkn p) (gcos d p);
  f_touch : forall p q, present p -> present q -> length q = length p -> (touch d p q = true <-> centres_within d (3 / 2) (mkn p) (mkn q));
  f_apart : forall p q, present p -> present q -> length q = length p -> touch d p q = false ->
    exists j, (j < d)%nat /\ 199 / 100 * an_len (mkn p) <= Rabs (nth j (an_center (mkn p)) 0 - nth j (an_center (mkn q)) 0);
  f_leaf : forall x, among d pos srcs x -> length (leaf x) = h /\ valid d (leaf x) /\ almost_in d (mkn (leaf x)) x /\
    ((h < 64 / d)%nat -> @bal_containing_leaf R NN Src d t x = Ok (mkn (leaf x))) }.

Lemma built_facts : exists t ls mkn leaf, build = Ok (t, ls) /\ facts t ls mkn leaf.
Proof.
  destruct HD as ((u & Hu & Hacc) & Hint & Hhyp). destruct HR as (Hd & Hh & Hdh & Hpos & m & M & Hsur & Hm & HmM & HmMh).
  assert (HM : 0 < m <= M).
  { split; [exact Hm|]. destruct (Hsur 0%nat ltac:(lia)) as (_ & (s & Hs & G) & B). specialize (B s Hs). apply abs2 in B. lra. }
  assert (Hh' := proj2 Hh).
  destruct (built rnd hyp u Hu Hacc Hint Hhyp d m M h Hd (proj2 Hh) HM HmM HmMh pos srcs Hpos Hsur (proj1 Hh) Hdh)
    as (c & l & ch & R0 & Hc & Hl & Hcj & IN & E).
  set (lf := leaf_at rnd d h c l). set (mk := @AnyBalanced.mk R Src NN d c l srcs h (fun s => lf (pos s))).
  exists (@any_bal R Src NN d c l srcs h (fun s => lf (pos s)) ch), final, mk, lf. split; [exact E|].
  assert (PI : forall p, present p <-> valid d p /\ (length p <= h)%nat) by (intros p; apply shape_present; exact Hd).
  assert (M1 : forall p, an_addr (mk p) = p /\ an_depth (mk p) = length p /\ an_leaf (mk p) = negb (length p <? h)%nat /\
     an_len (mk p) = @AnyTree.blen R NN l p /\ an_center (mk p) = @AnyTree.ctr R NN d c l p /\
     an_srcs (mk p) = if (length p <? h)%nat then [] else filter (fun s => addr_eqb (lf (pos s)) p) srcs).
  { intros p. unfold mk, AnyBalanced.mk. destruct (length p <? h)%nat eqn:K; cbn [mk0 set_srcs an_addr an_depth an_leaf an_len an_center an_srcs]; rewrite ?K; repeat split; reflexivity. }
  split; try reflexivity; try (intros p; apply (M1 p)); cbn [any_bal bt_center bt_len].
  - exact R0.
  - lra.
  - intros p P. apply PI in P. destruct P. eapply (grid_mk rnd); eassumption.
  - intros p q P Q HL. apply PI in P. destruct P. eapply (touch_centres rnd); eassumption.
  - intros p q P Q HL T. apply PI in P. destruct (M1 p) as (_ & _ & _ & -> & -> & _). destruct (M1 q) as (_ & _ & _ & _ & -> & _).
    destruct P. eapply (apart_centres rnd); eassumption.
  - intros x [Hx A]. assert (I := IN x Hx A).
    assert (LOK : length (lf x) = h /\ valid d (lf x) /\ @leaf_box_indices R NN d h c l x = Ok (gcos d (lf x))) by (eapply (leaf_at_ok rnd); eassumption).
    destruct LOK as (L & V & EX).
    split; [exact L|]. split; [exact V|]. split.
    + intros j Hj. destruct (M1 (lf x)) as (_ & _ & _ & -> & -> & _).
      eapply (leaf_at_near rnd); eassumption.
    + intros H64. apply (any_containing_leaf (NT := NN) d c l srcs h Hd (proj2 Hh) Hdh); assumption.
Qed.

Theorem rounded_builds : exists t ls, build = Ok (t, ls) /\ bt_height t = h /\ @root_box R NN d (map pos srcs) = Some (bt_center t, bt_len t) /\ 0 < bt_len t.
Proof. destruct built_facts as (t & ls & mkn & leaf & E & F). exists t, ls. split; [exact E|]. split; [apply (f_height _ _ _ _ F)|]. split; [apply (f_root _ _ _ _ F)|apply (f_len _ _ _ _ F)]. Qed.

Section Built.
Variable t : @btree R Src.
Variable ls : nlists.
Hypothesis HB : build = Ok (t, ls).
Lemma facts_of : exists mkn leaf, facts t ls mkn leaf.
Proof. destruct built_facts as (t' & ls' & mkn & leaf & E & F). rewrite HB in E. injection E as <- <-. exists mkn, leaf. exact F. Qed.
Lemma Hd1 : (1 <= d)%nat.
Proof. apply HR. Qed.
Lemma present_V p : present p <-> valid d p /\ (length p <= h)%nat.
Proof. apply shape_present, Hd1. Qed.
Section Facts.
Variable mkn : addr -> @anode R Src.
Variable leaf : list R -> addr.
Hypothesis F : facts t ls mkn leaf.
Lemma boxes_F : boxes t = map mkn (flat_map level (seq 0 h) ++ level h).
Proof. unfold boxes. rewrite (f_nodes _ _ _ _ F), (f_leaves _ _ _ _ F), map_app. reflexivity. Qed.
Lemma box_of n : In n (boxes t) -> exists p, present p /\ n = mkn p.
Proof.
  rewrite boxes_F. intros Hn. apply in_map_iff in Hn. destruct Hn as (p & <- & Hp). exists p. split; [|reflexivity].
  apply in_app_or in Hp. destruct Hp as [Hp|Hp]; [apply in_flat_map in Hp; destruct Hp as (k & _ & Hp)|]; apply in_level in Hp; apply Hp.
Qed.
Lemma of_box p : present p -> In (mkn p) (boxes t).
Proof.
  intros P. rewrite boxes_F. apply in_map. assert (L := proj2 (proj1 (present_V p) P)). apply in_or_app.
  destruct (Nat.eq_dec (length p) h) as [E|N].
  - right. apply in_level. split; assumption.
  - left. apply in_flat_map. exists (length p). split; [apply in_seq; lia|]. apply in_level. split; [reflexivity|assumption].
Qed.
Lemma mkn_inj p q : mkn p = mkn q -> p = q.
Proof. intros E. rewrite <- (f_addr _ _ _ _ F p), <- (f_addr _ _ _ _ F q), E. reflexivity. Qed.
Lemma leaf_addrs : leaf_addresses t = all_boxes d h.
Proof.
  unfold leaf_addresses. rewrite (f_leaves _ _ _ _ F), map_map, (shape_level Src d h Hd1 h (le_n h)).
  rewrite <- (map_id (all_boxes d h)) at 2. apply map_ext. apply (f_addr _ _ _ _ F).
Qed.
End Facts.

Theorem rounded_grid : NoDup (map an_addr (boxes t)) /\
  (forall n, In n (boxes t) -> (an_depth n <= h)%nat /\ an_leaf n = (an_depth n =? h)%nat /\ exists idx, grid_box d (bt_center t) (bt_len t) n idx) /\
  (forall k idx, (k <= h)%nat -> tuple d k idx -> exists! n, In n (boxes t) /\ an_depth n = k /\ grid_box d (bt_center t) (bt_len t) n idx).
Proof.
  destruct facts_of as (mkn & leaf & F). assert (LP := f_len _ _ _ _ F). split; [|split].
  - rewrite (boxes_F _ _ F), map_map. rewrite (map_ext _ (fun p => p)) by apply (f_addr _ _ _ _ F). rewrite map_id.
    assert (O := order_NoDup d pos0 c0 1 0 (@nil Src) (ByDepth h) h). unfold order in O. rewrite seq_S, flat_map_app in O. cbn [flat_map Nat.add] in O.
    rewrite app_nil_r in O. exact O.
  - intros n Hn. destruct (box_of _ _ F n Hn) as (p & P & ->). rewrite (f_depth _ _ _ _ F), (f_flag _ _ _ _ F).
    assert (L := proj2 (proj1 (present_V p) P)). split; [exact L|]. split; [|exists (gcos d p); apply (f_grid _ _ _ _ F p P)].
    destruct (Nat.ltb_spec (length p) h), (Nat.eqb_spec (length p) h); try reflexivity; lia.
  - intros k idx Hk T. set (p := box_at d k idx).
    assert (L : length p = k) by apply box_at_length. assert (V : valid d p) by apply box_at_valid.
    assert (P : present p) by (apply present_V; split; [exact V|lia]).
    assert (G : gcos d p = idx) by (apply box_at_gcos; [destruct HR as (_ & ? & _); lia|exact T]).
    exists (mkn p). split.
    + split; [apply (of_box _ _ F p P)|]. split; [rewrite (f_depth _ _ _ _ F); exact L|]. rewrite <- G. apply (f_grid _ _ _ _ F p P).
    + intros n (Hn & Dn & Gn). destruct (box_of _ _ F n Hn) as (q & Q & ->). rewrite (f_depth _ _ _ _ F) in Dn. f_equal.
      assert (Vq := proj1 (proj1 (present_V q) Q)). apply (gcos_inj d); [congruence|exact V|exact Vq|]. rewrite G.
      assert (Gq := f_grid _ _ _ _ F q Q). unfold grid_box in Gn, Gq. rewrite (f_depth _ _ _ _ F), Dn in Gn, Gq. cbn zeta in Gn, Gq.
      destruct Gn as (T1 & _ & C1), Gq as (T2 & _ & C2). set (w := bt_len t / 2 ^ k) in *.
      assert (WP : 0 < w) by (apply Rdiv_lt_0_compat; [exact LP|apply pow2_pos]).
      apply (nth_ext _ _ 0%Z 0%Z); [destruct T1, T2; congruence|]. intros j Hj. rewrite (proj1 T1) in Hj. specialize (C1 j Hj). specialize (C2 j Hj).
      set (a := nth j idx 0%Z) in *. set (b := nth j (gcos d q) 0%Z) in *. apply abs2 in C1, C2.
      assert (I1 : IZR a < IZR b + 1) by (apply Rmult_lt_reg_r with w; [exact WP|lra]).
      assert (I2 : IZR b < IZR a + 1) by (apply Rmult_lt_reg_r with w; [exact WP|lra]).
      rewrite <- (plus_IZR b 1) in I1. rewrite <- (plus_IZR a 1) in I2. apply lt_IZR in I1, I2. lia.
Qed.
Theorem rounded_near n : In n (boxes t) -> NoDup (nl_near ls (an_addr n)) /\
  forall q, In q (nl_near ls (an_addr n)) <->
    exists m, In m (boxes t) /\ an_addr m = q /\ an_depth m = an_depth n /\ centres_within d (3 / 2) n m.
Proof.
  destruct facts_of as (mkn & leaf & F). intros Hn. destruct (box_of _ _ F n Hn) as (p & P & ->). rewrite (f_addr _ _ _ _ F), (f_ls _ _ _ _ F).
  destruct (shape_near Src d h Hd1 p P) as [N I]. split; [exact N|]. intros q. rewrite I. split.
  - intros (Q & L & T). exists (mkn q). split; [apply (of_box _ _ F q Q)|]. rewrite (f_addr _ _ _ _ F), !(f_depth _ _ _ _ F).
    split; [reflexivity|]. split; [exact L|]. apply (f_touch _ _ _ _ F); assumption.
  - intros (m & Hm & Em & Dm & T). destruct (box_of _ _ F m Hm) as (r & Q & ->). rewrite (f_addr _ _ _ _ F) in Em. subst r.
    rewrite !(f_depth _ _ _ _ F) in Dm. split; [exact Q|]. split; [exact Dm|]. apply (f_touch _ _ _ _ F); assumption.
Qed.
Theorem rounded_inter n : In n (boxes t) -> NoDup (nl_inter ls (an_addr n)) /\
  forall q, In q (nl_inter ls (an_addr n)) <->
    exists i p j r m, an_addr n = i :: p /\ q = j :: r /\ In m (boxes t) /\ an_addr m = q /\ In r (nl_near ls p) /\ ~ centres_within d (3 / 2) n m.
Proof.
  destruct facts_of as (mkn & leaf & F). intros Hn. destruct (box_of _ _ F n Hn) as (p & P & ->). rewrite (f_addr _ _ _ _ F), (f_ls _ _ _ _ F).
  destruct (shape_inter Src d h Hd1 p P) as [N I]. split; [exact N|]. intros q. rewrite I. split.
  - intros (Q & L & L1 & T & NT). destruct p as [|i p]; [cbn in L1; lia|]. destruct q as [|j r]; [cbn in L; lia|]. cbn [tl] in T.
    exists i, p, j, r, (mkn (j :: r)). split; [reflexivity|]. split; [reflexivity|]. split; [apply (of_box _ _ F _ Q)|]. split; [apply (f_addr _ _ _ _ F)|].
    assert (Pp : present p) by (cbn [AdaptiveProofs.present] in P; apply P). assert (Pr : present r) by (cbn [AdaptiveProofs.present] in Q; apply Q).
    split; [apply (shape_near Src d h Hd1 p Pp); cbn [length] in L; split; [exact Pr|split; [lia|exact T]]|].
    intros C. apply (f_touch _ _ _ _ F) in C; [congruence|exact P|exact Q|exact L].
  - intros (i & p0 & j & r & m & -> & -> & Hm & Em & Hr & NC). destruct (box_of _ _ F m Hm) as (r' & Q & ->). rewrite (f_addr _ _ _ _ F) in Em. subst r'.
    assert (Pp : present p0) by (cbn [AdaptiveProofs.present] in P; apply P). apply (shape_near Src d h Hd1 p0 Pp) in Hr. destruct Hr as (_ & L & T).
    assert (LL : length (j :: r) = length (i :: p0)) by (cbn [length]; lia).
    split; [exact Q|]. split; [exact LL|]. split; [cbn [length]; lia|]. split; [exact T|].
    apply not_true_is_false. intros C. apply NC. apply (f_touch _ _ _ _ F); assumption.
Qed.
Theorem rounded_sizes n : In n (boxes t) -> (length (nl_near ls (an_addr n)) <= 3 ^ d)%nat /\ (length (nl_inter ls (an_addr n)) + 3 ^ d <= 6 ^ d)%nat.
Proof.
  destruct facts_of as (mkn & leaf & F). intros Hn. destruct (box_of _ _ F n Hn) as (p & P & ->). rewrite (f_addr _ _ _ _ F), (f_ls _ _ _ _ F).
  assert (V : forall q, present q -> valid d q) by (intros q Q; apply (shape_present Src d h Hd1) in Q; apply Q). split.
  - destruct (shape_near Src d h Hd1 p P) as [N I]. apply (ListCounts.count_larger d p); [apply V; exact P|exact N| |].
    + intros q r Hq Hr A. apply I in Hq, Hr. apply (ListCounts.above_same_length q r); [|exact A]. lia.
    + intros q Hq. apply I in Hq. destruct Hq as (Q & L & T). split; [apply V; exact Q|]. split; [lia|exact T].
  - destruct (shape_inter Src d h Hd1 p P) as [N I]. destruct p as [|i p].
    + match goal with |- (length ?xs + _ <= _)%nat => assert (E : xs = []) end.
      { apply incl_l_nil. intros q Hq. apply I in Hq. destruct Hq as (_ & _ & L & _). cbn in L. lia. }
      rewrite E. cbn [length Nat.add]. apply Nat.pow_le_mono_l. lia.
    + apply (ListCounts.count_interaction d (i :: p)); [apply V; exact P|cbn [length]; lia|exact N|]. intros q Hq. apply I in Hq. destruct Hq as (Q & L & _ & T & NT).
      split; [apply V; exact Q|]. split; [exact L|]. split; assumption.
Qed.
Theorem rounded_separated n m : In n (boxes t) -> In m (boxes t) -> In (an_addr m) (nl_inter ls (an_addr n)) ->
  an_depth m = an_depth n /\ exists j, (j < d)%nat /\ 199 / 100 * an_len n <= Rabs (nth j (an_center n) 0 - nth j (an_center m) 0).
Proof.
  destruct facts_of as (mkn & leaf & F). intros Hn Hm. destruct (box_of _ _ F n Hn) as (p & P & ->). destruct (box_of _ _ F m Hm) as (q & Q & ->).
  rewrite !(f_addr _ _ _ _ F), (f_ls _ _ _ _ F), !(f_depth _ _ _ _ F). intros I. apply (shape_inter Src d h Hd1 p P) in I. destruct I as (_ & L & _ & _ & T).
  split; [exact L|]. apply (f_apart _ _ _ _ F); assumption.
Qed.
Theorem rounded_coverage L : In L (leaf_addresses t) -> Permutation (reached t ls L) (leaf_addresses t).
Proof.
  destruct facts_of as (mkn & leaf & F). unfold reached. rewrite (leaf_addrs _ _ F), (f_ls _ _ _ _ F). intros I. apply all_boxes_In in I.
  apply (shape_coverage Src d h Hd1); apply I.
Qed.
Theorem rounded_sources : Permutation (flat_map an_srcs (bt_leaves t)) srcs /\
  forall n s, In n (bt_leaves t) -> In s (an_srcs n) -> almost_in d n (pos s).
Proof.
  destruct facts_of as (mkn & leaf & F).
  assert (A : forall s, In s srcs -> among d pos srcs (pos s)).
  { intros s Hs. split; [apply HR; exact Hs|]. intros j Hj. exists s, s. repeat split; try assumption; lra. }
  rewrite (f_leaves _ _ _ _ F). split.
  - rewrite flat_map_concat_map, map_map, <- flat_map_concat_map.
    assert (E : flat_map (fun p => an_srcs (mkn p)) (level h) = flat_map (fun p => filter (fun s => addr_eqb (leaf (pos s)) p) srcs) (level h)).
    { apply flat_map_ext_in'. intros p Hp. rewrite (f_srcs _ _ _ _ F). apply level_len in Hp. rewrite Hp, Nat.ltb_irrefl. reflexivity. }
    rewrite E. apply (part_perm (fun s => leaf (pos s))); [apply level_NoDup|]. intros s Hs.
    destruct (f_leaf _ _ _ _ F _ (A s Hs)) as (L & V & _). rewrite (shape_level Src d h Hd1 h (le_n h)). apply all_boxes_In. split; assumption.
  - intros n s Hn Hs. apply in_map_iff in Hn. destruct Hn as (p & <- & Hp). rewrite (f_srcs _ _ _ _ F) in Hs. apply level_len in Hp.
    rewrite Hp, Nat.ltb_irrefl in Hs. apply filter_In in Hs. destruct Hs as [Hs E]. apply addr_eqb_eq in E. subst p.
    apply (f_leaf _ _ _ _ F _ (A s Hs)).
Qed.
Theorem rounded_lookup x : (h < 64 / d)%nat -> among d pos srcs x -> exists n, @bal_containing_leaf R NN Src d t x = Ok n /\
  In n (bt_leaves t) /\ almost_in d n x /\ forall s, In s srcs -> pos s = x -> In s (an_srcs n).
Proof.
  destruct facts_of as (mkn & leaf & F). intros H64 A. destruct (f_leaf _ _ _ _ F _ A) as (L & V & AI & E). exists (mkn (leaf x)).
  split; [apply E, H64|]. split; [|split; [exact AI|]].
  - rewrite (f_leaves _ _ _ _ F). apply in_map. rewrite (shape_level Src d h Hd1 h (le_n h)). apply all_boxes_In. split; assumption.
  - intros s Hs <-. rewrite (f_srcs _ _ _ _ F), L, Nat.ltb_irrefl. apply filter_In. split; [exact Hs|]. apply addr_eqb_refl.
Qed.
End Built.
End Theorems.
