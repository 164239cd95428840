(** Properties of the adaptive tree, stated for every tree the constructor returns. *)
From Coq Require Import List Bool ZArith Arith Reals Lra Lia Permutation Sorted.
From Verif Require Import Num Outcome Vec Orthtree AdaptiveTree TreeSpec VecProofs GeometrySpec GeometryProofs TreeGeometry
  AdaptiveProofs BfsProofs ListProofs ListContents RootBoxProofs BuildProofs.
Import ListNotations.

Section Theorems.
Context {Src : Type}.
Variable d : nat.
Variable pos : Src -> list R.

Notation spec := (spec_tree d pos).
Notation H_ok := (height_ok d pos).

Lemma lists_root_leaf c l cap srcs : all_lists d (spec c l cap srcs false 0) = Ok (final d pos c l cap srcs false 0).
Proof. reflexivity. Qed.

Lemma lists_final c l cap srcs (r : bool) h : length c = d -> H_ok c l cap srcs r h -> (0 < l)%R \/ r = false ->
  all_lists d (spec c l cap srcs r h) = Ok (final d pos c l cap srcs r h).
Proof.
  intros Hc Hh [Hl|Hr].
  - apply all_lists_events; assumption.
  - subst r. assert (h = 0) as ->.
    { apply (height_ok_unique d pos c l cap srcs false); [assumption|]. split; [reflexivity|intros; lia]. }
    apply lists_root_leaf.
Qed.

(** Inversion of the constructor. *)
Lemma adaptive_inv cap fuel srcs t : 1 <= d -> (forall s, In s srcs -> length (pos s) = d) ->
  build_adaptive d pos cap fuel srcs = Ok t ->
  exists c l h, root_box d (map pos srcs) = Some (c, l) /\ length c = d /\ (0 <= l)%R /\
    H_ok c l cap srcs (rr cap srcs) h /\ t = spec c l cap srcs (rr cap srcs) h /\ ((0 < l)%R \/ rr cap srcs = false) /\
    build_in_box d pos cap fuel c l srcs = Some t.
Proof.
  intros Hd Hpos H. unfold build_adaptive in H.
  assert (HN : map pos srcs <> []).
  { intros E. rewrite E in H. unfold root_box, data_range, raw_range in H. cbn [fold_left fst snd] in H.
    destruct d; [lia|]. discriminate. }
  destruct (root_box_spec d (map pos srcs) Hd HN) as (lo & hi & c & l & EB & RB & Hc & CC & LL & (j & Hj & Ej)).
  { intros x Hx. apply in_map_iff in Hx. destruct Hx as (s & <- & Hs). auto. }
  rewrite RB in H. destruct (build_in_box d pos cap fuel c l srcs) as [t'|] eqn:B; [|discriminate]. injection H as ->.
  assert (B' := B). apply build_in_box_spec in B. destruct B as (h & Hh & -> & _).
  destruct EB as (L1 & L2 & EB).
  assert (GE : forall k, k < d -> (nth k lo 0 <= nth k hi 0)%R).
  { intros k Hk. destruct (EB k Hk) as (A & (x & Hx & Ex) & _). rewrite Ex. apply A. assumption. }
  assert (Hl : (0 <= l)%R).
  { rewrite Ej. specialize (GE j Hj). unfold eps5. nra. }
  exists c, l, h. split; [assumption|]. split; [assumption|]. split; [assumption|]. split; [assumption|]. split; [reflexivity|].
  split; [|assumption].
  destruct (rr cap srcs) eqn:Er; [|right; reflexivity]. left. destruct Hl as [Hl|Hl]; [assumption|exfalso].
  assert (EQ : forall k, k < d -> nth k lo 0%R = nth k hi 0%R).
  { intros k Hk. specialize (LL k Hk). specialize (GE k Hk). rewrite <- Hl in LL. unfold eps5 in LL. nra. }
  assert (AE : forall s, In s srcs -> pos s = lo).
  { intros s Hs. apply (nth_ext _ _ 0%R 0%R); [rewrite Hpos by assumption; auto|].
    intros k Hk. rewrite Hpos in Hk by assumption. destruct (EB k Hk) as (A & _). specialize (A (pos s) (in_map pos _ _ Hs)).
    specialize (EQ k Hk). lra. }
  assert (C := all_equal_count pos srcs lo AE).
  destruct Hh as [HE _]. apply (many_coincident_level d pos c l cap srcs true lo h) in HE; auto.
  unfold mult. rewrite <- C. unfold rr in Er. apply negb_true_iff, Nat.leb_gt in Er. assumption.
Qed.

Lemma in_leaf_nodes c l cap srcs r h n : H_ok c l cap srcs r h ->
  (In n (leaf_nodes (spec c l cap srcs r h)) <-> exists p, present d pos c l cap srcs r p /\ refined d pos c l cap srcs r p = false /\ n = mk d pos c l cap srcs r p).
Proof.
  intros Hh. unfold leaf_nodes, spec_tree; cbn [at_leaves]. rewrite in_concat. split.
  - intros (x & Hx & Hn). apply in_map_iff in Hx. destruct Hx as (k & <- & Hk). apply in_map_iff in Hn.
    destruct Hn as (p & <- & Hp). apply filter_In in Hp. destruct Hp as [Hp N]. apply in_level in Hp. apply negb_true_iff in N.
    exists p. tauto.
  - intros (p & P & N & ->). exists (leaf_level d pos c l cap srcs r (length p)). split.
    + apply in_map. apply in_seq. assert (D := present_depth _ _ _ _ _ _ _ _ Hh p P). lia.
    + apply in_map. apply filter_In. split; [apply in_level; auto|]. rewrite N. reflexivity.
Qed.

Lemma leaf_nodes_eq c l cap srcs r h : leaf_nodes (spec c l cap srcs r h) = map (mk d pos c l cap srcs r) (leaf_addrs d pos c l cap srcs r h).
Proof.
  unfold leaf_nodes, leaf_addrs, spec_tree; cbn [at_leaves]. rewrite flat_map_concat_map, concat_map, map_map. reflexivity.
Qed.

Lemma leaf_sources_eq c l cap srcs r h p : H_ok c l cap srcs r h -> In p (leaf_addrs d pos c l cap srcs r h) ->
  leaf_sources (spec c l cap srcs r h) p = sub d pos c l srcs p.
Proof.
  intros Hh Hp. unfold leaf_sources. rewrite leaf_nodes_eq.
  rewrite flat_map_concat_map, map_map, <- flat_map_concat_map. cbn [an_addr mk an_srcs].
  rewrite (flat_map_ext_in _ (fun q => if addr_eqb p q then sub d pos c l srcs q else [])).
  - apply flat_map_pick; [apply leaf_addrs_NoDup|assumption].
  - intros q Hq. apply (in_leaf_addrs _ _ _ _ _ _ _ _ Hh) in Hq. destruct Hq as [_ N]. unfold mk; cbn [an_addr an_srcs]. rewrite N.
    destruct (addr_eqb q p) eqn:E.
    + apply addr_eqb_eq in E. subst. rewrite addr_eqb_refl. reflexivity.
    + assert (E' : addr_eqb p q = false) by (apply addr_eqb_neq; apply addr_eqb_neq in E; congruence). rewrite E'. reflexivity.
Qed.

Lemma leaf_sources_perm c l cap srcs r h : H_ok c l cap srcs r h ->
  Permutation (flat_map (sub d pos c l srcs) (leaf_addrs d pos c l cap srcs r h)) srcs.
Proof.
  intros Hh. apply sub_leaves_perm. assumption.
Qed.

(** ** C29, C30 *)
Theorem adaptive_lists_ok cap fuel srcs t : 1 <= d -> (forall s, In s srcs -> length (pos s) = d) ->
  build_adaptive d pos cap fuel srcs = Ok t -> exists ls, all_lists d t = Ok ls.
Proof.
  intros Hd Hpos H. destruct (adaptive_inv _ _ _ _ Hd Hpos H) as (c & l & h & _ & Hc & _ & Hh & -> & HL & _).
  eexists. apply lists_final; assumption.
Qed.

Theorem adaptive_coverage cap fuel srcs t ls : 1 <= d -> (forall s, In s srcs -> length (pos s) = d) ->
  build_adaptive d pos cap fuel srcs = Ok t -> all_lists d t = Ok ls ->
  forall L, In L (leaf_list t) -> Permutation (interactions t ls L) (leaf_list t).
Proof.
  intros Hd Hpos H HL L IL. destruct (adaptive_inv _ _ _ _ Hd Hpos H) as (c & l & h & _ & Hc & _ & Hh & -> & HP & _).
  rewrite lists_final in HL by assumption. injection HL as <-.
  rewrite leaf_list_eq in *. apply (in_leaf_addrs _ _ _ _ _ _ _ _ Hh) in IL. destruct IL as [P N].
  apply interactions_perm; assumption.
Qed.

Theorem adaptive_source_coverage cap fuel srcs t ls : 1 <= d -> (forall s, In s srcs -> length (pos s) = d) ->
  build_adaptive d pos cap fuel srcs = Ok t -> all_lists d t = Ok ls ->
  forall L, In L (leaf_list t) -> Permutation (flat_map (leaf_sources t) (interactions t ls L)) srcs.
Proof.
  intros Hd Hpos H HL L IL. rewrite (Permutation_flat_map (leaf_sources t) (adaptive_coverage _ _ _ _ _ Hd Hpos H HL L IL)).
  destruct (adaptive_inv _ _ _ _ Hd Hpos H) as (c & l & h & _ & Hc & _ & Hh & -> & HP & _).
  rewrite leaf_list_eq. rewrite (flat_map_ext_in _ (sub d pos c l srcs)).
  - apply leaf_sources_perm. assumption.
  - intros p Hp. apply leaf_sources_eq; assumption.
Qed.

(** ** Node boxes *)
Lemma in_heap_leaf_or_node t (n : @anode R Src) : In n (heap t) <-> In n (concat (at_nodes t)) \/ In n (leaf_nodes t).
Proof. apply in_app_iff. Qed.

Theorem node_adjacency_exact cap fuel srcs t a b : 1 <= d -> (forall s, In s srcs -> length (pos s) = d) ->
  build_adaptive d pos cap fuel srcs = Ok t -> In a (heap t) -> In b (heap t) ->
  (nodes_adjacent d a b = true <-> boxes_touch d (an_center a) (an_len a) (an_center b) (an_len b)).
Proof.
  intros Hd Hpos H Ha Hb. destruct (adaptive_inv _ _ _ _ Hd Hpos H) as (c & l & h & _ & Hc & Hl & Hh & -> & _ & _).
  apply (in_heap _ _ _ _ _ _ _ _ Hh) in Ha, Hb. destruct Ha as (p & _ & ->). destruct Hb as (q & _ & ->).
  unfold nodes_adjacent, mk; cbn [an_center an_len]. rewrite !box_len_pow.
  apply (adjacent_exact d c); [assumption|apply box_ctr_subbox; assumption|apply box_ctr_subbox; assumption].
Qed.

Lemma touch_boxes c l p q : length c = d -> (0 < l)%R ->
  (touch d p q = true <-> boxes_touch d (box_ctr d c l p) (box_len l p) (box_ctr d c l q) (box_len l q)).
Proof.
  intros Hc Hl. rewrite <- (adjacent_touch d c l p q Hc Hl). rewrite !box_len_pow.
  apply (adjacent_exact d c); [lra|apply box_ctr_subbox; assumption|apply box_ctr_subbox; assumption].
Qed.

(** The near list of a leaf holds exactly the leaves whose boxes touch it. *)
Theorem near_list_exact cap fuel srcs t ls : 1 <= d -> (forall s, In s srcs -> length (pos s) = d) ->
  build_adaptive d pos cap fuel srcs = Ok t -> all_lists d t = Ok ls ->
  forall L, In L (leaf_nodes t) ->
  NoDup (nl_near ls (an_addr L)) /\
  forall q, In q (nl_near ls (an_addr L)) <->
    exists M, In M (leaf_nodes t) /\ an_addr M = q /\ boxes_touch d (an_center L) (an_len L) (an_center M) (an_len M).
Proof.
  intros Hd Hpos H HL L IL. destruct (adaptive_inv _ _ _ _ Hd Hpos H) as (c & l & h & _ & Hc & Hl0 & Hh & -> & HP & _).
  rewrite lists_final in HL by assumption. injection HL as <-.
  apply (in_leaf_nodes _ _ _ _ _ _ _ Hh) in IL. destruct IL as (p & P & N & ->). cbn [mk an_addr an_center an_len].
  change (an_addr (mk d pos c l cap srcs (rr cap srcs) p)) with p.
  change (an_center (mk d pos c l cap srcs (rr cap srcs) p)) with (box_ctr d c l p).
  change (an_len (mk d pos c l cap srcs (rr cap srcs) p)) with (box_len l p).
  split; [apply final_near_leaf_NoDup; assumption|].
  assert (TB : forall q, present d pos c l cap srcs (rr cap srcs) q ->
    (touch d p q = true <-> boxes_touch d (box_ctr d c l p) (box_len l p) (box_ctr d c l q) (box_len l q))).
  { intros q Pq. destruct HP as [Hl|Hr]; [apply touch_boxes; assumption|].
    assert (E0 : forall r, present d pos c l cap srcs (rr cap srcs) r -> r = []).
    { intros r Pr. destruct r as [|i r]; [reflexivity|]. exfalso.
      assert (X : h = 0).
      { apply (height_ok_unique d pos c l cap srcs (rr cap srcs)); [assumption|]. rewrite Hr. split; [reflexivity|intros; lia]. }
      assert (D := present_depth _ _ _ _ _ _ _ _ Hh _ Pr). simpl in D. lia. }
    rewrite (E0 p P), (E0 q Pq). rewrite touch_refl. split; [intros _|reflexivity].
    cbn [box_ctr box_len]. exists c. split; [assumption|]. split; intros j Hj; lra. }
  intros q. rewrite final_near_leaf by assumption. split.
  - intros (Pq & Nq & T). exists (mk d pos c l cap srcs (rr cap srcs) q). split.
    + apply in_leaf_nodes; [assumption|]. exists q. auto.
    + split; [reflexivity|]. apply TB; assumption.
  - intros (M & IM & <- & B). apply (in_leaf_nodes _ _ _ _ _ _ _ Hh) in IM. destruct IM as (m & Pm & Nm & ->).
    split; [assumption|]. split; [assumption|]. apply TB; assumption.
Qed.

(** Boxes in an interaction list are well separated: same size, centers at least two side lengths apart in some
    coordinate. *)
Theorem interaction_separated cap fuel srcs t ls : 1 <= d -> (forall s, In s srcs -> length (pos s) = d) ->
  build_adaptive d pos cap fuel srcs = Ok t -> all_lists d t = Ok ls ->
  forall a b, In a (heap t) -> In b (heap t) -> In (an_addr b) (nl_inter ls (an_addr a)) ->
  an_len a = an_len b /\ ~ boxes_touch d (an_center a) (an_len a) (an_center b) (an_len b) /\
  exists j, j < d /\ (2 * an_len a <= Rabs (nth j (an_center a) 0 - nth j (an_center b) 0))%R.
Proof.
  intros Hd Hpos H HL a b Ia Ib IN. destruct (adaptive_inv _ _ _ _ Hd Hpos H) as (c & l & h & _ & Hc & Hl0 & Hh & -> & HP & _).
  rewrite lists_final in HL by assumption. injection HL as <-.
  apply (in_heap _ _ _ _ _ _ _ _ Hh) in Ia, Ib. destruct Ia as (p & P & ->). destruct Ib as (q & Q & ->).
  change (an_addr (mk d pos c l cap srcs (rr cap srcs) ?x)) with x in *.
  change (an_center (mk d pos c l cap srcs (rr cap srcs) ?x)) with (box_ctr d c l x).
  change (an_len (mk d pos c l cap srcs (rr cap srcs) ?x)) with (box_len l x).
  apply final_inter_in in IN; [|assumption|assumption|assumption]. destruct IN as [_ V]. unfold vrel in V.
  apply andb_true_iff in V. destruct V as [V NT]. apply andb_true_iff in V. destruct V as [V _].
  apply andb_true_iff in V. destruct V as [V1 V2]. apply Nat.eqb_eq in V1. apply Nat.leb_le in V2. apply negb_true_iff in NT.
  assert (Hl : (0 < l)%R).
  { destruct HP as [Hl|Hr]; [assumption|exfalso].
    assert (X : h = 0).
    { apply (height_ok_unique d pos c l cap srcs (rr cap srcs)); [assumption|]. rewrite Hr. split; [reflexivity|intros; lia]. }
    assert (D := present_depth _ _ _ _ _ _ _ _ Hh _ P). lia. }
  split; [rewrite !box_len_pow, V1; reflexivity|]. split.
  - intros B. apply touch_boxes in B; [congruence|assumption|assumption].
  - destruct (touch_same_level d p q V1 NT) as (j & Hj & D). exists j. split; [assumption|].
    rewrite !(nth_box_ctr d c l _ j) by assumption. rewrite V1, box_len_pow, V1.
    assert (PW := pow2_pos (length q)).
    replace (_ - _)%R with (IZR (gco d j p - gco d j q) * (l / 2 ^ length q))%R by (rewrite minus_IZR; field; lra).
    rewrite Rabs_mult, <- abs_IZR. rewrite (Rabs_pos_eq (l / _)) by (apply div_nonneg; lra).
    apply IZR_le in D. apply Rmult_le_compat_r; [apply div_nonneg; lra|assumption].
Qed.

(** ** C26 *)
Theorem adaptive_terminates cap c l srcs : length c = d -> (forall s, In s srcs -> length (pos s) = d) ->
  (forall s, In s srcs -> in_box d c l (pos s)) ->
  ((exists fuel t, build_in_box d pos cap fuel c l srcs = Some t) <->
   (forall x, count_occ list_R_eq_dec (map pos srcs) x <= cap)).
Proof. apply build_in_box_terminates. Qed.

(** ** C25 *)
Theorem root_box_contains srcs c l : 1 <= d -> (forall s, In s srcs -> length (pos s) = d) ->
  root_box d (map pos srcs) = Some (c, l) ->
  (forall j, j < d -> (exists s, In s srcs /\ (nth j (pos s) 0 <= 0)%R) /\ (exists s, In s srcs /\ (0 <= nth j (pos s) 0)%R)) ->
  forall s, In s srcs -> in_box d c l (pos s).
Proof.
  intros Hd Hpos RB HS s Hs.
  destruct (root_box_spec d (map pos srcs) Hd) as (lo & hi & c' & l' & (_ & _ & EB) & RB' & Hc & CC & LL & _).
  { intros E. apply (in_map pos) in Hs. rewrite E in Hs. destruct Hs. }
  { intros x Hx. apply in_map_iff in Hx. destruct Hx as (s' & <- & Hs'). auto. }
  rewrite RB in RB'. injection RB' as <- <-. intros j Hj. specialize (CC j Hj). specialize (LL j Hj).
  destruct (EB j Hj) as (A & _). destruct (HS j Hj) as ((s1 & I1 & N1) & (s2 & I2 & N2)).
  assert (A1 := A _ (in_map pos _ _ I1)). assert (A2 := A _ (in_map pos _ _ I2)). assert (A3 := A _ (in_map pos _ _ Hs)).
  unfold eps5 in *. rewrite CC. lra.
Qed.

(** The root box of every tree (contains holds in the model iff in_box). *)
Theorem root_box_finite srcs : 1 <= d -> (forall s, In s srcs -> length (pos s) = d) ->
  (root_box d (map pos srcs) = None <-> srcs = []).
Proof.
  intros Hd Hpos. split.
  - intros E. destruct srcs as [|s srcs]; [reflexivity|].
    destruct (root_box_spec d (map pos (s :: srcs)) Hd) as (lo & hi & c & l & _ & RB & _); [discriminate| |congruence].
    intros x Hx. apply in_map_iff in Hx. destruct Hx as (s' & <- & Hs'). auto.
  - intros ->. unfold root_box, data_range, raw_range. cbn [map fold_left fst snd]. destruct d; [lia|]. reflexivity.
Qed.

(** ** C27 *)
Theorem adaptive_partition cap fuel srcs t : 1 <= d -> (forall s, In s srcs -> length (pos s) = d) ->
  build_adaptive d pos cap fuel srcs = Ok t ->
  Permutation (flat_map an_srcs (leaf_nodes t)) srcs /\
  (forall n, In n (leaf_nodes t) -> an_leaf n = true /\ length (an_srcs n) <= cap) /\
  (forall n, In n (concat (at_nodes t)) -> an_leaf n = false /\ an_srcs n = [] /\ cap < length (sources_below t (an_addr n))).
Proof.
  intros Hd Hpos H. destruct (adaptive_inv _ _ _ _ Hd Hpos H) as (c & l & h & _ & Hc & _ & Hh & -> & HP & _).
  split; [|split].
  - rewrite leaf_nodes_eq, flat_map_concat_map, map_map, <- flat_map_concat_map.
    rewrite (flat_map_ext_in _ (sub d pos c l srcs)).
    + apply leaf_sources_perm. assumption.
    + intros p Hp. apply (in_leaf_addrs _ _ _ _ _ _ _ _ Hh) in Hp. destruct Hp as [_ N]. unfold mk; cbn [an_srcs]. rewrite N. reflexivity.
  - intros n Hn. apply (in_leaf_nodes _ _ _ _ _ _ _ Hh) in Hn. destruct Hn as (p & P & N & ->).
    unfold mk; cbn [an_leaf an_srcs]. rewrite N. split; [reflexivity|].
    destruct p as [|i p].
    + cbn [refined] in N. unfold rr in N. apply negb_false_iff, Nat.leb_le in N. assumption.
    + unfold refined in N. apply Nat.ltb_ge in N. assumption.
  - intros n Hn. unfold spec_tree in Hn; cbn [at_nodes] in Hn. apply in_concat in Hn. destruct Hn as (x & Hx & Hn).
    apply in_map_iff in Hx. destruct Hx as (k & <- & Hk). apply in_map_iff in Hn. destruct Hn as (p & <- & Hp).
    apply filter_In in Hp. destruct Hp as [Hp N]. apply in_level in Hp. destruct Hp as [_ P].
    unfold mk; cbn [an_leaf an_srcs an_addr]. rewrite N. split; [reflexivity|]. split; [reflexivity|].
    assert (PB : Permutation (sources_below (spec c l cap srcs (rr cap srcs) h) p) (sub d pos c l srcs p)).
    { unfold sources_below, leaves_below. rewrite leaf_list_eq.
      rewrite (flat_map_ext_in _ (sub d pos c l srcs)).
      2:{ intros q Hq. apply filter_In in Hq. apply leaf_sources_eq; [assumption|apply Hq]. }
      apply sub_below; assumption. }
    rewrite (Permutation_length PB). destruct p as [|i p].
    + cbn [refined sub] in *. unfold rr in N. apply negb_true_iff, Nat.leb_gt in N. assumption.
    + unfold refined in N. apply Nat.ltb_lt in N. assumption.
Qed.
End Theorems.
