(** Properties of the adaptive tree that hold whatever the arithmetic does, for every tree the constructor returns. *)
From Coq Require Import List Bool ZArith Arith Lia Permutation Sorted.
From Verif Require Import Num Outcome Vec Orthtree AdaptiveTree TreeSpec GeometryProofs AdaptiveProofs BfsProofs ListProofs ListContents
  BuildProofs AnyTree AnyLists.
Import ListNotations.

(** [l] halved [k] times. *)
Fixpoint halves {T} {N : Num T} (l : T) (k : nat) : T := match k with O => l | S k' => nhalf (halves l k') end.

Lemma blen_halves {T} {N : Num T} (l : T) p : blen l p = halves l (length p).
Proof. induction p as [|i p IH]; cbn; [reflexivity|]. f_equal. exact IH. Qed.

Lemma adjacent_sym {T} {N : Num T} d c1 l1 c2 l2 : nmin l1 l2 = nmin l2 l1 -> adjacent d c1 l1 c2 l2 = adjacent d c2 l2 c1 l1.
Proof.
  intros H. unfold adjacent. rewrite H. apply forallb_eq. intros j _. rewrite orb_comm. reflexivity.
Qed.

Section Any.
Context {T Src : Type} {NT : Num T} {DT : Dist T}.
Variable d : nat.
Variable pos : Src -> list T.

Notation spec c l cap srcs := (spec_tree d pos c l cap srcs (rr cap srcs)).
Notation H_ok c l cap srcs := (height_ok d pos c l cap srcs (rr cap srcs)).
Notation pres c l cap srcs := (present d pos c l cap srcs (rr cap srcs)).
Notation ref c l cap srcs := (refined d pos c l cap srcs (rr cap srcs)).
Notation node c l cap srcs := (mk d pos c l cap srcs (rr cap srcs)).

Lemma any_inv cap fuel srcs t : build_adaptive d pos cap fuel srcs = Ok t ->
  exists c l h, root_box d (map pos srcs) = Some (c, l) /\ H_ok c l cap srcs h /\ t = spec c l cap srcs h.
Proof.
  unfold build_adaptive. destruct (root_box d (map pos srcs)) as [[c l]|]; [|discriminate].
  destruct (build_in_box d pos cap fuel c l srcs) as [t'|] eqn:B; [|discriminate]. intros H. injection H as ->.
  exists c, l. revert B. unfold build_in_box, rr. destruct (Nat.leb (length srcs) cap) eqn:E; cbn [negb].
  - intros H. injection H as <-. exists 0. split; [reflexivity|]. split; [split; [reflexivity|intros; lia]|reflexivity].
  - intros H. apply (build_from_root d pos c l cap srcs true) in H; [|reflexivity].
    destruct H as (h & Hh & HO & ->). exists h. split; [reflexivity|]. split; [assumption|reflexivity].
Qed.

Lemma in_leaf_nodes c l cap srcs h n : H_ok c l cap srcs h ->
  (In n (leaf_nodes (spec c l cap srcs h)) <-> exists p, pres c l cap srcs p /\ ref c l cap srcs p = false /\ n = node c l cap srcs p).
Proof.
  intros Hh. unfold leaf_nodes, spec_tree; cbn [at_leaves]. rewrite in_concat. split.
  - intros (x & Hx & Hn). apply in_map_iff in Hx. destruct Hx as (k & <- & Hk). apply in_map_iff in Hn.
    destruct Hn as (p & <- & Hp). apply filter_In in Hp. destruct Hp as [Hp N]. apply in_level in Hp. apply negb_true_iff in N.
    exists p. tauto.
  - intros (p & P & N & ->). exists (leaf_level d pos c l cap srcs (rr cap srcs) (length p)). split.
    + apply in_map. apply in_seq. assert (D := present_depth _ _ _ _ _ _ _ _ Hh p P). lia.
    + apply in_map. apply filter_In. split; [apply in_level; auto|]. rewrite N. reflexivity.
Qed.
Lemma in_inner_nodes c l cap srcs h n : H_ok c l cap srcs h ->
  (In n (concat (at_nodes (spec c l cap srcs h))) <-> exists p, pres c l cap srcs p /\ ref c l cap srcs p = true /\ n = node c l cap srcs p).
Proof.
  intros Hh. unfold spec_tree; cbn [at_nodes]. rewrite in_concat. split.
  - intros (x & Hx & Hn). apply in_map_iff in Hx. destruct Hx as (k & <- & Hk). apply in_map_iff in Hn. destruct Hn as (p & <- & Hp).
    apply filter_In in Hp. destruct Hp as [Hp N]. apply in_level in Hp. exists p. tauto.
  - intros (p & P & N & ->). exists (inner_level d pos c l cap srcs (rr cap srcs) (length p)). split.
    + apply in_map. apply in_seq. assert (D := refined_depth _ _ _ _ _ _ _ _ Hh p P N). lia.
    + apply in_map. apply filter_In. split; [apply in_level; auto|assumption].
Qed.
Lemma leaf_nodes_eq c l cap srcs h :
  leaf_nodes (spec c l cap srcs h) = map (node c l cap srcs) (leaf_addrs d pos c l cap srcs (rr cap srcs) h).
Proof.
  unfold leaf_nodes, leaf_addrs, spec_tree; cbn [at_leaves]. rewrite flat_map_concat_map, concat_map, map_map. reflexivity.
Qed.
Lemma leaf_sources_eq c l cap srcs h p : H_ok c l cap srcs h -> In p (leaf_addrs d pos c l cap srcs (rr cap srcs) h) ->
  leaf_sources (spec c l cap srcs h) p = sub d pos c l srcs p.
Proof.
  intros Hh Hp. unfold leaf_sources. rewrite leaf_nodes_eq.
  rewrite flat_map_concat_map, map_map, <- flat_map_concat_map. cbn [an_addr mk an_srcs].
  rewrite (flat_map_ext_in _ (fun q => if addr_eqb p q then sub d pos c l srcs q else [])).
  - apply flat_map_pick; [apply leaf_addrs_NoDup|assumption].
  - intros q Hq. apply (in_leaf_addrs _ _ _ _ _ _ _ _ Hh) in Hq. destruct Hq as [_ N]. unfold mk; cbn [an_addr an_srcs]. rewrite N.
    destruct (addr_eqb q p) eqn:E.
    + apply addr_eqb_eq in E. subst. rewrite addr_eqb_refl. reflexivity.
    + assert (E' : addr_eqb p q = false) by (apply addr_eqb_neq; apply addr_eqb_neq in E; congruence). rewrite E'. reflexivity.
Qed.

Theorem any_partition cap fuel srcs t : build_adaptive d pos cap fuel srcs = Ok t ->
  Permutation (flat_map an_srcs (leaf_nodes t)) srcs /\
  (forall n, In n (leaf_nodes t) -> an_leaf n = true /\ length (an_srcs n) <= cap) /\
  (forall n, In n (concat (at_nodes t)) -> an_leaf n = false /\ an_srcs n = [] /\ cap < length (sources_below t (an_addr n))).
Proof.
  intros H. destruct (any_inv _ _ _ _ H) as (c & l & h & _ & Hh & ->). split; [|split].
  - rewrite leaf_nodes_eq, flat_map_concat_map, map_map, <- flat_map_concat_map.
    rewrite (flat_map_ext_in _ (sub d pos c l srcs)).
    + apply sub_leaves_perm. assumption.
    + intros p Hp. apply (in_leaf_addrs _ _ _ _ _ _ _ _ Hh) in Hp. destruct Hp as [_ N]. unfold mk; cbn [an_srcs]. rewrite N. reflexivity.
  - intros n Hn. apply (in_leaf_nodes _ _ _ _ _ _ Hh) in Hn. destruct Hn as (p & P & N & ->).
    unfold mk; cbn [an_leaf an_srcs]. rewrite N. split; [reflexivity|].
    destruct p as [|i p].
    + cbn [refined] in N. unfold rr in N. apply negb_false_iff, Nat.leb_le in N. assumption.
    + unfold refined in N. apply Nat.ltb_ge in N. assumption.
  - intros n Hn. apply (in_inner_nodes _ _ _ _ _ _ Hh) in Hn. destruct Hn as (p & P & N & ->).
    unfold mk; cbn [an_leaf an_srcs an_addr]. rewrite N. split; [reflexivity|]. split; [reflexivity|].
    assert (PB : Permutation (sources_below (spec c l cap srcs h) p) (sub d pos c l srcs p)).
    { unfold sources_below, leaves_below. rewrite leaf_list_eq.
      rewrite (flat_map_ext_in _ (sub d pos c l srcs)).
      2:{ intros q Hq. apply filter_In in Hq. apply leaf_sources_eq; [assumption|apply Hq]. }
      apply sub_below; assumption. }
    rewrite (Permutation_length PB). destruct p as [|i p].
    + cbn [refined sub] in *. unfold rr in N. apply negb_true_iff, Nat.leb_gt in N. assumption.
    + unfold refined in N. apply Nat.ltb_lt in N. assumption.
Qed.

Lemma NoDup_app_disjoint {A} (xs ys : list A) : NoDup xs -> NoDup ys -> (forall a, In a xs -> ~ In a ys) -> NoDup (xs ++ ys).
Proof.
  induction xs as [|x xs IH]; intros Hx Hy D; [assumption|]. apply NoDup_cons_iff in Hx. destruct Hx as [N Hx]. cbn [app]. constructor.
  - rewrite in_app_iff. intros [X|X]; [contradiction|]. apply (D x); [left; reflexivity|assumption].
  - apply IH; auto. intros a Ha. apply D. right. assumption.
Qed.

Theorem any_children cap fuel srcs t : build_adaptive d pos cap fuel srcs = Ok t ->
  NoDup (map an_addr (heap t)) /\
  (forall n, In n (heap t) -> an_depth n = length (an_addr n) /\ an_depth n <= at_height t) /\
  (forall n i, In n (concat (at_nodes t)) -> i < 2 ^ d ->
     exists m, In m (heap t) /\ an_addr m = i :: an_addr n /\ an_len m = nhalf (an_len n) /\
       an_center m = child_center d (an_center n) (nhalf (an_len n)) i) /\
  (forall m i q, In m (heap t) -> an_addr m = i :: q -> i < 2 ^ d /\ exists n, In n (concat (at_nodes t)) /\ an_addr n = q).
Proof.
  intros H. destruct (any_inv _ _ _ _ H) as (c & l & h & _ & Hh & ->). split; [|split; [|split]].
  - unfold heap. rewrite map_app. change (map an_addr (concat (at_leaves ?x))) with (leaf_list x). rewrite leaf_list_eq.
    apply NoDup_app_disjoint.
    + unfold spec_tree; cbn [at_nodes]. rewrite concat_map, map_map.
      rewrite (map_ext (fun x => map an_addr (inner_level d pos c l cap srcs (rr cap srcs) x)) (fun k => filter (ref c l cap srcs) (level d pos c l cap srcs (rr cap srcs) k))).
      2:{ intros k. unfold inner_level. rewrite map_map. cbn. apply map_id. }
      rewrite <- flat_map_concat_map. apply NoDup_flat_map; [apply seq_NoDup|intros; apply NoDup_filter, level_NoDup|].
      intros x y b _ _ Hx Hy. apply filter_In in Hx. destruct Hx as [Hx _]. apply filter_In in Hy. destruct Hy as [Hy _].
      apply in_level in Hx, Hy. lia.
    + apply leaf_addrs_NoDup.
    + intros a Ha Hb. apply (in_leaf_addrs _ _ _ _ _ _ _ _ Hh) in Hb. destruct Hb as [_ N]. apply in_map_iff in Ha.
      destruct Ha as (n & <- & Hn). apply (in_inner_nodes _ _ _ _ _ _ Hh) in Hn. destruct Hn as (p & _ & N' & ->). cbn [mk an_addr] in N. congruence.
  - intros n Hn. apply (in_heap _ _ _ _ _ _ _ _ Hh) in Hn. destruct Hn as (p & P & ->). split; [reflexivity|].
    apply (present_depth _ _ _ _ _ _ _ _ Hh p P).
  - intros n i Hn Hi. apply (in_inner_nodes _ _ _ _ _ _ Hh) in Hn. destruct Hn as (p & P & N & ->).
    exists (node c l cap srcs (i :: p)). split; [|auto]. apply (in_heap _ _ _ _ _ _ _ _ Hh). exists (i :: p).
    split; [|reflexivity]. cbn [present]. auto.
  - intros m i q Hm E. apply (in_heap _ _ _ _ _ _ _ _ Hh) in Hm. destruct Hm as (p & P & ->). cbn [mk an_addr] in E. subst p.
    destruct P as (Hi & P & N). split; [exact Hi|]. exists (node c l cap srcs q). split; [|reflexivity].
    apply (in_inner_nodes _ _ _ _ _ _ Hh). exists q. auto.
Qed.

Theorem any_traversal cap fuel srcs t : build_adaptive d pos cap fuel srcs = Ok t ->
  exists visited, NoDup visited /\ (forall p, In p visited <-> exists n, In n (heap t) /\ an_addr n = p) /\
    StronglySorted (fun a b => length a <= length b) visited /\
    forall (St : Type) (process : addr -> St -> outcome St) st,
      bfs (fun _ p => children d t p) process (length (heap t)) [[]] st = ofold (fun s p => process p s) visited st.
Proof.
  intros H. destruct (any_inv _ _ _ _ H) as (c & l & h & _ & Hh & ->).
  exists (order d pos c l cap srcs (rr cap srcs) h). split; [apply order_NoDup|]. split; [|split].
  - intros p. rewrite (in_order _ _ _ _ _ _ _ _ Hh). split.
    + intros P. exists (node c l cap srcs p). split; [apply (in_heap _ _ _ _ _ _ _ _ Hh); eauto|reflexivity].
    + intros (n & Hn & <-). apply (in_heap _ _ _ _ _ _ _ _ Hh) in Hn. destruct Hn as (q & Q & ->). assumption.
  - unfold order. generalize 0 at 1 as s. generalize (S h) as m. induction m as [|m IH]; intros s; [constructor|].
    cbn [seq flat_map]. specialize (IH (S s)).
    assert (A : forall a, In a (level d pos c l cap srcs (rr cap srcs) s) -> length a = s) by (intros a Ha; apply in_level in Ha; tauto).
    assert (B : forall b, In b (flat_map (level d pos c l cap srcs (rr cap srcs)) (seq (S s) m)) -> s <= length b).
    { intros b Hb. apply in_flat_map in Hb. destruct Hb as (k & Hk & Hb). apply in_seq in Hk. apply in_level in Hb. lia. }
    revert A. generalize (level d pos c l cap srcs (rr cap srcs) s). intros L A. induction L as [|a L IHL]; [exact IH|].
    cbn [app]. constructor.
    + apply IHL. intros. apply A. right. assumption.
    + apply Forall_forall. intros b Hb. rewrite (A a) by (left; reflexivity). apply in_app_iff in Hb. destruct Hb as [Hb|Hb].
      * rewrite (A b) by (right; assumption). lia.
      * apply B. assumption.
  - intros St process st. rewrite (bfs_levels (children d (spec c l cap srcs h)) process (S h)).
    + f_equal. apply flat_map_ext_in. intros k _. apply bfs_level_level. assumption.
    + rewrite (bfs_level_level d pos c l cap srcs (rr cap srcs) h Hh). apply (level_ext_empty _ _ _ _ _ _ _ h); [apply Hh|lia].
    + rewrite (flat_map_ext_in _ (level d pos c l cap srcs (rr cap srcs))) by (intros; apply bfs_level_level; assumption).
      change (flat_map (level d pos c l cap srcs (rr cap srcs)) (seq 0 (S h))) with (order d pos c l cap srcs (rr cap srcs) h).
      rewrite (heap_length _ _ _ _ _ _ _ _ Hh). lia.
Qed.

(** Descending from the root to the position of a source ends in the leaf that stores it. *)
Theorem any_descent cap fuel srcs t : build_adaptive d pos cap fuel srcs = Ok t ->
  (forall x, exists n, descend d t (at_height t) [] x = Ok n /\ In n (leaf_nodes t)) /\
  forall s, In s srcs -> exists n, descend d t (at_height t) [] (pos s) = Ok n /\ In n (leaf_nodes t) /\ In s (an_srcs n).
Proof.
  intros H. destruct (any_inv _ _ _ _ H) as (c & l & h & _ & Hh & ->). split.
  - intros x. destruct (descend_root _ _ _ _ _ _ _ _ Hh x) as (p & D & N & P & E).
    exists (node c l cap srcs p). split; [exact D|]. apply in_leaf_nodes; [assumption|]. exists p. auto.
  - intros s Hs. destruct (descend_root _ _ _ _ _ _ _ _ Hh (pos s)) as (p & D & N & P & E).
    exists (node c l cap srcs p). split; [exact D|]. split.
    + apply in_leaf_nodes; [assumption|]. exists p. auto.
    + unfold mk; cbn [an_srcs]. rewrite N. apply sub_path. auto.
Qed.

(** The lists: either the sanity check throws, or every leaf meets every leaf exactly once. *)
Theorem any_coverage cap fuel srcs t : build_adaptive d pos cap fuel srcs = Ok t ->
  (forall c l, root_box d (map pos srcs) = Some (c, l) -> forall i j, nmin (halves l i) (halves l j) = nmin (halves l j) (halves l i)) ->
  all_lists d t = Throw \/
  exists ls, all_lists d t = Ok ls /\
    forall L, In L (leaf_list t) ->
      Permutation (interactions t ls L) (leaf_list t) /\ Permutation (flat_map (leaf_sources t) (interactions t ls L)) srcs.
Proof.
  intros H HM. destruct (any_inv _ _ _ _ H) as (c & l & h & RB & Hh & ->). specialize (HM c l RB).
  assert (SY : forall p q, adjb d pos c l cap srcs (rr cap srcs) p q = adjb d pos c l cap srcs (rr cap srcs) q p).
  { intros p q. unfold adjb, nodes_adjacent. apply adjacent_sym. cbn [mk an_len]. rewrite !blen_halves. apply HM. }
  rewrite (all_lists_events d pos c l cap srcs (rr cap srcs) h Hh).
  destruct (existsb _ _); cbn [gate]; [left; reflexivity|right]. eexists. split; [reflexivity|].
  intros L IL. rewrite leaf_list_eq in *.
  assert (PP : Permutation (interactions (spec c l cap srcs h) (final d pos c l cap srcs (rr cap srcs) h) L) (leaf_addrs d pos c l cap srcs (rr cap srcs) h)).
  { apply (in_leaf_addrs _ _ _ _ _ _ _ _ Hh) in IL. destruct IL as [P N]. apply interactions_perm; assumption. }
  split; [exact PP|]. unfold final in PP. rewrite (Permutation_flat_map _ PP).
  rewrite (flat_map_ext_in _ (sub d pos c l srcs)).
  - apply sub_leaves_perm. assumption.
  - intros p Hp. apply leaf_sources_eq; assumption.
Qed.
End Any.

(** A distance routine that reports every distance at most as large makes the check fail at least as often. *)
Lemma lists_throw_mono {T Src} {NT : Num T} (D1 D2 : Dist T) d (pos : Src -> list T) cap fuel srcs t :
  (forall v b, norm_ltb (Dist := D1) v b = true -> norm_ltb (Dist := D2) v b = true) ->
  build_adaptive d pos cap fuel srcs = Ok t -> all_lists (D := D1) d t = Throw -> all_lists (D := D2) d t = Throw.
Proof.
  intros HD H. destruct (any_inv _ _ _ _ _ _ H) as (c & l & h & _ & Hh & ->).
  rewrite (all_lists_events (DNu := D1) d pos c l cap srcs _ h Hh), (all_lists_events (DNu := D2) d pos c l cap srcs _ h Hh).
  destruct (existsb (bad (DNu := D1) _ _ _ _ _ _ _) _) eqn:E; [|discriminate]. intros _.
  replace (existsb (bad (DNu := D2) _ _ _ _ _ _ _) _) with true; [reflexivity|]. symmetry.
  assert (MO : forall A (f g : A -> bool) xs, (forall x, f x = true -> g x = true) -> existsb f xs = true -> existsb g xs = true).
  { intros A f g xs Hfg X. apply existsb_exists in X. destruct X as (x & Hx & F). apply existsb_exists. exists x. auto. }
  revert E. apply MO. intros [|i p]; [discriminate|]. unfold bad. apply MO. intros pn. unfold bad_neighbour.
  destruct (leaf _ _ _ _ _ _ _ pn); [discriminate|]. apply MO. intros q. unfold bad_child. rewrite !andb_true_iff.
  intros [A B]. split; [exact A|]. unfold too_close in *. apply HD. exact B.
Qed.

(** adaptive_fmm_tree.hpp:521-566: processing a neighbour changes the near list of no inner box but the current one, so the loop over
    the parent's list sees the list it started with. *)
Lemma nbhd_parent_unchanged {T Src} {NT : Num T} {DT : Dist T} d (t : @atree T Src) nd pn ls ls' q n :
  lookup t q = Some n -> an_leaf n = false -> q <> an_addr nd -> nbhd_neighbour d t nd ls pn = Ok ls' -> nl_near ls' q = nl_near ls q.
Proof.
  intros LQ NL NE.
  assert (PU : forall ls p x, q <> p -> nl_near (push_near ls p x) q = nl_near ls q).
  { intros ls0 p x Hp. cbn. unfold push. destruct (addr_eqb q p) eqn:E; [apply addr_eqb_eq in E; contradiction|reflexivity]. }
  unfold nbhd_neighbour. destruct (lookup t pn) as [pnd|] eqn:LP; [|discriminate].
  destruct (an_leaf pnd) eqn:PL.
  - assert (NP : q <> pn) by (intros ->; rewrite LQ in LP; injection LP as ->; congruence).
    destruct (nodes_adjacent d nd pnd).
    + destruct (an_leaf nd); intros H; injection H as <-; rewrite !PU by assumption; reflexivity.
    + intros H. injection H as <-. reflexivity.
  - generalize (children d t pn). intros xs. revert ls. induction xs as [|x xs IH]; intros ls; cbn [ofold].
    + intros H. injection H as ->. reflexivity.
    + intros H. destruct (nbhd_child d t nd ls x) as [l1| | | | |] eqn:E; try discriminate. cbn [bind] in H.
      rewrite (IH _ H). revert E. unfold nbhd_child. destruct (lookup t x) as [ch|]; [|discriminate].
      destruct (nodes_adjacent d nd ch).
      * destruct (negb (an_leaf nd) || an_leaf ch); intros X; injection X as <-; [apply PU; assumption|reflexivity].
      * destruct (too_close nd ch); [discriminate|]. intros X. injection X as <-. reflexivity.
Qed.
