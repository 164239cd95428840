(** The point tree: contents, geometry and termination. *)
From Coq Require Import List Bool ZArith Arith Reals Lra Lia Permutation.
From Verif Require Import Num Outcome Vec Orthtree AdaptiveTree TreeSpec VecProofs GeometrySpec GeometryProofs TreeGeometry
  AdaptiveProofs BfsProofs ListProofs ListContents RootBoxProofs BuildProofs TreeTheorems TreeTheorems2 TreeTheorems3 PointTree.
Import ListNotations.

Section Points.
Context {Src : Type}.
Variable d : nat.
Variable pos : Src -> list R.
Notation spec := (spec_tree d pos).

Lemma points_inv cap fuel pts t : 1 <= d -> (forall s, In s pts -> length (pos s) = d) -> build_points d pos cap fuel pts = Ok t ->
  exists c l h, root_box d (map pos pts) = Some (c, l) /\ length c = d /\ (0 <= l)%R /\ 1 <= h /\
    height_ok d pos c l cap pts true h /\ t = spec c l cap pts true h.
Proof.
  intros Hd Hpos H. unfold build_points in H. destruct (root_box d (map pos pts)) as [[c l]|] eqn:RB; [|discriminate].
  destruct (build_point_tree d pos cap fuel c l pts) as [t'|] eqn:B; [|discriminate]. injection H as ->.
  assert (HN : map pos pts <> []).
  { intros E. apply map_eq_nil in E. apply (root_box_finite d pos pts Hd Hpos) in E. congruence. }
  destruct (root_box_spec d (map pos pts) Hd HN) as (lo & hi & c' & l' & EB & RB' & Hc & CC & LL & (j & Hj & Ej)).
  { intros x Hx. apply in_map_iff in Hx. destruct Hx as (s & <- & Hs). auto. }
  rewrite RB in RB'. injection RB' as <- <-.
  assert (Hl : (0 <= l)%R).
  { rewrite Ej. destruct EB as (_ & _ & EB). destruct (EB j Hj) as (A & (x & Hx & Ex) & _). specialize (A x Hx). unfold eps5. nra. }
  apply (build_from_root d pos c l cap pts true) in B; [|reflexivity]. destruct B as (h & Hh & HO & ->).
  exists c, l, h. split; [reflexivity|]. split; [exact Hc|]. split; [exact Hl|]. split; [apply Hh|]. split; [exact HO|reflexivity].
Qed.

Theorem points_partition cap fuel pts t : 1 <= d -> (forall s, In s pts -> length (pos s) = d) ->
  build_points d pos cap fuel pts = Ok t ->
  Permutation (flat_map an_srcs (leaf_nodes t)) pts /\
  (forall n, In n (leaf_nodes t) -> an_leaf n = true /\ length (an_srcs n) <= cap) /\
  (forall n, In n (concat (at_nodes t)) -> an_leaf n = false /\ an_srcs n = [] /\ (an_addr n <> [] -> cap < length (sources_below t (an_addr n)))) /\
  exists n, In n (concat (at_nodes t)) /\ an_addr n = [].
Proof.
  intros Hd Hpos H. destruct (points_inv _ _ _ _ Hd Hpos H) as (c & l & h & _ & Hc & _ & H1 & Hh & ->).
  split; [|split; [|split]].
  - rewrite leaf_nodes_eq, flat_map_concat_map, map_map, <- flat_map_concat_map.
    rewrite (flat_map_ext_in _ (sub d pos c l pts)).
    + apply leaf_sources_perm. assumption.
    + intros p Hp. apply (in_leaf_addrs _ _ _ _ _ _ _ _ Hh) in Hp. destruct Hp as [_ N]. unfold mk; cbn [an_srcs]. rewrite N. reflexivity.
  - intros n Hn. apply (in_leaf_nodes _ _ _ _ _ _ _ _ _ Hh) in Hn. destruct Hn as (p & P & N & ->).
    unfold mk; cbn [an_leaf an_srcs]. rewrite N. split; [reflexivity|].
    destruct p as [|i p]; [discriminate N|]. unfold refined in N. apply Nat.ltb_ge in N. assumption.
  - intros n Hn. unfold spec_tree in Hn; cbn [at_nodes] in Hn. apply in_concat in Hn. destruct Hn as (x & Hx & Hn).
    apply in_map_iff in Hx. destruct Hx as (k & <- & Hk). apply in_map_iff in Hn. destruct Hn as (p & <- & Hp).
    apply filter_In in Hp. destruct Hp as [Hp N]. apply in_level in Hp. destruct Hp as [_ P].
    unfold mk; cbn [an_leaf an_srcs an_addr]. rewrite N. split; [reflexivity|]. split; [reflexivity|]. intros NE.
    assert (PB : Permutation (sources_below (spec c l cap pts true h) p) (sub d pos c l pts p)).
    { unfold sources_below, leaves_below. rewrite leaf_list_eq.
      rewrite (flat_map_ext_in _ (sub d pos c l pts)).
      2:{ intros q Hq. apply filter_In in Hq. apply leaf_sources_eq; [assumption|apply Hq]. }
      apply sub_below; assumption. }
    rewrite (Permutation_length PB). destruct p as [|i p]; [contradiction|]. unfold refined in N. apply Nat.ltb_lt in N. assumption.
  - exists (mk d pos c l cap pts true []). split; [|reflexivity]. unfold spec_tree; cbn [at_nodes]. apply in_concat.
    exists (inner_level d pos c l cap pts true 0). split; [apply in_map, in_seq; lia|]. left. reflexivity.
Qed.

Theorem points_space cap fuel pts t : 1 <= d -> (forall s, In s pts -> length (pos s) = d) ->
  build_points d pos cap fuel pts = Ok t ->
  exists c l, root_box d (map pos pts) = Some (c, l) /\
    (forall n x, In n (heap t) -> in_box d (an_center n) (an_len n) x -> in_box d c l x) /\
    (forall x, in_box d c l x -> exists n, In n (leaf_nodes t) /\ in_box d (an_center n) (an_len n) x) /\
    (forall n m x, In n (leaf_nodes t) -> In m (leaf_nodes t) ->
       in_interior d (an_center n) (an_len n) x -> in_interior d (an_center m) (an_len m) x -> n = m) /\
    (forall n s, In n (leaf_nodes t) -> In s (an_srcs n) -> in_box d c l (pos s) -> in_box d (an_center n) (an_len n) (pos s)).
Proof.
  intros Hd Hpos H. destruct (points_inv _ _ _ _ Hd Hpos H) as (c & l & h & RB & Hc & _ & H1 & Hh & ->).
  exists c, l. split; [assumption|]. split; [|split; [|split]].
  - intros n x Hn Hx. apply (in_heap _ _ _ _ _ _ _ _ Hh) in Hn. destruct Hn as (p & P & ->).
    eapply (leaf_box_in_root d c l p); assumption.
  - intros x Hx. destruct (containing_leaf_spec _ _ _ _ _ _ _ _ Hh x Hc) as (p & P & N & E & [(_ & B & _)|(NB & _)]); [|contradiction].
    exists (mk d pos c l cap pts true p). split; [apply in_leaf_nodes; eauto|assumption].
  - intros n m x Hn Hm In1 In2. apply (in_leaf_nodes _ _ _ _ _ _ _ _ _ Hh) in Hn, Hm.
    destruct Hn as (p & P & N & ->). destruct Hm as (q & Q & M & ->). f_equal.
    eapply (leaves_disjoint d pos c l cap pts true p q x); assumption.
  - intros n s Hn Hs B. apply (in_leaf_nodes _ _ _ _ _ _ _ _ _ Hh) in Hn. destruct Hn as (p & P & N & ->).
    unfold mk in Hs; cbn [an_srcs] in Hs. rewrite N in Hs. apply sub_path in Hs. destruct Hs as [Hs E].
    unfold mk; cbn [an_center an_len]. rewrite <- E. apply path_in_box; assumption.
Qed.

Lemma point_tree_terminates cap c l pts : length c = d -> (forall s, In s pts -> length (pos s) = d) ->
  (forall s, In s pts -> in_box d c l (pos s)) ->
  ((exists fuel t, build_point_tree d pos cap fuel c l pts = Some t) <->
   (forall x, count_occ list_R_eq_dec (map pos pts) x <= cap)).
Proof.
  intros Hc Hpos Hbox. split.
  - intros (fuel & t & H) x. destruct (le_lt_dec (count_occ list_R_eq_dec (map pos pts) x) cap) as [L|L]; [assumption|].
    exfalso. apply (build_from_root d pos c l cap pts true) in H; [|reflexivity]. destruct H as (h & _ & [HE _] & _).
    apply (many_coincident_level d pos c l cap pts true x h) in HE; auto.
  - intros H. destruct (terminates_level d pos c l cap pts true (ex_intro _ true eq_refl) Hc Hpos Hbox H) as (k & Hk & Hl).
    assert (T := build_from_root_complete d pos c l cap pts true k k eq_refl ltac:(lia) Hl).
    exists k. match goal with |- exists t, ?b = _ => change (b <> None) in T; destruct b as [t|] eqn:EB end.
    + exists t. reflexivity.
    + exfalso. apply T. reflexivity.
Qed.
Theorem points_build cap pts : 1 <= d -> pts <> [] -> (forall s, In s pts -> length (pos s) = d) ->
  (forall j, j < d -> (exists s, In s pts /\ (nth j (pos s) 0 <= 0)%R) /\ (exists s, In s pts /\ (0 <= nth j (pos s) 0)%R)) ->
  ((exists fuel t, build_points d pos cap fuel pts = Ok t) <->
   forall x, count_occ list_R_eq_dec (map pos pts) x <= cap).
Proof.
  intros Hd HN Hpos HS.
  destruct (root_box d (map pos pts)) as [[c l]|] eqn:RB.
  2:{ apply root_box_finite in RB; [contradiction|assumption|assumption]. }
  assert (Hc : length c = d).
  { destruct (root_box_spec d (map pos pts) Hd) as (lo & hi & c' & l' & _ & RB' & Hc & _).
    - intros E. apply map_eq_nil in E. contradiction.
    - intros x Hx. apply in_map_iff in Hx. destruct Hx as (s & <- & Hs). auto.
    - rewrite RB in RB'. injection RB' as <- <-. assumption. }
  assert (TM := point_tree_terminates cap c l pts Hc Hpos (root_box_contains d pos pts c l Hd Hpos RB HS)).
  rewrite <- TM. unfold build_points. rewrite RB. split; intros (fuel & t & H); exists fuel.
  - destruct (build_point_tree d pos cap fuel c l pts) as [t'|]; [|discriminate]. exists t'. reflexivity.
  - exists t. rewrite H. reflexivity.
Qed.
Lemma points_undefined cap fuel pts : 1 <= d -> (forall s, In s pts -> length (pos s) = d) -> (build_points d pos cap fuel pts = UB <-> pts = []).
Proof.
  intros Hd Hpos. rewrite <- (root_box_finite d pos pts Hd Hpos). unfold build_points. destruct (root_box d (map pos pts)) as [[c l]|].
  - destruct (build_point_tree d pos cap fuel c l pts); split; discriminate.
  - split; reflexivity.
Qed.
End Points.

Lemma five_points : exists fuel t, build_points 2 (fun x : list R => x) 1 fuel five = Ok t.
Proof.
  apply points_build; [lia|discriminate|apply five_dim|apply five_straddles|].
  intros x. rewrite map_id. assert (ND := five_distinct). apply (NoDup_count_occ list_R_eq_dec) with (x := x) in ND. exact ND.
Qed.
