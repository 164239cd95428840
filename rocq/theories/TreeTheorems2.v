(** More properties of the adaptive tree: space partition, descent, traversal, and the cases where the constructor fails. *)
From Coq Require Import List Bool ZArith Arith Reals Lra Lia Permutation Sorted.
From Verif Require Import Num Outcome Vec Orthtree AdaptiveTree TreeSpec VecProofs GeometrySpec GeometryProofs TreeGeometry
  AdaptiveProofs BfsProofs ListProofs ListContents RootBoxProofs BuildProofs TreeTheorems.
Import ListNotations.

Section Theorems.
Context {Src : Type}.
Variable d : nat.
Variable pos : Src -> list R.

Notation spec := (spec_tree d pos).
Notation H_ok := (height_ok d pos).

Theorem adaptive_space cap fuel srcs t : 1 <= d -> (forall s, In s srcs -> length (pos s) = d) ->
  build_adaptive d pos cap fuel srcs = Ok t ->
  exists c l, root_box d (map pos srcs) = Some (c, l) /\
    (forall n x, In n (heap t) -> in_box d (an_center n) (an_len n) x -> in_box d c l x) /\
    (forall x, in_box d c l x -> exists n, In n (leaf_nodes t) /\ in_box d (an_center n) (an_len n) x) /\
    (forall n m x, In n (leaf_nodes t) -> In m (leaf_nodes t) ->
       in_interior d (an_center n) (an_len n) x -> in_interior d (an_center m) (an_len m) x -> n = m) /\
    (forall n s, In n (leaf_nodes t) -> In s (an_srcs n) -> in_box d c l (pos s) -> in_box d (an_center n) (an_len n) (pos s)).
Proof.
  intros Hd Hpos H. destruct (adaptive_inv _ _ _ _ _ _ Hd Hpos H) as (c & l & h & RB & Hc & _ & Hh & -> & HP & _).
  exists c, l. split; [assumption|]. split; [|split; [|split]].
  - intros n x Hn Hx. apply (in_heap _ _ _ _ _ _ _ _ Hh) in Hn. destruct Hn as (p & P & ->).
    eapply (leaf_box_in_root d c l p); assumption.
  - intros x Hx. destruct (containing_leaf_spec _ _ _ _ _ _ _ _ Hh x Hc) as (p & P & N & E & [(_ & B & _)|(NB & _)]); [|contradiction].
    exists (mk d pos c l cap srcs (rr cap srcs) p). split; [apply in_leaf_nodes; eauto|assumption].
  - intros n m x Hn Hm In1 In2. apply (in_leaf_nodes _ _ _ _ _ _ _ _ _ Hh) in Hn, Hm.
    destruct Hn as (p & P & N & ->). destruct Hm as (q & Q & M & ->). f_equal.
    eapply (leaves_disjoint d pos c l cap srcs (rr cap srcs) p q x); assumption.
  - intros n s Hn Hs B. apply (in_leaf_nodes _ _ _ _ _ _ _ _ _ Hh) in Hn. destruct Hn as (p & P & N & ->).
    unfold mk in Hs; cbn [an_srcs] in Hs. rewrite N in Hs. apply sub_path in Hs. destruct Hs as [Hs E].
    unfold mk; cbn [an_center an_len]. rewrite <- E. apply path_in_box; assumption.
Qed.

Theorem containing_leaf_correct cap fuel srcs t : 1 <= d -> (forall s, In s srcs -> length (pos s) = d) ->
  build_adaptive d pos cap fuel srcs = Ok t ->
  exists c l, root_box d (map pos srcs) = Some (c, l) /\ forall x,
    (in_box d c l x -> exists n, containing_leaf d t x = Ok (Some n) /\ In n (leaf_nodes t) /\
        in_box d (an_center n) (an_len n) x /\ (forall s, In s srcs -> pos s = x -> In s (an_srcs n))) /\
    (~ in_box d c l x -> containing_leaf d t x = Ok None).
Proof.
  intros Hd Hpos H. destruct (adaptive_inv _ _ _ _ _ _ Hd Hpos H) as (c & l & h & RB & Hc & _ & Hh & -> & HP & _).
  exists c, l. split; [assumption|]. intros x.
  destruct (containing_leaf_spec _ _ _ _ _ _ _ _ Hh x Hc) as (p & P & N & E & [(B & Bp & C)|(NB & C)]); split; intros HB; try contradiction; auto.
  exists (mk d pos c l cap srcs (rr cap srcs) p). split; [assumption|]. split; [apply in_leaf_nodes; eauto|].
  split; [assumption|]. intros s Hs Ex. unfold mk; cbn [an_srcs]. rewrite N. apply sub_path. rewrite Ex. auto.
Qed.

(** Parent/child structure of the tree object. *)
Theorem adaptive_children cap fuel srcs t : 1 <= d -> (forall s, In s srcs -> length (pos s) = d) ->
  build_adaptive d pos cap fuel srcs = Ok t ->
  NoDup (map an_addr (heap t)) /\
  (forall n, In n (heap t) -> an_depth n = length (an_addr n) /\ an_depth n <= at_height t) /\
  (forall n i, In n (concat (at_nodes t)) -> i < 2 ^ d ->
     exists m, In m (heap t) /\ an_addr m = i :: an_addr n /\ an_len m = (an_len n / 2)%R /\
       an_center m = child_center d (an_center n) (an_len n / 2)%R i) /\
  (forall m i q, In m (heap t) -> an_addr m = i :: q -> i < 2 ^ d /\ exists n, In n (concat (at_nodes t)) /\ an_addr n = q).
Proof.
  intros Hd Hpos H. destruct (adaptive_inv _ _ _ _ _ _ Hd Hpos H) as (c & l & h & RB & Hc & _ & Hh & -> & HP & _).
  assert (IN : forall n, In n (concat (at_nodes (spec c l cap srcs (rr cap srcs) h))) <->
     exists p, present d pos c l cap srcs (rr cap srcs) p /\ refined d pos c l cap srcs (rr cap srcs) p = true /\ n = mk d pos c l cap srcs (rr cap srcs) p).
  { intros n. unfold spec_tree; cbn [at_nodes]. rewrite in_concat. split.
    - intros (x & Hx & Hn). apply in_map_iff in Hx. destruct Hx as (k & <- & Hk). apply in_map_iff in Hn. destruct Hn as (p & <- & Hp).
      apply filter_In in Hp. destruct Hp as [Hp N]. apply in_level in Hp. exists p. tauto.
    - intros (p & P & N & ->). exists (inner_level d pos c l cap srcs (rr cap srcs) (length p)). split.
      + apply in_map. apply in_seq. assert (D := refined_depth _ _ _ _ _ _ _ _ Hh p P N). lia.
      + apply in_map. apply filter_In. split; [apply in_level; auto|assumption]. }
  split; [|split; [|split]].
  - unfold heap. rewrite map_app. change (map an_addr (concat (at_leaves ?x))) with (leaf_list x).
    rewrite leaf_list_eq.
    unfold spec_tree; cbn [at_nodes]. rewrite concat_map, map_map.
    rewrite (map_ext (fun x => map an_addr (inner_level d pos c l cap srcs (rr cap srcs) x)) (fun k => filter (refined d pos c l cap srcs (rr cap srcs)) (level d pos c l cap srcs (rr cap srcs) k))).
    2:{ intros k. unfold inner_level. rewrite map_map. cbn. apply map_id. }
    rewrite <- flat_map_concat_map.
    assert (ND1 : NoDup (flat_map (fun k => filter (refined d pos c l cap srcs (rr cap srcs)) (level d pos c l cap srcs (rr cap srcs) k)) (seq 0 h))).
    { apply NoDup_flat_map; [apply seq_NoDup|intros; apply NoDup_filter, level_NoDup|].
      intros x y b _ _ Hx Hy. apply filter_In in Hx. destruct Hx as [Hx _]. apply filter_In in Hy. destruct Hy as [Hy _].
      apply in_level in Hx, Hy. lia. }
    assert (ND2 := leaf_addrs_NoDup d pos c l cap srcs (rr cap srcs) h).
    revert ND1 ND2. generalize (leaf_addrs d pos c l cap srcs (rr cap srcs) h) (in_leaf_addrs d pos c l cap srcs (rr cap srcs) h Hh).
    intros ll Hll ND1 ND2.
    assert (DJ : forall a, In a (flat_map (fun k => filter (refined d pos c l cap srcs (rr cap srcs)) (level d pos c l cap srcs (rr cap srcs) k)) (seq 0 h)) -> ~ In a ll).
    { intros a Ha Hb. apply Hll in Hb. apply in_flat_map in Ha. destruct Ha as (k & _ & Ha). apply filter_In in Ha. destruct Ha, Hb. congruence. }
    revert ND1 DJ. generalize (flat_map (fun k => filter (refined d pos c l cap srcs (rr cap srcs)) (level d pos c l cap srcs (rr cap srcs) k)) (seq 0 h)).
    intros xs. induction xs as [|x xs IH]; intros ND1 DJ; [assumption|]. inversion ND1; subst. cbn [app]. constructor.
    + rewrite in_app_iff. intros [X|X]; [contradiction|]. apply (DJ x); [left; reflexivity|assumption].
    + apply IH; [assumption|]. intros a Ha. apply DJ. right. assumption.
  - intros n Hn. apply (in_heap _ _ _ _ _ _ _ _ Hh) in Hn. destruct Hn as (p & P & ->). split; [reflexivity|].
    apply (present_depth _ _ _ _ _ _ _ _ Hh p P).
  - intros n i Hn Hi. apply IN in Hn. destruct Hn as (p & P & N & ->).
    exists (mk d pos c l cap srcs (rr cap srcs) (i :: p)). split; [|split; [reflexivity|split; reflexivity]].
    apply (in_heap _ _ _ _ _ _ _ _ Hh). exists (i :: p). split; [|reflexivity]. cbn [present]. auto.
  - intros m i q Hm E. apply (in_heap _ _ _ _ _ _ _ _ Hh) in Hm. destruct Hm as (p & P & ->). cbn [mk an_addr] in E. subst p.
    destruct P as (Hi & P & N). split; [assumption|]. exists (mk d pos c l cap srcs (rr cap srcs) q).
    split; [|reflexivity]. apply IN. exists q. auto.
Qed.

(** Traversal. *)
Theorem traversal_order cap fuel srcs t : 1 <= d -> (forall s, In s srcs -> length (pos s) = d) ->
  build_adaptive d pos cap fuel srcs = Ok t ->
  exists visited, NoDup visited /\ (forall p, In p visited <-> exists n, In n (heap t) /\ an_addr n = p) /\
    StronglySorted (fun a b => length a <= length b) visited /\
    forall (St : Type) (process : addr -> St -> outcome St) st,
      bfs (fun _ p => children d t p) process (length (heap t)) [[]] st = ofold (fun s p => process p s) visited st.
Proof.
  intros Hd Hpos H. destruct (adaptive_inv _ _ _ _ _ _ Hd Hpos H) as (c & l & h & RB & Hc & _ & Hh & -> & HP & _).
  exists (order d pos c l cap srcs (rr cap srcs) h). split; [apply order_NoDup|]. split; [|split].
  - intros p. rewrite (in_order _ _ _ _ _ _ _ _ Hh). split.
    + intros P. exists (mk d pos c l cap srcs (rr cap srcs) p). split; [apply (in_heap _ _ _ _ _ _ _ _ Hh); eauto|reflexivity].
    + intros (n & Hn & <-). apply (in_heap _ _ _ _ _ _ _ _ Hh) in Hn. destruct Hn as (q & Q & ->). assumption.
  - unfold order. generalize 0 at 1 as s. generalize (S h) as m. induction m as [|m IH]; intros s; [constructor|].
    cbn [seq flat_map]. specialize (IH (S s)).
    assert (A : forall a, In a (level d pos c l cap srcs (rr cap srcs) s) -> length a = s) by (intros a Ha; apply in_level in Ha; tauto).
    assert (B : forall b, In b (flat_map (level d pos c l cap srcs (rr cap srcs)) (seq (S s) m)) -> s <= length b).
    { intros b Hb. apply in_flat_map in Hb. destruct Hb as (k & Hk & Hb). apply in_seq in Hk. apply in_level in Hb. lia. }
    revert A. generalize (level d pos c l cap srcs (rr cap srcs) s). intros L A. induction L as [|a L IHL]; [exact IH|].
    cbn [app]. constructor.
    + apply IHL. intros. apply A. right. assumption.
    + apply Forall_forall. intros b Hb. rewrite (A a) by (left; reflexivity). apply in_app_iff in Hb. destruct Hb as [Hb|Hb].
      * rewrite (A b) by (right; assumption). lia.
      * apply B. assumption.
  - intros St process st. rewrite (bfs_levels (children d (spec c l cap srcs (rr cap srcs) h)) process (S h)).
    + f_equal. apply flat_map_ext_in. intros k _. apply bfs_level_level. assumption.
    + rewrite (bfs_level_level d pos c l cap srcs (rr cap srcs) h Hh). apply (level_ext_empty _ _ _ _ _ _ _ h); [apply Hh|lia].
    + rewrite (flat_map_ext_in _ (level d pos c l cap srcs (rr cap srcs))) by (intros; apply bfs_level_level; assumption).
      change (flat_map (level d pos c l cap srcs (rr cap srcs)) (seq 0 (S h))) with (order d pos c l cap srcs (rr cap srcs) h).
      rewrite heap_length by assumption. lia.
Qed.

(** ** When the constructor does not terminate *)
Lemma gco_zeros j k : gco d j (repeat 0 k) = 0%Z.
Proof. induction k; cbn [repeat gco]; [reflexivity|]. rewrite IHk, Nat.bits_0. reflexivity. Qed.

Theorem sources_below_box_diverge cap c l srcs : length c = d -> (0 <= l)%R -> cap < length srcs ->
  (forall s, In s srcs -> forall j, j < d -> (nth j (pos s) 0 < nth j c 0 - l / 2)%R) ->
  forall fuel, build_in_box d pos cap fuel c l srcs = None.
Proof.
  intros Hc Hl HN HB fuel. destruct (build_in_box d pos cap fuel c l srcs) as [t|] eqn:E; [exfalso|reflexivity].
  apply build_in_box_spec in E. destruct E as (h & [HE _] & _).
  assert (HR : rr cap srcs = true) by (unfold rr; apply negb_true_iff, Nat.leb_gt; assumption).
  rewrite HR in HE.
  assert (S : forall k, sub d pos c l srcs (repeat 0 k) = srcs).
  { induction k; [reflexivity|]. cbn [repeat sub]. rewrite IHk. apply filter_all. intros s Hs. apply Nat.eqb_eq.
    apply get_orthant_iff; [assert (2 ^ d <> 0) by (apply Nat.pow_nonzero; lia); lia|].
    intros j Hj. rewrite Nat.bits_0. split; [discriminate|]. intros G. exfalso.
    specialize (HB s Hs j Hj). unfold vget in G; cbn [n0 NumR] in G. rewrite nth_box_ctr in G by assumption.
    rewrite gco_zeros, repeat_length in G. assert (0 <= l / 2 ^ k)%R by (apply div_nonneg; [assumption|apply pow2_pos]).
    assert ((0 + / 2) * (l / 2 ^ k) >= 0)%R by lra. simpl in G. lra. }
  assert (RF : forall k, refined d pos c l cap srcs true (repeat 0 k) = true).
  { intros [|k]; [reflexivity|]. specialize (S (Datatypes.S k)). cbn [repeat] in *. unfold refined. rewrite S. apply Nat.ltb_lt. assumption. }
  assert (PR : forall k, present d pos c l cap srcs true (repeat 0 k)).
  { induction k; [exact I|]. cbn [repeat present]. split; [|auto]. unfold n_children. assert (2 ^ d <> 0) by (apply Nat.pow_nonzero; lia). lia. }
  assert (I : In (repeat 0 h) (filter (refined d pos c l cap srcs true) (level d pos c l cap srcs true h))).
  { apply filter_In. split; [|apply RF]. apply in_level. split; [apply repeat_length|apply PR]. }
  rewrite HE in I. destruct I.
Qed.
End Theorems.

(** Two distinct sources, one source per leaf allowed. *)
Definition far_pair : list (list R) := [[1; 1]; [1 + 1 / 1000000; 1 + 1 / 1000000]]%R.

Lemma far_pair_box : exists c l, root_box 2 far_pair = Some (c, l) /\ length c = 2 /\ (0 <= l)%R /\
  forall s, In s far_pair -> forall j, j < 2 -> (nth j s 0 < nth j c 0 - l / 2)%R.
Proof.
  destruct (root_box_spec 2 far_pair ltac:(lia)) as (lo & hi & c & l & (_ & _ & EB) & RB & Hc & CC & LL & (j0 & Hj0 & Ej)).
  { discriminate. }
  { intros x [<-|[<-|[]]]; reflexivity. }
  exists c, l. split; [assumption|]. split; [assumption|].
  assert (V : forall j, j < 2 -> nth j lo 0%R = 1%R /\ nth j hi 0%R = (1 + 1 / 1000000)%R).
  { intros j Hj. destruct (EB j Hj) as (A & (x & Hx & Ex) & (y & Hy & Ey)).
    assert (A1 := A [1; 1]%R (or_introl eq_refl)). assert (A2 := A _ (or_intror (or_introl eq_refl))).
    assert (j = 0 \/ j = 1) as [->| ->] by lia; cbn [nth] in A1, A2;
      destruct Hx as [<-|[<-|[]]]; destruct Hy as [<-|[<-|[]]]; cbn [nth] in Ex, Ey; lra. }
  destruct (V j0 Hj0) as [V1 V2]. rewrite V1, V2 in Ej. unfold eps5 in *.
  split; [lra|]. intros s Hs j Hj. destruct (V j Hj) as [W1 W2]. rewrite (CC j Hj), W1, W2, Ej.
  assert (j = 0 \/ j = 1) as [->| ->] by lia; destruct Hs as [<-|[<-|[]]]; cbn [nth]; lra.
Qed.

Theorem distinct_sources_diverge : NoDup far_pair /\
  forall fuel, build_adaptive 2 (fun x => x) 1 fuel far_pair = OutOfFuel.
Proof.
  split.
  - repeat constructor; intros H; [|destruct H]. destruct H as [H|[]]. injection H as H _. lra.
  - intros fuel. unfold build_adaptive. rewrite map_id. destruct far_pair_box as (c & l & RB & Hc & Hl & B). rewrite RB.
    rewrite (sources_below_box_diverge 2 (fun x => x) 1 c l far_pair Hc Hl); [reflexivity|simpl; lia|assumption].
Qed.

Theorem source_outside_root_box : exists c l s, root_box 2 far_pair = Some (c, l) /\ In s far_pair /\ ~ in_box 2 c l s.
Proof.
  destruct far_pair_box as (c & l & RB & Hc & Hl & B). exists c, l, [1; 1]%R. split; [assumption|].
  split; [left; reflexivity|]. intros H. specialize (B [1;1]%R (or_introl eq_refl) 0 ltac:(lia)). specialize (H 0 ltac:(lia)). lra.
Qed.
