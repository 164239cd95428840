(** Properties C23-C31: orthants, adjacency, root box, adaptive tree, neighbour lists.
    [build_adaptive d pos cap fuel srcs = Ok t] reads: the constructor returned the tree [t].  [fuel] only bounds the
    number of levels; no theorem depends on its value. *)
From Coq Require Import List Arith Reals Lia Permutation Sorted.
From Verif Require Import Num Outcome Vec Orthtree AdaptiveTree GeometrySpec TreeSpec TreeGeometry BuildProofs
  TreeTheorems TreeTheorems2 TreeTheorems3 Termination GeometryMore CasesTrees.
Import ListNotations.

(** C23: the orthant of a point is the child box that contains it, children tile their parent. *)
Theorem C23_orthant_geometry d (c : list R) l : length c = d ->
  (forall x, get_orthant d c x < 2 ^ d /\
     (in_box d c l x -> in_box d (child_center d c (l / 2)%R (get_orthant d c x)) (l / 2)%R x)) /\
  (forall i x, i < 2 ^ d -> in_interior d (child_center d c (l / 2)%R i) (l / 2)%R x -> get_orthant d c x = i) /\
  (forall i x, in_box d (child_center d c (l / 2)%R i) (l / 2)%R x -> in_box d c l x) /\
  ((0 < l)%R -> forall i k, i < 2 ^ d -> k < 2 ^ d -> child_center d c (l / 2)%R i = child_center d c (l / 2)%R k -> i = k).
Proof. exact (orthant_geometry d c l). Qed.
Print Assumptions C23_orthant_geometry.
(** The table of directions: entry [i] is the vector of signs of orthant [i], and every vector of signs is in it. *)
Theorem C23_directions d :
  length (child_center_directions (T := R) d) = 2 ^ d /\
  (forall i v, nth_error (child_center_directions d) i = Some v -> sign_vector d v /\ get_orthant d (repeat 0%R d) v = i) /\
  (forall v, sign_vector d v -> nth_error (child_center_directions d) (get_orthant d (repeat 0%R d) v) = Some v).
Proof. exact (directions_exact d). Qed.
Print Assumptions C23_directions.
Theorem C23_children_displaced d (c : list R) l i j : length c = d -> j < d ->
  nth j (child_center d c (l / 2)%R i) 0%R = (nth j c 0 + nth j (child_dir d i) 0 * (l / 4))%R.
Proof. exact (children_displaced d c l i j). Qed.
Print Assumptions C23_children_displaced.
Example C23_case : length [0; 3]%R = 2 /\ sign_vector 2 [1; -1]%R.
Proof. repeat split. intros x [<-|[<-|[]]]; [left|right]; reflexivity. Qed.

(** C24: for boxes of one subdivision, of any sizes, [adjacent] holds exactly when the closed boxes share a point. *)
Theorem C24_adjacency_exact d (c : list R) l k1 c1 k2 c2 : (0 <= l)%R -> subbox d c l k1 c1 -> subbox d c l k2 c2 ->
  (adjacent d c1 (l / 2 ^ k1)%R c2 (l / 2 ^ k2)%R = true <-> boxes_touch d c1 (l / 2 ^ k1)%R c2 (l / 2 ^ k2)%R).
Proof. exact (adjacent_exact d c c1 c2 l k1 k2). Qed.
Print Assumptions C24_adjacency_exact.
(** Hence a box is adjacent to itself, adjacency is symmetric, and a box is adjacent to whatever one of its sub-boxes is adjacent to. *)
Theorem C24_adjacency_relation d (c : list R) l k1 c1 k2 c2 : (0 <= l)%R -> subbox d c l k1 c1 -> subbox d c l k2 c2 ->
  adjacent d c1 (l / 2 ^ k1)%R c1 (l / 2 ^ k1)%R = true /\
  adjacent d c1 (l / 2 ^ k1)%R c2 (l / 2 ^ k2)%R = adjacent d c2 (l / 2 ^ k2)%R c1 (l / 2 ^ k1)%R /\
  forall k c3, subbox d c1 (l / 2 ^ k1)%R k c3 ->
    adjacent d c3 (l / 2 ^ k1 / 2 ^ k)%R c2 (l / 2 ^ k2)%R = true -> adjacent d c1 (l / 2 ^ k1)%R c2 (l / 2 ^ k2)%R = true.
Proof. exact (adjacency_relation d c l k1 c1 k2 c2). Qed.
Print Assumptions C24_adjacency_relation.
Example C24_case : subbox 2 [0; 0]%R 1%R 1 (box_ctr 2 [0; 0]%R 1%R [3]) /\ subbox 2 [0; 0]%R 1%R 3 (box_ctr 2 [0; 0]%R 1%R [3; 0; 1]).
Proof. split; apply (box_ctr_subbox 2 [0; 0]%R 1%R); reflexivity. Qed.

Theorem C24_adjacency_exact_in_tree {Src} d (pos : Src -> list R) cap fuel srcs t a b :
  1 <= d -> (forall s, In s srcs -> length (pos s) = d) ->
  build_adaptive d pos cap fuel srcs = Ok t -> In a (heap t) -> In b (heap t) ->
  (nodes_adjacent d a b = true <-> boxes_touch d (an_center a) (an_len a) (an_center b) (an_len b)).
Proof. exact (node_adjacency_exact d pos cap fuel srcs t a b). Qed.
Print Assumptions C24_adjacency_exact_in_tree.

(** The hypotheses shared by the tree theorems are met: *)
Example tree_case : (forall s, In s five -> length s = 2) /\ exists fuel t, build_adaptive 2 (fun x => x) 1 fuel five = Ok t.
Proof. split; [exact five_dim|exact five_builds]. Qed.
(** ... by trees with all four kinds of lists (executed over Q): *)
Example tree_case_lists : demo_run = Ok (4, (146, 30, 43, 43)).
Proof. exact demo_run_eq. Qed.

(** C25: the root box contains all sources.  Proved when the sources straddle the origin in every coordinate; false
    in general (the bounds are padded by scaling them away from the origin). *)
Theorem C25_root_box_contains_partial {Src} d (pos : Src -> list R) srcs c l :
  1 <= d -> (forall s, In s srcs -> length (pos s) = d) ->
  root_box d (map pos srcs) = Some (c, l) ->
  (forall j, j < d -> (exists s, In s srcs /\ (nth j (pos s) 0 <= 0)%R) /\ (exists s, In s srcs /\ (0 <= nth j (pos s) 0)%R)) ->
  forall s, In s srcs -> in_box d c l (pos s).
Proof. exact (root_box_contains d pos srcs c l). Qed.
Print Assumptions C25_root_box_contains_partial.
Example C25_case : (forall s, In s five -> length s = 2) /\ forall j, j < 2 ->
  (exists s, In s five /\ (nth j s 0 <= 0)%R) /\ (exists s, In s five /\ (0 <= nth j s 0)%R).
Proof. split; [exact five_dim|exact five_straddles]. Qed.
Theorem C25_root_box_contains_refuted : exists c l s, root_box 2 far_pair = Some (c, l) /\ In s far_pair /\ ~ in_box 2 c l s.
Proof. exact source_outside_root_box. Qed.
Print Assumptions C25_root_box_contains_refuted.
(** Exactly when: [lo] and [hi] are the bounds of the data in each coordinate and [W] is the largest extent. *)
Theorem C25_root_box_contains_iff {Src} d (pos : Src -> list R) srcs c l (lo hi : list R) (W : R) :
  1 <= d -> (forall s, In s srcs -> length (pos s) = d) -> root_box d (map pos srcs) = Some (c, l) ->
  (forall j, j < d -> (forall s, In s srcs -> nth j lo 0 <= nth j (pos s) 0 <= nth j hi 0)%R /\
     (exists s, In s srcs /\ nth j (pos s) 0%R = nth j lo 0%R) /\ (exists s, In s srcs /\ nth j (pos s) 0%R = nth j hi 0%R)) ->
  (forall j, j < d -> (nth j hi 0 - nth j lo 0 <= W)%R) -> (exists j, j < d /\ W = (nth j hi 0 - nth j lo 0)%R) ->
  ((forall s, In s srcs -> in_box d c l (pos s)) <->
   forall j, j < d -> (nth j hi 0 - nth j lo 0 + / 100000 * Rabs (nth j lo 0 + nth j hi 0) <= (1 + / 100000) * W)%R).
Proof. exact (root_box_contains_iff d pos srcs c l lo hi W). Qed.
Print Assumptions C25_root_box_contains_iff.
Example C25_iff_case : (forall j, j < 2 -> (forall s, In s five -> nth j [-1; -1] 0 <= nth j s 0 <= nth j [1; 1] 0)%R /\
  (exists s, In s five /\ nth j s 0%R = nth j [-1; -1]%R 0%R) /\ (exists s, In s five /\ nth j s 0%R = nth j [1; 1]%R 0%R)) /\
  (forall j, j < 2 -> (nth j [1; 1] 0 - nth j [-1; -1] 0 <= 2)%R) /\ (exists j, j < 2 /\ 2%R = (nth j [1; 1] 0 - nth j [-1; -1] 0)%R).
Proof. exact five_bounds. Qed.
Theorem C25_root_box_finite {Src} d (pos : Src -> list R) srcs : 1 <= d -> (forall s, In s srcs -> length (pos s) = d) ->
  (root_box d (map pos srcs) = None <-> srcs = []).
Proof. exact (root_box_finite d pos srcs). Qed.
Print Assumptions C25_root_box_finite.

(** C26: with all sources in the root box, construction terminates iff no position is shared by more than [cap] sources. *)
Theorem C26_termination_in_box {Src} d (pos : Src -> list R) cap c l srcs : length c = d -> (forall s, In s srcs -> length (pos s) = d) ->
  (forall s, In s srcs -> in_box d c l (pos s)) ->
  ((exists fuel t, build_in_box d pos cap fuel c l srcs = Some t) <->
   (forall x, count_occ list_R_eq_dec (map pos srcs) x <= cap)).
Proof. exact (adaptive_terminates d pos cap c l srcs). Qed.
Print Assumptions C26_termination_in_box.
(** For every list of sources: construction terminates iff no point of the root box is the nearest one to more than [cap] of
    them; otherwise it runs for ever (no amount of fuel suffices). *)
Theorem C26_termination {Src} d (pos : Src -> list R) cap srcs c l : 1 <= d -> (forall s, In s srcs -> length (pos s) = d) ->
  root_box d (map pos srcs) = Some (c, l) ->
  ((exists fuel t, build_adaptive d pos cap fuel srcs = Ok t) <->
   forall x, count_occ list_R_eq_dec (map (fun s => nearest d c l (pos s)) srcs) x <= cap) /\
  forall fuel, (exists t, build_adaptive d pos cap fuel srcs = Ok t) \/ build_adaptive d pos cap fuel srcs = OutOfFuel.
Proof. exact (fun Hd Hpos RB => conj (adaptive_ends d pos Hd cap srcs c l Hpos RB) (adaptive_total d pos cap srcs c l Hpos RB)). Qed.
Print Assumptions C26_termination.
(** Sources on both sides of the origin in every coordinate are in the root box. *)
Theorem C26_termination_straddling {Src} d (pos : Src -> list R) cap srcs : 1 <= d -> srcs <> [] -> (forall s, In s srcs -> length (pos s) = d) ->
  (forall j, j < d -> (exists s, In s srcs /\ (nth j (pos s) 0 <= 0)%R) /\ (exists s, In s srcs /\ (0 <= nth j (pos s) 0)%R)) ->
  ((exists fuel t, build_adaptive d pos cap fuel srcs = Ok t) <->
   forall x, count_occ list_R_eq_dec (map pos srcs) x <= cap).
Proof. exact (adaptive_builds d pos cap srcs). Qed.
Print Assumptions C26_termination_straddling.
(** Two distinct sources, one per leaf, and the constructor never returns. *)
Theorem C26_distinct_sources_diverge : NoDup far_pair /\
  forall fuel, build_adaptive 2 (fun x => x) 1 fuel far_pair = OutOfFuel.
Proof. exact distinct_sources_diverge. Qed.
Print Assumptions C26_distinct_sources_diverge.
Example C26_case : (exists fuel t, build_adaptive 2 (fun x => x) 1 fuel five = Ok t) /\ exists c l, root_box 2 (map (fun x => x) far_pair) = Some (c, l).
Proof. exact (conj five_builds far_pair_root). Qed.
Theorem C26_outside_sources_diverge {Src} d (pos : Src -> list R) cap c l srcs : length c = d -> (0 <= l)%R -> cap < length srcs ->
  (forall s, In s srcs -> forall j, j < d -> (nth j (pos s) 0 < nth j c 0 - l / 2)%R) ->
  forall fuel, build_in_box d pos cap fuel c l srcs = None.
Proof. exact (sources_below_box_diverge d pos cap c l srcs). Qed.
Print Assumptions C26_outside_sources_diverge.
Example C26_outside_case : length [0; 0]%R = 2 /\ (0 <= 2)%R /\ 1 < length [[-2; -3]; [-5; -4]]%R /\
  forall s, In s [[-2; -3]; [-5; -4]]%R -> forall j, j < 2 -> (nth j s 0 < nth j [0; 0] 0 - 2 / 2)%R.
Proof. exact outside_case. Qed.

(** C27: the leaves hold every source exactly once, at most [cap] each; inner boxes hold more than [cap] below them. *)
Theorem C27_partition {Src} d (pos : Src -> list R) cap fuel srcs t : 1 <= d -> (forall s, In s srcs -> length (pos s) = d) ->
  build_adaptive d pos cap fuel srcs = Ok t ->
  Permutation (flat_map an_srcs (leaf_nodes t)) srcs /\
  (forall n, In n (leaf_nodes t) -> an_leaf n = true /\ length (an_srcs n) <= cap) /\
  (forall n, In n (concat (at_nodes t)) -> an_leaf n = false /\ an_srcs n = [] /\ cap < length (sources_below t (an_addr n))).
Proof. exact (adaptive_partition d pos cap fuel srcs t). Qed.
Print Assumptions C27_partition.
Theorem C27_space {Src} d (pos : Src -> list R) cap fuel srcs t : 1 <= d -> (forall s, In s srcs -> length (pos s) = d) ->
  build_adaptive d pos cap fuel srcs = Ok t ->
  exists c l, root_box d (map pos srcs) = Some (c, l) /\
    (forall n x, In n (heap t) -> in_box d (an_center n) (an_len n) x -> in_box d c l x) /\
    (forall x, in_box d c l x -> exists n, In n (leaf_nodes t) /\ in_box d (an_center n) (an_len n) x) /\
    (forall n m x, In n (leaf_nodes t) -> In m (leaf_nodes t) ->
       in_interior d (an_center n) (an_len n) x -> in_interior d (an_center m) (an_len m) x -> n = m) /\
    (forall n s, In n (leaf_nodes t) -> In s (an_srcs n) -> in_box d c l (pos s) -> in_box d (an_center n) (an_len n) (pos s)).
Proof. exact (adaptive_space d pos cap fuel srcs t). Qed.
Print Assumptions C27_space.
Theorem C27_children {Src} d (pos : Src -> list R) cap fuel srcs t : 1 <= d -> (forall s, In s srcs -> length (pos s) = d) ->
  build_adaptive d pos cap fuel srcs = Ok t ->
  NoDup (map an_addr (heap t)) /\
  (forall n, In n (heap t) -> an_depth n = length (an_addr n) /\ an_depth n <= at_height t) /\
  (forall n i, In n (concat (at_nodes t)) -> i < 2 ^ d ->
     exists m, In m (heap t) /\ an_addr m = i :: an_addr n /\ an_len m = (an_len n / 2)%R /\
       an_center m = child_center d (an_center n) (an_len n / 2)%R i) /\
  (forall m i q, In m (heap t) -> an_addr m = i :: q -> i < 2 ^ d /\ exists n, In n (concat (at_nodes t)) /\ an_addr n = q).
Proof. exact (adaptive_children d pos cap fuel srcs t). Qed.
Print Assumptions C27_children.
Example C27_case : (forall s, In s five -> length s = 2) /\ exists fuel t, build_adaptive 2 (fun x => x) 1 fuel five = Ok t.
Proof. exact tree_case. Qed.

(** C28: a breadth-first traversal calls the callback once per box, by nondecreasing depth. *)
Theorem C28_traversal {Src} d (pos : Src -> list R) cap fuel srcs t : 1 <= d -> (forall s, In s srcs -> length (pos s) = d) ->
  build_adaptive d pos cap fuel srcs = Ok t ->
  exists visited, NoDup visited /\ (forall p, In p visited <-> exists n, In n (heap t) /\ an_addr n = p) /\
    StronglySorted (fun a b => length a <= length b) visited /\
    forall (St : Type) (process : addr -> St -> outcome St) st,
      bfs (fun _ p => children d t p) process (length (heap t)) [[]] st = ofold (fun s p => process p s) visited st.
Proof. exact (traversal_order d pos cap fuel srcs t). Qed.
Print Assumptions C28_traversal.
Example C28_case : (forall s, In s five -> length s = 2) /\ exists fuel t, build_adaptive 2 (fun x => x) 1 fuel five = Ok t.
Proof. exact tree_case. Qed.

(** C29: building the lists never throws "too close", never dereferences a missing box, and ends. *)
Theorem C29_lists_never_throw {Src} d (pos : Src -> list R) cap fuel srcs t : 1 <= d -> (forall s, In s srcs -> length (pos s) = d) ->
  build_adaptive d pos cap fuel srcs = Ok t -> exists ls, all_lists d t = Ok ls.
Proof. exact (adaptive_lists_ok d pos cap fuel srcs t). Qed.
Print Assumptions C29_lists_never_throw.
Theorem C29_interaction_separated {Src} d (pos : Src -> list R) cap fuel srcs t ls : 1 <= d -> (forall s, In s srcs -> length (pos s) = d) ->
  build_adaptive d pos cap fuel srcs = Ok t -> all_lists d t = Ok ls ->
  forall a b, In a (heap t) -> In b (heap t) -> In (an_addr b) (nl_inter ls (an_addr a)) ->
  an_len a = an_len b /\ ~ boxes_touch d (an_center a) (an_len a) (an_center b) (an_len b) /\
  exists j, j < d /\ (2 * an_len a <= Rabs (nth j (an_center a) 0 - nth j (an_center b) 0))%R.
Proof. exact (interaction_separated d pos cap fuel srcs t ls). Qed.
Print Assumptions C29_interaction_separated.
Example C29_case : (forall s, In s five -> length s = 2) /\ exists fuel t ls, build_adaptive 2 (fun x => x) 1 fuel five = Ok t /\ all_lists 2 t = Ok ls.
Proof. exact lists_case. Qed.

(** C30: for a point in leaf [L], every leaf (hence every source) is accounted for exactly once. *)
Theorem C30_coverage {Src} d (pos : Src -> list R) cap fuel srcs t ls : 1 <= d -> (forall s, In s srcs -> length (pos s) = d) ->
  build_adaptive d pos cap fuel srcs = Ok t -> all_lists d t = Ok ls ->
  forall L, In L (leaf_list t) -> Permutation (interactions t ls L) (leaf_list t).
Proof. exact (adaptive_coverage d pos cap fuel srcs t ls). Qed.
Print Assumptions C30_coverage.
Theorem C30_source_coverage {Src} d (pos : Src -> list R) cap fuel srcs t ls : 1 <= d -> (forall s, In s srcs -> length (pos s) = d) ->
  build_adaptive d pos cap fuel srcs = Ok t -> all_lists d t = Ok ls ->
  forall L, In L (leaf_list t) -> Permutation (flat_map (leaf_sources t) (interactions t ls L)) srcs.
Proof. exact (adaptive_source_coverage d pos cap fuel srcs t ls). Qed.
Print Assumptions C30_source_coverage.
Theorem C30_near_list_exact {Src} d (pos : Src -> list R) cap fuel srcs t ls : 1 <= d -> (forall s, In s srcs -> length (pos s) = d) ->
  build_adaptive d pos cap fuel srcs = Ok t -> all_lists d t = Ok ls ->
  forall L, In L (leaf_nodes t) ->
  NoDup (nl_near ls (an_addr L)) /\
  forall q, In q (nl_near ls (an_addr L)) <->
    exists M, In M (leaf_nodes t) /\ an_addr M = q /\ boxes_touch d (an_center L) (an_len L) (an_center M) (an_len M).
Proof. exact (near_list_exact d pos cap fuel srcs t ls). Qed.
Print Assumptions C30_near_list_exact.
Example C30_case : (forall s, In s five -> length s = 2) /\ exists fuel t ls, build_adaptive 2 (fun x => x) 1 fuel five = Ok t /\ all_lists 2 t = Ok ls.
Proof. exact lists_case. Qed.

(** C31: the leaf found for a point contains it and stores the sources located there; outside the root box: none. *)
Theorem C31_containing_leaf {Src} d (pos : Src -> list R) cap fuel srcs t : 1 <= d -> (forall s, In s srcs -> length (pos s) = d) ->
  build_adaptive d pos cap fuel srcs = Ok t ->
  exists c l, root_box d (map pos srcs) = Some (c, l) /\ forall x,
    (in_box d c l x -> exists n, containing_leaf d t x = Ok (Some n) /\ In n (leaf_nodes t) /\
        in_box d (an_center n) (an_len n) x /\ (forall s, In s srcs -> pos s = x -> In s (an_srcs n))) /\
    (~ in_box d c l x -> containing_leaf d t x = Ok None).
Proof. exact (containing_leaf_correct d pos cap fuel srcs t). Qed.
Print Assumptions C31_containing_leaf.
Example C31_case : (forall s, In s five -> length s = 2) /\ exists fuel t, build_adaptive 2 (fun x => x) 1 fuel five = Ok t.
Proof. exact tree_case. Qed.
