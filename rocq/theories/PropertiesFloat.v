(** Property theorems: the adaptive tree in IEEE double arithmetic (NaN, infinities, rounding and underflow included). *)
From Coq Require Import Reals List Bool Arith Permutation Sorted.
From Flocq Require Import Core.
From Coq Require Import Floats.
From Verif Require Import Num Outcome Vec Orthtree AdaptiveTree TreeSpec TreeTheorems3 AnyTheorems FloatCases FloatTheorems FloatDepth.
Import ListNotations.
Local Open Scope nat_scope.

(** C74: in doubles, whatever the positions (inexact, infinite, NaN), a tree that is returned holds every source exactly once. *)
Theorem C74_double_partition {Src} d (pos : Src -> list float) cap fuel srcs t : build_adaptive d pos cap fuel srcs = Ok t ->
  Permutation (flat_map an_srcs (leaf_nodes t)) srcs /\
  (forall n, In n (leaf_nodes t) -> an_leaf n = true /\ length (an_srcs n) <= cap) /\
  (forall n, In n (concat (at_nodes t)) -> an_leaf n = false /\ an_srcs n = [] /\ cap < length (sources_below t (an_addr n))).
Proof. exact (any_partition d pos cap fuel srcs t). Qed.
Print Assumptions C74_double_partition.
(** … its boxes form a tree in which every inner box has all 2^d children, each half as long; … *)
Theorem C74_double_tree {Src} d (pos : Src -> list float) cap fuel srcs t : build_adaptive d pos cap fuel srcs = Ok t ->
  NoDup (map an_addr (heap t)) /\
  (forall n, In n (heap t) -> an_depth n = length (an_addr n) /\ an_depth n <= at_height t) /\
  (forall n i, In n (concat (at_nodes t)) -> i < 2 ^ d ->
     exists m, In m (heap t) /\ an_addr m = i :: an_addr n /\ an_len m = (an_len n / 2)%float /\
       an_center m = child_center d (an_center n) (an_len n / 2)%float i) /\
  (forall m i q, In m (heap t) -> an_addr m = i :: q -> i < 2 ^ d /\ exists n, In n (concat (at_nodes t)) /\ an_addr n = q).
Proof. exact (any_children d pos cap fuel srcs t). Qed.
Print Assumptions C74_double_tree.
(** … the breadth-first traversal visits every box once, parents first; … *)
Theorem C74_double_traversal {Src} d (pos : Src -> list float) cap fuel srcs t : build_adaptive d pos cap fuel srcs = Ok t ->
  exists visited, NoDup visited /\ (forall p, In p visited <-> exists n, In n (heap t) /\ an_addr n = p) /\
    StronglySorted (fun a b => length a <= length b) visited /\
    forall (St : Type) (process : addr -> St -> outcome St) st,
      bfs (fun _ p => children d t p) process (length (heap t)) [[]] st = ofold (fun s p => process p s) visited st.
Proof. exact (any_traversal d pos cap fuel srcs t). Qed.
Print Assumptions C74_double_traversal.
(** … and the descent reaches a leaf for every point, the leaf holding it if the point is a source. *)
Theorem C74_double_descent {Src} d (pos : Src -> list float) cap fuel srcs t : build_adaptive d pos cap fuel srcs = Ok t ->
  (forall x, exists n, descend d t (at_height t) [] x = Ok n /\ In n (leaf_nodes t)) /\
  forall s, In s srcs -> exists n, descend d t (at_height t) [] (pos s) = Ok n /\ In n (leaf_nodes t) /\ In s (an_srcs n).
Proof. exact (any_descent d pos cap fuel srcs t). Qed.
Print Assumptions C74_double_descent.
Example C74_case : exists t, build_adaptive 2 (fun x => x) 2 10 odd_positions = Ok t /\ at_height t = 1.
Proof. exact odd_builds. Qed.

(** C75: in doubles, with whatever routine for the norm, the neighbour lists either make the constructor throw or account for
    every leaf, hence every source, exactly once. *)
Theorem C75_double_coverage {Src} (D : Dist float) d (pos : Src -> list float) cap fuel srcs t : build_adaptive d pos cap fuel srcs = Ok t ->
  all_lists d t = Throw \/
  exists ls, all_lists d t = Ok ls /\
    forall L, In L (leaf_list t) ->
      Permutation (interactions t ls L) (leaf_list t) /\ Permutation (flat_map (leaf_sources t) (interactions t ls L)) srcs.
Proof. exact (float_coverage D d pos cap fuel srcs t). Qed.
Print Assumptions C75_double_coverage.
Example C75_case : exists t ls, build_adaptive 2 (fun x => x) 1 10 eight = Ok t /\ all_lists (D := plain_dist) 2 t = Ok ls.
Proof. exact eight_lists. Qed.

(** C76: three distinct points on which construction ends in exact arithmetic and never ends in doubles. *)
Theorem C76_double_termination_refuted : exists srcs : list (list float),
  (exists fuel t, build_adaptive 2 (fun x => x) 1 fuel (map (map real_of) srcs) = Ok t) /\
  forall fuel, build_adaptive 2 (fun x => x) 1 fuel srcs = OutOfFuel.
Proof. exact (ex_intro _ tiny (conj tiny_exact tiny_diverges)). Qed.
Print Assumptions C76_double_termination_refuted.

(** C77: five points for which the constructor throws in doubles, for every norm routine accurate to one percent. *)
Theorem C77_double_no_throw_refuted : exists srcs : list (list float), forall D : Dist float,
  (forall v b, (0x1.028f5c28f5c29p0 * PrimFloat.sqrt (vnorm_sq v) <? b)%float = true -> norm_ltb v b = true) ->
  exists fuel t, build_adaptive 2 (fun x => x) 1 fuel srcs = Ok t /\ all_lists 2 t = Throw.
Proof. exact (ex_intro _ crowd crowd_throws). Qed.
Print Assumptions C77_double_no_throw_refuted.
Example C77_case : within_percent plain_dist.
Proof. exact plain_within_percent. Qed.

(** C78: in doubles, construction ends with a tree of at most 2102 levels or never ends. *)
Theorem C78_double_height {Src} d (pos : Src -> list float) cap fuel srcs t : build_adaptive d pos cap fuel srcs = Ok t -> at_height t <= 2101.
Proof. exact (float_height d pos cap fuel srcs t). Qed.
Print Assumptions C78_double_height.
Theorem C78_double_decided {Src} d (pos : Src -> list float) cap srcs :
  (exists fuel t, build_adaptive d pos cap fuel srcs = Ok t) <-> exists t, build_adaptive d pos cap 2101 srcs = Ok t.
Proof. exact (float_decided d pos cap srcs). Qed.
Print Assumptions C78_double_decided.
Example C78_case : exists t, build_adaptive 2 (fun x => x) 1 54 crowd = Ok t /\ at_height t = 54.
Proof. exact crowd_height. Qed.
