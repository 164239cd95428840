(** Property theorems: how many interactions the lists cause. *)
From Coq Require Import List Arith Reals.
From Verif Require Import Num Outcome Vec AdaptiveTree TreeSpec BalancedTree BalancedSpec RoundedSpec RoundedTree RoundedTreeSpec RoundedTreeTheorems RoundedTreeCases RoundedCases BuildProofs TreeTheorems3 CasesTrees BalancedTheorems TreeTheorems3 ListSizes.
Import ListNotations.

(** C96: in the balanced tree the near list of a box has at most 3^d entries and its interaction list at most 6^d - 3^d, … *)
Theorem C96_balanced_lists {Src} d (pos : Src -> list R) h srcs t ls : 1 <= d -> (forall s, In s srcs -> length (pos s) = d) ->
  1 <= h -> h < 32 -> d * h <= 32 -> bal_build d pos h srcs = Ok (t, ls) ->
  forall n, In n (boxes t) -> length (nl_near ls (an_addr n)) <= 3 ^ d /\ length (nl_inter ls (an_addr n)) + 3 ^ d <= 6 ^ d.
Proof. exact (balanced_sizes d pos h srcs t ls). Qed.
Print Assumptions C96_balanced_lists.
(** … with rounding errors too; … *)
Theorem C96_rounded_balanced_lists rnd hyp {Src} d h (pos : Src -> list R) srcs t ls n : double_like rnd hyp -> in_range d h pos srcs ->
  bal_build (N := NumRnd rnd) (D := DistRnd hyp) d pos h srcs = Ok (t, ls) -> In n (boxes t) ->
  length (nl_near ls (an_addr n)) <= 3 ^ d /\ length (nl_inter ls (an_addr n)) + 3 ^ d <= 6 ^ d.
Proof. exact (fun HD HR HB => rounded_sizes rnd hyp HD d h pos srcs HR t ls HB n). Qed.
Print Assumptions C96_rounded_balanced_lists.
(** … in the adaptive tree the interaction list of a box has at most 6^d - 3^d entries and its X list at most 3^d; … *)
Theorem C96_adaptive_lists {Src} d (pos : Src -> list R) cap fuel srcs t ls : 1 <= d -> (forall s, In s srcs -> length (pos s) = d) ->
  build_adaptive d pos cap fuel srcs = Ok t -> all_lists d t = Ok ls ->
  forall n, In n (heap t) -> length (nl_inter ls (an_addr n)) + 3 ^ d <= 6 ^ d /\ length (nl_X ls (an_addr n)) <= 3 ^ d.
Proof. exact (adaptive_sizes d pos cap fuel srcs t ls). Qed.
Print Assumptions C96_adaptive_lists.
(** … interaction lists and near lists of leaves are symmetric, and X and W lists opposite; … *)
Theorem C96_adaptive_symmetry {Src} d (pos : Src -> list R) cap fuel srcs t ls : 1 <= d -> (forall s, In s srcs -> length (pos s) = d) ->
  build_adaptive d pos cap fuel srcs = Ok t -> all_lists d t = Ok ls ->
  forall n m, In n (heap t) -> In m (heap t) ->
  (In (an_addr m) (nl_inter ls (an_addr n)) <-> In (an_addr n) (nl_inter ls (an_addr m))) /\
  (In (an_addr m) (nl_X ls (an_addr n)) <-> In (an_addr n) (nl_W ls (an_addr m))) /\
  (an_leaf n = true -> an_leaf m = true -> (In (an_addr m) (nl_near ls (an_addr n)) <-> In (an_addr n) (nl_near ls (an_addr m)))).
Proof. exact (adaptive_dual d pos cap fuel srcs t ls). Qed.
Print Assumptions C96_adaptive_symmetry.
(** … so that the conversions and evaluations of expansions the lists cause in all, and the pairs of neighbouring leaves, are
    proportional to the number of boxes, … *)
Theorem C96_adaptive_conversions {Src} d (pos : Src -> list R) cap fuel srcs t ls : 1 <= d -> (forall s, In s srcs -> length (pos s) = d) ->
  build_adaptive d pos cap fuel srcs = Ok t -> all_lists d t = Ok ls ->
  list_sum (map (fun n => length (nl_inter ls (an_addr n)) + length (nl_X ls (an_addr n)) + length (nl_W ls (an_addr n))) (heap t))
    <= (6 ^ d + 3 ^ d) * length (heap t) /\
  list_sum (map (fun n => length (nl_near ls (an_addr n))) (leaf_nodes t)) <= 2 * 3 ^ d * length (leaf_nodes t).
Proof. exact (fun Hd Hp HB HL => conj (adaptive_total d pos cap fuel srcs t ls Hd Hp HB HL) (adaptive_near_total d pos cap fuel srcs t ls Hd Hp HB HL)). Qed.
Print Assumptions C96_adaptive_conversions.
(** … the pairs of sources evaluated directly, when evaluating at all sources, to the number of sources, … *)
Theorem C96_adaptive_pairs {Src} d (pos : Src -> list R) cap fuel srcs t ls : 1 <= d -> (forall s, In s srcs -> length (pos s) = d) ->
  build_adaptive d pos cap fuel srcs = Ok t -> all_lists d t = Ok ls ->
  list_sum (map (fun n => length (an_srcs n) * length (flat_map (leaf_sources t) (nl_near ls (an_addr n)))) (leaf_nodes t))
    <= 2 * 3 ^ d * cap * length srcs.
Proof. exact (adaptive_pairs d pos cap fuel srcs t ls). Qed.
Print Assumptions C96_adaptive_pairs.
(** … and the boxes number one more than 2^d per inner box, of which there are at most [height * sources / (cap + 1)]. *)
Theorem C96_adaptive_boxes {Src} d (pos : Src -> list R) cap fuel srcs t ls : 1 <= d -> (forall s, In s srcs -> length (pos s) = d) ->
  build_adaptive d pos cap fuel srcs = Ok t -> all_lists d t = Ok ls ->
  length (heap t) = 1 + 2 ^ d * length (concat (at_nodes t)) /\ (cap + 1) * length (concat (at_nodes t)) <= at_height t * length srcs.
Proof. exact (adaptive_boxes d pos cap fuel srcs t ls). Qed.
Print Assumptions C96_adaptive_boxes.
Example C96_case : (forall s, In s five -> length s = 2) /\ exists fuel t ls, build_adaptive 2 (fun x => x) 1 fuel five = Ok t /\ all_lists 2 t = Ok ls.
Proof. exact lists_case. Qed.
Example C96_balanced_case : (forall s, In s five -> length s = 2) /\ exists t ls, bal_build 2 (fun x => x) 1 five = Ok (t, ls).
Proof. exact (conj five_dim five_built). Qed.
Example C96_rounded_case : double_like double_round double_norm /\ in_range 2 8 (fun x => x) nine.
Proof. exact (conj double_is_double_like nine_in_range). Qed.
