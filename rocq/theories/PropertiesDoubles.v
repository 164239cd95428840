(** Property theorems: the trees built in IEEE binary64 arithmetic. *)
From Coq Require Import Reals List ZArith Permutation.
From Coq Require Import Floats.
From Verif Require Import Num Outcome Vec Orthtree AdaptiveTree TreeSpec BalancedTree BalancedSpec RoundedSpec RoundedCases RoundedTree RoundedTreeSpec RoundedTreeCases FloatCases
  FloatSpec FloatNorm FloatBridgeTrees DoubleTheorems.
Import ListNotations.
Local Open Scope R_scope.

(** C99: for coordinates that are zero or between [2^-200] and [2^200] in absolute value, the balanced tree built in IEEE doubles, or the
    failure of its construction, is the one of the model with rounded operations, list by list; … *)
Theorem C99_balanced_same {Src} d h (pos : Src -> list float) srcs hypF hyp : norm_of d hypF hyp -> (h <= 31)%nat -> ordinary_sources d pos srcs ->
  bal_build (N := NumRnd double_round) (D := DistRnd hyp) d (real_pos pos) h srcs =
  omap (fun r => (real_btree (fst r), snd r)) (bal_build (N := NumF) (D := DistF hypF) d pos h srcs).
Proof. exact (fun HN Hh HO => proj1 (bal_build_same d pos hypF hyp HN h srcs Hh HO)). Qed.
Print Assumptions C99_balanced_same.
(** … so is the leaf found for a point; … *)
Theorem C99_balanced_lookup_same {Src} d h (pos : Src -> list float) srcs hypF hyp t ls x : norm_of d hypF hyp -> (h <= 31)%nat -> ordinary_sources d pos srcs ->
  bal_build (N := NumF) (D := DistF hypF) d pos h srcs = Ok (t, ls) -> ordinary d x ->
  bal_containing_leaf (N := NumRnd double_round) d (real_btree t) (map real_of x) = omap real_node (bal_containing_leaf (N := NumF) d t x).
Proof. exact (balanced_lookup_same d h pos srcs hypF hyp t ls x). Qed.
Print Assumptions C99_balanced_lookup_same.
(** … and the adaptive tree, up to sixty levels of refinement, … *)
Theorem C99_adaptive_same {Src} d cap fuel (pos : Src -> list float) srcs : (fuel <= 60)%nat -> ordinary_sources d pos srcs ->
  build_adaptive (N := NumRnd double_round) d (real_pos pos) cap fuel srcs = omap real_atree (build_adaptive (N := NumF) d pos cap fuel srcs).
Proof. exact (fun HF HO => proj1 (build_adaptive_same d pos cap fuel srcs HF HO)). Qed.
Print Assumptions C99_adaptive_same.
(** … its lists, … *)
Theorem C99_adaptive_lists_same {Src} d cap fuel (pos : Src -> list float) srcs hypF hyp t : norm_of d hypF hyp -> (fuel <= 60)%nat -> ordinary_sources d pos srcs ->
  build_adaptive (N := NumF) d pos cap fuel srcs = Ok t ->
  all_lists (N := NumRnd double_round) (D := DistRnd hyp) d (real_atree t) = all_lists (N := NumF) (D := DistF hypF) d t.
Proof. exact (adaptive_lists_same d cap fuel pos srcs hypF hyp t). Qed.
Print Assumptions C99_adaptive_lists_same.
(** … and the leaf found for a point. *)
Theorem C99_adaptive_lookup_same {Src} d cap fuel (pos : Src -> list float) srcs t x : (fuel <= 60)%nat -> ordinary_sources d pos srcs ->
  build_adaptive (N := NumF) d pos cap fuel srcs = Ok t -> ordinary d x ->
  containing_leaf (N := NumRnd double_round) d (real_atree t) (map real_of x) = omap (option_map real_node) (containing_leaf (N := NumF) d t x).
Proof. exact (adaptive_lookup_same d cap fuel pos srcs t x). Qed.
Print Assumptions C99_adaptive_lookup_same.
(** The square root of the sum of the squares, in doubles, is such a norm; nine points with integer coordinates are ordinary; and so are
    the two points on which the construction fails (C87), hence it fails in the rounded model too. *)
Example C99_norm d : (d <= 20)%nat -> norm_of d float_norm (rounded_norm d) /\ accurate_norm (/ 1000) (rounded_norm d).
Proof. exact (fun H => conj (float_norm_of d H) (rounded_norm_accurate d H)). Qed.
Example C99_data : ordinary_sources 2 (fun x => x) nine_doubles.
Proof. exact nine_ordinary. Qed.
Example C99_failing : ordinary_sources 2 (fun x => x) low_corner /\
  bal_build (N := NumRnd double_round) (D := DistRnd (rounded_norm 2)) 2 (real_pos (fun x => x)) 1 low_corner = UB.
Proof. exact (conj low_ordinary low_rounded). Qed.

(** C100: hence, for such coordinates and data in range, the constructor of the balanced tree in IEEE doubles raises no exception and has no
    undefined behaviour; … *)
Theorem C100_balanced_builds {Src} d h (pos : Src -> list float) srcs hypF hyp : norm_of d hypF hyp -> accurate_norm (/ 1000) hyp -> ordinary_sources d pos srcs ->
  in_range d h (real_pos pos) srcs ->
  exists t ls, bal_build (N := NumF) (D := DistF hypF) d pos h srcs = Ok (t, ls) /\ bt_height t = h /\ 0 < real_of (bt_len t).
Proof. exact (fun HN HA HO HR => doubles_build d h pos srcs hypF hyp HN HA HO HR). Qed.
Print Assumptions C100_balanced_builds.
(** … every source is in exactly one leaf, of which it is at most a hundredth of the side outside; … *)
Theorem C100_balanced_sources {Src} d h (pos : Src -> list float) srcs hypF hyp t ls : norm_of d hypF hyp -> accurate_norm (/ 1000) hyp -> ordinary_sources d pos srcs ->
  in_range d h (real_pos pos) srcs -> bal_build (N := NumF) (D := DistF hypF) d pos h srcs = Ok (t, ls) ->
  Permutation (flat_map an_srcs (bt_leaves t)) srcs /\ forall n s, In n (bt_leaves t) -> In s (an_srcs n) -> almost_in d (real_node n) (map real_of (pos s)).
Proof. exact (fun HN HA HO HR => doubles_sources d h pos srcs hypF hyp HN HA HO HR t ls). Qed.
Print Assumptions C100_balanced_sources.
(** … every leaf is accounted for exactly once at every leaf; … *)
Theorem C100_balanced_coverage {Src} d h (pos : Src -> list float) srcs hypF hyp t ls L : norm_of d hypF hyp -> accurate_norm (/ 1000) hyp -> ordinary_sources d pos srcs ->
  in_range d h (real_pos pos) srcs -> bal_build (N := NumF) (D := DistF hypF) d pos h srcs = Ok (t, ls) ->
  In L (leaf_addresses (real_btree t)) -> Permutation (reached (real_btree t) ls L) (leaf_addresses (real_btree t)).
Proof. exact (fun HN HA HO HR HB => doubles_coverage d h pos srcs hypF hyp HN HA HO HR t ls HB L). Qed.
Print Assumptions C100_balanced_coverage.
(** … interacting boxes are separated; … *)
Theorem C100_balanced_separated {Src} d h (pos : Src -> list float) srcs hypF hyp t ls n m : norm_of d hypF hyp -> accurate_norm (/ 1000) hyp -> ordinary_sources d pos srcs ->
  in_range d h (real_pos pos) srcs -> bal_build (N := NumF) (D := DistF hypF) d pos h srcs = Ok (t, ls) ->
  In n (bt_nodes t ++ bt_leaves t) -> In m (bt_nodes t ++ bt_leaves t) -> In (an_addr m) (nl_inter ls (an_addr n)) ->
  an_depth m = an_depth n /\ exists j, (j < d)%nat /\ 199 / 100 * real_of (an_len n) <= Rabs (nth j (map real_of (an_center n)) 0 - nth j (map real_of (an_center m)) 0).
Proof. exact (fun HN HA HO HR HB => doubles_separated d h pos srcs hypF hyp HN HA HO HR t ls HB n m). Qed.
Print Assumptions C100_balanced_separated.
(** … the look-up of a point of the bounding box finds the leaf it is in, and that of a source its leaf; … *)
Theorem C100_balanced_lookup {Src} d h (pos : Src -> list float) srcs hypF hyp t ls x : norm_of d hypF hyp -> accurate_norm (/ 1000) hyp -> ordinary_sources d pos srcs ->
  in_range d h (real_pos pos) srcs -> bal_build (N := NumF) (D := DistF hypF) d pos h srcs = Ok (t, ls) ->
  (h < 64 / d)%nat -> ordinary d x -> among d (real_pos pos) srcs (map real_of x) ->
  exists n, bal_containing_leaf (N := NumF) d t x = Ok n /\ In n (bt_leaves t) /\ almost_in d (real_node n) (map real_of x) /\
    forall s, In s srcs -> map real_of (pos s) = map real_of x -> In s (an_srcs n).
Proof. exact (fun HN HA HO HR HB => doubles_lookup d h pos srcs hypF hyp HN HA HO HR t ls HB x). Qed.
Print Assumptions C100_balanced_lookup.
(** … the refinement of the adaptive tree ends, … *)
Theorem C100_adaptive_ends {Src} d h cap fuel (pos : Src -> list float) srcs hyp : accurate_norm (/ 1000) hyp -> ordinary_sources d pos srcs -> (fuel <= 60)%nat ->
  in_refinable_range d h (real_pos pos) srcs -> (1 <= cap)%nat -> (h <= fuel)%nat ->
  exists t, build_adaptive (N := NumF) d pos cap fuel srcs = Ok t /\ (at_height t <= h)%nat.
Proof. exact (fun HA HO HF => doubles_ends d h cap fuel pos srcs hyp HA HO HF). Qed.
Print Assumptions C100_adaptive_ends.
(** … its constructor raises no exception, … *)
Theorem C100_adaptive_no_exception {Src} d h cap fuel (pos : Src -> list float) srcs hypF hyp t : norm_of d hypF hyp -> accurate_norm (/ 1000) hyp ->
  ordinary_sources d pos srcs -> (fuel <= 60)%nat -> in_adaptive_range d h (real_pos pos) srcs ->
  build_adaptive (N := NumF) d pos cap fuel srcs = Ok t -> (at_height t <= h)%nat -> exists ls, all_lists (N := NumF) (D := DistF hypF) d t = Ok ls.
Proof. exact (fun HN HA HO HF HR HB Ht => doubles_no_exception d h cap fuel pos srcs hypF hyp HN HA HO HF HR t HB Ht). Qed.
Print Assumptions C100_adaptive_no_exception.
(** … every source is in exactly one leaf, … *)
Theorem C100_adaptive_sources {Src} d h cap fuel (pos : Src -> list float) srcs hyp t : accurate_norm (/ 1000) hyp ->
  ordinary_sources d pos srcs -> (fuel <= 60)%nat -> in_adaptive_range d h (real_pos pos) srcs ->
  build_adaptive (N := NumF) d pos cap fuel srcs = Ok t -> (at_height t <= h)%nat ->
  Permutation (flat_map an_srcs (leaf_nodes t)) srcs /\
  forall n, In n (leaf_nodes t) -> (length (an_srcs n) <= cap)%nat /\ forall s, In s (an_srcs n) -> almost_in d (real_node n) (map real_of (pos s)).
Proof. exact (fun HA HO HF HR HB Ht => doubles_adaptive_sources d h cap fuel pos srcs hyp HA HO HF HR t HB Ht). Qed.
Print Assumptions C100_adaptive_sources.
(** … every leaf is accounted for exactly once at every leaf, … *)
Theorem C100_adaptive_coverage {Src} d cap fuel (pos : Src -> list float) srcs hypF hyp t ls L : norm_of d hypF hyp -> ordinary_sources d pos srcs -> (fuel <= 60)%nat ->
  build_adaptive (N := NumF) d pos cap fuel srcs = Ok t -> all_lists (N := NumF) (D := DistF hypF) d t = Ok ls -> In L (leaf_list t) ->
  Permutation (interactions t ls L) (leaf_list t).
Proof. exact (fun HN HO HF HB => doubles_adaptive_coverage d cap fuel pos srcs hypF hyp HN HO HF t HB ls L). Qed.
Print Assumptions C100_adaptive_coverage.
(** … and the look-up of a point of the bounding box, if it finds a leaf, finds the one it is in, with the sources at the point; it does
    find the leaf of a point that is inside by a thousandth of the side. *)
Theorem C100_adaptive_lookup {Src} d h cap fuel (pos : Src -> list float) srcs hyp t x : accurate_norm (/ 1000) hyp ->
  ordinary_sources d pos srcs -> (fuel <= 60)%nat -> in_adaptive_range d h (real_pos pos) srcs ->
  build_adaptive (N := NumF) d pos cap fuel srcs = Ok t -> (at_height t <= h)%nat -> ordinary d x -> among d (real_pos pos) srcs (map real_of x) ->
  (exists o, containing_leaf (N := NumF) d t x = Ok o) /\
  (forall n, containing_leaf (N := NumF) d t x = Ok (Some n) -> almost_in d (real_node n) (map real_of x) /\
     forall s, In s srcs -> map real_of (pos s) = map real_of x -> In s (an_srcs n)) /\
  (forall n, In n (leaf_nodes t) -> inside d (real_node n) (map real_of x) -> exists m, containing_leaf (N := NumF) d t x = Ok (Some m) /\ an_addr m = an_addr n).
Proof. exact (fun HA HO HF HR HB Ht => doubles_adaptive_lookup d h cap fuel pos srcs hyp HA HO HF HR t HB Ht x). Qed.
Print Assumptions C100_adaptive_lookup.
Example C100_data : ordinary_sources 2 (fun x => x) nine_doubles /\ in_range 2 8 (real_pos (fun x => x)) nine_doubles /\
  in_refinable_range 2 12 (real_pos (fun x => x)) nine_doubles /\ in_adaptive_range 2 12 (real_pos (fun x => x)) nine_doubles.
Proof. exact (conj nine_ordinary (conj nine_doubles_in_range (conj nine_doubles_refinable nine_adaptive))). Qed.
