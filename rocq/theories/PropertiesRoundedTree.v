(** Property theorems: the balanced and the adaptive tree in rounded arithmetic. *)
From Coq Require Import Reals List ZArith Permutation.
From Coq Require Import Floats.
From Verif Require Import Num Outcome Vec Orthtree AdaptiveTree TreeSpec BalancedTree BalancedSpec RoundedCases RoundedTree RoundedTreeSpec RoundedTreeTheorems
  RoundedAdaptive FloatCases RoundedTreeCases FloatPotential FloatLookup.
Import ListNotations.
Local Open Scope R_scope.

(** C86: with rounding errors as in double precision, for data in range, the constructor raises no exception; … *)
Theorem C86_rounded_builds rnd hyp {Src} d h (pos : Src -> list R) srcs : double_like rnd hyp -> in_range d h pos srcs ->
  exists t ls, bal_build (N := NumRnd rnd) (D := DistRnd hyp) d pos h srcs = Ok (t, ls) /\ bt_height t = h /\
    root_box (N := NumRnd rnd) d (map pos srcs) = Some (bt_center t, bt_len t) /\ 0 < bt_len t.
Proof. exact (fun HD HR => rounded_builds rnd hyp HD d h pos srcs HR). Qed.
Print Assumptions C86_rounded_builds.
(** … the boxes are, one each, the cells of the uniform grids of all depths up to the height, displaced by at most a thousandth; … *)
Theorem C86_rounded_grid rnd hyp {Src} d h (pos : Src -> list R) srcs t ls : double_like rnd hyp -> in_range d h pos srcs ->
  bal_build (N := NumRnd rnd) (D := DistRnd hyp) d pos h srcs = Ok (t, ls) ->
  NoDup (map an_addr (boxes t)) /\
  (forall n, In n (boxes t) -> (an_depth n <= h)%nat /\ an_leaf n = (an_depth n =? h)%nat /\ exists idx, grid_box d (bt_center t) (bt_len t) n idx) /\
  (forall k idx, (k <= h)%nat -> tuple d k idx -> exists! n, In n (boxes t) /\ an_depth n = k /\ grid_box d (bt_center t) (bt_len t) n idx).
Proof. exact (fun HD HR => rounded_grid rnd hyp HD d h pos srcs HR t ls). Qed.
Print Assumptions C86_rounded_grid.
(** … the near list of a box holds, once each, the boxes of the same depth whose centres are within one and a half sides, which
    are the boxes of the adjacent cells; … *)
Theorem C86_rounded_near rnd hyp {Src} d h (pos : Src -> list R) srcs t ls n : double_like rnd hyp -> in_range d h pos srcs ->
  bal_build (N := NumRnd rnd) (D := DistRnd hyp) d pos h srcs = Ok (t, ls) -> In n (boxes t) ->
  NoDup (nl_near ls (an_addr n)) /\
  forall q, In q (nl_near ls (an_addr n)) <->
    exists m, In m (boxes t) /\ an_addr m = q /\ an_depth m = an_depth n /\ centres_within d (3 / 2) n m.
Proof. exact (fun HD HR HB => rounded_near rnd hyp HD d h pos srcs HR t ls HB n). Qed.
Print Assumptions C86_rounded_near.
(** … the interaction list holds, once each, the children of the parent's near boxes that are not near; … *)
Theorem C86_rounded_interaction rnd hyp {Src} d h (pos : Src -> list R) srcs t ls n : double_like rnd hyp -> in_range d h pos srcs ->
  bal_build (N := NumRnd rnd) (D := DistRnd hyp) d pos h srcs = Ok (t, ls) -> In n (boxes t) ->
  NoDup (nl_inter ls (an_addr n)) /\
  forall q, In q (nl_inter ls (an_addr n)) <->
    exists i p j r m, an_addr n = i :: p /\ q = j :: r /\ In m (boxes t) /\ an_addr m = q /\ In r (nl_near ls p) /\ ~ centres_within d (3 / 2) n m.
Proof. exact (fun HD HR HB => rounded_inter rnd hyp HD d h pos srcs HR t ls HB n). Qed.
Print Assumptions C86_rounded_interaction.
(** … these boxes are separated in some coordinate; … *)
Theorem C86_rounded_separated rnd hyp {Src} d h (pos : Src -> list R) srcs t ls n m : double_like rnd hyp -> in_range d h pos srcs ->
  bal_build (N := NumRnd rnd) (D := DistRnd hyp) d pos h srcs = Ok (t, ls) -> In n (boxes t) -> In m (boxes t) ->
  In (an_addr m) (nl_inter ls (an_addr n)) ->
  an_depth m = an_depth n /\ exists j, (j < d)%nat /\ 199 / 100 * an_len n <= Rabs (nth j (an_center n) 0 - nth j (an_center m) 0).
Proof. exact (fun HD HR HB => rounded_separated rnd hyp HD d h pos srcs HR t ls HB n m). Qed.
Print Assumptions C86_rounded_separated.
(** … every leaf is accounted for exactly once at every leaf; … *)
Theorem C86_rounded_coverage rnd hyp {Src} d h (pos : Src -> list R) srcs t ls L : double_like rnd hyp -> in_range d h pos srcs ->
  bal_build (N := NumRnd rnd) (D := DistRnd hyp) d pos h srcs = Ok (t, ls) -> In L (leaf_addresses t) ->
  Permutation (reached t ls L) (leaf_addresses t).
Proof. exact (fun HD HR HB => rounded_coverage rnd hyp HD d h pos srcs HR t ls HB L). Qed.
Print Assumptions C86_rounded_coverage.
(** … every source is in exactly one leaf, of which it is at most a hundredth of the side outside; … *)
Theorem C86_rounded_sources rnd hyp {Src} d h (pos : Src -> list R) srcs t ls : double_like rnd hyp -> in_range d h pos srcs ->
  bal_build (N := NumRnd rnd) (D := DistRnd hyp) d pos h srcs = Ok (t, ls) ->
  Permutation (flat_map an_srcs (bt_leaves t)) srcs /\ forall n s, In n (bt_leaves t) -> In s (an_srcs n) -> almost_in d n (pos s).
Proof. exact (fun HD HR => rounded_sources rnd hyp HD d h pos srcs HR t ls). Qed.
Print Assumptions C86_rounded_sources.
(** … and the look-up of a point of the bounding box of the sources finds the leaf it is in, and that of a source its leaf. *)
Theorem C86_rounded_lookup rnd hyp {Src} d h (pos : Src -> list R) srcs t ls x : double_like rnd hyp -> in_range d h pos srcs ->
  bal_build (N := NumRnd rnd) (D := DistRnd hyp) d pos h srcs = Ok (t, ls) -> (h < 64 / d)%nat -> among d pos srcs x ->
  exists n, bal_containing_leaf (N := NumRnd rnd) d t x = Ok n /\ In n (bt_leaves t) /\ almost_in d n x /\
    forall s, In s srcs -> pos s = x -> In s (an_srcs n).
Proof. exact (fun HD HR HB => rounded_lookup rnd hyp HD d h pos srcs HR t ls HB x). Qed.
Print Assumptions C86_rounded_lookup.
Example C86_double : double_like double_round double_norm.
Proof. exact double_is_double_like. Qed.
Example C86_data : in_range 2 8 (fun x => x) nine.
Proof. exact nine_in_range. Qed.

(** C87: without the bound on the ratio, the constructor fails in doubles on data on which it succeeds in exact arithmetic: by
    undefined behaviour, … *)
Theorem C87_double_undefined_refuted : exists srcs : list (list float),
  (exists r, bal_build 2 (fun x => x) 1 (map (map real_of) srcs) = Ok r) /\ forall D : Dist float, bal_build 2 (fun x => x) 1 srcs = UB.
Proof. exact (ex_intro _ low_corner low_fails). Qed.
Print Assumptions C87_double_undefined_refuted.
(** … or by an exception. *)
Theorem C87_double_exception_refuted : exists srcs : list (list float),
  (exists r, bal_build 2 (fun x => x) 1 (map (map real_of) srcs) = Ok r) /\ forall D : Dist float, bal_build 2 (fun x => x) 1 srcs = Throw.
Proof. exact (ex_intro _ high_corner high_fails). Qed.
Print Assumptions C87_double_exception_refuted.

(** C88: with rounding errors as in double precision, for data in range whose sources are apart, the refinement of the adaptive tree
    ends with a tree of bounded height; … *)
Theorem C88_rounded_ends rnd hyp {Src} d h (pos : Src -> list R) srcs cap fuel : double_like rnd hyp -> in_refinable_range d h pos srcs ->
  (1 <= cap)%nat -> (h <= fuel)%nat ->
  exists t, build_adaptive (N := NumRnd rnd) d pos cap fuel srcs = Ok t /\ (at_height t <= h)%nat.
Proof. exact (adaptive_ends rnd hyp d h pos srcs cap fuel). Qed.
Print Assumptions C88_rounded_ends.
(** … for every tree of at most that height the constructor raises no exception; … *)
Theorem C88_rounded_no_exception rnd hyp {Src} d h (pos : Src -> list R) srcs cap fuel t : double_like rnd hyp -> in_adaptive_range d h pos srcs ->
  build_adaptive (N := NumRnd rnd) d pos cap fuel srcs = Ok t -> (at_height t <= h)%nat ->
  exists ls, all_lists (N := NumRnd rnd) (D := DistRnd hyp) d t = Ok ls.
Proof. exact (fun HD HR HB Ht => adaptive_lists_ok rnd hyp HD d h pos srcs HR cap fuel t HB Ht). Qed.
Print Assumptions C88_rounded_no_exception.
(** … its boxes are cells of the grids of their depths, displaced by at most a thousandth; … *)
Theorem C88_rounded_grid rnd hyp {Src} d h (pos : Src -> list R) srcs cap fuel t : double_like rnd hyp -> in_adaptive_range d h pos srcs ->
  build_adaptive (N := NumRnd rnd) d pos cap fuel srcs = Ok t -> (at_height t <= h)%nat ->
  exists c l, root_box (N := NumRnd rnd) d (map pos srcs) = Some (c, l) /\ 0 < l /\
    forall n, In n (heap t) -> (an_depth n <= at_height t)%nat /\ exists idx, grid_box d c l n idx.
Proof. exact (fun HD HR HB Ht => adaptive_grid rnd hyp HD d h pos srcs HR cap fuel t HB Ht). Qed.
Print Assumptions C88_rounded_grid.
(** … the near list of a leaf holds, once each, the leaves of all sizes that touch it; … *)
Theorem C88_rounded_near rnd hyp {Src} d h (pos : Src -> list R) srcs cap fuel t ls n : double_like rnd hyp -> in_adaptive_range d h pos srcs ->
  build_adaptive (N := NumRnd rnd) d pos cap fuel srcs = Ok t -> (at_height t <= h)%nat ->
  all_lists (N := NumRnd rnd) (D := DistRnd hyp) d t = Ok ls -> In n (leaf_nodes t) ->
  NoDup (nl_near ls (an_addr n)) /\
  forall q, In q (nl_near ls (an_addr n)) <-> exists m, In m (leaf_nodes t) /\ an_addr m = q /\ boxes_meet d n m.
Proof. exact (fun HD HR HB Ht HL => adaptive_near rnd hyp HD d h pos srcs HR cap fuel t HB Ht ls HL n). Qed.
Print Assumptions C88_rounded_near.
(** … the interaction list of a box holds boxes of its depth that are separated from it, … *)
Theorem C88_rounded_separated rnd hyp {Src} d h (pos : Src -> list R) srcs cap fuel t ls n q : double_like rnd hyp -> in_adaptive_range d h pos srcs ->
  build_adaptive (N := NumRnd rnd) d pos cap fuel srcs = Ok t -> (at_height t <= h)%nat ->
  all_lists (N := NumRnd rnd) (D := DistRnd hyp) d t = Ok ls -> In n (heap t) -> In q (nl_inter ls (an_addr n)) ->
  exists m, In m (heap t) /\ an_addr m = q /\ an_depth m = an_depth n /\
    exists j, (j < d)%nat /\ 199 / 100 * an_len n <= Rabs (nth j (an_center n) 0 - nth j (an_center m) 0).
Proof. exact (fun HD HR HB Ht HL => adaptive_inter rnd hyp HD d h pos srcs HR cap fuel t HB Ht ls HL n q). Qed.
Print Assumptions C88_rounded_separated.
(** … the X list of a box larger leaves away from it, … *)
Theorem C88_rounded_X rnd hyp {Src} d h (pos : Src -> list R) srcs cap fuel t ls n q : double_like rnd hyp -> in_adaptive_range d h pos srcs ->
  build_adaptive (N := NumRnd rnd) d pos cap fuel srcs = Ok t -> (at_height t <= h)%nat ->
  all_lists (N := NumRnd rnd) (D := DistRnd hyp) d t = Ok ls -> In n (heap t) -> In q (nl_X ls (an_addr n)) ->
  exists m, In m (leaf_nodes t) /\ an_addr m = q /\ (an_depth m < an_depth n)%nat /\ boxes_apart d n m.
Proof. exact (fun HD HR HB Ht HL => adaptive_X rnd hyp HD d h pos srcs HR cap fuel t HB Ht ls HL n q). Qed.
Print Assumptions C88_rounded_X.
(** … and the W list of a leaf smaller boxes away from it; … *)
Theorem C88_rounded_W rnd hyp {Src} d h (pos : Src -> list R) srcs cap fuel t ls n q : double_like rnd hyp -> in_adaptive_range d h pos srcs ->
  build_adaptive (N := NumRnd rnd) d pos cap fuel srcs = Ok t -> (at_height t <= h)%nat ->
  all_lists (N := NumRnd rnd) (D := DistRnd hyp) d t = Ok ls -> In n (heap t) -> In q (nl_W ls (an_addr n)) ->
  an_leaf n = true /\ exists m, In m (heap t) /\ an_addr m = q /\ (an_depth n < an_depth m)%nat /\ boxes_apart d n m.
Proof. exact (fun HD HR HB Ht HL => adaptive_W rnd hyp HD d h pos srcs HR cap fuel t HB Ht ls HL n q). Qed.
Print Assumptions C88_rounded_W.
(** … every leaf, hence every source, is accounted for exactly once at every leaf; … *)
Theorem C88_rounded_coverage rnd hyp {Src} d (pos : Src -> list R) srcs cap fuel t ls L :
  build_adaptive (N := NumRnd rnd) d pos cap fuel srcs = Ok t ->
  all_lists (N := NumRnd rnd) (D := DistRnd hyp) d t = Ok ls -> In L (leaf_list t) ->
  Permutation (interactions t ls L) (leaf_list t) /\ Permutation (flat_map (leaf_sources t) (interactions t ls L)) srcs.
Proof. exact (fun HB HL => adaptive_coverage rnd hyp d pos srcs cap fuel t HB ls HL L). Qed.
Print Assumptions C88_rounded_coverage.
(** … every source is in exactly one leaf, of which it is at most a hundredth of the side outside; … *)
Theorem C88_rounded_sources rnd hyp {Src} d h (pos : Src -> list R) srcs cap fuel t : double_like rnd hyp -> in_adaptive_range d h pos srcs ->
  build_adaptive (N := NumRnd rnd) d pos cap fuel srcs = Ok t -> (at_height t <= h)%nat ->
  Permutation (flat_map an_srcs (leaf_nodes t)) srcs /\
  forall n, In n (leaf_nodes t) -> (length (an_srcs n) <= cap)%nat /\ forall s, In s (an_srcs n) -> almost_in d n (pos s).
Proof. exact (fun HD HR HB Ht => adaptive_sources rnd hyp HD d h pos srcs HR cap fuel t HB Ht). Qed.
Print Assumptions C88_rounded_sources.
(** … and the look-up of a point of the bounding box of the sources, if it finds a leaf, finds the one it is in, with the sources at
    the point; it does find the leaf of a point that is inside by a thousandth of the side. *)
Theorem C88_rounded_lookup rnd hyp {Src} d h (pos : Src -> list R) srcs cap fuel t x : double_like rnd hyp -> in_adaptive_range d h pos srcs ->
  build_adaptive (N := NumRnd rnd) d pos cap fuel srcs = Ok t -> (at_height t <= h)%nat -> among d pos srcs x ->
  (exists o, containing_leaf (N := NumRnd rnd) d t x = Ok o) /\
  (forall n, containing_leaf (N := NumRnd rnd) d t x = Ok (Some n) ->
     In n (leaf_nodes t) /\ almost_in d n x /\ forall s, In s srcs -> pos s = x -> In s (an_srcs n)) /\
  (forall n, In n (leaf_nodes t) -> inside d n x -> containing_leaf (N := NumRnd rnd) d t x = Ok (Some n)).
Proof. exact (fun HD HR HB Ht => adaptive_containing rnd hyp HD d h pos srcs HR cap fuel t HB Ht x). Qed.
Print Assumptions C88_rounded_lookup.
Example C88_data : in_refinable_range 2 12 (fun x => x) nine.
Proof. exact nine_refinable. Qed.

(** C89: in doubles the look-up may miss the leaf of a source at the source's own position, where the exact one finds it; the
    evaluation of the potential there then sums over all sources, and the term of the source itself, for every routine for the norm that
    is 0 on the null vector, is infinite, … *)
Theorem C89_double_lost_source_refuted : exists (srcs : list (list float * float)) s, In s srcs /\
  (exists fuel t n, build_adaptive 3 fst 1 fuel (map real_src srcs) = Ok t /\
     containing_leaf 3 t (map real_of (fst s)) = Ok (Some n) /\ In (real_src s) (an_srcs n)) /\
  (exists t, build_adaptive 3 fst 1 10 srcs = Ok t /\ containing_leaf 3 t (fst s) = Ok None) /\
  forall hyp, hyp [0; 0; 0]%float = 0%float -> potential_f hyp s (fst s) = neg_infinity.
Proof.
  exact (ex_intro _ middle (ex_intro _ ([mid; mid; mid], 1%float) (conj (or_intror (or_intror (or_introl eq_refl)))
    (conj middle_found (conj middle_lost middle_self_term))))).
Qed.
Print Assumptions C89_double_lost_source_refuted.
(** … as is the sum. *)
Theorem C89_double_infinite_refuted : exists (srcs : list (list float * float)) s, In s srcs /\
  (exists t, build_adaptive 3 fst 1 10 srcs = Ok t /\ containing_leaf 3 t (fst s) = Ok None) /\
  potential_sum_f (fun v => PrimFloat.sqrt (vnorm_sq v)) srcs (fst s) = neg_infinity.
Proof.
  exact (ex_intro _ middle (ex_intro _ ([mid; mid; mid], 1%float) (conj (or_intror (or_intror (or_introl eq_refl))) (conj middle_lost middle_infinite)))).
Qed.
Print Assumptions C89_double_infinite_refuted.
