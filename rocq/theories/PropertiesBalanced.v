(** Properties C32-C37, C43, C49: the balanced tree.  [bal_build d pos h srcs] is the structure (boxes and lists) built by the
    constructor of [BalancedFmmTree<d>] for height [h]; [bt_nodes]/[bt_leaves] are its two arrays; an address is the list of child
    numbers from a box up to the root.  [balanced_fmm2 cap eps srcs tb r]: [r] is a possible result of
    [BalancedFmmTree<2>(srcs, cap, eps)] under some schedule of the parallel loops.  The limits [h < 32], [d h <= 32] are those
    of the 32-bit indices. *)
From Coq Require Import List Arith Reals ZArith Permutation.
From Verif Require Import Num Outcome Vec Orthtree AdaptiveTree TreeSpec GeometrySpec CAux FieldSpec Tables TableProofs Fields
  Exp2Errors BuildProofs FmmPasses PassTree Exp2Theorems TreeTheorems TreeTheorems3 FmmTree2D FmmApi FmmApiProofs BalancedTree BalancedSpec BalancedIndex BalancedFmm BalancedApiProofs BalancedTheorems CasesTrees.
Import ListNotations.

(** C32: the indices of the leaf that contains a point of the half-open root box. *)
Theorem C32_indices_inside d h c l x : length c = d -> (0 < l)%R -> h < 32 -> length x = d -> in_half_open d c l x ->
  exists idx, leaf_box_indices d h c l x = Ok idx /\ length idx = d /\
  forall j, j < d -> (0 <= nth j idx 0 < 2 ^ Z.of_nat h)%Z /\
    (nth j c 0 - l / 2 + IZR (nth j idx 0%Z) * (l / 2 ^ h) <= nth j x 0 < nth j c 0 - l / 2 + (IZR (nth j idx 0%Z) + 1) * (l / 2 ^ h))%R.
Proof. exact (indices_inside d h c l x). Qed.
Print Assumptions C32_indices_inside.
(** The first coordinate outside decides: above the box the call throws (below it, or further away than 2^32 leaves, it is
    undefined). *)
Theorem C32_indices_above d h c l x j : length c = d -> (0 < l)%R -> h < 32 -> length x = d -> j < d ->
  (forall i, i < j -> (nth i c 0 - l / 2 <= nth i x 0 < nth i c 0 - l / 2 + l)%R) ->
  (nth j c 0 - l / 2 + l <= nth j x 0 < nth j c 0 - l / 2 + l / 2 ^ h * 4294967296)%R -> leaf_box_indices d h c l x = Throw.
Proof. exact (fun Hc Hl Hh => indices_above d h c l Hc Hl Hh x j). Qed.
Print Assumptions C32_indices_above.
Theorem C32_indices_below d h c l x j : length c = d -> (0 < l)%R -> h < 32 -> length x = d -> j < d ->
  (forall i, i < j -> (nth i c 0 - l / 2 <= nth i x 0 < nth i c 0 - l / 2 + l)%R) ->
  (nth j x 0 < nth j c 0 - l / 2)%R \/ (nth j c 0 - l / 2 + l / 2 ^ h * 4294967296 <= nth j x 0)%R -> leaf_box_indices d h c l x = UB.
Proof.
  exact (fun Hc Hl Hh Hx Hj H K => match K with or_introl K => indices_below d h c l Hc Hl Hh x j Hx Hj H K
                                             | or_intror K => indices_far d h c l Hc Hl Hh x j Hx Hj H K end).
Qed.
Print Assumptions C32_indices_below.
Example C32_case : length [0; 0]%R = 2 /\ (0 < 2)%R /\ 3 < 32 /\ length [1/2; -1]%R = 2 /\ in_half_open 2 [0; 0]%R 2 [1/2; -1]%R.
Proof. exact indices_case. Qed.
Example C32_above_case : length [0; 0]%R = 2 /\ (0 < 2)%R /\ 3 < 32 /\ length [1/2; 7]%R = 2 /\ 1 < 2 /\
  (forall i, i < 1 -> (nth i [0; 0] 0 - 2 / 2 <= nth i [1/2; 7] 0 < nth i [0; 0] 0 - 2 / 2 + 2)%R) /\
  (nth 1 [0; 0] 0 - 2 / 2 + 2 <= nth 1 [1/2; 7] 0 < nth 1 [0; 0] 0 - 2 / 2 + 2 / 2 ^ 3 * 4294967296)%R.
Proof. exact above_case. Qed.
Example C32_below_case : length [1/2; -7]%R = 2 /\ 1 < 2 /\
  (forall i, i < 1 -> (nth i [0; 0] 0 - 2 / 2 <= nth i [1/2; -7] 0 < nth i [0; 0] 0 - 2 / 2 + 2)%R) /\ (nth 1 [1/2; -7] 0 < nth 1 [0; 0] 0 - 2 / 2)%R.
Proof. exact below_case. Qed.

(** C33: flat index and Morton index. *)
Theorem C33_flat_index_bijective d h : h < 32 -> d * h <= 32 ->
  (forall idx, tuple d h idx -> exists k, flat_index d h idx = Ok k /\ (0 <= k < 2 ^ Z.of_nat (d * h))%Z) /\
  (forall i1 i2, tuple d h i1 -> tuple d h i2 -> flat_index d h i1 = flat_index d h i2 -> i1 = i2) /\
  (forall k, (0 <= k < 2 ^ Z.of_nat (d * h))%Z -> exists idx, tuple d h idx /\ flat_index d h idx = Ok k).
Proof. exact (flat_bijective d h). Qed.
Print Assumptions C33_flat_index_bijective.
Theorem C33_morton_index_bijective d h : h < 64 / d ->
  (forall idx, tuple d h idx -> exists m, morton_index d h idx = Ok m /\ (0 <= m < 2 ^ Z.of_nat (d * h))%Z /\
     forall i j, i < h -> j < d -> Z.testbit m (Z.of_nat (i * d + j)) = Z.testbit (nth (d - 1 - j) idx 0%Z) (Z.of_nat i)) /\
  (forall i1 i2, tuple d h i1 -> tuple d h i2 -> morton_index d h i1 = morton_index d h i2 -> i1 = i2) /\
  (forall m, (0 <= m < 2 ^ Z.of_nat (d * h))%Z -> exists idx, tuple d h idx /\ morton_index d h idx = Ok m).
Proof. exact (morton_bijective d h). Qed.
Print Assumptions C33_morton_index_bijective.
Theorem C33_morton_index_throws d h idx : 64 / d <= h <-> morton_index d h idx = Throw.
Proof. exact (morton_throws d h idx). Qed.
Print Assumptions C33_morton_index_throws.
(** Not so beyond 32 bits: in an octree of height 11 different boxes have the same flat index. *)
Theorem C33_flat_index_wraps : exists i1 i2, i1 <> i2 /\ tuple 3 11 i1 /\ tuple 3 11 i2 /\ flat_index 3 11 i1 = flat_index 3 11 i2.
Proof. exact flat_wraps. Qed.
Print Assumptions C33_flat_index_wraps.
Example C33_case : tuple 3 2 [1; 3; 2]%Z /\ flat_index 3 2 [1; 3; 2]%Z = Ok 30%Z /\ morton_index 3 2 [1; 3; 2]%Z = Ok 30%Z /\
  morton_index 3 2 [1; 0; 2]%Z = Ok 12%Z.
Proof. exact indices_case2. Qed.

(** C34: layout of the two arrays. *)
Theorem C34_layout {Src} d (pos : Src -> list R) h srcs t ls : 1 <= d -> (forall s, In s srcs -> length (pos s) = d) ->
  1 <= h -> h < 32 -> d * h <= 32 -> bal_build d pos h srcs = Ok (t, ls) ->
  (2 ^ d - 1) * length (bt_nodes t) = (2 ^ d) ^ h - 1 /\ length (bt_leaves t) = (2 ^ d) ^ h /\
  (forall k i n, nth_error (bt_nodes t) i = Some n -> (an_depth n = k <-> level_offset d k <= i < level_offset d k + (2 ^ d) ^ k)) /\
  (forall i n, nth_error (bt_leaves t) i = Some n -> an_depth n = h) /\
  (h < 64 / d -> exists c l, root_box d (map pos srcs) = Some (c, l) /\ forall i n, nth_error (bt_leaves t) i = Some n ->
     an_len n = (l / 2 ^ h)%R /\ exists idx, leaf_box_indices d h c l (an_center n) = Ok idx /\ morton_index d h idx = Ok (Z.of_nat i)).
Proof. exact (layout d pos h srcs t ls). Qed.
Print Assumptions C34_layout.
Example C34_case : (forall s, In s five -> length s = 2) /\ exists t ls, bal_build 2 (fun x => x) 1 five = Ok (t, ls).
Proof. exact (conj five_dim five_built). Qed.

(** C35: when the construction succeeds, and what the leaves contain. *)
Theorem C35_build_succeeds {Src} d (pos : Src -> list R) srcs h c l : 1 <= d -> (forall s, In s srcs -> length (pos s) = d) ->
  1 <= h -> h < 32 -> d * h <= 32 -> root_box d (map pos srcs) = Some (c, l) ->
  (exists r, bal_build d pos h srcs = Ok r) <-> (0 < l)%R /\ forall s, In s srcs -> in_half_open d c l (pos s).
Proof. exact (fun Hd Hp => bal_build_iff d pos srcs Hd Hp h c l). Qed.
Print Assumptions C35_build_succeeds.
Theorem C35_leaf_contents {Src} d (pos : Src -> list R) h srcs t ls : 1 <= d -> (forall s, In s srcs -> length (pos s) = d) ->
  1 <= h -> h < 32 -> d * h <= 32 -> bal_build d pos h srcs = Ok (t, ls) ->
  forall n, In n (bt_leaves t) ->
  exists b : Src -> bool, (forall s, In s srcs -> (b s = true <-> in_half_open d (an_center n) (an_len n) (pos s))) /\ an_srcs n = filter b srcs.
Proof. exact (leaf_contents d pos h srcs t ls). Qed.
Print Assumptions C35_leaf_contents.
Theorem C35_source_found {Src} d (pos : Src -> list R) h srcs t ls : 1 <= d -> (forall s, In s srcs -> length (pos s) = d) ->
  1 <= h -> h < 32 -> d * h <= 32 -> bal_build d pos h srcs = Ok (t, ls) ->
  forall s, h < 64 / d -> In s srcs -> exists n, bal_containing_leaf d t (pos s) = Ok n /\ In n (bt_leaves t) /\ In s (an_srcs n).
Proof. exact (source_found d pos h srcs t ls). Qed.
Print Assumptions C35_source_found.
Theorem C35_leaf_found {Src} d (pos : Src -> list R) h srcs t ls : 1 <= d -> (forall s, In s srcs -> length (pos s) = d) ->
  1 <= h -> h < 32 -> d * h <= 32 -> bal_build d pos h srcs = Ok (t, ls) ->
  forall x, h < 64 / d -> length x = d -> forall c l, root_box d (map pos srcs) = Some (c, l) -> in_half_open d c l x ->
  exists n, bal_containing_leaf d t x = Ok n /\ In n (bt_leaves t) /\ in_half_open d (an_center n) (an_len n) x.
Proof. exact (leaf_found d pos h srcs t ls). Qed.
Print Assumptions C35_leaf_found.
(** The hypothesis that all sources are in the half-open root box fails for every source set on one side of the origin in all
    coordinates: the padding of the root box moves a corner of the data out of it, and the construction never succeeds. *)
Theorem C35_one_sided_unusable {Src} d (pos : Src -> list R) srcs h : 1 <= d -> (forall s, In s srcs -> length (pos s) = d) ->
  1 <= h -> h < 32 -> d * h <= 32 -> srcs <> [] ->
  (forall s, In s srcs -> forall j, j < d -> (0 < nth j (pos s) 0)%R) \/ (forall s, In s srcs -> forall j, j < d -> (nth j (pos s) 0 <= 0)%R) ->
  forall r, bal_build d pos h srcs <> Ok r.
Proof. exact (fun Hd Hp => one_sided_unusable d pos srcs Hd Hp h). Qed.
Print Assumptions C35_one_sided_unusable.
Example C35_case : (forall s, In s five -> length s = 2) /\ exists t ls, bal_build 2 (fun x => x) 1 five = Ok (t, ls).
Proof. exact (conj five_dim five_built). Qed.
Example C35_one_sided_case : (forall s, In s [[1; 2]; [3; 1]]%R -> length s = 2) /\ [[1; 2]; [3; 1]]%R <> [] /\
  forall s, In s [[1; 2]; [3; 1]]%R -> forall j, j < 2 -> (0 < nth j s 0)%R.
Proof. exact one_sided_case. Qed.

(** C36: lists.  Near neighbours are the touching boxes of the same depth; interaction lists are the children of the near
    neighbours of the parent that do not touch. *)
Theorem C36_near_lists {Src} d (pos : Src -> list R) h srcs t ls : 1 <= d -> (forall s, In s srcs -> length (pos s) = d) ->
  1 <= h -> h < 32 -> d * h <= 32 -> bal_build d pos h srcs = Ok (t, ls) ->
  forall n, In n (boxes t) -> NoDup (nl_near ls (an_addr n)) /\
  forall q, In q (nl_near ls (an_addr n)) <->
    exists m, In m (boxes t) /\ an_addr m = q /\ an_depth m = an_depth n /\ boxes_touch d (an_center n) (an_len n) (an_center m) (an_len m).
Proof. exact (near_exact d pos h srcs t ls). Qed.
Print Assumptions C36_near_lists.
Theorem C36_interaction_lists {Src} d (pos : Src -> list R) h srcs t ls : 1 <= d -> (forall s, In s srcs -> length (pos s) = d) ->
  1 <= h -> h < 32 -> d * h <= 32 -> bal_build d pos h srcs = Ok (t, ls) ->
  forall n, In n (boxes t) -> NoDup (nl_inter ls (an_addr n)) /\
  (forall q, In q (nl_inter ls (an_addr n)) <->
    exists i p j r m, an_addr n = i :: p /\ q = j :: r /\ In m (boxes t) /\ an_addr m = q /\ In r (nl_near ls p) /\
      ~ boxes_touch d (an_center n) (an_len n) (an_center m) (an_len m)).
Proof. exact (inter_exact d pos h srcs t ls). Qed.
Print Assumptions C36_interaction_lists.
Theorem C36_interaction_separated {Src} d (pos : Src -> list R) h srcs t ls : 1 <= d -> (forall s, In s srcs -> length (pos s) = d) ->
  1 <= h -> h < 32 -> d * h <= 32 -> bal_build d pos h srcs = Ok (t, ls) ->
  forall n m, In n (boxes t) -> In m (boxes t) -> In (an_addr m) (nl_inter ls (an_addr n)) ->
  an_len n = an_len m /\ exists j, j < d /\ (2 * an_len n <= Rabs (nth j (an_center n) 0 - nth j (an_center m) 0))%R.
Proof. exact (inter_separated d pos h srcs t ls). Qed.
Print Assumptions C36_interaction_separated.
Example C36_case : (forall s, In s five -> length s = 2) /\ exists t ls, bal_build 2 (fun x => x) 1 five = Ok (t, ls).
Proof. exact (conj five_dim five_built). Qed.

(** C37: every leaf is accounted for exactly once. *)
Theorem C37_coverage {Src} d (pos : Src -> list R) h srcs t ls : 1 <= d -> (forall s, In s srcs -> length (pos s) = d) ->
  1 <= h -> h < 32 -> d * h <= 32 -> bal_build d pos h srcs = Ok (t, ls) ->
  forall L, In L (leaf_addresses t) -> Permutation (reached t ls L) (leaf_addresses t).
Proof. exact (balanced_coverage d pos h srcs t ls). Qed.
Print Assumptions C37_coverage.
Example C37_case : (forall s, In s five -> length s = 2) /\ exists t ls, bal_build 2 (fun x => x) 1 five = Ok (t, ls).
Proof. exact (conj five_dim five_built). Qed.

(** C43: the height is the least [h] with [n <= cap (2^d)^h]; it is undefined for [n 2^d <= cap]. *)
Theorem C43_height_selection d n cap h : 1 <= d -> bal_height d n cap = Ok h <->
  1 <= cap /\ cap < n * 2 ^ d /\ (Z.of_nat h < 2 ^ 64)%Z /\ n <= cap * (2 ^ d) ^ h /\ (forall k, k < h -> cap * (2 ^ d) ^ k < n).
Proof. exact (bal_height_spec d n cap h). Qed.
Print Assumptions C43_height_selection.
Theorem C43_height_undefined d n cap : 1 <= d -> n * 2 ^ d <= cap -> bal_height d n cap = UB.
Proof. exact (bal_height_undefined d n cap). Qed.
Print Assumptions C43_height_undefined.
Example C43_case : bal_height 2 5 1 = Ok 2.
Proof. exact height_case. Qed.

(** C49: the two-dimensional balanced tree end to end.  One result for all schedules; error of the potential at most
    [A c^(p+1) / ((p+1)(1-c))], [c = sqrt 2 / 2]; force as for the adaptive tree. *)
Theorem C49_balanced_accuracy orders cap eps srcs p h c l : same_dim 2 srcs -> order_of eps srcs = Ok p -> 1 <= p ->
  bal_height 2 (length srcs) cap = Ok h -> h <= 16 ->
  root_box 2 (map (@ps_pos R) srcs) = Some (c, l) -> (0 < l)%R -> (forall s, In s srcs -> in_half_open 2 c l (ps_pos s)) ->
  exists o, (forall r, balanced_fmm2 cap eps srcs (table_after orders) r <-> r = Ok o) /\ bo_order o = p /\ bt_height (b_tree (bo_fmm o)) = h /\
  (forall grav x, length x = 2 -> in_half_open 2 c l x -> exists v, bal_potential_at grav o x = Ok v /\
     (Rabs (v - direct_potential 2 grav (filter (fun s => negb (is_at x s)) srcs) x) <=
        (if h =? 0 then 0 else (sqrt 2 / 2) ^ S p / (INR (S p) * (1 - sqrt 2 / 2)) * abs_charge srcs))%R) /\
  (forall grav smooth x, length x = 2 -> in_half_open 2 c l x -> (0 <= smooth)%R -> exists v, bal_force_at grav smooth o x = Ok (map v (seq 0 2)) /\
     exists near far, Permutation (near ++ far) (filter (fun s => negb (is_at x s)) srcs) /\
       (forall s, In s far -> exists j, j < 2 /\ (l / 2 ^ h <= Rabs (nth j (ps_pos s) 0 - nth j x 0))%R) /\
       forall k, k < 2 ->
       (Rabs (v k - (rsum (fun s => force_on 2 grav smooth s x k) near + rsum (fun s => force_on 2 grav 0 s x k) far)) <=
        (if h =? 0 then 0 else (sqrt 2 / 2) ^ p / ((2 - sqrt 2) * (l / 2 ^ h)) * abs_charge srcs))%R).
Proof. exact (bal2_end_to_end orders cap eps srcs p h c l). Qed.
Print Assumptions C49_balanced_accuracy.
(** With hypotheses on the input only: *)
Theorem C49_usable orders cap eps srcs p : same_dim 2 srcs -> spread 2 (@ps_pos R) srcs ->
  1 <= cap -> cap < length srcs * 2 ^ 2 -> (Z.of_nat (length srcs) <= Z.of_nat cap * 2 ^ 32)%Z ->
  order_of eps srcs = Ok p -> (eps < abs_charge srcs)%R ->
  exists o c l, root_box 2 (map (@ps_pos R) srcs) = Some (c, l) /\ (0 < l)%R /\ (forall s, In s srcs -> in_half_open 2 c l (ps_pos s)) /\
  (forall r, balanced_fmm2 cap eps srcs (table_after orders) r <-> r = Ok o) /\
  forall grav x, length x = 2 -> in_half_open 2 c l x -> exists v, bal_potential_at grav o x = Ok v /\
     (Rabs (v - direct_potential 2 grav (filter (fun s => negb (is_at x s)) srcs) x) <= (sqrt 2 / 2) ^ S p / (INR (S p) * (1 - sqrt 2 / 2)) * abs_charge srcs)%R.
Proof. exact (bal2_usable orders cap eps srcs p). Qed.
Print Assumptions C49_usable.
Example C49_case : same_dim 2 five_unit /\ spread 2 (@ps_pos R) five_unit /\ 1 <= 1 /\ 1 < length five_unit * 2 ^ 2 /\
  (Z.of_nat (length five_unit) <= Z.of_nat 1 * 2 ^ 32)%Z /\ order_of 1 five_unit = Ok 3 /\ (1 < abs_charge five_unit)%R.
Proof. exact five_unit_balanced. Qed.
