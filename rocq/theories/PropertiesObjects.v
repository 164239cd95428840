(** Properties C68-C73: log files, lifetime of the objects, the reference to the caller's vector, printing, the point tree.
    [build_adaptive], [build_points], [bal_build]: the trees built by the constructors of [AdaptiveFmmTree],
    [AdaptivePointOrthtree] and [BalancedFmmTree]; [heap t], [boxes t]: their boxes.  A row of a log file is a list of fields
    ([FNat], [FBool], [FNum]); [numbered f 0 xs] are the rows [f k x] of the elements of [xs] with their positions [k];
    [cols s] are the numbers written for a source. *)
From Coq Require Import List Arith Reals ZArith Permutation Sorted.
From Coquelicot Require Import Complex.
From Verif Require Import Num Outcome Vec Orthtree AdaptiveTree TreeSpec GeometrySpec Tables Expansion2D Tables3D Expansion3D Fields FieldSpec
  BuildProofs TreeTheorems2 TreeTheorems3 BalancedTree BalancedSpec BalancedTheorems FmmApi FmmApiProofs FmmTree3D PointTree PointProofs Termination Lifetime Output OutputSpec Exp2Theorems ObjectTheorems CasesFmm.
Import ListNotations.

(** C68: the log files list every box exactly once, in order of depth, numbered from 0, with the leaf flag, depth, side and
    center; the sources of every leaf; and for every box the centers of the boxes in each of its lists.  Different boxes have
    different centers, so the centers identify the listed boxes.  (The rows of the file of the W lists have no center.) *)
Theorem C68_adaptive_files {Src} d (pos cols : Src -> list R) cap fuel srcs t ls : 1 <= d -> (forall s, In s srcs -> length (pos s) = d) ->
  build_adaptive d pos cap fuel srcs = Ok t -> all_lists d t = Ok ls ->
  exists lg order, adaptive_to_file d cols t ls = Ok lg /\ Permutation order (heap t) /\
  StronglySorted (fun a b => an_depth a <= an_depth b) order /\
  (let head k (n : anode) := [FNat k; FBool (an_leaf n); FNat (an_depth n); FNum (an_len n)] in
   let list_rows (f : addr -> list addr) := numbered (fun k n => [head k n ++ center_of n ++ centers_at (heap t) (f (an_addr n))]) 0 order in
   lg_geom lg = numbered (fun k n => [head k n ++ center_of n]) 0 order /\
   lg_points lg = numbered (fun k n => if an_leaf n then [sources_row cols k n] else []) 0 order /\
   lg_near lg = list_rows (nl_near ls) /\ lg_inter lg = list_rows (nl_inter ls) /\ lg_X lg = list_rows (nl_X ls) /\
   lg_W lg = numbered (fun k n => if an_leaf n then [head k n ++ centers_at (heap t) (nl_W ls (an_addr n))] else []) 0 order) /\
  (forall n, In n (heap t) -> all_boxes_of (heap t) (nl_near ls (an_addr n) ++ nl_inter ls (an_addr n) ++ nl_X ls (an_addr n) ++ nl_W ls (an_addr n))) /\
  (forall n m, In n (heap t) -> In m (heap t) -> an_center n = an_center m -> n = m).
Proof. exact (adaptive_files d pos cols cap fuel srcs t ls). Qed.
Print Assumptions C68_adaptive_files.
Theorem C68_balanced_files {Src} d (pos cols : Src -> list R) h srcs t ls : 1 <= d -> (forall s, In s srcs -> length (pos s) = d) ->
  1 <= h -> h < 32 -> d * h <= 32 -> bal_build d pos h srcs = Ok (t, ls) ->
  exists lg order, balanced_to_file cols t ls = Ok lg /\ Permutation order (boxes t) /\
  StronglySorted (fun a b => an_depth a <= an_depth b) order /\
  (let head k (n : anode) := [FNat k; FNat (an_depth n); FNum (an_len n)] ++ center_of n in
   let list_rows (f : addr -> list addr) := numbered (fun k n => [head k n ++ centers_at (boxes t) (f (an_addr n))]) 0 order in
   lg_geom lg = numbered (fun k n => [head k n]) 0 order /\
   lg_points lg = numbered (fun k n => if an_leaf n then [sources_row cols k n] else []) 0 order /\
   lg_near lg = list_rows (nl_near ls) /\ lg_inter lg = list_rows (nl_inter ls)) /\
  (forall n, In n (boxes t) -> all_boxes_of (boxes t) (nl_near ls (an_addr n) ++ nl_inter ls (an_addr n))) /\
  (forall n m, In n (boxes t) -> In m (boxes t) -> an_center n = an_center m -> n = m).
Proof. exact (balanced_files d pos cols h srcs t ls). Qed.
Print Assumptions C68_balanced_files.
Theorem C68_point_files {Src} d (pos cols : Src -> list R) cap fuel pts t : 1 <= d -> (forall s, In s pts -> length (pos s) = d) ->
  build_points d pos cap fuel pts = Ok t ->
  exists lg order, point_to_file d cols t = Ok lg /\ Permutation order (heap t) /\
  StronglySorted (fun a b => an_depth a <= an_depth b) order /\
  lg_geom lg = numbered (fun k n => [[FNat k; FBool (an_leaf n); FNat (an_depth n); FNum (an_len n)] ++ center_of n]) 0 order /\
  lg_points lg = numbered (fun k n => if an_leaf n then [sources_row cols k n] else []) 0 order.
Proof. exact (point_files d pos cols cap fuel pts t). Qed.
Print Assumptions C68_point_files.
(** The row of a leaf determines its sources. *)
Theorem C68_sources_recoverable {Src} (cols : Src -> list R) w srcs (n m : @anode R Src) k k' : 0 < w -> (forall s, In s srcs -> length (cols s) = w) ->
  (forall s s', In s srcs -> In s' srcs -> cols s = cols s' -> s = s') ->
  (forall s, In s (an_srcs n) -> In s srcs) -> (forall s, In s (an_srcs m) -> In s srcs) ->
  sources_row cols k n = sources_row cols k' m -> k = k' /\ an_srcs n = an_srcs m.
Proof. exact (sources_recoverable cols w srcs n m k k'). Qed.
Print Assumptions C68_sources_recoverable.
Example C68_case : (exists fuel t ls, build_adaptive 2 (fun x => x) 1 fuel five = Ok t /\ all_lists 2 t = Ok ls) /\
  (exists fuel t, build_points 2 (fun x => x) 1 fuel five = Ok t) /\ exists t ls, bal_build 2 (fun x => x) 1 five = Ok (t, ls).
Proof. exact five_trees. Qed.

(** C69: a heap tells which blocks are allocated; [o] names the tree object.  The constructor allocates one block per box; the
    destructor releases each exactly once and nothing else, and its recursion is no deeper than the tree. *)
Theorem C69_adaptive_destructor {Src} d (pos : Src -> list R) cap fuel srcs t : 1 <= d -> (forall s, In s srcs -> length (pos s) = d) ->
  build_adaptive d pos cap fuel srcs = Ok t ->
  forall o m0, (forall n, In n (heap t) -> m0 (o, an_addr n) = false) ->
  exists m1, construct o t m0 = Ok m1 /\ (forall n, In n (heap t) -> m1 (o, an_addr n) = true) /\
    forall depth, at_height t < depth -> exists m2, destroy d o t depth m1 = Ok m2 /\ forall b, m2 b = m0 b.
Proof. exact (fun Hd Hpos HB => forget_copy _ (adaptive_lifetime d pos cap fuel srcs t Hd Hpos HB)). Qed.
Print Assumptions C69_adaptive_destructor.
Theorem C69_point_destructor {Src} d (pos : Src -> list R) cap fuel srcs t : 1 <= d -> (forall s, In s srcs -> length (pos s) = d) ->
  build_points d pos cap fuel srcs = Ok t ->
  forall o m0, (forall n, In n (heap t) -> m0 (o, an_addr n) = false) ->
  exists m1, construct o t m0 = Ok m1 /\ (forall n, In n (heap t) -> m1 (o, an_addr n) = true) /\
    forall depth, at_height t < depth -> exists m2, destroy d o t depth m1 = Ok m2 /\ forall b, m2 b = m0 b.
Proof. exact (fun Hd Hpos HB => forget_copy _ (point_lifetime d pos cap fuel srcs t Hd Hpos HB)). Qed.
Print Assumptions C69_point_destructor.
(** The balanced tree: two arrays, a bucket of sources per leaf, and a table of buckets that is released by the constructor. *)
Theorem C69_balanced_destructor {Src} d (pos : Src -> list R) h srcs t ls : 1 <= d -> (forall s, In s srcs -> length (pos s) = d) ->
  h < 32 -> d * h <= 32 -> bal_build d pos h srcs = Ok (t, ls) ->
  exists c l, root_box d (map pos srcs) = Some (c, l) /\ forall o m0, (forall b, m0 (o, b) = false) ->
  exists m1 ks, bal_construct d pos o h c l srcs m0 = Ok (m1, Ok ks) /\ m1 (o, BLeaves) = true /\ m1 (o, BTable) = false /\
  exists m2, bal_destroy o h ks m1 = Ok m2 /\ forall b, m2 b = m0 b.
Proof. exact (balanced_destructor d pos h srcs t ls). Qed.
Print Assumptions C69_balanced_destructor.
Example C69_case : (exists fuel t ls, build_adaptive 2 (fun x => x) 1 fuel five = Ok t /\ all_lists 2 t = Ok ls) /\
  (exists fuel t, build_points 2 (fun x => x) 1 fuel five = Ok t) /\ exists t ls, bal_build 2 (fun x => x) 1 five = Ok (t, ls).
Proof. exact five_trees. Qed.

(** C70: the classes are copyable but own their memory: destroying a tree and then a copy of it (the same pointers) is
    undefined. *)
Theorem C70_adaptive_copy_undefined {Src} d (pos : Src -> list R) cap fuel srcs t : 1 <= d -> (forall s, In s srcs -> length (pos s) = d) ->
  build_adaptive d pos cap fuel srcs = Ok t ->
  forall o m0, (forall n, In n (heap t) -> m0 (o, an_addr n) = false) ->
  exists m1, construct o t m0 = Ok m1 /\ forall depth, at_height t < depth -> bind (destroy d o t depth m1) (destroy d o t depth) = UB.
Proof. exact (fun Hd Hpos HB => only_copy _ (adaptive_lifetime d pos cap fuel srcs t Hd Hpos HB)). Qed.
Print Assumptions C70_adaptive_copy_undefined.
Theorem C70_point_copy_undefined {Src} d (pos : Src -> list R) cap fuel srcs t : 1 <= d -> (forall s, In s srcs -> length (pos s) = d) ->
  build_points d pos cap fuel srcs = Ok t ->
  forall o m0, (forall n, In n (heap t) -> m0 (o, an_addr n) = false) ->
  exists m1, construct o t m0 = Ok m1 /\ forall depth, at_height t < depth -> bind (destroy d o t depth m1) (destroy d o t depth) = UB.
Proof. exact (fun Hd Hpos HB => only_copy _ (point_lifetime d pos cap fuel srcs t Hd Hpos HB)). Qed.
Print Assumptions C70_point_copy_undefined.
Theorem C70_balanced_copy_undefined {Src} d (pos : Src -> list R) h srcs t ls : 1 <= d -> (forall s, In s srcs -> length (pos s) = d) ->
  h < 32 -> d * h <= 32 -> bal_build d pos h srcs = Ok (t, ls) ->
  exists c l, root_box d (map pos srcs) = Some (c, l) /\ forall o m0, (forall b, m0 (o, b) = false) ->
  exists m1 ks, bal_construct d pos o h c l srcs m0 = Ok (m1, Ok ks) /\ bind (bal_destroy o h ks m1) (bal_destroy o h ks) = UB.
Proof. exact (balanced_copy d pos h srcs t ls). Qed.
Print Assumptions C70_balanced_copy_undefined.
(** An exception in the constructor of the balanced tree (a source above the root box) loses everything allocated so far. *)
Theorem C70_exception_leaks {Src} d (pos : Src -> list R) h srcs : 1 <= d -> (forall s, In s srcs -> length (pos s) = d) -> 1 <= h -> h < 32 -> d * h <= 32 ->
  bal_build d pos h srcs = Throw ->
  exists c l, root_box d (map pos srcs) = Some (c, l) /\ forall o m0, (forall b, m0 (o, b) = false) ->
  exists m1, bal_construct d pos o h c l srcs m0 = Ok (m1, Throw) /\
    m1 (o, BNodes) = true /\ m1 (o, BLeaves) = true /\ m1 (o, BTable) = true /\ forall k, k < (2 ^ d) ^ h -> m1 (o, BVec k) = true.
Proof. exact (balanced_exception d pos h srcs). Qed.
Print Assumptions C70_exception_leaks.
Example C70_case : bal_build 2 (fun x => x) 1 [[-1; -1]; [-2; -2]]%R = Throw.
Proof. exact two_left_throw. Qed.

(** C71: the object keeps a reference to the caller's vector ([now]: its contents at the time of the call).  Inside the root box
    results do not depend on it; outside they are the direct sums over the current contents. *)
Theorem C71_vector_referenced_2D cap fuel eps srcs tb obj c l : same_dim 2 srcs -> adaptive_fmm2 cap fuel eps srcs tb (Ok obj) ->
  root_box 2 (map (@ps_pos R) srcs) = Some (c, l) -> forall now grav smooth x,
  (in_box 2 c l x -> potential_at grav now obj x = potential_at grav srcs obj x /\ force_at grav smooth now obj x = force_at grav smooth srcs obj x) /\
  (~ in_box 2 c l x -> length x = 2 -> same_dim 2 now -> (forall s, In s now -> ps_pos s <> x) -> (0 <= smooth)%R ->
     potential_at grav now obj x = Ok (direct_potential 2 grav now x) /\ force_at grav smooth now obj x = Ok (direct_force 2 grav smooth now x)).
Proof. exact (referenced2 cap fuel eps srcs tb obj c l). Qed.
Print Assumptions C71_vector_referenced_2D.
Theorem C71_vector_referenced_3D cap fuel eps srcs tb obj c l : same_dim 3 srcs -> adaptive_fmm3 cap fuel eps srcs tb (Ok obj) ->
  root_box 3 (map (@ps_pos R) srcs) = Some (c, l) -> forall now grav smooth x,
  (in_box 3 c l x -> potential3_at grav now obj x = potential3_at grav srcs obj x /\ force3_at grav smooth now obj x = force3_at grav smooth srcs obj x) /\
  (~ in_box 3 c l x -> length x = 3 -> same_dim 3 now -> (forall s, In s now -> ps_pos s <> x) -> (0 <= smooth)%R ->
     potential3_at grav now obj x = Ok (direct_potential 3 grav now x) /\ force3_at grav smooth now obj x = Ok (direct_force 3 grav smooth now x)).
Proof. exact (referenced3 cap fuel eps srcs tb obj c l). Qed.
Print Assumptions C71_vector_referenced_3D.
(** So a tree is not a snapshot of its sources: *)
Theorem C71_not_a_snapshot : exists cap fuel eps srcs obj now x, same_dim 2 srcs /\ same_dim 2 now /\
  adaptive_fmm2 cap fuel eps srcs (table_after []) (Ok obj) /\ potential_at true now obj x <> potential_at true srcs obj x.
Proof. exact not_a_snapshot. Qed.
Print Assumptions C71_not_a_snapshot.
Local Open Scope R_scope.
Example C71_case : exists fuel t c l o, build_adaptive 2 (@ps_pos R) 1 fuel five_unit = Ok t /\ root_box 2 (map (@ps_pos R) five_unit) = Some (c, l) /\
  adaptive_fmm2 1 fuel 1 five_unit (table_after []) (Ok o) /\ exists x, length x = 2%nat /\ ~ in_box 2 c l x.
Proof. exact outside_tree_case. Qed.
Local Close Scope R_scope.

(** C72: printing an expansion shows each coefficient once, with its own indices. *)
Theorem C72_print_2D e : length (se_co e) = S (se_ord e) ->
  exists rows, print2 e = Ok rows /\ map fst rows = seq 0 (S (se_ord e)) /\ forall n a, In (n, a) rows -> se_get e n = Ok a.
Proof. exact (print2_rows e). Qed.
Print Assumptions C72_print_2D.
Theorem C72_print_3D e : (0 <= s3_ord e)%Z -> length (s3_co e) = Z.to_nat ((s3_ord e + 1) * (s3_ord e + 1)) ->
  exists rows, print3 e = Ok rows /\ NoDup (map fst rows) /\
  (forall n m, (exists a, In ((n, m), a) rows) <-> (0 <= n <= s3_ord e)%Z /\ (- n <= m <= n)%Z) /\
  (forall n m a, In ((n, m), a) rows -> s3_get e n m = Ok a).
Proof. exact (print3_rows e). Qed.
Print Assumptions C72_print_3D.
(** A default-constructed expansion cannot be printed: it has order 0 and no coefficient. *)
Theorem C72_print_default_undefined : print2 (mkse 0 (RtoC 0) []) = UB /\ print3 s3_default = UB.
Proof. exact print_default. Qed.
Print Assumptions C72_print_default_undefined.
Example C72_case : length (se_co (se_zero [1; 2]%R 4)) = S (se_ord (se_zero [1; 2]%R 4)) /\ (0 <= s3_ord (s3_zero [0; 0; 0]%R 3))%Z /\
  length (s3_co (s3_zero [0; 0; 0]%R 3)) = Z.to_nat ((3 + 1) * (3 + 1)).
Proof. exact zero_lengths. Qed.

(** C73: the point tree. *)
Theorem C73_points_partition {Src} d (pos : Src -> list R) cap fuel pts t : 1 <= d -> (forall s, In s pts -> length (pos s) = d) ->
  build_points d pos cap fuel pts = Ok t ->
  Permutation (flat_map an_srcs (leaf_nodes t)) pts /\
  (forall n, In n (leaf_nodes t) -> an_leaf n = true /\ length (an_srcs n) <= cap) /\
  (forall n, In n (concat (at_nodes t)) -> an_leaf n = false /\ an_srcs n = [] /\ (an_addr n <> [] -> cap < length (sources_below t (an_addr n)))) /\
  exists n, In n (concat (at_nodes t)) /\ an_addr n = [].
Proof. exact (points_partition d pos cap fuel pts t). Qed.
Print Assumptions C73_points_partition.
Theorem C73_points_space {Src} d (pos : Src -> list R) cap fuel pts t : 1 <= d -> (forall s, In s pts -> length (pos s) = d) ->
  build_points d pos cap fuel pts = Ok t ->
  exists c l, root_box d (map pos pts) = Some (c, l) /\
    (forall n x, In n (heap t) -> in_box d (an_center n) (an_len n) x -> in_box d c l x) /\
    (forall x, in_box d c l x -> exists n, In n (leaf_nodes t) /\ in_box d (an_center n) (an_len n) x) /\
    (forall n m x, In n (leaf_nodes t) -> In m (leaf_nodes t) ->
       in_interior d (an_center n) (an_len n) x -> in_interior d (an_center m) (an_len m) x -> n = m) /\
    (forall n s, In n (leaf_nodes t) -> In s (an_srcs n) -> in_box d c l (pos s) -> in_box d (an_center n) (an_len n) (pos s)).
Proof. exact (points_space d pos cap fuel pts t). Qed.
Print Assumptions C73_points_space.
(** Construction ends iff no point of the root box is the nearest one to more than [cap] points. *)
Theorem C73_points_termination {Src} d (pos : Src -> list R) cap pts c l : 1 <= d -> (forall s, In s pts -> length (pos s) = d) ->
  root_box d (map pos pts) = Some (c, l) ->
  ((exists fuel t, build_points d pos cap fuel pts = Ok t) <->
   forall x, count_occ list_R_eq_dec (map (fun s => nearest d c l (pos s)) pts) x <= cap).
Proof. exact (fun Hd => points_end d pos Hd cap pts c l). Qed.
Print Assumptions C73_points_termination.
Theorem C73_points_termination_straddling {Src} d (pos : Src -> list R) cap pts : 1 <= d -> pts <> [] -> (forall s, In s pts -> length (pos s) = d) ->
  (forall j, j < d -> (exists s, In s pts /\ (nth j (pos s) 0 <= 0)%R) /\ (exists s, In s pts /\ (0 <= nth j (pos s) 0)%R)) ->
  ((exists fuel t, build_points d pos cap fuel pts = Ok t) <->
   forall x, count_occ list_R_eq_dec (map pos pts) x <= cap).
Proof. exact (points_build d pos cap pts). Qed.
Print Assumptions C73_points_termination_straddling.
(** A tree of no points is undefined behaviour, and nothing else in the constructor is. *)
Theorem C73_points_undefined {Src} d (pos : Src -> list R) cap fuel pts : 1 <= d -> (forall s, In s pts -> length (pos s) = d) ->
  (build_points d pos cap fuel pts = UB <-> pts = []).
Proof. exact (points_undefined d pos cap fuel pts). Qed.
Print Assumptions C73_points_undefined.
Example C73_case : exists fuel t, build_points 2 (fun x => x) 1 fuel five = Ok t.
Proof. exact five_points. Qed.
