(** Models of the text written by the library: the log files of [toFile] (adaptive_fmm_tree.hpp 320-419,
    balanced_fmm_tree.hpp 281-357, adaptive_point_orthtree.hpp 173-214) and the printed expansions
    (series_expansion.hpp 85-95 and 177-193).

    A file is the list of its rows and a row the list of its fields.  Separators, the number of digits and the file system are
    not modelled. *)
From Coq Require Import List Bool ZArith Arith Reals.
From Coquelicot Require Import Complex.
From Verif Require Import Num Outcome Vec Orthtree AdaptiveTree BalancedTree Tables Tables3D Expansion2D Expansion3D.
Import ListNotations.
Local Open Scope outcome_scope.

Inductive field (T : Type) : Type := FNat (n : nat) | FBool (b : bool) | FNum (x : T).
Arguments FNat {T}. Arguments FBool {T}. Arguments FNum {T}.

Section Log.
Context {T : Type} {N : Num T} {Src : Type}.
Variable d : nat.
Variable cols : Src -> list T.   (* the numbers written for a source: its coordinates, and its charge in the FMM trees *)
Notation row := (list (field T)).
Notation node := (@anode T Src).

(** The files under construction and [n_node]; the balanced tree has no W and X files, the point tree only the first two. *)
Record log : Type := Log { lg_next : nat; lg_geom : list row; lg_points : list row; lg_near : list row; lg_inter : list row;
                           lg_W : list row; lg_X : list row }.
Definition log_empty : log := Log 0 [] [] [] [] [] [].

(** [for(auto partner : list) for(auto coord : partner->center.data()) file << ", " << coord]. *)
Definition center_fields (n : node) : row := map FNum (an_center n).
Definition partner_fields (look : addr -> option node) (ps : list addr) : outcome row :=
  omap (@concat _) (omapM (fun q => do n <- of_option (look q) ;; Ok (center_fields n)) ps).
(** adaptive_fmm_tree.hpp 365-378, balanced_fmm_tree.hpp 316-329, adaptive_point_orthtree.hpp 198-207. *)
Definition points_row (k : nat) (n : node) : row := FNat k :: flat_map (fun s => map FNum (cols s)) (an_srcs n).

(** The callback of [AdaptiveFmmTree::toFile], adaptive_fmm_tree.hpp 346-418.  The stream [head] has the centre appended only
    after the W file was written (line 390). *)
Definition log_adaptive (t : @atree T Src) (ls : nlists) (p : addr) (lg : log) : outcome log :=
  do n <- of_option (lookup t p) ;;
  let k := lg_next lg in
  let head := [FNat k; FBool (an_leaf n); FNat (an_depth n); FNum (an_len n)] in
  let head' := head ++ center_fields n in
  do w <- (if an_leaf n then omap (fun r => [head ++ r]) (partner_fields (lookup t) (nl_W ls p)) else Ok []) ;;
  do near <- partner_fields (lookup t) (nl_near ls p) ;;
  do inter <- partner_fields (lookup t) (nl_inter ls p) ;;
  do x <- partner_fields (lookup t) (nl_X ls p) ;;
  Ok (Log (S k) (lg_geom lg ++ [head']) (lg_points lg ++ if an_leaf n then [points_row k n] else [])
        (lg_near lg ++ [head' ++ near]) (lg_inter lg ++ [head' ++ inter]) (lg_W lg ++ w) (lg_X lg ++ [head' ++ x])).
Definition adaptive_to_file (t : @atree T Src) (ls : nlists) : outcome log :=
  bfs (fun _ p => children d t p) (log_adaptive t ls) (length (heap t)) [[]] log_empty.

(** [AdaptivePointOrthtree::toFile], adaptive_point_orthtree.hpp 184-210; [children[0] == nullptr] marks a leaf. *)
Definition log_point (t : @atree T Src) (p : addr) (lg : log) : outcome log :=
  do n <- of_option (lookup t p) ;;
  let k := lg_next lg in
  let leaf := match children d t p with [] => true | _ => false end in
  Ok (Log (S k) (lg_geom lg ++ [[FNat k; FBool leaf; FNat (an_depth n); FNum (an_len n)] ++ center_fields n])
        (lg_points lg ++ if leaf then [points_row k n] else []) (lg_near lg) (lg_inter lg) (lg_W lg) (lg_X lg)).
Definition point_to_file (t : @atree T Src) : outcome log :=
  bfs (fun _ p => children d t p) (log_point t) (length (heap t)) [[]] log_empty.

(** [BalancedFmmTree::toFile], balanced_fmm_tree.hpp 302-356. *)
Definition log_balanced (t : @btree T Src) (ls : nlists) (p : addr) (lg : log) : outcome log :=
  do n <- of_option (bt_lookup t p) ;;
  let k := lg_next lg in
  let leaf := match bt_children t p with [] => true | _ => false end in
  let head := [FNat k; FNat (an_depth n); FNum (an_len n)] ++ center_fields n in
  do near <- partner_fields (bt_lookup t) (nl_near ls p) ;;
  do inter <- partner_fields (bt_lookup t) (nl_inter ls p) ;;
  Ok (Log (S k) (lg_geom lg ++ [head]) (lg_points lg ++ if leaf then [points_row k n] else [])
        (lg_near lg ++ [head ++ near]) (lg_inter lg ++ [head ++ inter]) (lg_W lg) (lg_X lg)).
Definition balanced_to_file (t : @btree T Src) (ls : nlists) : outcome log :=
  bfs (fun _ p => bt_children t p) (log_balanced t ls) (length (bt_nodes t) + length (bt_leaves t)) [[]] log_empty.
End Log.

(** [operator<<] of a two-dimensional expansion, series_expansion.hpp 85-95: the rows n, Re, Im. *)
Definition print2 (e : se2) : outcome (list (nat * C)) :=
  omapM (fun n => do a <- of_option (nth_error (se_co e) n) ;; Ok (n, a)) (seq 0 (S (se_ord e))).
(** [operator<<] of a three-dimensional expansion, series_expansion.hpp 177-193: the rows n, m, Re, Im; the coefficients are
    read with a running index. *)
Definition print3 (e : se3) : outcome (list (Z * Z * C)) :=
  omap fst (ofold (fun st nm => do a <- of_option (nth_error (s3_co e) (snd st)) ;; Ok (fst st ++ [(nm, a)], S (snd st)))
    (jk_pairs (s3_ord e)) ([], 0)).
