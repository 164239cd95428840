(** Model of [AdaptiveFmmTree<3>] and [BalancedFmmTree<3>]: the passes of [FmmPasses] and [BalancedFmm] with the
    three-dimensional expansions.  fmm/adaptive_fmm_tree.hpp 108-318, fmm/balanced_fmm_tree.hpp 90-279,
    fmm/abstract_fmm_tree.hpp 28-89. *)
From Coq Require Import List Bool Arith ZArith Reals.
From Coquelicot Require Import Complex.
From Verif Require Import Num Outcome Vec Orthtree AdaptiveTree BalancedTree Tables3D Expansion3D Schedule Fields FmmPasses FmmApi BalancedFmm.
Import ListNotations.
Local Open Scope outcome_scope.

(** The constructors [SeriesExpansion(center, order)] of the expansions [es] on the static tables, in order. *)
Definition tb3_grow (tb : tb3) (es : list se3) : outcome tb3 := ofold (fun tb e => tb3_refresh tb (s3_ord e)) es tb.

(** The operations on expansions of order [p]; the first argument is the static tables.  Every constructor first grows the
    tables to its order (series_expansion.hpp 139-144).  [o_zero] cannot fail: [LocalExpansion(center, order)] of the root
    is the first expansion of the tree, and the objects below grow the tables for it before the tree is built, so that it
    finds them grown.  [o_m2l] grows the tables for all conversions before the first one; a table that has grown answers
    the lookups of smaller orders in the same way. *)
Definition ops3 (p : nat) : ops se3 se3 tb3 := {|
  o_default := s3_default;                                                        (* multipole_expansion.hpp 151 *)
  o_p2m := fun tb c srcs =>                                                       (* multipole_expansion.hpp 163-186 *)
    do tb' <- tb3_refresh tb (Z.of_nat p) ;; do e <- me3_sources c (Z.of_nat p) srcs ;; Ok (e, tb');
  o_m2m := fun tb c es =>                                                         (* multipole_expansion.hpp 188-201 *)
    do tb' <- tb3_grow tb (firstn 1 es) ;; do e <- me3_merge tb' c es ;; Ok (e, tb');
  o_zero := fun tb c => (s3_zero c (Z.of_nat p), match tb3_refresh tb (Z.of_nat p) with Ok tb' => tb' | _ => tb end);
                                                                                  (* local_expansion.hpp 207-208 *)
  o_m2l := fun tb c es =>                                                         (* local_expansion.hpp 235-242 *)
    do tb' <- tb3_grow tb es ;; do e <- le3_convert_all tb' c es ;; Ok (e, tb');
  o_l2l := fun tb c e =>                                                          (* local_expansion.hpp 281-286 *)
    do tb' <- tb3_refresh tb (s3_ord e) ;; do e' <- le3_translate tb' c e ;; Ok (e', tb');
  o_p2l := fun tb c srcs =>                                                       (* local_expansion.hpp 210-233 *)
    do tb' <- tb3_refresh tb (Z.of_nat p) ;; do e <- le3_sources c (Z.of_nat p) srcs ;; Ok (e, tb');
  o_size := fun e => length (s3_co e);
  o_add := s3_add;                                                                (* series_expansion.hpp 147-162 *)
  o_mpot := me3_pot;                                                              (* multipole_expansion.hpp 247-268 *)
  o_lpot := le3_pot;                                                              (* local_expansion.hpp 335-356 *)
  o_mforce := me3_force;                                                          (* multipole_expansion.hpp 270-304 *)
  o_lforce := le3_force                                                           (* local_expansion.hpp 358-392 *)
|}.

(** The object of class [AdaptiveFmmTree<3>]. *)
Record fmm3_obj : Type := Fmm3Obj { f3_order : nat; f3_fmm : @fmm se3 se3 tb3 }.

(** The possible results of [AdaptiveFmmTree<3>(srcs, cap, eps, ...)]: order (abstract_fmm_tree.hpp 37-42), tables (the
    local expansion of the root, adaptive_fmm_tree.hpp 123 and 134), tree and passes.  Computing the root box, which comes
    before the root, cannot fail if there is a source, and without sources the order is undefined. *)
Inductive adaptive_fmm3 (cap fuel : nat) (eps : R) (srcs : list (psrc R)) (tb : tb3) : outcome fmm3_obj -> Prop :=
| af3_order r : order_of eps srcs = r -> (forall p, r <> Ok p) ->
    adaptive_fmm3 cap fuel eps srcs tb (do p <- r ;; UB)
| af3_tables p r : order_of eps srcs = Ok p -> tb3_refresh tb (Z.of_nat p) = r -> (forall tb', r <> Ok tb') ->
    adaptive_fmm3 cap fuel eps srcs tb (do tb' <- r ;; UB)
| af3_make p tb' r : order_of eps srcs = Ok p -> tb3_refresh tb (Z.of_nat p) = Ok tb' -> make_fmm (ops3 p) 3 cap fuel srcs tb' r ->
    adaptive_fmm3 cap fuel eps srcs tb (omap (Fmm3Obj p) r).

(** [evaluatePotential] and [evaluateForcefield] of the object. *)
Definition potential3_at (grav : bool) (srcs : list (psrc R)) (o : fmm3_obj) : list R -> outcome R :=
  eval_pot (ops3 (f3_order o)) 3 grav srcs (f3_fmm o).
Definition force3_at (grav : bool) (smooth : R) (srcs : list (psrc R)) (o : fmm3_obj) : list R -> outcome (list R) :=
  eval_force (ops3 (f3_order o)) 3 grav smooth srcs (f3_fmm o).

(** The object of class [BalancedFmmTree<3>]. *)
Record bal3_obj : Type := Bal3Obj { b3_order : nat; b3_fmm : @bfmm se3 se3 tb3 }.

(** The possible results of [BalancedFmmTree<3>(srcs, cap, eps, ...)], balanced_fmm_tree.hpp 90-203. *)
Inductive balanced_fmm3 (cap : nat) (eps : R) (srcs : list (psrc R)) (tb : tb3) : outcome bal3_obj -> Prop :=
| bf3_order r : order_of eps srcs = r -> (forall p, r <> Ok p) -> balanced_fmm3 cap eps srcs tb (do p <- r ;; UB)
| bf3_height p r : order_of eps srcs = Ok p -> bal_height 3 (length srcs) cap = r -> (forall h, r <> Ok h) ->
    balanced_fmm3 cap eps srcs tb (do h <- r ;; UB)
| bf3_tables p h r : order_of eps srcs = Ok p -> bal_height 3 (length srcs) cap = Ok h ->
    tb3_refresh tb (Z.of_nat p) = r -> (forall tb', r <> Ok tb') ->
    balanced_fmm3 cap eps srcs tb (do tb' <- r ;; UB)
| bf3_make p h tb' r : order_of eps srcs = Ok p -> bal_height 3 (length srcs) cap = Ok h -> tb3_refresh tb (Z.of_nat p) = Ok tb' ->
    make_bal (ops3 p) 3 h srcs tb' r -> balanced_fmm3 cap eps srcs tb (omap (Bal3Obj p) r).

(** [evaluatePotential] and [evaluateForcefield] of the object. *)
Definition bal_potential3_at (grav : bool) (o : bal3_obj) : list R -> outcome R := bal_pot (ops3 (b3_order o)) 3 grav (b3_fmm o).
Definition bal_force3_at (grav : bool) (smooth : R) (o : bal3_obj) : list R -> outcome (list R) :=
  bal_force (ops3 (b3_order o)) 3 grav smooth (b3_fmm o).
