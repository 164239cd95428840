(** Model of [BalancedFmmTree]: height selection, expansion passes and evaluation.  fmm/balanced_fmm_tree.hpp 90-279,
    fmm/abstract_fmm_tree.hpp 115-140.  The structure part is in [BalancedTree]; the steps of the passes that are shared with
    the adaptive tree (the bodies of [localToLocal] and [multipoleToLocal], the expansion constructors) are in [FmmPasses]. *)
From Coq Require Import List Bool ZArith Arith Reals.
From Verif Require Import Num Outcome Vec Orthtree AdaptiveTree BalancedTree Schedule Fields FmmPasses Tables Expansion2D FmmTree2D FmmApi.
Import ListNotations.
Local Open Scope outcome_scope.

(** balanced_fmm_tree.hpp 97-98: [height = ceil(log((double)sources.size()/sources_per_cell) / log(n_children))], of type
    [size_t].  Without sources or with capacity 0 the logarithm is infinite or not a number and the conversion is undefined,
    as it is for a negative value. *)
Definition to_size (z : Z) : outcome nat := if ((0 <=? z)%Z && (z <? 2 ^ 64)%Z)%bool then Ok (Z.to_nat z) else UB.
Definition bal_height (d n cap : nat) : outcome nat :=
  if (n =? 0) || (cap =? 0) then UB
  else to_size (Rceil (ln (INR n / INR cap) / ln (INR (n_children d)))).

Section Passes.
Context {ME LE Tb : Type}.
Variable o : ops ME LE Tb.
Variable d : nat.
Notation node := (@anode R (psrc R)).
Notation tree := (@btree R (psrc R)).
Notation mem := (@mem ME LE Tb).

(** balanced_fmm_tree.hpp 163-175: one iteration of the merging loop. *)
Definition bit_m2m (t : tree) (n : node) : list (@step ME LE Tb) :=
  map st_read_me (bt_children t (an_addr n)) ++ [st_m2m o n].
(** balanced_fmm_tree.hpp 188-191, 198-201: [localToLocal] and [multipoleToLocal]. *)
Definition bit_local (ls : nlists) (n : node) : list (@step ME LE Tb) :=
  [st_l2l o n; st_add o n] ++ map st_read_me (nl_inter ls (an_addr n)) ++ [st_m2l o n].

(** The nodes of depth [k], balanced_fmm_tree.hpp 158-165 and 181-188: [nodes[offset + i]] with
    [offset = (n_children^k - 1) / (n_children - 1)]. *)
Definition bal_level (t : tree) (k : nat) : outcome (list node) :=
  omapM (fun i => of_option (nth_error (bt_nodes t) ((n_children d ^ k - 1) / (n_children d - 1) + i)))
    (seq 0 (n_children d ^ k)).

(** Memory after the nodes have been created (lines 114, 131, 416, 430). *)
Definition bmem0 (t : tree) (tb : Tb) : mem :=
  Mem (fun a => match bt_lookup t a with Some _ => Some (o_default o) | None => None end)
      (fun a => match bt_lookup t a with Some n => Some (fst (o_zero o tb (an_center n))) | None => None end)
      (snd (o_zero o tb [])).

(** The parallel regions in order, balanced_fmm_tree.hpp 147-202. *)
Definition bal_regions (t : tree) (ls : nlists) : outcome (list (@region ME LE Tb)) :=
  do up <- omapM (fun k => omap (map (bit_m2m t)) (bal_level t k)) (rev (seq 2 (bt_height t - 2))) ;;
  do down <- omapM (fun k => omap (map (bit_local ls)) (bal_level t k)) (seq 2 (bt_height t - 2)) ;;
  Ok ([map (it_p2m o) (bt_leaves t)] ++ up ++ down ++ [map (bit_local ls) (bt_leaves t)]).

Record bfmm : Type := BFmm { b_tree : tree; b_lists : nlists; b_mem : mem }.

(** The possible results of the constructor for a given height, balanced_fmm_tree.hpp 103-203.  With height 0 the passes are
    skipped (lines 110-123). *)
Inductive make_bal (h : nat) (srcs : list (psrc R)) (tb : Tb) : outcome bfmm -> Prop :=
| mb_build r : bal_build d (@ps_pos R) h srcs = r -> (forall tl, r <> Ok tl) ->
    make_bal h srcs tb (omap (fun tl => BFmm (fst tl) (snd tl) (bmem0 (fst tl) tb)) r)
| mb_leaf t ls : h = 0 -> bal_build d (@ps_pos R) h srcs = Ok (t, ls) -> make_bal h srcs tb (Ok (BFmm t ls (bmem0 t tb)))
| mb_bounds t ls r : 0 < h -> bal_build d (@ps_pos R) h srcs = Ok (t, ls) -> bal_regions t ls = r -> (forall rgs, r <> Ok rgs) ->
    make_bal h srcs tb (omap (fun _ => BFmm t ls (bmem0 t tb)) r)
| mb_passes t ls rgs r : 0 < h -> bal_build d (@ps_pos R) h srcs = Ok (t, ls) -> bal_regions t ls = Ok rgs ->
    passes_result rgs (bmem0 t tb) r -> make_bal h srcs tb (omap (BFmm t ls) r).

(** [evaluatePotential], balanced_fmm_tree.hpp 205-239. *)
Definition bal_pot (field : bool) (f : bfmm) (x : list R) : outcome R :=
  do L <- bal_containing_leaf d (b_tree f) x ;;
  do le <- of_option (m_le (b_mem f) (an_addr L)) ;;
  do p0 <- o_lpot o le x ;;
  do p2 <- ofold (fun pot q =>
      do n <- of_option (bt_lookup (b_tree f) q) ;;
      if an_leaf n then
        do v <- potential_sum d true (addr_eqb q (an_addr L)) (an_srcs n) x ;;
        Ok (pot + v)%R
      else UB) (nl_near (b_lists f) (an_addr L)) p0 ;;
  Ok (if field then p2 else - p2)%R.

(** [evaluateForcefield], balanced_fmm_tree.hpp 241-279. *)
Definition bal_force (field : bool) (eps : R) (f : bfmm) (x : list R) : outcome (list R) :=
  do L <- bal_containing_leaf d (b_tree f) x ;;
  do le <- of_option (m_le (b_mem f) (an_addr L)) ;;
  do p0 <- o_lforce o le x ;;
  do p2 <- ofold (fun frc q =>
      do n <- of_option (bt_lookup (b_tree f) q) ;;
      if an_leaf n then
        do v <- forcefield_sum d true (addr_eqb q (an_addr L)) eps (an_srcs n) x ;;
        Ok (vadd frc v)
      else UB) (nl_near (b_lists f) (an_addr L)) p0 ;;
  Ok (if field then p2 else vneg p2).
End Passes.

(** The object of class [BalancedFmmTree<2>]. *)
Record bal_obj : Type := BalObj { bo_order : nat; bo_fmm : @bfmm se2 se2 btab }.

(** The possible results of [BalancedFmmTree<2>(srcs, cap, eps, ...)]. *)
Inductive balanced_fmm2 (cap : nat) (eps : R) (srcs : list (psrc R)) (tb : btab) : outcome bal_obj -> Prop :=
| bf_order r : order_of eps srcs = r -> (forall p, r <> Ok p) -> balanced_fmm2 cap eps srcs tb (do p <- r ;; UB)
| bf_height p r : order_of eps srcs = Ok p -> bal_height 2 (length srcs) cap = r -> (forall h, r <> Ok h) ->
    balanced_fmm2 cap eps srcs tb (do h <- r ;; UB)
| bf_make p h r : order_of eps srcs = Ok p -> bal_height 2 (length srcs) cap = Ok h -> make_bal (ops2 p) 2 h srcs tb r ->
    balanced_fmm2 cap eps srcs tb (omap (BalObj p) r).

(** [evaluatePotential] and [evaluateForcefield] of the object. *)
Definition bal_potential_at (grav : bool) (o : bal_obj) : list R -> outcome R := bal_pot (ops2 (bo_order o)) 2 grav (bo_fmm o).
Definition bal_force_at (grav : bool) (smooth : R) (o : bal_obj) : list R -> outcome (list R) :=
  bal_force (ops2 (bo_order o)) 2 grav smooth (bo_fmm o).
