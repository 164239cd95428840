(** Model of [BalancedFmmTree] in rounded arithmetic: construction for a given height and evaluation.
    fmm/balanced_fmm_tree.hpp 90-279.  The structure is [bal_build] of BalancedTree with the arithmetic [NumRnd rnd]; the
    parallel regions are those of BalancedFmm; the operations on expansions are arguments (RoundedExpansion2D).  The computation
    of the height from the number of sources (lines 97-98) is [bal_height_r]. *)
From Coq Require Import List Bool ZArith Arith Reals.
From Verif Require Import Num Outcome Vec Orthtree AdaptiveTree BalancedTree Schedule Fields FmmPasses FmmApi BalancedFmm RoundedFields RoundedTree.
Import ListNotations.
Local Open Scope outcome_scope.

Section Tree.
Variable rnd : R -> R.
Variable hyp : list R -> R.
Variable lg : R -> R.
Notation NN := (NumRnd rnd).
Notation DD := (DistRnd hyp).

(** balanced_fmm_tree.hpp 97-98: [ceil(log((double)sources.size()/sources_per_cell) / log(AOT::n_children))] converted to
    [size_t]; the conversions of the two integers to double are exact below 2^53, the quotients are rounded. *)
Definition bal_height_r (d n cap : nat) : outcome nat :=
  if (n =? 0) || (cap =? 0) then UB
  else to_size (Rceil (rnd (lg (rnd (INR n / INR cap)) / lg (INR (n_children d))))).

Context {ME LE Tb : Type}.
Variable o : ops ME LE Tb.
Variable d : nat.

(** The possible results of the constructor for a given height, balanced_fmm_tree.hpp 103-203.  With height 0 the passes are
    skipped (lines 110-123). *)
Inductive make_bal_r (h : nat) (srcs : list (psrc R)) (tb : Tb) : outcome (@bfmm ME LE Tb) -> Prop :=
| mbr_build r : bal_build (N := NN) (D := DD) d (@ps_pos R) h srcs = r -> (forall tl, r <> Ok tl) ->
    make_bal_r h srcs tb (omap (fun tl => BFmm (fst tl) (snd tl) (bmem0 o (fst tl) tb)) r)
| mbr_leaf t ls : h = 0 -> bal_build (N := NN) (D := DD) d (@ps_pos R) h srcs = Ok (t, ls) -> make_bal_r h srcs tb (Ok (BFmm t ls (bmem0 o t tb)))
| mbr_bounds t ls r : 0 < h -> bal_build (N := NN) (D := DD) d (@ps_pos R) h srcs = Ok (t, ls) -> bal_regions o d t ls = r -> (forall rgs, r <> Ok rgs) ->
    make_bal_r h srcs tb (omap (fun _ => BFmm t ls (bmem0 o t tb)) r)
| mbr_passes t ls rgs r : 0 < h -> bal_build (N := NN) (D := DD) d (@ps_pos R) h srcs = Ok (t, ls) -> bal_regions o d t ls = Ok rgs ->
    passes_result rgs (bmem0 o t tb) r -> make_bal_r h srcs tb (omap (BFmm t ls) r).

(** [evaluatePotential], balanced_fmm_tree.hpp 205-239; [field] is [field_type]. *)
Definition bal_pot_r (field : bool) (f : @bfmm ME LE Tb) (x : list R) : outcome R :=
  do L <- bal_containing_leaf (N := NN) d (b_tree f) x ;;
  do le <- of_option (m_le (b_mem f) (an_addr L)) ;;
  do p0 <- o_lpot o le x ;;
  do p2 <- ofold (fun pot q =>
      do n <- of_option (bt_lookup (b_tree f) q) ;;
      if an_leaf n then
        do v <- potential_sum_r rnd hyp lg d true (addr_eqb q (an_addr L)) (an_srcs n) x ;;
        Ok (rnd (pot + v))
      else UB) (nl_near (b_lists f) (an_addr L)) p0 ;;
  Ok (if field then p2 else - p2)%R.

(** [evaluateForcefield], balanced_fmm_tree.hpp 241-279; [eps] is [force_smoothing_eps]. *)
Definition bal_force_r (field : bool) (eps : R) (f : @bfmm ME LE Tb) (x : list R) : outcome (list R) :=
  do L <- bal_containing_leaf (N := NN) d (b_tree f) x ;;
  do le <- of_option (m_le (b_mem f) (an_addr L)) ;;
  do p0 <- o_lforce o le x ;;
  do p2 <- ofold (fun frc q =>
      do n <- of_option (bt_lookup (b_tree f) q) ;;
      if an_leaf n then
        do v <- forcefield_sum_r rnd hyp d true (addr_eqb q (an_addr L)) eps (an_srcs n) x ;;
        Ok (vadd_r rnd frc v)
      else UB) (nl_near (b_lists f) (an_addr L)) p0 ;;
  Ok (if field then p2 else vneg_r rnd p2).
End Tree.
