(** Model of [evaluateForcefield] of [AdaptiveFmmTree<3>] in rounded arithmetic: fmm/adaptive_fmm_tree.hpp 271-318, with the force fields of the
    expansions of [RoundedForce3D]. *)
From Coq Require Import Reals List.
From Verif Require Import Num Outcome Vec FmmPasses FmmTree3D RoundedExpansion2D RoundedExpansion3D RoundedForce3D.

Definition force3_at_r (rnd : R -> R) (hyp : list R -> R) (G : garith) (grav : bool) (eps : R) (srcs : list (psrc R)) (o : fmm3_obj) : list R -> outcome (list R) :=
  eval_force_r rnd hyp (ops3_force_r G (f3_order o)) 3 grav eps srcs (f3_fmm o).
