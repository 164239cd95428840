(** Model of the constructor of [AdaptiveFmmTree<3>] in rounded arithmetic, with the order it computes.
    fmm/abstract_fmm_tree.hpp 28-43, fmm/adaptive_fmm_tree.hpp 91-229.  The functions [mforce], [lforce] stand for the force fields of the
    expansions, which are not modelled in rounded arithmetic and which the constructor does not call. *)
From Coq Require Import List Bool ZArith Arith Reals.
From Verif Require Import Num Outcome Vec Orthtree AdaptiveTree Schedule Fields Tables Tables3D Expansion3D FmmPasses FmmTree3D RoundedFields RoundedTree
  RoundedExpansion2D RoundedExpansion3D RoundedApi.
Import ListNotations.
Local Open Scope outcome_scope.

Section Api.
Variable rnd : R -> R.
Variable hyp : list R -> R.
Variable lg : R -> R.
Variable A : harith.
Variables mforce lforce : se3 -> list R -> outcome (list R).

(** The possible results of [AdaptiveFmmTree<3>(srcs, cap, eps, ...)], cf. [FmmTree3D.adaptive_fmm3]. *)
Inductive adaptive_fmm3_r (cap fuel : nat) (eps : R) (srcs : list (psrc R)) (tb : tb3) : outcome fmm3_obj -> Prop :=
| afr3_order r : order_of_r rnd lg eps srcs = r -> (forall p, r <> Ok p) ->
    adaptive_fmm3_r cap fuel eps srcs tb (do p <- r ;; UB)
| afr3_tables p r : order_of_r rnd lg eps srcs = Ok p -> tb3_refresh tb (Z.of_nat p) = r -> (forall tb', r <> Ok tb') ->
    adaptive_fmm3_r cap fuel eps srcs tb (do tb' <- r ;; UB)
| afr3_make p tb' r : order_of_r rnd lg eps srcs = Ok p -> tb3_refresh tb (Z.of_nat p) = Ok tb' ->
    make_fmm_r rnd hyp (ops3_r A mforce lforce p) 3 cap fuel srcs tb' r -> adaptive_fmm3_r cap fuel eps srcs tb (omap (Fmm3Obj p) r).

(** [evaluatePotential] of the object. *)
Definition potential3_at_r (grav : bool) (srcs : list (psrc R)) (o : fmm3_obj) : list R -> outcome R :=
  eval_pot_r rnd hyp lg (ops3_r A mforce lforce (f3_order o)) 3 grav srcs (f3_fmm o).
End Api.
