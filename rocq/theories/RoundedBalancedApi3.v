(** Model of the constructor of [BalancedFmmTree<3>] in rounded arithmetic, with the order and the height it computes.
    fmm/abstract_fmm_tree.hpp 28-43, fmm/balanced_fmm_tree.hpp 90-239.  [mforce], [lforce] stand for the force fields of the expansions, as in
    RoundedApi3. *)
From Coq Require Import List Bool ZArith Arith Reals.
From Verif Require Import Num Outcome Vec Orthtree AdaptiveTree BalancedTree Schedule Fields Tables Tables3D Expansion3D FmmPasses BalancedFmm FmmTree3D RoundedFields RoundedTree
  RoundedExpansion2D RoundedExpansion3D RoundedApi RoundedBalancedFmm.
Import ListNotations.
Local Open Scope outcome_scope.

Section Api.
Variable rnd : R -> R.
Variable hyp : list R -> R.
Variable lg : R -> R.
Variable A : harith.
Variables mforce lforce : se3 -> list R -> outcome (list R).

(** The possible results of [BalancedFmmTree<3>(srcs, cap, eps, ...)], cf. [FmmTree3D.balanced_fmm3]. *)
Inductive balanced_fmm3_r (cap : nat) (eps : R) (srcs : list (psrc R)) (tb : tb3) : outcome bal3_obj -> Prop :=
| bfr3_order r : order_of_r rnd lg eps srcs = r -> (forall p, r <> Ok p) -> balanced_fmm3_r cap eps srcs tb (do p <- r ;; UB)
| bfr3_height p r : order_of_r rnd lg eps srcs = Ok p -> bal_height_r rnd lg 3 (length srcs) cap = r -> (forall h, r <> Ok h) ->
    balanced_fmm3_r cap eps srcs tb (do h <- r ;; UB)
| bfr3_tables p h r : order_of_r rnd lg eps srcs = Ok p -> bal_height_r rnd lg 3 (length srcs) cap = Ok h ->
    tb3_refresh tb (Z.of_nat p) = r -> (forall tb', r <> Ok tb') -> balanced_fmm3_r cap eps srcs tb (do tb' <- r ;; UB)
| bfr3_make p h tb' r : order_of_r rnd lg eps srcs = Ok p -> bal_height_r rnd lg 3 (length srcs) cap = Ok h -> tb3_refresh tb (Z.of_nat p) = Ok tb' ->
    make_bal_r rnd hyp (ops3_r A mforce lforce p) 3 h srcs tb' r -> balanced_fmm3_r cap eps srcs tb (omap (Bal3Obj p) r).

(** [evaluatePotential] of the object, balanced_fmm_tree.hpp 205-239. *)
Definition bal_potential3_at_r (grav : bool) (o : bal3_obj) : list R -> outcome R :=
  bal_pot_r rnd hyp lg (ops3_r A mforce lforce (b3_order o)) 3 grav (b3_fmm o).
End Api.
