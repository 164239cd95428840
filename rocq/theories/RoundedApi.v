(** Model of the constructors of [AdaptiveFmmTree<2>] and [BalancedFmmTree<2>] in rounded arithmetic, with the order and the
    height they compute.  fmm/abstract_fmm_tree.hpp 28-43, fmm/balanced_fmm_tree.hpp 90-98, fmm/adaptive_fmm_tree.hpp. *)
From Coq Require Import List Bool ZArith Arith Reals.
From Verif Require Import Num Outcome Vec Orthtree AdaptiveTree BalancedTree Schedule Fields Tables Expansion2D FmmPasses FmmApi BalancedFmm RoundedFields RoundedTree
  RoundedExpansion2D RoundedBalancedFmm.
Import ListNotations.
Local Open Scope outcome_scope.

Section Api.
Variable rnd : R -> R.
Variable hyp : list R -> R.
Variable lg : R -> R.
Variable A : carith.

(** abstract_fmm_tree.hpp 38-40: the sum of the absolute values of the charges, every addition rounded. *)
Definition total_charge_r (srcs : list (psrc R)) : R := fold_left (fun acc s => rnd (acc + Rabs (ps_q s)))%R srcs 0%R.

(** abstract_fmm_tree.hpp 42: [ceil(log(A/eps) / log(2))], with rounded quotients and the logarithm of the library. *)
Definition order_of_r (eps : R) (srcs : list (psrc R)) : outcome nat :=
  let a := total_charge_r srcs in
  if Rlt_dec 0 eps then
    if Rlt_dec 0 a then to_unsigned (Rceil (rnd (lg (rnd (a / eps)) / lg 2))) else UB
  else UB.

(** The possible results of [AdaptiveFmmTree<2>(srcs, cap, eps, ...)], cf. [FmmApi.adaptive_fmm2]. *)
Inductive adaptive_fmm2_r (cap fuel : nat) (eps : R) (srcs : list (psrc R)) (tb : btab) : outcome fmm_obj -> Prop :=
| afr_order r : order_of_r eps srcs = r -> (forall p, r <> Ok p) ->
    adaptive_fmm2_r cap fuel eps srcs tb (do p <- r ;; UB)
| afr_make p r : order_of_r eps srcs = Ok p -> make_fmm_r rnd hyp (ops2_r A p) 2 cap fuel srcs tb r ->
    adaptive_fmm2_r cap fuel eps srcs tb (omap (FmmObj p) r).

(** The possible results of [BalancedFmmTree<2>(srcs, cap, eps, ...)], cf. [BalancedFmm.balanced_fmm2]. *)
Inductive balanced_fmm2_r (cap : nat) (eps : R) (srcs : list (psrc R)) (tb : btab) : outcome bal_obj -> Prop :=
| bfr_order r : order_of_r eps srcs = r -> (forall p, r <> Ok p) -> balanced_fmm2_r cap eps srcs tb (do p <- r ;; UB)
| bfr_height p r : order_of_r eps srcs = Ok p -> bal_height_r rnd lg 2 (length srcs) cap = r -> (forall h, r <> Ok h) ->
    balanced_fmm2_r cap eps srcs tb (do h <- r ;; UB)
| bfr_make p h r : order_of_r eps srcs = Ok p -> bal_height_r rnd lg 2 (length srcs) cap = Ok h ->
    make_bal_r rnd hyp (ops2_r A p) 2 h srcs tb r -> balanced_fmm2_r cap eps srcs tb (omap (BalObj p) r).

(** [evaluatePotential] of the objects. *)
Definition potential_at_r (grav : bool) (srcs : list (psrc R)) (o : fmm_obj) : list R -> outcome R :=
  eval_pot_r rnd hyp lg (ops2_r A (fo_order o)) 2 grav srcs (fo_fmm o).
Definition bal_potential_at_r (grav : bool) (o : bal_obj) : list R -> outcome R :=
  bal_pot_r rnd hyp lg (ops2_r A (bo_order o)) 2 grav (bo_fmm o).
End Api.
