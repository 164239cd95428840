(** Model of the public interface of [AbstractFmmTree] and of the constructor of [AdaptiveFmmTree<2>]: choice of the
    expansion order and batch evaluation.  fmm/abstract_fmm_tree.hpp 28-89, fmm/adaptive_fmm_tree.hpp 108-112. *)
From Coq Require Import List Bool ZArith Arith Reals.
From Verif Require Import Num Outcome Vec Orthtree AdaptiveTree Tables Expansion2D Schedule Fields FmmPasses FmmTree2D.
Import ListNotations.
Local Open Scope outcome_scope.

(** [ceil] on the reals: [up x] is the integer with [x < up x <= x + 1]. *)
Definition Rceil (x : R) : Z := (1 - up (- x))%Z.

(** abstract_fmm_tree.hpp 38-40: sum of the absolute values of the charges, accumulated from the left. *)
Definition total_charge (srcs : list (psrc R)) : R := fold_left (fun acc s => (acc + Rabs (ps_q s))%R) srcs 0%R.

(** Conversion of the real number [ceil x] to a 32-bit [unsigned]: undefined behaviour unless the value fits. *)
Definition to_unsigned (z : Z) : outcome nat :=
  if ((0 <=? z)%Z && (z <? 2 ^ 32)%Z)%bool then Ok (Z.to_nat z) else UB.

(** abstract_fmm_tree.hpp 42: [ceil(log(A/eps) / log(2))].  If [A/eps] is not a positive real number the logarithm is
    infinite or not a number and the conversion is undefined. *)
Definition order_of (eps : R) (srcs : list (psrc R)) : outcome nat :=
  let A := total_charge srcs in
  if Rlt_dec 0 eps then
    if Rlt_dec 0 A then to_unsigned (Rceil (ln (A / eps) / ln 2)) else UB
  else UB.

(** The object: the order and the tree ([getOrder()], [getAccuracyEps()] return fields). *)
Record fmm_obj : Type := FmmObj { fo_order : nat; fo_fmm : @fmm se2 se2 btab }.

(** The possible results of [AdaptiveFmmTree<2>(srcs, cap, eps, ...)]; [fuel] bounds the refinement steps, [tb] is the
    static table before the call. *)
Inductive adaptive_fmm2 (cap fuel : nat) (eps : R) (srcs : list (psrc R)) (tb : btab) : outcome fmm_obj -> Prop :=
| af_order r : order_of eps srcs = r -> (forall p, r <> Ok p) ->
    adaptive_fmm2 cap fuel eps srcs tb (do p <- r ;; UB)
| af_make p r : order_of eps srcs = Ok p -> make_fmm2 cap fuel p srcs tb r ->
    adaptive_fmm2 cap fuel eps srcs tb (omap (FmmObj p) r).

(** [evaluatePotential] and [evaluateForcefield] of the object. *)
Definition potential_at (grav : bool) (srcs : list (psrc R)) (o : fmm_obj) : list R -> outcome R :=
  eval_pot2 (fo_order o) grav srcs (fo_fmm o).
Definition force_at (grav : bool) (smooth : R) (srcs : list (psrc R)) (o : fmm_obj) : list R -> outcome (list R) :=
  eval_force2 (fo_order o) grav smooth srcs (fo_fmm o).

(** abstract_fmm_tree.hpp 62-74 and 77-89: a parallel loop over the sources; iteration [i] writes element [i].  The same
    model serves both functions: [A] is the type of the results and [scale] the multiplication by the charge. *)
Section Batch.
Context {A : Type}.
Variable scale : R -> A -> A.
Variable eval : list R -> outcome A.
Variable init : A.
Variable srcs : list (psrc R).
Definition batch_step (i : nat) : list A -> outcome (list A) := fun v =>
  do s <- of_option (nth_error srcs i) ;;
  do u <- eval (ps_pos s) ;;
  Ok (lset v i (scale (ps_q s) u)).
Definition batch_result (r : outcome (list A)) : Prop :=
  exists run, interleaving (map (fun i => [batch_step i]) (seq 0 (length srcs))) run /\
    r = ofold (fun v st => st v) run (repeat init (length srcs)).
End Batch.
Definition particle_energies (eval : list R -> outcome R) := batch_result Rmult eval 0%R.
Definition particle_forces (d : nat) (eval : list R -> outcome (list R)) := batch_result (fun q (v : list R) => vscale v q) eval (vzero d).
