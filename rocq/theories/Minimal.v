(** Model of the example program fmm/examples/minimal.cpp: pseudo-random sources in a square, one of them as evaluation point. *)
From Coq Require Import List Bool ZArith Arith Reals.
From Verif Require Import Num Outcome Vec Orthtree AdaptiveTree Tables Expansion2D Fields FmmPasses FmmTree2D FmmApi.
Import ListNotations.
Local Open Scope outcome_scope.

(** [rand k] is the result of the [k]-th call of [rand()], an integer between 0 and [rmax], the constant [RAND_MAX]. *)
Section Minimal.
Variables (rmax : Z) (rand : nat -> Z).
(** Lines 9-13: the constants; [N], the number of sources, is a parameter of the model. *)
Definition items_per_leaf : nat := 50.
Definition eps : R := 10.
Definition extent : R := 32.
(** [(double) rand() / (RAND_MAX)]. *)
Definition unit_rand (k : nat) : R := (IZR (rand k) / IZR rmax)%R.
(** Lines 21-26: iteration [i] calls [rand] for the two coordinates, then for the charge, whose sign alternates. *)
Definition minimal_source (i : nat) : psrc R :=
  PSrc (map (fun j => (extent * unit_rand (3 * i + j) - extent / 2)%R) (seq 0 2))
       (unit_rand (3 * i + 2) * (if Nat.odd i then 1 else -1))%R.
Definition minimal_sources (N : nat) : list (psrc R) := map minimal_source (seq 0 N).
(** Lines 28-34: construction, then the two values printed; [sources[0]] of an empty vector is undefined. *)
Inductive minimal_main (N fuel : nat) : outcome (list R * R * R) -> Prop :=
| minimal_run r : adaptive_fmm2 items_per_leaf fuel eps (minimal_sources N) bt_init r ->
    minimal_main N fuel (
      do o <- r ;;
      do s <- of_option (nth_error (minimal_sources N) 0) ;;
      do v <- potential_at true (minimal_sources N) o (ps_pos s) ;;
      do w <- potential_sum 2 true true (minimal_sources N) (ps_pos s) ;;
      Ok (ps_pos s, v, w)).
End Minimal.
