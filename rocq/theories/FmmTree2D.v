(** Model of [AdaptiveFmmTree<2>]: the passes of [FmmPasses] with the two-dimensional expansions.
    fmm/adaptive_fmm_tree.hpp 108-318, fmm/abstract_fmm_tree.hpp 37-42 (the order). *)
From Coq Require Import List Bool Arith Reals.
From Coquelicot Require Import Complex.
From Verif Require Import Num Outcome Vec Orthtree AdaptiveTree Tables Expansion2D Schedule Fields FmmPasses.
Import ListNotations.
Local Open Scope outcome_scope.

(** The operations on expansions of order [p]; the first argument is the static binomial table. *)
Definition ops2 (p : nat) : ops se2 se2 btab := {|
  o_default := mkse 0 (RtoC 0) [];                                        (* multipole_expansion.hpp 25 *)
  o_p2m := fun tb c srcs => Ok (me2_sources c p srcs, se_table tb p);     (* multipole_expansion.hpp 38-60 *)
  o_m2m := fun tb c es => me2_merge tb c es;                              (* multipole_expansion.hpp 63-77 *)
  o_zero := fun tb c => (se_zero c p, se_table tb p);                     (* local_expansion.hpp 26 *)
  o_m2l := fun tb c es => le2_m2l_many tb c es;                           (* local_expansion.hpp 74-80 *)
  o_l2l := fun tb c e => le2_l2l tb c e;                                  (* local_expansion.hpp 82-90 *)
  o_p2l := fun tb c srcs => do e <- le2_sources c p srcs ;; Ok (e, se_table tb p);  (* local_expansion.hpp 49-72 *)
  o_size := fun e => length (se_co e);
  o_add := se_add;                                                        (* series_expansion.hpp 53-69 *)
  o_mpot := me2_pot;                                                      (* multipole_expansion.hpp 100-117 *)
  o_lpot := fun e x => Ok (le2_pot e x);                                  (* local_expansion.hpp 141-157 *)
  o_mforce := me2_force;                                                  (* multipole_expansion.hpp 119-137 *)
  o_lforce := fun e x => Ok (le2_force e x)                               (* local_expansion.hpp 160-176 *)
|}.

(** The tree object: [make_fmm2 cap fuel p srcs tb r] says that [r] is a possible outcome of
    [AdaptiveFmmTree<2>(srcs, cap, eps)] when the order is [p] and the static table is [tb]. *)
Definition make_fmm2 (cap fuel p : nat) (srcs : list (psrc R)) (tb : btab) : outcome (@fmm se2 se2 btab) -> Prop :=
  make_fmm (ops2 p) 2 cap fuel srcs tb.
Definition eval_pot2 (p : nat) := eval_pot (ops2 p) 2.
Definition eval_force2 (p : nat) := eval_force (ops2 p) 2.
