(** Model of the numbers of nodes and of the offsets of the levels of a balanced tree as the code computes them, in IEEE doubles.
    [std::pow] on two non-negative integers is an arbitrary function to doubles; the conversion of a non-negative double to an unsigned integer drops the
    fraction ([float_floor]). *)
From Coq Require Import List ZArith Arith.
From Verif Require Import Num Orthtree.
From Coq Require Import Floats.
Local Open Scope float_scope.

Section Counts.
Variables (powF : nat -> nat -> float) (d : nat).
(** [(double)n]. *)
Definition count_float (n : nat) : float := float_of_Z (Z.of_nat n).
(** balanced_fmm_tree.hpp 100. *)
Definition n_nodesF (h : nat) : option Z := float_floor (powF (n_children d) h / count_float (n_children d - 1)).
(** balanced_fmm_tree.hpp 101, 158 and 181. *)
Definition n_leavesF (h : nat) : option Z := float_floor (powF (n_children d) h).
(** balanced_fmm_tree.hpp 159-160 and 182-183. *)
Definition offsetF (depth : nat) : option Z := float_floor ((powF (n_children d) depth - 1) / count_float (n_children d - 1)).
End Counts.
