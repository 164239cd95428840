(** Vocabulary for the direct sums in IEEE doubles. *)
From Coq Require Import Reals List ZArith.
From Verif Require Import Num Vec FloatCases FloatSpec.
From Coq Require Import Floats.
Import ListNotations.
Local Open Scope R_scope.

(** [d] coordinates, each zero or between [2^-150] and [2^150] in absolute value. *)
Definition moderate (d : nat) (x : list float) : Prop := length x = d /\ forall y, In y x -> magnitude 150 y.
(** Positions and charges of the sources are moderate. *)
Definition moderate_sources (d : nat) (srcs : list (psrc float)) : Prop := forall s, In s srcs -> moderate d (ps_pos s) /\ magnitude 150 (ps_q s).
(** A source of doubles as a source of real numbers. *)
Definition real_src (s : psrc float) : psrc R := PSrc (map real_of (ps_pos s)) (real_of (ps_q s)).
(** The library logarithm in doubles: for positive numbers of moderate magnitude it returns a double of moderate magnitude, given by [lg]. *)
Definition log_of (lgF : float -> float) (lg : R -> R) : Prop :=
  forall r, magnitude 300 r -> 0 < real_of r -> magnitude 100 (lgF r) /\ real_of (lgF r) = lg (real_of r).
