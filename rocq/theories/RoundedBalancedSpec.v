(** Vocabulary of the accuracy theorems for the balanced tree of the plane in rounded arithmetic. *)
From Coq Require Import List Reals.
From Verif Require Import Num Outcome Vec AdaptiveTree BalancedTree BalancedFmm CAux FieldSpec RoundedSpec RoundedTreeSpec.
Import ListNotations.
Local Open Scope R_scope.

(** Sources of the plane in range for balanced trees of height [h]. *)
Definition bal_range (h : nat) (m M : R) (srcs : list (psrc R)) : Prop :=
  (2 * h <= 32)%nat /\ same_dim 2 srcs /\ surround 2 (@ps_pos R) srcs m M /\ moderate h m M.
(** No leaf holds more than [cap] sources. *)
Definition leaves_within {ME LE Tb} (cap : nat) (f : @bfmm ME LE Tb) : Prop := forall n, In n (bt_leaves (b_tree f)) -> (length (an_srcs n) <= cap)%nat.
