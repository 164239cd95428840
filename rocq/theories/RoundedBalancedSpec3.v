(** Vocabulary of the accuracy theorems for the three-dimensional balanced tree in rounded arithmetic. *)
From Coq Require Import List Reals.
From Verif Require Import Num Outcome Vec AdaptiveTree FieldSpec RoundedSpec RoundedTreeSpec.
Local Open Scope R_scope.

(** Sources of space in range for balanced trees of height [h]. *)
Definition bal_range3 (h : nat) (m M : R) (srcs : list (psrc R)) : Prop :=
  (3 * h <= 32)%nat /\ same_dim 3 srcs /\ surround 3 (@ps_pos R) srcs m M /\ moderate h m M.
