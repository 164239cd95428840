(** Vocabulary of the accuracy theorems for the two-dimensional adaptive tree in rounded arithmetic. *)
From Coq Require Import List Reals.
From Verif Require Import Num Outcome Vec AdaptiveTree TreeSpec CAux FieldSpec FmmPasses RoundedSpec RoundedTreeSpec.
Import ListNotations.
Local Open Scope R_scope.

(** Every list of every box has at most [K] entries. *)
Definition lists_within {ME LE Tb} (K : nat) (f : @fmm ME LE Tb) : Prop := forall n, In n (heap (f_tree f)) ->
  (length (nl_inter (f_lists f) (an_addr n)) <= K)%nat /\ (length (nl_X (f_lists f) (an_addr n)) <= K)%nat /\
  (length (nl_W (f_lists f) (an_addr n)) <= K)%nat /\ (length (nl_near (f_lists f) (an_addr n)) <= K)%nat.
(** The logarithms of the distances between the boxes are at most [B] in modulus. *)
Definition logs_within (h : nat) (m M B : R) : Prop := forall r, m / 2 ^ h <= r <= 8 * M -> Rabs (ln r) <= B.
(** How often the contribution of a source to the result is rounded, at most: for order [p], capacity [cap], lists of [K] entries, height [h]. *)
Definition roundings (p cap K h : nat) : nat := (17 * p + 13 + 2 * cap + 3 * K + h * (6 * p + 11 + K))%nat.
(** The effect of [n] relative errors of at most [w] each on the contributions of the sources [S] at [x]: each is of modulus at most the
    charge times the logarithm of the distance, or times [B + 4]; [t] is for the error of the logarithm near 1. *)
Definition rounding_part (w : R) (n : nat) (B t : R) (S : list (psrc R)) (x : list R) : R :=
  ((1 + w) ^ n - 1) * rsum (fun s => Rabs (ps_q s) * (B + 4 + t + Rabs (ln (dist (ps_pos s) x)))) S.
(** Sources of the plane in range for trees of height at most [h], cf. [RoundedTreeSpec.in_adaptive_range]. *)
Definition plane_range (h : nat) (m M : R) (srcs : list (psrc R)) : Prop :=
  (h < 32)%nat /\ same_dim 2 srcs /\ surround 2 (@ps_pos R) srcs m M /\ moderate h m M.
(** Real arithmetic with relative errors at most [w]: rounding [u], norm and logarithm [e]. *)
Definition accurate_real (w u e : R) (rnd : R -> R) (hyp : list R -> R) (lg : R -> R) : Prop :=
  0 <= u <= w /\ 0 <= e <= w /\ w <= 1 / 2 /\ accurate_rounding u rnd /\ accurate_norm e hyp /\ accurate_log e lg.
