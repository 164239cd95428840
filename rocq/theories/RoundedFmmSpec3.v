(** Vocabulary of the accuracy theorems for the three-dimensional adaptive tree in rounded arithmetic. *)
From Coq Require Import List Reals.
From Verif Require Import Num Outcome Vec AdaptiveTree TreeSpec CAux FieldSpec RoundedSpec RoundedTreeSpec.
Import ListNotations.
Local Open Scope R_scope.

(** Sources of space in range for trees of height at most [h], cf. [RoundedTreeSpec.in_adaptive_range]. *)
Definition space_range (h : nat) (m M : R) (srcs : list (psrc R)) : Prop :=
  (h < 32)%nat /\ same_dim 3 srcs /\ surround 3 (@ps_pos R) srcs m M /\ moderate h m M.
(** Real arithmetic with relative errors at most [w]: rounding [u], norm [e]. *)
Definition accurate_space (w u e : R) (rnd : R -> R) (hyp : list R -> R) : Prop :=
  0 <= u <= w /\ 0 <= e <= w /\ w <= 1 / 2 /\ accurate_rounding u rnd /\ accurate_norm e hyp.
(** How often the contribution of a source to the result is rounded, at most: for order [p], capacity [cap], lists of [K] entries, height [h],
    and spherical harmonics of degree l with errors of [ky] (l + 1) roundings (degrees up to 2 p are used). *)
Definition roundings3 (ky p cap K h : nat) : nat :=
  (3 * (ky * (2 * p + 1) + 40 * p + 40) + (p + 1) * (p + 1) + 1 + 3 * cap + 3 * K + h * (2 * (ky * (2 * p + 1) + 40 * p + 40) + 10 + K))%nat.
(** The growth of errors by [n] roundings, each amplified by at most 2 (p+1)^3. *)
Definition growth3 (w : R) (p n : nat) : R := (1 + 2 * (INR p + 1) ^ 3 * w) ^ n.
(** The error of truncating the expansions at order [p], per unit of charge: boxes are at least m / 2^h wide. *)
Definition truncation3 (p h : nat) (m : R) : R := 5 * (4 / 5) ^ S p / (m / 2 ^ h).
(** The sum of the magnitudes of the contributions of the sources [S] at [x]. *)
Definition magnitude3 (S : list (psrc R)) (x : list R) : R := rsum (fun s => Rabs (ps_q s) / dist (ps_pos s) x) S.
(** The error bound for the potential at [x] due to the sources [S]. *)
Definition bound3 (w : R) (p h n : nat) (m : R) (S : list (psrc R)) (x : list R) : R :=
  growth3 w p n * (truncation3 p h m * abs_charge S) + (growth3 w p n - 1) * (2 * (INR p + 1) ^ 3 * magnitude3 S x).
