(** Vocabulary for the trees in rounded arithmetic. *)
From Coq Require Import Reals List ZArith Lia.
From Verif Require Import Outcome Orthtree AdaptiveTree BalancedTree BalancedSpec RoundedSpec.
Import ListNotations.
Local Open Scope R_scope.

(** Integers up to 2^53 are machine numbers. *)
Definition exact_integers (rnd : R -> R) : Prop := forall z, (Z.abs z <= 2 ^ 53)%Z -> rnd (IZR z) = IZR z.

(** The sources surround the origin: in every coordinate some source is at most [-m], some source is at least [m], and no
    coordinate exceeds [M] in absolute value. *)
Definition surround {Src} (d : nat) (pos : Src -> list R) (srcs : list Src) (m M : R) : Prop := forall j, (j < d)%nat ->
  (exists s, In s srcs /\ nth j (pos s) 0 <= - m) /\ (exists s, In s srcs /\ m <= nth j (pos s) 0) /\
  forall s, In s srcs -> Rabs (nth j (pos s) 0) <= M.
(** The ratio of [M] to [m] is moderate, more so for high trees. *)
Definition moderate (h : nat) (m M : R) : Prop := 0 < m /\ M <= 1048576 * m /\ M * 2 ^ h <= 4294967296 * m.

(** [n] is the box with the grid coordinates [idx] at depth [an_depth n] of the root box with centre [c] and side [l], up to a
    thousandth of its side. *)
Definition grid_box {Src} (d : nat) (c : list R) (l : R) (n : @anode R Src) (idx : list Z) : Prop :=
  let w := l / 2 ^ an_depth n in
  tuple d (an_depth n) idx /\ Rabs (an_len n - w) <= w / 1000 /\
  forall j, (j < d)%nat -> Rabs (nth j (an_center n) 0 - (nth j c 0 - l / 2 + (IZR (nth j idx 0%Z) + 1 / 2) * w)) <= w / 1000.
(** [x] is in the box [n], up to a hundredth of its side. *)
Definition almost_in {Src} (d : nat) (n : @anode R Src) (x : list R) : Prop :=
  forall j, (j < d)%nat -> Rabs (nth j x 0 - nth j (an_center n) 0) <= 51 / 100 * an_len n.
(** The centres of [n] and [m] differ by at most [k] times the side of [n] in every coordinate. *)
Definition centres_within {Src} (d : nat) (k : R) (n m : @anode R Src) : Prop :=
  forall j, (j < d)%nat -> Rabs (nth j (an_center n) 0 - nth j (an_center m) 0) <= k * an_len n.

(** An arithmetic at least as accurate as double precision without underflow and overflow, with [hyp] the Euclidean norm. *)
Definition double_like (rnd : R -> R) (hyp : list R -> R) : Prop :=
  (exists u, 0 <= u <= / 9007199254740992 /\ accurate_rounding u rnd) /\ exact_integers rnd /\ accurate_norm (/ 1000) hyp.
(** Data and height in the range of the theorems. *)
Definition in_range {Src} (d h : nat) (pos : Src -> list R) (srcs : list Src) : Prop :=
  (1 <= d)%nat /\ (1 <= h < 32)%nat /\ (d * h <= 32)%nat /\ (forall s, In s srcs -> length (pos s) = d) /\
  exists m M, surround d pos srcs m M /\ moderate h m M.
(** [x] is in the bounding box of the sources. *)
Definition among {Src} (d : nat) (pos : Src -> list R) (srcs : list Src) (x : list R) : Prop := length x = d /\
  forall j, (j < d)%nat -> exists a b, In a srcs /\ In b srcs /\ nth j (pos a) 0 <= nth j x 0 <= nth j (pos b) 0.

(** The adaptive tree: data in range for trees of height at most [h]. *)
Definition in_adaptive_range {Src} (d h : nat) (pos : Src -> list R) (srcs : list Src) : Prop :=
  (1 <= d)%nat /\ (h < 32)%nat /\ (forall s, In s srcs -> length (pos s) = d) /\ exists m M, surround d pos srcs m M /\ moderate h m M.
(** Any two sources differ in some coordinate by more than the [2^h]-th part of [4 M]. *)
Definition apart_sources {Src} (d h : nat) (pos : Src -> list R) (srcs : list Src) (M : R) : Prop :=
  NoDup srcs /\ forall s s', In s srcs -> In s' srcs -> s <> s' -> exists j, (j < d)%nat /\ 4 * M < Rabs (nth j (pos s) 0 - nth j (pos s') 0) * 2 ^ h.
Definition in_refinable_range {Src} (d h : nat) (pos : Src -> list R) (srcs : list Src) : Prop :=
  (1 <= d)%nat /\ (1 <= h < 32)%nat /\ (forall s, In s srcs -> length (pos s) = d) /\
  exists m M, surround d pos srcs m M /\ moderate h m M /\ apart_sources d h pos srcs M.
(** Two boxes, of equal or different sides, touch or overlap up to a 400th of the smaller side. *)
Definition boxes_meet {Src} (d : nat) (n m : @anode R Src) : Prop := forall j, (j < d)%nat ->
  Rabs (nth j (an_center n) 0 - nth j (an_center m) 0) <= (an_len n + an_len m) / 2 + Rmin (an_len n) (an_len m) / 400.
(** Two boxes are, in some coordinate, at least (almost) the side of the smaller one apart. *)
Definition boxes_apart {Src} (d : nat) (n m : @anode R Src) : Prop := exists j, (j < d)%nat /\
  (an_len n + an_len m) / 2 + 98 / 100 * Rmin (an_len n) (an_len m) <= Rabs (nth j (an_center n) 0 - nth j (an_center m) 0).
(** [x] is in the box [n], and at least a thousandth of the side away from its faces. *)
Definition inside {Src} (d : nat) (n : @anode R Src) (x : list R) : Prop :=
  forall j, (j < d)%nat -> Rabs (nth j x 0 - nth j (an_center n) 0) <= 499 / 1000 * an_len n.
