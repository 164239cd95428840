(** Vocabulary for the properties of the balanced tree. *)
From Coq Require Import List Bool ZArith Arith Reals.
From Verif Require Import Orthtree AdaptiveTree TreeSpec BalancedTree.
Import ListNotations.

(** The half-open cube with center [c] and side [l]: closed at the lower, open at the upper sides. *)
Definition in_half_open (d : nat) (c : list R) (l : R) (x : list R) : Prop :=
  forall j, j < d -> (nth j c 0 - l / 2 <= nth j x 0 < nth j c 0 + l / 2)%R.

(** [d]-tuples of box indices at depth [h]. *)
Definition tuple (d h : nat) (idx : list Z) : Prop := length idx = d /\ forall z, In z idx -> (0 <= z < 2 ^ Z.of_nat h)%Z.

(** The number of boxes at depths less than [k] of a uniform tree. *)
Definition level_offset (d k : nat) : nat := ((2 ^ d) ^ k - 1) / (2 ^ d - 1).

Section Spec.
Context {Src : Type}.
(** All boxes of the tree. *)
Definition boxes (t : @btree R Src) : list (@anode R Src) := bt_nodes t ++ bt_leaves t.
Definition leaf_addresses (t : @btree R Src) : list addr := map an_addr (bt_leaves t).
(** Everything that reaches a point of leaf [L]: directly the near list, through the local expansions of [L] and its ancestors
    the boxes of their interaction lists, expanded into the leaves below them. *)
Definition reached (t : @btree R Src) (ls : nlists) (L : addr) : list addr :=
  nl_near ls L ++ flat_map (fun a => flat_map (fun q => filter (is_above q) (leaf_addresses t)) (nl_inter ls a)) (ancestors_or_self L).
(** In each coordinate some source is at most 0 and some source is positive. *)
Definition spread (d : nat) (pos : Src -> list R) (srcs : list Src) : Prop := forall j, j < d ->
  (exists s, In s srcs /\ (nth j (pos s) 0 <= 0)%R) /\ (exists s, In s srcs /\ (0 < nth j (pos s) 0)%R).
End Spec.
