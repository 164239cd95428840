(** Vocabulary for the comparison of the trees built in IEEE doubles with the trees of the model with rounded operations. *)
From Coq Require Import Reals List ZArith.
From Flocq Require Import Core.
From Verif Require Import Num Vec AdaptiveTree BalancedTree RoundedCases RoundedTree FloatCases.
From Coq Require Import Floats.
Import ListNotations.
Local Open Scope R_scope.

(** [x] is zero, or a number with at most [k] binary digits before and after the point. *)
Definition magnitude (k : Z) (x : float) : Prop := PrimFloat.is_finite x = true /\
  (real_of x = 0 \/ bpow radix2 (- k) <= Rabs (real_of x) <= bpow radix2 k).
(** The points have [d] coordinates, which are zero or between [2^-200] and [2^200] in absolute value. *)
Definition ordinary (d : nat) (x : list float) : Prop := length x = d /\ forall y, In y x -> magnitude 200 y.
Definition ordinary_sources {Src} (d : nat) (pos : Src -> list float) (srcs : list Src) : Prop := forall s, In s srcs -> ordinary d (pos s).
(** The positions as real numbers. *)
Definition real_pos {Src} (pos : Src -> list float) (s : Src) : list R := map real_of (pos s).

(** vector.hpp 63-75 [norm], compared with a bound, in doubles: [hypF] is the library function. *)
Definition DistF (hypF : list float -> float) : Dist float := {| norm_ltb := fun v b => PrimFloat.ltb (hypF v) b |}.
(** On vectors of [d] numbers of moderate magnitude the library function returns a finite number, given by [hyp]. *)
Definition norm_of (d : nat) (hypF : list float -> float) (hyp : list R -> R) : Prop :=
  forall v, length v = d -> (forall y, In y v -> magnitude 500 y) -> PrimFloat.is_finite (hypF v) = true /\ real_of (hypF v) = hyp (map real_of v).

(** A tree of doubles as a tree of real numbers: the same boxes, addresses, sources, with the values of the doubles. *)
Definition real_node {Src} (n : @anode float Src) : @anode R Src :=
  ANode (an_addr n) (map real_of (an_center n)) (real_of (an_len n)) (an_depth n) (an_leaf n) (an_srcs n).
Definition real_atree {Src} (t : @atree float Src) : @atree R Src :=
  ATree (map (map real_node) (at_nodes t)) (map (map real_node) (at_leaves t)) (at_height t).
Definition real_btree {Src} (t : @btree float Src) : @btree R Src :=
  BTree (bt_height t) (map real_of (bt_center t)) (real_of (bt_len t)) (map real_node (bt_nodes t)) (map real_node (bt_leaves t)) (bt_children t).
