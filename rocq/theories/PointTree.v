(** Model of the public constructor of [AdaptivePointOrthtree], adaptive_point_orthtree.hpp 64-85: the bounding box of the points,
    then [buildTree] (lines 103-171, [build_point_tree]). *)
From Coq Require Import List Arith.
From Verif Require Import Num Outcome Vec Orthtree AdaptiveTree.

Section Points.
Context {T : Type} {N : Num T} {Src : Type}.
(** The C++ class stores bare vectors; here a point may carry more than its position. *)
Definition build_points (d : nat) (pos : Src -> list T) (cap : nat) (fuel : nat) (pts : list Src) : outcome (@atree T Src) :=
  match root_box d (map pos pts) with
  | None => UB
  | Some (c, l) => match build_point_tree d pos cap fuel c l pts with Some t => Ok t | None => OutOfFuel end
  end.
End Points.
