(** Specification vocabulary for boxes, independent of the model's functions. *)
From Coq Require Import List Reals Arith.
Import ListNotations.
Local Open Scope R_scope.

(** [x] lies in the closed axis-parallel cube with center [c] and side length [l]. *)
Definition in_box (d : nat) (c : list R) (l : R) (x : list R) : Prop :=
  forall j, (j < d)%nat -> nth j c 0 - l / 2 <= nth j x 0 <= nth j c 0 + l / 2.

(** ... in its interior. *)
Definition in_interior (d : nat) (c : list R) (l : R) (x : list R) : Prop :=
  forall j, (j < d)%nat -> nth j c 0 - l / 2 < nth j x 0 < nth j c 0 + l / 2.

(** The closed cubes have a common point. *)
Definition boxes_touch (d : nat) (c1 : list R) (l1 : R) (c2 : list R) (l2 : R) : Prop :=
  exists x, length x = d /\ in_box d c1 l1 x /\ in_box d c2 l2 x.

(** The boxes obtained from a cube by repeated halving: [subbox d c l k c'] says that [c'] is the center of one of
    the 2^(dk) cubes of side [l/2^k] that tile the cube with center [c] and side [l]. *)
Definition subbox (d : nat) (c : list R) (l : R) (k : nat) (c' : list R) : Prop :=
  length c' = d /\
  exists n : nat -> nat, (forall j, (j < d)%nat -> (n j < 2 ^ k)%nat) /\
    forall j, (j < d)%nat -> nth j c' 0 = nth j c 0 - l / 2 + (INR (n j) + / 2) * (l / 2 ^ k).

(** [x] lies on the vertical line through [c] (in space: on the polar axis of the spherical coordinates around [c]). *)
Definition on_axis (c x : list R) : Prop := nth 0 x 0 = nth 0 c 0 /\ nth 1 x 0 = nth 1 c 0.
