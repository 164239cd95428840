(** Model of the coordinate changes of fmm/vector.hpp 93-179, over exact reals. *)
From Coq Require Import Reals List Arith.
From Verif Require Import Num Outcome Vec Fields Expansion2D.
Import ListNotations.
Local Open Scope R_scope.

(** [toSpherical], vector.hpp 97-118.  [std::hypot x y] is [sqrt (x*x + y*y)]. *)
Definition to_spherical (d : nat) (v : list R) : outcome (list R) :=
  match d with
  | 2%nat => Ok [vnorm v; atan2 (vget v 1) (vget v 0)]
  | 3%nat => Ok [vnorm v; atan2 (sqrt (vget v 0 * vget v 0 + vget v 1 * vget v 1)) (vget v 2); atan2 (vget v 1) (vget v 0)]
  | _ => Throw
  end.

(** [toCartesian], vector.hpp 124-150. *)
Definition to_cartesian (d : nat) (v : list R) : outcome (list R) :=
  match d with
  | 2%nat => Ok [vget v 0 * cos (vget v 1); vget v 0 * sin (vget v 1)]
  | 3%nat => Ok [vget v 0 * sin (vget v 1) * cos (vget v 2); vget v 0 * sin (vget v 1) * sin (vget v 2); vget v 0 * cos (vget v 1)]
  | _ => Throw
  end.

(** [toCartesianBasis], vector.hpp 158-179. *)
Definition to_cartesian_basis (d : nat) (v : list R) (theta phi : R) : outcome (list R) :=
  match d with
  | 3%nat => Ok [cos phi * (sin theta * vget v 0 + cos theta * vget v 1) - sin phi * vget v 2;
                 sin phi * (sin theta * vget v 0 + cos theta * vget v 1) + cos phi * vget v 2;
                 cos theta * vget v 0 - sin theta * vget v 1]
  | _ => Throw
  end.
