(** Model of fmm/abstract_orthtree.hpp and fmm/adaptive_orthtree.hpp: box geometry, orthants, bounding box and
    breadth-first traversal. *)
From Coq Require Import List Bool ZArith Arith.
From Verif Require Import Num Outcome Vec.
Import ListNotations.

Section Geometry.
Context {T : Type} {N : Num T}.
Variable d : nat.

(** abstract_orthtree.hpp:29 [n_children = 1 << d]. *)
Definition n_children : nat := 2 ^ d.

(** abstract_orthtree.hpp:137-169 [getChildCenterDirections]:
    component j of direction i is +1 iff bit d-j-1 of i is set, else -1. *)
Definition child_dir (i : nat) : list T :=
  map (fun j => if Nat.testbit i (d - j - 1) then n1 else nneg1) (seq 0 d).
Definition child_center_directions : list (list T) := map child_dir (seq 0 n_children).

(** The lower and upper corner of a box, computed as in [adjacent] and [contains]
    (abstract_orthtree.hpp:75-79, 104-106): [center -/+ box_length/2 * ones]. *)
Definition box_lower (c : list T) (l : T) : list T := vsub c (vscale (vfill d n1) (nhalf l)).
Definition box_upper (c : list T) (l : T) : list T := vadd c (vscale (vfill d n1) (nhalf l)).

(** abstract_orthtree.hpp:72-98 [BaseNode::adjacent]. *)
Definition adjacent (c1 : list T) (l1 : T) (c2 : list T) (l2 : T) : bool :=
  let self_lower := box_lower c1 l1 in
  let self_upper := box_upper c1 l1 in
  let other_lower := box_lower c2 l2 in
  let other_upper := box_upper c2 l2 in
  let tolerance := vfill d (nhalf (nmin l1 l2)) in
  let diffs1 := vsub (vsub other_lower self_upper) tolerance in
  let diffs2 := vsub (vsub self_lower other_upper) tolerance in
  forallb (fun i => negb (ngtb (vget diffs1 i) n0 || ngtb (vget diffs2 i) n0)) (seq 0 d).

(** abstract_orthtree.hpp:101-113 [BaseNode::contains]. *)
Definition contains (c : list T) (l : T) (p : list T) : bool :=
  let lower := box_lower c l in
  let upper := box_upper c l in
  forallb (fun i => negb (nltb (vget p i) (vget lower i) || ngtb (vget p i) (vget upper i))) (seq 0 d).

(** adaptive_orthtree.hpp:24-35 [getOrthant]:
    [orthantIndex <<= 1; orthantIndex |= (point[i] >= center[i] ? 1 : 0)]. *)
Definition get_orthant (center point : list T) : nat :=
  fold_left (fun acc i => Nat.lor (Nat.shiftl acc 1) (if ngeb (vget point i) (vget center i) then 1 else 0))
            (seq 0 d) 0.

(** [parent_center + child_box_length/2 * child_center_directions[j]]
    (adaptive_fmm_tree.hpp:472-473, adaptive_point_orthtree.hpp:139-140, balanced_fmm_tree.hpp:412-413, 426-427). *)
Definition child_center (parent_center : list T) (child_len : T) (i : nat) : list T :=
  vadd parent_center (vscale (child_dir i) (nhalf child_len)).

(** abstract_orthtree.hpp:173-197 / abstract_fmm_tree.hpp:91-113 [getDataRange].
    [HUGE_VAL] is represented by [None] inside the loop; every p but NaN, the only p that is not [<=] itself, replaces it
    (an infinite p is HUGE_VAL itself or replaces it). *)
Definition lower_step (p : T) (lo : option T) : option T :=
  match lo with
  | None => if nleb p p then Some p else None
  | Some l => if nltb p l then Some p else Some l
  end.
Definition upper_step (p : T) (hi : option T) : option T :=
  match hi with
  | None => if nleb p p then Some p else None
  | Some h => if ngtb p h then Some p else Some h
  end.
Definition range_step (acc : list (option T) * list (option T)) (p : list T) :=
  (map2 lower_step p (fst acc), map2 upper_step p (snd acc)).
Definition raw_range (pts : list (list T)) : list (option T) * list (option T) :=
  fold_left range_step pts (repeat None d, repeat None d).

(** All bounds finite? ([None] if some bound is still infinite, i.e. there was no point.) *)
Fixpoint all_some {A} (l : list (option A)) : option (list A) :=
  match l with
  | [] => Some []
  | Some a :: r => match all_some r with Some r' => Some (a :: r') | None => None end
  | None :: _ => None
  end.

(** abstract_fmm_tree.hpp:108-110: [bounds = bounds + paddingFactor * bounds], paddingFactor = 1E-5. *)
Definition pad (v : list T) : list T := vadd v (vscale v (nlit 1 100000)).

Definition data_range (pts : list (list T)) : option (list T * list T) :=
  match all_some (fst (raw_range pts)), all_some (snd (raw_range pts)) with
  | Some lo, Some hi => Some (pad lo, pad hi)
  | _, _ => None
  end.

(** std::max_element: first largest element. *)
Definition max_element (l : list T) : option T :=
  match l with
  | [] => None
  | x :: r => Some (fold_left (fun m y => if nltb m y then y else m) r x)
  end.

(** adaptive_fmm_tree.hpp:115-119, balanced_fmm_tree.hpp:104-108, adaptive_point_orthtree.hpp:70-73:
    center and side length of the root box.  [None]: no source, the bounds are not finite. *)
Definition root_box (pts : list (list T)) : option (list T * T) :=
  match data_range pts with
  | None => None
  | Some (lo, hi) =>
      match max_element (vsub hi lo) with
      | None => None
      | Some l => Some (vscale (vadd lo hi) (nlit 1 2), l)
      end
  end.

End Geometry.

(** ** Breadth-first traversal
    abstract_orthtree.hpp:115-135 [traverseBFSCore].  The callback may change the tree (the balanced tree creates
    the children of a node inside the callback), hence [children] reads the state after the callback.
    Fuel bounds the number of visited nodes. *)
Section BFS.
Context {P St : Type}.
Variable children : St -> P -> list P.      (* the non-null children, in order 0..n_children-1 *)
Variable process : P -> St -> outcome St.

Fixpoint bfs (fuel : nat) (queue : list P) (st : St) : outcome St :=
  match queue with
  | [] => Ok st
  | p :: q =>
      match fuel with
      | O => OutOfFuel
      | S fuel' => bind (process p st) (fun st' => bfs fuel' (q ++ children st' p) st')
      end
  end.
End BFS.
