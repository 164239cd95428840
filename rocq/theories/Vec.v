(** Model of fmm/vector.hpp: [Vector_<d>] and [PointSource_<d>] (coordinate arithmetic part).
    [std::array<double,d>] is a list; theorems carry the hypothesis [length v = d]. *)
From Coq Require Import List Bool ZArith QArith Reals.
From Verif Require Import Num.
Import ListNotations.

Section Vec.
Context {T : Type} {N : Num T}.

Definition vec := list T.

(** vector.hpp:20-21 [operator[]]; only called with an index below d. *)
Definition vget (v : vec) (i : nat) : T := nth i v n0.

(** vector.hpp:18,56 constructor from a fill value / [fill]. *)
Definition vfill (d : nat) (x : T) : vec := repeat x d.

Definition map2 {A B C : Type} (f : A -> B -> C) (a : list A) (b : list B) : list C :=
  map (fun xy => f (fst xy) (snd xy)) (combine a b).

(** vector.hpp:23-29 [operator+]. *)
Definition vadd (a b : vec) : vec := map2 nadd a b.
(** vector.hpp:31-35, 44 [operator*] by a scalar (either side): [c *= s]. *)
Definition vscale (v : vec) (s : T) : vec := map (fun c => nmul c s) v.
(** vector.hpp:37 unary minus: [-1. * *this]. *)
Definition vneg (v : vec) : vec := vscale v nneg1.
(** vector.hpp:38 binary minus: [*this + (-rhs)]. *)
Definition vsub (a b : vec) : vec := vadd a (vneg b).

(** vector.hpp:51 [operator==] on coordinates, via [a <= b && b <= a] (false on NaN, like [==]). *)
Definition neqb (x y : T) : bool := nleb x y && nleb y x.
Fixpoint veqb (a b : vec) : bool :=
  match a, b with
  | [], [] => true
  | x :: a', y :: b' => neqb x y && veqb a' b'
  | _, _ => false
  end.

(** vector.hpp:58-61 [dot]: std::inner_product with initial value 0. *)
Definition vdot (a b : vec) : T := fold_left nadd (map2 nmul a b) n0.
(** vector.hpp:77-91 [norm_sq].  The special cases for d = 1, 2, 3 are the same sum without the leading 0. *)
Definition vnorm_sq (a : vec) : T := vdot a a.

End Vec.

(** vector.hpp:63-75 [norm], as used by the distance checks: [v.norm() < bound].  [norm] calls the library functions abs,
    hypot or sqrt, so it is a parameter of its own; over the reals it is the square root of the sum of squares. *)
Class Dist (T : Type) := { norm_ltb : list T -> T -> bool }.
#[global] Instance DistR : Dist R := { norm_ltb := fun v b => Rltb (R_sqrt.sqrt (vnorm_sq v)) b }.
#[global] Instance DistQ : Dist Q := { norm_ltb := fun v b => Qltb (vnorm_sq v) (b * b) && Qltb 0 b }.

(** vector.hpp:182-200 [PointSource_<d>]. *)
Record psrc (T : Type) := PSrc { ps_pos : list T; ps_q : T }.
Arguments PSrc {T} ps_pos ps_q.
Arguments ps_pos {T} _.
Arguments ps_q {T} _.
