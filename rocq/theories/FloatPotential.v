(** Model of the direct sum of potentials of fmm/fields.hpp in doubles (d = 3), as used by the evaluation of the adaptive tree
    at points without a containing leaf. The library function hypot is an arbitrary function [hyp]. *)
From Coq Require Import List Floats.
From Verif Require Import Num Vec.
Import ListNotations.

Section Doubles.
Variable hyp : list float -> float.
(** fields.hpp 13-26 with d = 3, grav = true, safe = false: [-src.q / (src.position - eval_point).norm()]. A source is its position
    and its strength. *)
Definition potential_f (src : list float * float) (x : list float) : float := (- snd src / hyp (vsub (fst src) x))%float.
(** fields.hpp 29-40. *)
Definition potential_sum_f (srcs : list (list float * float)) (x : list float) : float :=
  fold_left (fun pot s => (pot + potential_f s x)%float) srcs 0%float.
End Doubles.
