(** Model of the parallel all-pairs functions of fmm/fields.hpp in IEEE doubles; the library functions hypot and log are arbitrary functions on
    doubles. *)
From Coq Require Import List Bool ZArith Arith.
From Verif Require Import Num Outcome Vec Tables FloatFields.
From Coq Require Import Floats.
Import ListNotations.
Local Open Scope float_scope.
Local Open Scope outcome_scope.

Section Doubles.
Variables (hypF : list float -> float) (lgF : float -> float).

(** particlePotentialEnergies, fields.hpp 93-109: the effects [particle_potentials[j] += x] of iteration [i]. *)
Definition ppe_iterationF (d : nat) (grav : bool) (srcs : list (psrc float)) (i : nat) : outcome (list (nat * float)) :=
  do si <- of_option (nth_error srcs i) ;;
  do r <- ofold (fun (st : float * list (nat * float)) j =>
      do sj <- of_option (nth_error srcs j) ;;
      let t := ps_q si * potentialF hypF lgF d grav false sj (ps_pos si) in
      Ok (fst st + t, snd st ++ [(j, t)]))
    (seq 0 i) (0, []) ;;
  Ok (snd r ++ [(i, fst r)]).
(** One atomic addition, fields.hpp 105 and 109. *)
Definition add_atF (v : list float) (u : nat * float) : list float := lset v (fst u) (nth (fst u) v 0 + snd u).
(** The iterations of the loop of lines 90-110 and the result of a run. *)
Definition ppe_iterationsF (d : nat) (grav : bool) (srcs : list (psrc float)) : outcome (list (list (nat * float))) :=
  omapM (ppe_iterationF d grav srcs) (seq 0 (length srcs)).
Definition ppe_resultF (n : nat) (run : list (nat * float)) : list float := fold_left add_atF run (repeat 0 n).

(** particleForces, fields.hpp 128-160; [-=] adds the opposite, which is the same operation on doubles. *)
Definition pf_iterationF (d : nat) (grav : bool) (eps : float) (srcs : list (psrc float)) (i : nat) : outcome (list (nat * (nat * float))) :=
  do si <- of_option (nth_error srcs i) ;;
  do r <- ofold (fun (st : list float * list (nat * (nat * float))) j =>
      do sj <- of_option (nth_error srcs j) ;;
      let t := vscale (N := NumF) (forcefieldF hypF d grav false eps sj (ps_pos si)) (ps_q si) in
      Ok (vadd (N := NumF) (fst st) t, snd st ++ map (fun k => (j, (k, - nth k t 0))) (seq 0 d)))
    (seq 0 i) (repeat 0 d, []) ;;
  Ok (snd r ++ map (fun k => (i, (k, nth k (fst r) 0))) (seq 0 d)).
(** The iterations of the loop of lines 125-161 and the result of a run. *)
Definition pf_iterationsF (d : nat) (grav : bool) (eps : float) (srcs : list (psrc float)) : outcome (list (list (nat * (nat * float)))) :=
  omapM (pf_iterationF d grav eps srcs) (seq 0 (length srcs)).
Definition add_vec_atF (v : list (list float)) (u : nat * (nat * float)) : list (list float) :=
  lset v (fst u) (add_atF (nth (fst u) v []) (snd u)).
Definition pf_resultF (d n : nat) (run : list (nat * (nat * float))) : list (list float) := fold_left add_vec_atF run (repeat (repeat 0 d) n).
End Doubles.
