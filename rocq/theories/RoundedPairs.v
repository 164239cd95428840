(** Model of the parallel all-pairs functions of fmm/fields.hpp in rounded arithmetic ([Fields.ppe_iteration] and
    [Fields.pf_iteration] with the operations of [RoundedFields]). *)
From Coq Require Import Reals List Arith Bool.
From Verif Require Import Num Outcome Vec Tables Fields RoundedFields.
Import ListNotations.
Local Open Scope R_scope.
Local Open Scope outcome_scope.

Section Rounded.
Variable rnd : R -> R.
Variable hyp : list R -> R.
Variable lg : R -> R.

(** particlePotentialEnergies, fields.hpp 93-109: the effects [particle_potentials[j] += x] of iteration [i]. *)
Definition ppe_iteration_r (d : nat) (grav : bool) (srcs : list (psrc R)) (i : nat) : outcome (list (nat * R)) :=
  do si <- of_option (nth_error srcs i) ;;
  do r <- ofold (fun (st : R * list (nat * R)) j =>
      do sj <- of_option (nth_error srcs j) ;;
      do p <- potential_r rnd hyp lg d grav false sj (ps_pos si) ;;
      let t := rnd (ps_q si * p) in
      Ok (rnd (fst st + t), snd st ++ [(j, t)]))
    (seq 0 i) (0, []) ;;
  Ok (snd r ++ [(i, fst r)]).
(** One atomic addition, fields.hpp 105 and 109. *)
Definition add_at_r (v : list R) (u : nat * R) : list R := lset v (fst u) (rnd (nth (fst u) v 0 + snd u)).
(** The iterations of the loop of lines 90-110 and the result of a run. *)
Definition ppe_iterations_r (d : nat) (grav : bool) (srcs : list (psrc R)) : outcome (list (list (nat * R))) :=
  omapM (ppe_iteration_r d grav srcs) (seq 0 (length srcs)).
Definition ppe_result_r (n : nat) (run : list (nat * R)) : list R := fold_left add_at_r run (repeat 0 n).

(** particleForces, fields.hpp 128-160; [-=] adds the opposite. *)
Definition pf_iteration_r (d : nat) (grav : bool) (eps : R) (srcs : list (psrc R)) (i : nat)
  : outcome (list (nat * (nat * R))) :=
  do si <- of_option (nth_error srcs i) ;;
  do r <- ofold (fun (st : list R * list (nat * (nat * R))) j =>
      do sj <- of_option (nth_error srcs j) ;;
      do f <- forcefield_r rnd hyp d grav false eps sj (ps_pos si) ;;
      let t := vscale_r rnd f (ps_q si) in
      Ok (vadd_r rnd (fst st) t, snd st ++ map (fun k => (j, (k, - vget t k))) (seq 0 d)))
    (seq 0 i) (vzero d, []) ;;
  Ok (snd r ++ map (fun k => (i, (k, vget (fst r) k))) (seq 0 d)).
(** The iterations of the loop of lines 125-161 and the result of a run. *)
Definition pf_iterations_r (d : nat) (grav : bool) (eps : R) (srcs : list (psrc R))
  : outcome (list (list (nat * (nat * R)))) :=
  omapM (pf_iteration_r d grav eps srcs) (seq 0 (length srcs)).
Definition add_vec_at_r (v : list (list R)) (u : nat * (nat * R)) : list (list R) :=
  lset v (fst u) (add_at_r (nth (fst u) v []) (snd u)).
Definition pf_result_r (d n : nat) (run : list (nat * (nat * R))) : list (list R) :=
  fold_left add_vec_at_r run (repeat (vzero d) n).
End Rounded.
