(** Model of fmm/fields.hpp: direct evaluation of potentials and force fields, over exact reals. *)
From Coq Require Import Reals List Arith Bool.
From Verif Require Import Num Outcome Vec Tables Schedule.
Import ListNotations.
Local Open Scope R_scope.
Local Open Scope outcome_scope.

(** [norm], vector.hpp 63-75.  [std::hypot] and the one-dimensional [std::abs] are both the square root of the sum of
    squares in exact arithmetic. *)
Definition vnorm (v : list R) : R := sqrt (vnorm_sq v).

(** [Vector_{}]: the zero vector. *)
Definition vzero (d : nat) : list R := repeat 0 d.

Definition Req_bool (x y : R) : bool := if Req_EM_T x y then true else false.

(** [a / b] on doubles. *)
Definition rdiv (a b : R) : outcome R := if Req_EM_T b 0 then NonFinite else Ok (a / b).

(** Potential of one source, fields.hpp 13-26.  [std::log(0)] is infinite. *)
Definition potential (d : nat) (grav safe : bool) (src : psrc R) (x : list R) : outcome R :=
  let r := vnorm (vsub (ps_pos src) x) in
  if safe && Req_bool r 0 then Ok 0
  else
    do pot <- (if (d =? 2)%nat then (if Req_EM_T r 0 then NonFinite else Ok (ps_q src * ln r))
               else rdiv (- ps_q src) r) ;;
    Ok (if grav then pot else - pot).

(** Potential of several sources, fields.hpp 29-40. *)
Definition potential_sum (d : nat) (grav safe : bool) (srcs : list (psrc R)) (x : list R) : outcome R :=
  ofold (fun pot s => do p <- potential d grav safe s x ;; Ok (pot + p)) srcs 0.

(** Force field of one source, fields.hpp 46-65. *)
Definition forcefield (d : nat) (grav safe : bool) (eps : R) (src : psrc R) (x : list R) : outcome (list R) :=
  let diff := vsub (ps_pos src) x in
  if (d =? 2)%nat then
    let r_sq := vnorm_sq diff in
    if safe && Req_bool r_sq 0 then Ok (vzero d)
    else
      do f <- rdiv (ps_q src) (r_sq + eps) ;;
      Ok (if grav then vscale diff f else vneg (vscale diff f))
  else
    let r := vnorm diff in
    if safe && Req_bool r 0 then Ok (vzero d)
    else
      do f <- rdiv (ps_q src) (r * r * r + eps) ;;
      Ok (if grav then vscale diff f else vneg (vscale diff f)).

(** Force field of several sources, fields.hpp 68-79. *)
Definition forcefield_sum (d : nat) (grav safe : bool) (eps : R) (srcs : list (psrc R)) (x : list R)
  : outcome (list R) :=
  ofold (fun frc s => do f <- forcefield d grav safe eps s x ;; Ok (vadd frc f)) srcs (vzero d).

(** ** particlePotentialEnergies, fields.hpp 83-113

    An atomic effect is [particle_potentials[j] += x], written [(j, x)]. *)

(** The effects of iteration [i], in program order (lines 93-109): the updates of the entries [j < i], then the update
    of entry [i]. *)
Definition ppe_iteration (d : nat) (grav : bool) (srcs : list (psrc R)) (i : nat) : outcome (list (nat * R)) :=
  do si <- of_option (nth_error srcs i) ;;
  do r <- ofold (fun (st : R * list (nat * R)) j =>
      do sj <- of_option (nth_error srcs j) ;;
      do p <- potential d grav false sj (ps_pos si) ;;
      let t := ps_q si * p in
      Ok (fst st + t, snd st ++ [(j, t)]))
    (seq 0 i) (0, []) ;;
  Ok (snd r ++ [(i, fst r)]).

(** One atomic addition. *)
Definition add_at (v : list R) (u : nat * R) : list R := lset v (fst u) (nth (fst u) v 0 + snd u).

(** The iterations of the parallel loop. *)
Definition ppe_iterations (d : nat) (grav : bool) (srcs : list (psrc R)) : outcome (list (list (nat * R))) :=
  omapM (ppe_iteration d grav srcs) (seq 0 (length srcs)).

(** The result for a given run of the parallel loop (a sequence of atomic additions). *)
Definition ppe_result (n : nat) (run : list (nat * R)) : list R := fold_left add_at run (repeat 0 n).

(** ** particleForces, fields.hpp 118-164

    An atomic effect is [particle_forces[j][k] += x], written [(j, (k, x))]; [-=] adds the opposite. *)
Definition pf_iteration (d : nat) (grav : bool) (eps : R) (srcs : list (psrc R)) (i : nat)
  : outcome (list (nat * (nat * R))) :=
  do si <- of_option (nth_error srcs i) ;;
  do r <- ofold (fun (st : list R * list (nat * (nat * R))) j =>
      do sj <- of_option (nth_error srcs j) ;;
      do f <- forcefield d grav false eps sj (ps_pos si) ;;
      let t := vscale f (ps_q si) in
      Ok (vadd (fst st) t, snd st ++ map (fun k => (j, (k, - vget t k))) (seq 0 d)))
    (seq 0 i) (vzero d, []) ;;
  Ok (snd r ++ map (fun k => (i, (k, vget (fst r) k))) (seq 0 d)).

Definition pf_iterations (d : nat) (grav : bool) (eps : R) (srcs : list (psrc R))
  : outcome (list (list (nat * (nat * R)))) :=
  omapM (pf_iteration d grav eps srcs) (seq 0 (length srcs)).

Definition add_vec_at (v : list (list R)) (u : nat * (nat * R)) : list (list R) :=
  lset v (fst u) (add_at (nth (fst u) v []) (snd u)).

Definition pf_result (d n : nat) (run : list (nat * (nat * R))) : list (list R) :=
  fold_left add_vec_at run (repeat (vzero d) n).
