(** Model of the direct sums of fmm/fields.hpp in rounded arithmetic: every operation of the code is followed by a rounding
    [rnd], the library functions hypot (or sqrt) and log are arbitrary functions [hyp] and [lg].
    Overflow and underflow are not modelled. *)
From Coq Require Import Reals List Arith Bool.
From Verif Require Import Num Outcome Vec Fields.
Import ListNotations.
Local Open Scope R_scope.
Local Open Scope outcome_scope.

Section Rounded.
Variable rnd : R -> R.
Variable hyp : list R -> R.
Variable lg : R -> R.

(** vector.hpp 23-44: sum, multiple, opposite and difference. *)
Definition vadd_r (a b : list R) : list R := map2 (fun p q => rnd (p + q)) a b.
Definition vscale_r (v : list R) (s : R) : list R := map (fun c => rnd (c * s)) v.
Definition vneg_r (v : list R) : list R := vscale_r v (-1).
Definition vsub_r (a b : list R) : list R := vadd_r a (vneg_r b).

(** vector.hpp 77-91 [norm_sq]: for d = 2 without the leading 0 of [dot] (the only dimension the fields use it in). *)
Definition vnorm_sq_r (v : list R) : R :=
  match v with
  | [a; b] => rnd (rnd (a * a) + rnd (b * b))
  | _ => fold_left (fun s p => rnd (s + p)) (map (fun a => rnd (a * a)) v) 0
  end.

Definition rdiv_r (a b : R) : outcome R := if Req_EM_T b 0 then NonFinite else Ok (rnd (a / b)).

(** Potential of one source, fields.hpp 13-26; the change of sign is exact. *)
Definition potential_r (d : nat) (grav safe : bool) (src : psrc R) (x : list R) : outcome R :=
  let r := hyp (vsub_r (ps_pos src) x) in
  if safe && Req_bool r 0 then Ok 0
  else
    do pot <- (if (d =? 2)%nat then (if Req_EM_T r 0 then NonFinite else Ok (rnd (ps_q src * lg r)))
               else rdiv_r (- ps_q src) r) ;;
    Ok (if grav then pot else - pot).
(** Potential of several sources, fields.hpp 29-40. *)
Definition potential_sum_r (d : nat) (grav safe : bool) (srcs : list (psrc R)) (x : list R) : outcome R :=
  ofold (fun pot s => do p <- potential_r d grav safe s x ;; Ok (rnd (pot + p))) srcs 0.

(** Force field of one source, fields.hpp 46-65; [-diff] is [-1. * diff]. *)
Definition forcefield_r (d : nat) (grav safe : bool) (eps : R) (src : psrc R) (x : list R) : outcome (list R) :=
  let diff := vsub_r (ps_pos src) x in
  if (d =? 2)%nat then
    let r_sq := vnorm_sq_r diff in
    if safe && Req_bool r_sq 0 then Ok (vzero d)
    else
      do f <- rdiv_r (ps_q src) (rnd (r_sq + eps)) ;;
      Ok (if grav then vscale_r diff f else vneg_r (vscale_r diff f))
  else
    let r := hyp diff in
    if safe && Req_bool r 0 then Ok (vzero d)
    else
      do f <- rdiv_r (ps_q src) (rnd (rnd (rnd (r * r) * r) + eps)) ;;
      Ok (if grav then vscale_r diff f else vneg_r (vscale_r diff f)).
(** Force field of several sources, fields.hpp 68-79. *)
Definition forcefield_sum_r (d : nat) (grav safe : bool) (eps : R) (srcs : list (psrc R)) (x : list R) : outcome (list R) :=
  ofold (fun frc s => do f <- forcefield_r d grav safe eps s x ;; Ok (vadd_r frc f)) srcs (vzero d).
End Rounded.
