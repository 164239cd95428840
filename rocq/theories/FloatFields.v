(** Model of the direct sums of fmm/fields.hpp in IEEE doubles; the library functions hypot and log are arbitrary functions on doubles. *)
From Coq Require Import List Bool ZArith Arith.
From Verif Require Import Num Vec.
From Coq Require Import Floats.
Import ListNotations.
Local Open Scope float_scope.

Section Doubles.
Variables (hypF : list float -> float) (lgF : float -> float).

(** vector.hpp 77-91 [norm_sq]. *)
Definition norm_sqF (v : list float) : float :=
  match v with
  | [a; b] => a * a + b * b
  | _ => fold_left PrimFloat.add (map (fun a => a * a) v) 0
  end.
(** Potential of one source, fields.hpp 13-26. *)
Definition potentialF (d : nat) (grav safe : bool) (src : psrc float) (x : list float) : float :=
  let r := hypF (vsub (N := NumF) (ps_pos src) x) in
  if (safe && (r =? 0))%bool then 0
  else let pot := if (d =? 2)%nat then ps_q src * lgF r else (- ps_q src) / r in
       if grav then pot else - pot.
(** Potential of several sources, fields.hpp 29-40. *)
Definition potential_sumF (d : nat) (grav safe : bool) (srcs : list (psrc float)) (x : list float) : float :=
  fold_left (fun pot s => pot + potentialF d grav safe s x) srcs 0.
(** Force field of one source, fields.hpp 46-65. *)
Definition forcefieldF (d : nat) (grav safe : bool) (eps : float) (src : psrc float) (x : list float) : list float :=
  let diff := vsub (N := NumF) (ps_pos src) x in
  let '(r, den) := if (d =? 2)%nat then (norm_sqF diff, norm_sqF diff + eps)
                   else let r := hypF diff in (r, r * r * r + eps) in
  if (safe && (r =? 0))%bool then repeat 0 d
  else let f := vscale (N := NumF) diff (ps_q src / den) in
       if grav then f else vneg (N := NumF) f.
(** Force field of several sources, fields.hpp 68-79. *)
Definition forcefield_sumF (d : nat) (grav safe : bool) (eps : float) (srcs : list (psrc float)) (x : list float) : list float :=
  fold_left (fun frc s => vadd (N := NumF) frc (forcefieldF d grav safe eps s x)) srcs (repeat 0 d).
End Doubles.
