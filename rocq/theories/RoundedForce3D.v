(** Model of the force fields of the three-dimensional expansions in rounded arithmetic: fmm/fmm_tables.hpp 118-191 ([YlmDerivTable]),
    fmm/vector.hpp 158-174 ([toCartesianBasis]), fmm/multipole_expansion.hpp 270-304, fmm/local_expansion.hpp 358-392, each operation by an
    arbitrary function of a record [garith].

    Overflow, underflow and signed zeros are not modelled.  The outcome [NonFinite] stands for a division by zero and for an argument
    outside the domain of the GSL routine; [UB] for an access outside a vector.  The product of the imaginary unit with the order
    (fmm_tables.hpp 189) is exact. *)
From Coq Require Import Reals List ZArith.
From Coquelicot Require Import Complex.
From Verif Require Import Num Outcome Vec Tables Tables3D Expansion3D FmmPasses RoundedExpansion2D RoundedExpansion3D RoundedHarmonicTable.
Import ListNotations.
Local Open Scope Z_scope.
Local Open Scope outcome_scope.

(** The operations that the code uses. *)
Record garith : Type := mkga {
  g_h : harith;                        (* operations of the expansions; complex arithmetic *)
  g_y : yarith;                        (* angles, cosines, exponentials and Legendre functions *)
  g_sin : R -> R;                      (* std::sin *)
  g_dleg : nat -> nat -> R -> R        (* the derivative (l, m) with respect to the angle written by
                                          gsl_sf_legendre_deriv_alt_array_e(GSL_SF_LEGENDRE_SCHMIDT, lmax, x, -1, ..) *)
}.

Section Force.
Variable G : garith.
Notation H := (g_h G).
Notation Y := (g_y G).
Notation B := (h_c H).
Notation rnd := (h_rnd H).

(** [YlmDerivTable], fmm_tables.hpp 118-171.  GSL specifies the routine for |x| < 1 only. *)
Definition ylm_deriv_table_r (lmax : Z) (theta phi : R) : outcome (list C * list C) :=
  let x := y_cos Y theta in
  if Req_EM_T (Rabs x) 1 then NonFinite
  else
    let exp_table := pow_table (RtoC 1) (c_mul B) (y_exp Y phi) (Z.to_nat lmax) in
    ofold (fun tabs l =>
        do ty0 <- zset (fst tabs) (sh_index l 0) (RtoC (y_leg Y (Z.to_nat l) 0 x)) ;;
        do td0 <- zset (snd tabs) (sh_index l 0) (RtoC (g_dleg G (Z.to_nat l) 0 x)) ;;
        ofold (fun tabs' m =>
            do e <- pow_get exp_table (Z.to_nat m) ;;
            let y := c_divr B (c_scale B (y_leg Y (Z.to_nat l) (Z.to_nat m) x) e) (y_sqrt2 Y) in
            let dy := c_divr B (c_scale B (g_dleg G (Z.to_nat l) (Z.to_nat m) x) e) (y_sqrt2 Y) in
            do ty1 <- zset (fst tabs') (sh_index l m) y ;;
            do ty2 <- zset ty1 (sh_index l (- m)) (Cconj y) ;;
            do td1 <- zset (snd tabs') (sh_index l m) dy ;;
            do td2 <- zset td1 (sh_index l (- m)) (Cconj dy) ;;
            Ok (ty2, td2)) (zrange 1 l) (ty0, td0))
      (zrange 0 lmax)
      (repeat (RtoC 0) (Z.to_nat ((lmax + 1) * (lmax + 1))), repeat (RtoC 0) (Z.to_nat ((lmax + 1) * (lmax + 1)))).

(** The force loops of multipole_expansion.hpp 288-300 and local_expansion.hpp 374-387; [acc] adds to or subtracts from the radial component,
    [wt n] is its factor, [next] updates the power of r.  The threaded pair is ((force_r, force_theta, force_phi), [r_pow]). *)
Definition force_sum_r (e : se3) (tabs : list C * list C) (theta : R) (n0 : Z) (acc : R -> R -> R) (wt : Z -> R) (r0 : R) (next : R -> outcome R) :
    outcome (R * R * R) :=
  omap fst (ofold (fun st n =>
      do f <- ofold (fun f m =>
            do c <- s3_get e n m ;;
            do y <- ylm_get (fst tabs) n m ;;
            do dy <- ylm_get (snd tabs) n m ;;
            do q <- rquot_r H (rnd (snd st * fst (c_mul B c (c_mul B (0, IZR m)%R y)))) (g_sin G theta) ;;
            Ok (rnd (acc (fst (fst f)) (rnd (rnd (snd st * wt n) * fst (c_mul B c y)))),
                rnd (snd (fst f) + rnd (snd st * fst (c_mul B c dy))),
                rnd (snd f + q))%R) (zrange (- n) n) (fst st) ;;
      do r' <- next (snd st) ;;
      Ok (f, r')) (zrange n0 (s3_ord e)) ((0, 0, 0), r0)%R).

(** [toCartesianBasis], vector.hpp 158-174. *)
Definition cartesian_basis_r (f : R * R * R) (theta phi : R) : list R :=
  let st := g_sin G theta in let ct := y_cos Y theta in let sp := g_sin G phi in let cp := y_cos Y phi in
  let a := rnd (rnd (st * fst (fst f)) + rnd (ct * snd (fst f))) in
  [rnd (rnd (cp * a) - rnd (sp * snd f)); rnd (rnd (sp * a) + rnd (cp * snd f)); rnd (rnd (ct * fst (fst f)) - rnd (st * snd (fst f)))]%R.

(** [evaluateForcefield], multipole_expansion.hpp 270-304. *)
Definition me3_force_r (e : se3) (x : list R) : outcome (list R) :=
  let v := vdif_r H x (s3_ctr e) in
  let (theta, phi) := angles_r Y v in
  do tabs <- ylm_deriv_table_r (s3_ord e) theta phi ;;
  do ri <- rquot_r H 1 (rnd (h_norm H v * h_norm H v)) ;;
  do f <- force_sum_r e tabs theta 0 Rminus (fun n => IZR (n + 1)) ri (fun y => rquot_r H y (h_norm H v)) ;;
  Ok (cartesian_basis_r f theta phi).

(** [evaluateForcefield], local_expansion.hpp 358-392. *)
Definition le3_force_r (e : se3) (x : list R) : outcome (list R) :=
  let v := vdif_r H x (s3_ctr e) in
  let (theta, phi) := angles_r Y v in
  do tabs <- ylm_deriv_table_r (s3_ord e) theta phi ;;
  do f <- force_sum_r e tabs theta 1 Rplus IZR 1 (fun y => Ok (rnd (y * h_norm H v))%R) ;;
  Ok (cartesian_basis_r f theta phi).

(** The operations on expansions of order [p], with these forces. *)
Definition ops3_force_r (p : nat) : ops se3 se3 tb3 := ops3_r H me3_force_r le3_force_r p.
End Force.
