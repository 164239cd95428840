(** Accuracy of the operations behind the three-dimensional force fields, and the quantities of the error bounds. *)
From Coq Require Import Reals List ZArith.
From Coquelicot Require Import Complex.
From Verif Require Import Outcome Vec Tables3D CAux Expansion3D RoundedExpansion2D RoundedExpansion3D RoundedComplexSpec RoundedHarmonicSpec RoundedHarmonicTable RoundedTableSpec RoundedForce3D.
Local Open Scope R_scope.

(** The operations of the expansions and of the table of harmonics are accurate; relative errors of at most [w] of [std::sin]; the library's
    derivatives of the Legendre functions of degree l have absolute errors of at most l ((1 + w)^(kl (l + 1)) - 1). *)
Record accurate_gradient (w : R) (ky kl : nat) (G : garith) : Prop := {
  ag_h : accurate_harmonics w ky (g_h G);
  ag_y : accurate_table w kl (g_y G);
  ag_sin : forall t, close w (g_sin G t) (sin t);
  ag_dleg : forall l m x, (m <= l)%nat -> -1 < x < 1 ->
    Rabs (g_dleg G l m x - schmidt_dtheta l m (acos x)) <= INR l * ((1 + w) ^ (kl * (l + 1)) - 1) }.

(** The distance of two points, and the distance of their projections on the horizontal plane. *)
Definition apart (x y : list R) : R :=
  sqrt ((vget x 0 - vget y 0) * (vget x 0 - vget y 0) + (vget x 1 - vget y 1) * (vget x 1 - vget y 1) + (vget x 2 - vget y 2) * (vget x 2 - vget y 2)).
Definition across (x y : list R) : R :=
  sqrt ((vget x 0 - vget y 0) * (vget x 0 - vget y 0) + (vget x 1 - vget y 1) * (vget x 1 - vget y 1)).

(** The sum of the moduli of the coefficients of an expansion, with the weight [g n] for the degree n. *)
Definition coef (e : se3) (n m : Z) : C := match s3_get e n m with Ok c => c | _ => RtoC 0 end.
Definition weighted (e : se3) (g : Z -> R) : R :=
  rsum (fun n => rsum (fun m => Cmod (coef e n m) * g n) (zrange (- n) n)) (zrange 0 (s3_ord e)).
(** Bounds of the gradients of the terms of degree n at the distance r from the centre. *)
Definition local_weight (r : R) (n : Z) : R := IZR n * r ^ Z.to_nat (n - 1).
Definition multipole_weight (r : R) (n : Z) : R := IZR (n + 1) * / r ^ Z.to_nat (n + 2).
(** Operations in the evaluation of a force; [K] counts those lost in the sine of the polar angle. *)
Definition force_roundings (kl K : nat) (p : nat) : nat := ((kl + 11) * (p + 1) + 2 * K + (p + 1) * (p + 1) + 20)%nat.
