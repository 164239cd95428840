(** Accuracy of the operations behind the table of spherical harmonics. *)
From Coq Require Import Reals.
From Coquelicot Require Import Complex.
From Verif Require Import Tables3D Expansion2D RoundedExpansion2D RoundedComplexSpec RoundedHarmonicTable.
Local Open Scope R_scope.

(** Relative errors of at most [w] of [std::hypot], [std::atan2], [std::cos], [std::sqrt]; the cosine stays in [-1, 1]; the exponential of an
    imaginary number is wrong by at most [w]; the library's Legendre functions of degree l have absolute errors of at most
    (1 + w)^(kl (l + 1)) - 1. *)
Record accurate_table (w : R) (kl : nat) (Y : yarith) : Prop := {
  at_c : accurate_complex w (y_c Y);
  at_hyp : forall x y, close w (y_hyp Y x y) (sqrt (x * x + y * y));
  at_atan2 : forall y x, close w (y_atan2 Y y x) (atan2 y x);
  at_cos : forall t, close w (y_cos Y t) (cos t) /\ -1 <= y_cos Y t <= 1;
  at_leg : forall l m x, (m <= l)%nat -> -1 <= x <= 1 -> Rabs (y_leg Y l m x - schmidt l m x) <= (1 + w) ^ (kl * (l + 1)) - 1;
  at_exp : forall t, Cmod (y_exp Y t - expi t)%C <= w;
  at_sqrt2 : close w (y_sqrt2 Y) (sqrt 2) }.
