(** Accuracy of the operations used by the three-dimensional expansions. *)
From Coq Require Import Reals List ZArith.
From Coquelicot Require Import Complex.
From Verif Require Import Outcome Tables3D Spherical RoundedExpansion2D RoundedExpansion3D RoundedComplexSpec.
Import ListNotations.
Local Open Scope R_scope.

(** Products, quotients and differences of doubles, the radius and the entries A_n^m have relative errors at most [w]; an entry of
    the table of spherical harmonics of degree l, for the angles of the vector it is computed for, has an absolute error of at
    most (1 + w)^(ky (l + 1)) - 1. *)
Record accurate_harmonics (w : R) (ky : nat) (A : harith) : Prop := {
  ah_c : accurate_complex w (h_c A);
  ah_rnd : forall x, close w (h_rnd A x) x;
  ah_dif : forall a b, close w (h_dif A a b) (a - b);
  ah_norm : forall x y z, close w (h_norm A [x; y; z]) (sqrt (x * x + y * y + z * z));
  ah_ylm : forall x y z r th ph lmax tab l m Y, to_spherical 3 [x; y; z] = Ok [r; th; ph] -> ylm_table lmax th ph = Ok tab ->
    (Z.abs m <= l <= lmax)%Z -> ylm_get tab l m = Ok Y -> Cmod (h_ylm A [x; y; z] l m - Y)%C <= (1 + w) ^ (ky * (Z.to_nat l + 1)) - 1;
  ah_alm : forall n m a, close w (h_alm A n m a) a }.
