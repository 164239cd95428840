(** Notions for the accuracy of the coefficients of two-dimensional multipole expansions in doubles. *)
From Coq Require Import Reals List.
From Coquelicot Require Import Complex.
From Verif Require Import Num Vec CAux FloatCases FloatFit.
From Coq Require Import Floats.
Import ListNotations.
Local Open Scope R_scope.

(** The point of the complex plane with the given coordinates. *)
Definition point_of (v : list float) : C := (real_of (nth 0 v 0%float), real_of (nth 1 v 0%float)).
(** The exact moment [sum q (z - c)^k]. *)
Definition moment (c : list float) (k : nat) (srcs : list (psrc float)) : C :=
  fold_right (fun s m => (RtoC (real_of (ps_q s)) * Cpow (point_of (ps_pos s) - point_of c) k + m)%C) (RtoC 0) srcs.
(** The exact coefficient of the multipole expansion: the total charge, and [- moment / k]. *)
Definition coefficient (c : list float) (k : nat) (srcs : list (psrc float)) : C :=
  match k with O => moment c 0 srcs | S _ => (- moment c k srcs / RtoC (INR k))%C end.
(** Finite complex numbers and their values. *)
Definition finite_complex (z : float * float) : Prop := PrimFloat.is_finite (fst z) = true /\ PrimFloat.is_finite (snd z) = true.
Definition value_of (z : float * float) : C := (real_of (fst z), real_of (snd z)).
(** The quotient of complex numbers: for a finite divisor of moderate size the computed quotient, if finite, comes from a finite dividend and is within
    32 units of [M], if [M] is a bound of the quotient that is not too small. *)
Definition accurate_quotient (dv : float * float -> float * float -> float * float) : Prop := forall a z, finite_complex z -> / 2 ^ 400 <= Cmod (value_of z) <= 2 ^ 400 ->
  finite_complex (dv a z) -> finite_complex a /\ forall M, Cmod (value_of a) <= M * Cmod (value_of z) -> / 2 ^ 1020 <= M -> / 2 ^ 1020 <= M * Cmod (value_of z) ^ 2 ->
    Cmod (value_of (dv a z) - value_of a / value_of z)%C <= 32 * / 9007199254740992 * M.
(** The real part of the logarithm is within four units of the logarithm of the absolute value. *)
Definition accurate_logarithm (lg : float * float -> float * float) : Prop := forall z, finite_complex z -> / 2 ^ 400 <= Cmod (value_of z) <= 2 ^ 400 ->
  Rabs (real_of (fst (lg z)) - ln (Cmod (value_of z))) <= 4 * / 9007199254740992 * (1 + Rabs (ln (Cmod (value_of z)))).
(** The exact value of the expansion of order [p]: [Re (a_0 log z + sum a_k / z^k)]. *)
Fixpoint inverse_series (c : list float) (srcs : list (psrc float)) (z : C) (p : nat) : C :=
  match p with O => RtoC 0 | S p' => (inverse_series c srcs z p' + coefficient c p srcs / Cpow z p)%C end.
Definition expansion_value (c : list float) (p : nat) (srcs : list (psrc float)) (x : list float) : R :=
  Re (coefficient c 0 srcs) * ln (Cmod (point_of x - point_of c)%C) + Re (inverse_series c srcs (point_of x - point_of c)%C p).
(** The sum over the sources of charge times logarithm of the distance. *)
Definition direct_value (srcs : list (psrc float)) (x : list float) : R :=
  fold_right (fun s r => real_of (ps_q s) * ln (Cmod (point_of x - point_of (ps_pos s))%C) + r) 0 srcs.
