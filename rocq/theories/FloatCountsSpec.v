(** The library function [pow] on integers. *)
From Coq Require Import Reals ZArith.
From Verif Require Import Num FloatCases.
From Coq Require Import Floats.
(** [pow] is exact where the power of two integers is an integer of at most 53 bits. *)
Definition exact_pow (powF : nat -> nat -> float) : Prop := forall b n, (1 <= Z.of_nat b ^ Z.of_nat n <= 9007199254740992)%Z ->
  PrimFloat.is_finite (powF b n) = true /\ real_of (powF b n) = IZR (Z.of_nat b ^ Z.of_nat n).
