(** Notions for overflow in the two-dimensional expansions. *)
From Coq Require Import Reals List Arith Bool.
From Verif Require Import Num Outcome Vec FloatCases FloatFit FloatExpansion2D.
From Coq Require Import Floats.
Import ListNotations.
Local Open Scope R_scope.

(** The product of complex numbers is given by the usual formula, unless that gives two NaNs: then neither part of the product is finite.  This
    holds for the plain formula (option -ffast-math of g++, used by the makefile) and for the product of Annex G of the C standard. *)
Definition usual_product (m : CF -> CF -> CF) : Prop := forall a b,
  let re := (fst a * fst b - snd a * snd b)%float in let im := (fst a * snd b + snd a * fst b)%float in
  if (PrimFloat.is_nan re && PrimFloat.is_nan im)%bool then PrimFloat.is_finite (fst (m a b)) = false /\ PrimFloat.is_finite (snd (m a b)) = false
  else m a b = (re, im).
(** The distance of two points of the plane. *)
Definition separation (x c : list float) : R :=
  R_sqrt.sqrt ((real_of (nth 0 x 0%float) - real_of (nth 0 c 0%float)) ^ 2 + (real_of (nth 1 x 0%float) - real_of (nth 1 c 0%float)) ^ 2).
(** The [k]-th power of the distance, slightly reduced, exceeds the largest double. *)
Definition overflows (k : nat) (x c : list float) : Prop := 2 ^ 1025 <= ((1 - / 281474976710656) * separation x c) ^ k.

(** The [k]-th power of the reciprocal of the distance, slightly reduced, exceeds the largest double; the distance is at least 2^-399. *)
Definition reciprocal_overflows (k : nat) (x c : list float) : Prop :=
  / 2 ^ 399 <= separation x c /\ 2 ^ 1025 <= ((1 - / 281474976710656) / separation x c) ^ k.
(** The computed reciprocal of a finite complex number of absolute value between 2^-400 and 1 is not finite or not too small. *)
Definition usual_reciprocal (dv : CF -> CF -> CF) : Prop := forall z, PrimFloat.is_finite (fst z) = true -> PrimFloat.is_finite (snd z) = true ->
  let v := dv oneC z in
  real_of (fst z) ^ 2 + real_of (snd z) ^ 2 <= 1 -> / 2 ^ 800 <= real_of (fst z) ^ 2 + real_of (snd z) ^ 2 ->
  PrimFloat.is_finite (fst v) = false \/ PrimFloat.is_finite (snd v) = false \/
  (1 - / 1125899906842624) ^ 2 <= (real_of (fst v) ^ 2 + real_of (snd v) ^ 2) * (real_of (fst z) ^ 2 + real_of (snd z) ^ 2).

(** The computed quotient of a complex number by a finite one of absolute value between 2^-400 and 1 is not finite if the dividend is not; if the dividend is
    finite and of absolute value at least 1, the quotient is not finite or not too small. *)
Definition usual_quotient (dv : CF -> CF -> CF) : Prop := forall a z, PrimFloat.is_finite (fst z) = true -> PrimFloat.is_finite (snd z) = true ->
  let v := dv a z in
  real_of (fst z) ^ 2 + real_of (snd z) ^ 2 <= 1 -> / 2 ^ 800 <= real_of (fst z) ^ 2 + real_of (snd z) ^ 2 ->
  PrimFloat.is_finite (fst v) = false \/ PrimFloat.is_finite (snd v) = false \/
  PrimFloat.is_finite (fst a) = true /\ PrimFloat.is_finite (snd a) = true /\
  (1 <= real_of (fst a) ^ 2 + real_of (snd a) ^ 2 ->
   (1 - 3 * / 1125899906842624) ^ 2 * (real_of (fst a) ^ 2 + real_of (snd a) ^ 2) <= (real_of (fst v) ^ 2 + real_of (snd v) ^ 2) * (real_of (fst z) ^ 2 + real_of (snd z) ^ 2)).

(** The multipole expansions of order [p] to which a source contributes whose [k]-th power relative to the center of its box overflows: those made
    from sources, … *)
Inductive touched (A : cfarith) (p k : nat) : seF -> Prop :=
| touched_sources c srcs s : In s srcs -> Forall (fun y => PrimFloat.is_finite y = true) (ps_pos s ++ c) -> overflows k (ps_pos s) c ->
    touched A p k (me2_sourcesF A c p srcs)
(** … and those made by shifting. *)
| touched_merge tb c es e r tb' : In e es -> touched A p k e -> (forall e', In e' es -> sf_ord e' = p) ->
    me2_mergeF A tb c es = Ok (r, tb') -> touched A p k r.
(** The local expansions derived from them, or converted from an expansion whose center, or made from a source which, is so close that the
    powers of the reciprocal of the distance overflow. *)
Inductive touched_local (A : cfarith) (p k : nat) : seF -> Prop :=
| touched_convert tb c es e r tb' : In e es -> touched A p k e -> le2_m2l_manyF A tb c es = Ok (r, tb') -> touched_local A p k r
| touched_close tb c es e r tb' : usual_reciprocal (f_div A) -> In e es -> sf_ord e = p ->
    Forall (fun y => PrimFloat.is_finite y = true) ([fst (sf_ctr e); snd (sf_ctr e)] ++ c) -> reciprocal_overflows k [fst (sf_ctr e); snd (sf_ctr e)] c ->
    le2_m2l_manyF A tb c es = Ok (r, tb') -> touched_local A p k r
| touched_points c srcs s : usual_quotient (f_div A) -> In s srcs -> Forall (fun y => PrimFloat.is_finite y = true) (ps_pos s ++ c) ->
    reciprocal_overflows k (ps_pos s) c -> touched_local A p k (le2_sourcesF A c p srcs)
| touched_shift tb c e r tb' : touched_local A p k e -> le2_l2lF A tb c e = Ok (r, tb') -> touched_local A p k r
| touched_left a b r : touched_local A p k a -> sf_add a b = Ok r -> touched_local A p k r
| touched_right a b r : touched_local A p k b -> sf_add a b = Ok r -> touched_local A p k r.
