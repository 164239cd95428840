(** Notions for the finiteness of the two-dimensional expansions in a range of distances. *)
From Coq Require Import Reals List Arith Bool.
From Verif Require Import Num Outcome Vec FloatCases FloatFit FloatExpansion2D FloatExpansionSpec.
From Coq Require Import Floats.
Import ListNotations.
Local Open Scope R_scope.

(** A finite double, or a complex number with finite parts, of size at most [2^E]. *)
Definition part (E : nat) (y : float) : Prop := PrimFloat.is_finite y = true /\ Rabs (real_of y) <= 2 ^ E.
Definition parts (E : nat) (z : CF) : Prop := part E (fst z) /\ part E (snd z).
(** A complex number whose absolute value is between [2^-r] and [2^r]. *)
Definition between (r : nat) (z : CF) : Prop := PrimFloat.is_finite (fst z) = true /\ PrimFloat.is_finite (snd z) = true /\
  / 2 ^ r <= R_sqrt.sqrt (real_of (fst z) ^ 2 + real_of (snd z) ^ 2) <= 2 ^ r.
(** The computed quotient by such a number is not much larger than the quotient. *)
Definition bounded_quotient (dv : CF -> CF -> CF) : Prop := forall E r a z, (E + r <= 960)%nat -> (r <= 400)%nat -> parts E a -> between r z -> parts (E + r + 1) (dv a z).
(** The parts of the logarithms of such numbers are at most [2^g]. *)
Definition bounded_log (g r : nat) (lg : CF -> CF) : Prop := forall z, between r z -> parts g (lg z).
(** The entry for row [i] of a table of binomials is at most [2^i]. *)
Definition bounded_binomials (tb : btabF) : Prop := forall i k y, (k <= i)%nat -> bf_get tb i k = Ok y -> part i y.
(** Two points with finite coordinates at distance at most [2^b], and also at least [2^-b]. *)
Definition near (b : nat) (x c : list float) : Prop := Forall (fun y => PrimFloat.is_finite y = true) (x ++ c) /\ separation x c <= 2 ^ b.
Definition apart (b : nat) (x c : list float) : Prop := near b x c /\ / 2 ^ b <= separation x c.
Definition center_of (e : seF) : list float := [fst (sf_ctr e); snd (sf_ctr e)].

(** The multipole expansions of order [p] of at most [2^N] sources with charges of at most [2^a] at distances of at most [2^b] from the center, and those
    made from them in [h] rounds of merging at most [2^n] expansions with centers at distances of at most [2^b]. *)
Inductive multipole_range (A : cfarith) (p a b n N : nat) : nat -> seF -> Prop :=
| range_sources c srcs : (length srcs <= 2 ^ N)%nat -> (forall s, In s srcs -> part a (ps_q s) /\ near b (ps_pos s) c) ->
    multipole_range A p a b n N 0 (me2_sourcesF A c p srcs)
| range_merge h tb c es r tb' : (length es <= 2 ^ n)%nat -> (forall e, In e es -> multipole_range A p a b n N h e /\ near b (center_of e) c) ->
    bounded_binomials (sf_table A tb p) -> me2_mergeF A tb c es = Ok (r, tb') -> multipole_range A p a b n N (S h) r
| range_later h e : multipole_range A p a b n N h e -> multipole_range A p a b n N (S h) e.
(** The local expansions converted from at most [2^N] of these, or made from at most [2^N] sources, at distances between [2^-b] and [2^b], and those made
    from them in [j] rounds of shifts by at most [2^b] and additions. *)
Inductive local_range (A : cfarith) (p a b n N : nat) : nat -> nat -> seF -> Prop :=
| range_convert h tb c es r tb' : (length es <= 2 ^ N)%nat -> (forall e, In e es -> multipole_range A p a b n N h e /\ apart b (center_of e) c) ->
    bounded_binomials (sf_table A tb p) -> le2_m2l_manyF A tb c es = Ok (r, tb') -> local_range A p a b n N h 0 r
| range_points h c srcs : (length srcs <= 2 ^ N)%nat -> (forall s, In s srcs -> part a (ps_q s) /\ apart b (ps_pos s) c) ->
    local_range A p a b n N h 0 (le2_sourcesF A c p srcs)
| range_shift h j tb c e r tb' : local_range A p a b n N h j e -> near b (center_of e) c -> le2_l2lF A tb c e = Ok (r, tb') -> local_range A p a b n N h (S j) r
| range_add h j e e' r : local_range A p a b n N h j e -> local_range A p a b n N h j e' -> sf_add e e' = Ok r -> local_range A p a b n N h (S j) r
| range_after h j e : local_range A p a b n N h j e -> local_range A p a b n N h (S j) e.
