(** What it means that a parallel loop has no data race.  Specification for the loops of fmm/adaptive_fmm_tree.hpp 156-219 and
    fmm/balanced_fmm_tree.hpp 147-202, whose memory and steps are modelled in [FmmPasses] and [BalancedFmm]. *)
From Coq Require Import List Arith.
From Verif Require Import Outcome AdaptiveTree FmmPasses.
Import ListNotations.

(** The shared objects: the multipole and the local expansion of every node, and the static lookup table (adaptive_fmm_tree.hpp
    65-66; the static members of fmm/series_expansion.hpp and of the three-dimensional expansions). *)
Inductive cell : Type := Multipole (a : addr) | Local (a : addr) | Lookup_table.

Section Races.
Context {ME LE Tb : Type}.
Notation mem := (@mem ME LE Tb).
Notation locals := (@locals ME LE).
Notation step := (@step ME LE Tb).

(** Two memories have the same contents in a shared object. *)
Definition same_cell (m m' : mem) (x : cell) : Prop :=
  match x with
  | Multipole a => m_me m a = m_me m' a
  | Local a => m_le m a = m_le m' a
  | Lookup_table => m_tb m = m_tb m'
  end.

(** States of the shared memory and of the variables of one iteration. *)
Variable Shared : mem -> Prop.
Variable Private : locals -> Prop.

(** The step leaves such states in such states. *)
Definition keeps (s : step) : Prop :=
  forall m l m' l', Shared m -> Private l -> s (m, l) = Ok (m', l') -> Shared m' /\ Private l'.
(** The step changes no shared object outside [Wr]. *)
Definition writes_only (Wr : cell -> Prop) (s : step) : Prop :=
  forall m l m' l', Shared m -> Private l -> s (m, l) = Ok (m', l') -> forall x, ~ Wr x -> same_cell m' m x.
(** Whether the step succeeds, how it fails, what it leaves in the variables of the iteration and what it writes depends on no
    shared object outside [Rd] and [Wr]. *)
Definition reads_only (Rd Wr : cell -> Prop) (s : step) : Prop :=
  forall m m2 l, Shared m -> Shared m2 -> Private l -> (forall x, Rd x \/ Wr x -> same_cell m m2 x) ->
    omap snd (s (m, l)) = omap snd (s (m2, l)) /\
    forall p p2, s (m, l) = Ok p -> s (m2, l) = Ok p2 -> forall x, Wr x -> same_cell (fst p) (fst p2) x.

(** A parallel loop is free of races: every iteration has a set of shared objects it reads and a set of those it writes, such that
    its steps touch nothing else, and no iteration writes what another one reads or writes. *)
Definition race_free (rg : @region ME LE Tb) : Prop :=
  exists Rd Wr : nat -> cell -> Prop,
    (forall i j x, i < length rg -> j < length rg -> i <> j -> Wr i x -> ~ Rd j x /\ ~ Wr j x) /\
    (forall i s, i < length rg -> In s (nth i rg []) -> keeps s /\ writes_only (Wr i) s /\ reads_only (Rd i) (Wr i) s).
End Races.

(** The loops [rgs], run one after the other from the memory [m0], have no data race: there is a set of states that contains the
    initial one and is left by no step of any loop, and on which every loop is free of races. *)
Definition no_data_race {ME LE Tb} (m0 : @mem ME LE Tb) (rgs : list (@region ME LE Tb)) : Prop :=
  exists Shared Private, Shared m0 /\ Private (no_locals : @locals ME LE) /\ forall rg, In rg rgs -> race_free Shared Private rg.
