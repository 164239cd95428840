(** Numbers of nodes of a balanced tree in IEEE doubles. *)
From Coq Require Import List ZArith Arith.
From Verif Require Import Num BalancedSpec FloatCounts FloatCountsSpec FloatCountsProofs.
From Coq Require Import Floats.

(** C114: the code computes the numbers of nodes and leaves of a balanced tree and the offsets of the levels by floating-point powers and divisions.  As long
    as the number of leaves has at most 53 bits, the integers obtained are exact. *)
Theorem C114_counts powF d h : exact_pow powF -> 2 <= d -> 1 <= h -> d * h <= 53 ->
  exists nodes, n_nodesF powF d h = Some (Z.of_nat nodes) /\ (2 ^ d - 1) * nodes = (2 ^ d) ^ h - 1 /\ n_leavesF powF d h = Some (Z.of_nat ((2 ^ d) ^ h)) /\
  forall k, k <= h -> n_leavesF powF d k = Some (Z.of_nat ((2 ^ d) ^ k)) /\ offsetF powF d k = Some (Z.of_nat (level_offset d k)).
Proof. exact (counts_doubles powF d h). Qed.
Print Assumptions C114_counts.
Example C114_case : exact_pow int_pow /\ 2 <= 3 /\ 1 <= 10 /\ 3 * 10 <= 53.
Proof. repeat split; try apply int_pow_exact; try assumption; apply (proj1 (Nat.leb_le _ _)); reflexivity. Qed.
(** The limit is needed. *)
Example C114_limit : exact_pow int_pow /\ n_nodesF int_pow 2 28 <> Some ((4 ^ 28 - 1) / 3)%Z.
Proof. exact (conj int_pow_exact wide_refuted). Qed.
