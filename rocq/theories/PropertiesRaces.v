(** Property C92: the parallel loops of the constructors have no data race.
    [no_data_race m0 rgs] is defined in [RaceSpec]; [mem0] / [bmem0] is the memory after the nodes have been created, [regions] /
    [bal_regions] the parallel loops that follow.  A tree with at most [cap] sources (height 0) runs no loop.  In space [tb] is
    the table as the constructor has grown it before the loops. *)
From Coq Require Import List Arith Reals ZArith.
From Verif Require Import Num Outcome Vec Orthtree AdaptiveTree FieldSpec Fields FmmPasses FmmTree2D FmmApi FmmApiProofs BalancedTree BalancedFmm Tables Tables3D FmmTree3D
  Fmm3Theorems RaceSpec RaceProofs RaceTheorems.
Import ListNotations.

Theorem C92_adaptive2_no_race cap fuel srcs p tb t ls : same_dim 2 srcs -> build_adaptive 2 (@ps_pos R) cap fuel srcs = Ok t ->
  (cap < length srcs)%nat -> no_data_race (mem0 (ops2 p) t tb) (regions (ops2 p) 2 t ls).
Proof. exact (adaptive2_race_free cap fuel srcs p tb t ls). Qed.
Print Assumptions C92_adaptive2_no_race.
Example C92_case2 : exists fuel t, same_dim 2 five_unit /\ build_adaptive 2 (@ps_pos R) 1 fuel five_unit = Ok t /\ (1 < length five_unit)%nat.
Proof. exact race2_case. Qed.

Theorem C92_adaptive3_no_race cap fuel srcs p tb0 tb t ls : same_dim 3 srcs -> tb3_refresh tb0 (Z.of_nat p) = Ok tb ->
  build_adaptive 3 (@ps_pos R) cap fuel srcs = Ok t ->
  (cap < length srcs)%nat -> no_data_race (mem0 (ops3 p) t tb) (regions (ops3 p) 3 t ls).
Proof. exact (adaptive3_race_free cap fuel srcs p tb0 tb t ls). Qed.
Print Assumptions C92_adaptive3_no_race.
Example C92_case3 : exists fuel t tb, same_dim 3 five3_unit /\ tb3_refresh tb3_init (Z.of_nat 3) = Ok tb /\
  build_adaptive 3 (@ps_pos R) 1 fuel five3_unit = Ok t /\ (1 < length five3_unit)%nat.
Proof. exact race3_case. Qed.

Theorem C92_balanced2_no_race h srcs p tb t ls : same_dim 2 srcs -> (1 <= h <= 16)%nat -> bal_build 2 (@ps_pos R) h srcs = Ok (t, ls) ->
  exists rgs, bal_regions (ops2 p) 2 t ls = Ok rgs /\ no_data_race (bmem0 (ops2 p) t tb) rgs.
Proof. exact (balanced2_race_free h srcs p tb t ls). Qed.
Print Assumptions C92_balanced2_no_race.

Theorem C92_balanced3_no_race h srcs p tb0 tb t ls : same_dim 3 srcs -> (1 <= h <= 10)%nat -> tb3_refresh tb0 (Z.of_nat p) = Ok tb ->
  bal_build 3 (@ps_pos R) h srcs = Ok (t, ls) ->
  exists rgs, bal_regions (ops3 p) 3 t ls = Ok rgs /\ no_data_race (bmem0 (ops3 p) t tb) rgs.
Proof. exact (balanced3_race_free h srcs p tb0 tb t ls). Qed.
Print Assumptions C92_balanced3_no_race.
Example C92_balanced_case : exists t ls, same_dim 3 five3_unit /\ bal_build 3 (@ps_pos R) 1 five3_unit = Ok (t, ls).
Proof. exact race_balanced_case. Qed.

(** The definition does distinguish: two iterations that both grow the shared table are a race. *)
Example C92_growing_races : ~ no_data_race (Mem (fun _ => None) (fun _ => None) 0%nat) [[[grow_step]; [grow_step]]].
Proof. exact growing_races. Qed.
