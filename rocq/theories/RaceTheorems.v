(** Instances of the theorems of [RaceProofs] for the expansions of the plane and of space, and concrete cases. *)
From Coq Require Import List Bool Arith ZArith Lia Lra Reals.
From Verif Require Import Num Outcome Vec Orthtree AdaptiveTree GeometrySpec FieldSpec Fields BuildProofs TreeTheorems TreeTheorems2 TreeTheorems3 FmmPasses FmmTree2D FmmApi FmmApiProofs
  PassTree PassAgree RaceSpec RaceProofs BalancedTree BalancedSpec BalancedFmm BalancedApiProofs BalancedTheorems BalancedProofs BalancedFmmProofs Tables Tables3D FmmTree3D Fmm3Theorems CasesFmm.
Import ListNotations.

Theorem adaptive2_race_free cap fuel srcs p tb t ls : same_dim 2 srcs -> build_adaptive 2 (@ps_pos R) cap fuel srcs = Ok t ->
  (cap < length srcs)%nat -> no_data_race (mem0 (ops2 p) t tb) (regions (ops2 p) 2 t ls).
Proof. intros Hdim HB Hcap. eapply adaptive_race_free; [apply (tame2 p tb)|lia|exact Hdim|exact HB|exact Hcap]. Qed.
Theorem adaptive3_race_free cap fuel srcs p tb0 tb t ls : same_dim 3 srcs -> tb3_refresh tb0 (Z.of_nat p) = Ok tb ->
  build_adaptive 3 (@ps_pos R) cap fuel srcs = Ok t ->
  (cap < length srcs)%nat -> no_data_race (mem0 (ops3 p) t tb) (regions (ops3 p) 3 t ls).
Proof. intros Hdim HT HB Hcap. eapply adaptive_race_free; [apply (tame3 p tb (refresh_max _ _ _ HT))|lia|exact Hdim|exact HB|exact Hcap]. Qed.
Theorem balanced2_race_free h srcs p tb t ls : same_dim 2 srcs -> (1 <= h <= 16)%nat -> bal_build 2 (@ps_pos R) h srcs = Ok (t, ls) ->
  exists rgs, bal_regions (ops2 p) 2 t ls = Ok rgs /\ no_data_race (bmem0 (ops2 p) t tb) rgs.
Proof.
  intros Hdim Hh HB. apply (balanced_race_free (ops2 p) 2 tb _ _ _ (tame2 p tb) h srcs t ls); try lia; assumption.
Qed.
Theorem balanced3_race_free h srcs p tb0 tb t ls : same_dim 3 srcs -> (1 <= h <= 10)%nat -> tb3_refresh tb0 (Z.of_nat p) = Ok tb ->
  bal_build 3 (@ps_pos R) h srcs = Ok (t, ls) -> exists rgs, bal_regions (ops3 p) 3 t ls = Ok rgs /\ no_data_race (bmem0 (ops3 p) t tb) rgs.
Proof.
  intros Hdim Hh HT HB. apply (balanced_race_free (ops3 p) 3 tb _ _ _ (tame3 p tb (refresh_max _ _ _ HT)) h srcs t ls); try lia; assumption.
Qed.

(** Concrete cases. *)
Lemma race2_case : exists fuel t, same_dim 2 five_unit /\ build_adaptive 2 (@ps_pos R) 1 fuel five_unit = Ok t /\ (1 < length five_unit)%nat.
Proof.
  destruct tree2_case as (fuel & t & c & l & o & Hd & _ & _ & HB & _). exists fuel, t. split; [exact Hd|]. split; [exact HB|]. cbn. lia.
Qed.
Lemma race3_case : exists fuel t tb, same_dim 3 five3_unit /\ tb3_refresh tb3_init (Z.of_nat 3) = Ok tb /\ build_adaptive 3 (@ps_pos R) 1 fuel five3_unit = Ok t /\ (1 < length five3_unit)%nat.
Proof.
  destruct tree3_case as (fuel & t & c & l & o & _ & Hd & Ho & _ & HB & _ & _ & HO). exists fuel, t, (m_tb (f_mem (f3_fmm o))).
  split; [exact Hd|]. split; [|split; [exact HB|cbn; lia]].
  destruct (fmm3_schedules_agree _ _ _ _ _ _ Hd HO) as [_ E]. inversion HO as [r X1 X2 X3|p r X1 X2 X3 X4|p tb' r X1 X2 X3 X4].
  - destruct r; discriminate.
  - destruct r; discriminate.
  - destruct r as [f| | | | |]; try discriminate. cbn in X4. injection X4 as <-. cbn in E |- *. assert (p = 3%nat) by congruence. subst p. exact E.
Qed.
Lemma race_balanced_case : exists t ls, same_dim 3 five3_unit /\ bal_build 3 (@ps_pos R) 1 five3_unit = Ok (t, ls).
Proof.
  destruct balanced3_case as (c & l & _ & Hd & _ & _ & _ & _ & RB & Hl & Hin).
  destruct (proj2 (bal_build_iff 3 (@ps_pos R) five3_unit ltac:(lia) Hd 1 c l ltac:(lia) ltac:(lia) ltac:(lia) RB) (conj Hl Hin)) as ([t ls] & HB).
  exists t, ls. split; assumption.
Qed.
