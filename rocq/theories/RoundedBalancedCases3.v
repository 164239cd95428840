(** Cases for the accuracy theorems of the three-dimensional balanced tree in rounded arithmetic. *)
From Coq Require Import Reals List Bool ZArith Arith Lia Lra.
From Verif Require Import Num Outcome Vec AdaptiveTree TreeSpec FieldSpec FmmPasses BalancedTree BalancedFmm Tables3D Exp3Theorems FmmTree3D RoundedSpec RoundedProofs RoundedCases RoundedPairCases RoundedTree RoundedTreeSpec
  RoundedTreeCases RoundedExpansion3D RoundedHarmonicSpec RoundedFmmSpec RoundedFmmSpec3 RoundedApi RoundedFmmCases RoundedFmmCases3 RoundedTableSpec RoundedTableCases RoundedBalancedFmm RoundedBalancedSpec
  RoundedBalancedSpec3 RoundedBalancedTheorems3 RoundedBalancedApi3.
Import ListNotations.
Local Open Scope R_scope.

Lemma ten_bal : bal_range3 2 (1 / 10) 100 ten_charges.
Proof.
  split; [lia|]. split; [intros s Hs; cbn in Hs; intuition (subst; reflexivity)|]. split; [|split; [lra|split; cbn; lra]].
  intros j Hj. assert (B : forall s, In s ten_charges -> Rabs (nth j (ps_pos s) 0) <= 100).
  { intros s Hs. apply Rabs_le. destruct j as [|[|[|j]]]; [| | |lia]; cbn in Hs; intuition (subst; cbn; lra). }
  destruct j as [|[|[|j]]]; [| | |lia]; (split; [|split; [|exact B]]).
  + exists (PSrc [-1/10; 0; 0] (-1)). split; [left; reflexivity|cbn; lra].
  + exists (PSrc [1/10; 1/10; 0] (-1)). split; [right; left; reflexivity|cbn; lra].
  + exists (PSrc [0; -1/10; 1/10] (-1)). split; [right; right; left; reflexivity|cbn; lra].
  + exists (PSrc [1/10; 1/10; 0] (-1)). split; [right; left; reflexivity|cbn; lra].
  + exists (PSrc [0; 0; -1/10] (-1)). split; [right; right; right; left; reflexivity|cbn; lra].
  + exists (PSrc [0; -1/10; 1/10] (-1)). split; [right; right; left; reflexivity|cbn; lra].
Qed.
Lemma half_among3 : among 3 (@ps_pos R) ten_charges [1 / 2; 1 / 2; 1 / 2].
Proof.
  split; [reflexivity|]. intros j Hj. destruct j as [|[|[|j]]]; [| | |lia].
  - exists (PSrc [-99; -99; 99] (-1)), (PSrc [50; 50; 50] (-1)). split; [cbn; tauto|]. split; [cbn; tauto|cbn; lra].
  - exists (PSrc [-99; -99; 99] (-1)), (PSrc [50; 50; 50] (-1)). split; [cbn; tauto|]. split; [cbn; tauto|cbn; lra].
  - exists (PSrc [3; 7; -20] (-1)), (PSrc [50; 50; 50] (-1)). split; [cbn; tauto|]. split; [cbn; tauto|cbn; lra].
Qed.
Lemma half_representable3 : representable double_round [1 / 2; 1 / 2; 1 / 2].
Proof. intros c [<-|[<-|[<-|[]]]]; apply round_half. Qed.
Lemma ten_height : 1001 / 1000 * INR 1 <= INR (length ten_charges) * 8 /\ 1001 / 1000 * INR (length ten_charges) <= INR 1 * 8 ^ 2.
Proof. replace (INR (length ten_charges)) with 10 by (cbn; lra). cbn [INR pow]. lra. Qed.
(** The balanced tree of the ten charges for accuracy 1/100, with one source per leaf, in double precision with the code's table of spherical
    harmonics, and its potential at a point. *)
Theorem ten_bal_case : exists tb o v, tables3_after [] = Ok tb /\
  balanced_fmm3_r double_round double_norm double_log double_table_harith (fun _ _ => UB) (fun _ _ => UB) 1 (1 / 100) ten_charges tb (Ok o) /\
  leaves_within 10 (b3_fmm o) /\ among 3 (@ps_pos R) ten_charges [1 / 2; 1 / 2; 1 / 2] /\ representable double_round [1 / 2; 1 / 2; 1 / 2] /\
  bt_height (b_tree (b3_fmm o)) = 2%nat /\
  bal_potential3_at_r double_round double_norm double_log double_table_harith (fun _ _ => UB) (fun _ _ => UB) true o [1 / 2; 1 / 2; 1 / 2] = Ok v.
Proof.
  destruct (balanced_rounded3 double_round double_norm double_log _ _ _ double_is_double_like double_space double_log_accurate ltac:(lra) _ double_table_harith double_table_harmonics
    (fun _ _ => UB) (fun _ _ => UB) (1 / 100) ten_charges ltac:(lra) (proj2 ten_order) (proj1 ten_order) 1 2 _ _ ltac:(lia) (proj1 ten_height) (proj2 ten_height) ten_bal [] _ eq_refl)
    as (o & U & _ & Hn & Hh & HW & E).
  destruct (E _ [1 / 2; 1 / 2; 1 / 2] true HW half_among3 half_representable3) as (v & V & _).
  eexists. exists o, v. split; [reflexivity|]. split; [apply U; reflexivity|]. split; [exact HW|]. split; [exact half_among3|]. split; [exact half_representable3|]. split; [|exact V].
  destruct (bt_height (b_tree (b3_fmm o))) as [|[|[|k]]]; [| |reflexivity|lia]; exfalso; replace (INR (length ten_charges)) with 10 in Hn by (cbn; lra); cbn [INR pow] in Hn; lra.
Qed.
