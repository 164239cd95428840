(** Cases for the accuracy theorems of the balanced tree of the plane in rounded arithmetic. *)
From Coq Require Import Reals List Bool ZArith Arith Lia Lra.
From Verif Require Import Num Outcome Vec Orthtree AdaptiveTree TreeSpec CAux FieldSpec FmmPasses BalancedTree BalancedFmm Expansion2D Exp2Theorems RoundedFields RoundedSpec RoundedProofs RoundedCases RoundedPairCases
  RoundedTree RoundedTreeSpec RoundedTreeCases RoundedExpansion2D RoundedComplexSpec TextbookComplex TextbookProofs RoundedFmmSpec RoundedFmmTheorems RoundedFmmCases RoundedBalancedFmm RoundedBalancedSpec RoundedBalancedTheorems.
Import ListNotations.
Local Open Scope R_scope.

Lemma charges_bal : exists m M, bal_range 3 m M charges.
Proof.
  destruct charges_plane as (m & M & _ & Hd & HS & P1 & P2 & P3). exists m, M. split; [lia|]. split; [exact Hd|]. split; [exact HS|]. split; [exact P1|]. split; [exact P2|].
  assert (HM : 0 < m <= M) by (eapply (m_le_M 12); [exact HS|split; [exact P1|split; assumption]]). cbn [pow] in *. lra.
Qed.
Lemma half_among : among 2 (@ps_pos R) charges [1 / 2; 1 / 2].
Proof.
  split; [reflexivity|]. intros j Hj. exists (PSrc [-99; -99] (-1)), (PSrc [50; 50] (-1)).
  split; [cbn; tauto|]. split; [cbn; tauto|]. destruct j as [|[|j]]; [cbn; lra|cbn; lra|lia].
Qed.
Lemma half_representable : representable double_round [1 / 2; 1 / 2].
Proof. intros c [<-|[<-|[]]]; apply round_half. Qed.
Notation eps49 := (/ 562949953421312) (only parsing).
Theorem charges_bal_case : exists f v,
  make_bal_r double_round double_norm (ops2_r (textbook double_round double_norm double_log) 10) 2 3 charges (table_after []) (Ok f) /\
  bt_height (b_tree f) = 3%nat /\ leaves_within 9 f /\ among 2 (@ps_pos R) charges [1 / 2; 1 / 2] /\ representable double_round [1 / 2; 1 / 2] /\
  bal_pot_r double_round double_norm double_log (ops2_r (textbook double_round double_norm double_log) 10) 2 true f [1 / 2; 1 / 2] = Ok v.
Proof.
  destruct charges_bal as (m & M & HR).
  destruct (rounded_bal_constructs double_round double_norm eps49 (textbook double_round double_norm double_log) 10 [] 3 m M charges double_is_double_like ltac:(lra) double_complex ltac:(lia) HR) as (f & Ht & U).
  assert (Hf := proj2 (U _) eq_refl). assert (HW := leaves_within_all _ _ _ _ _ _ _ _ _ double_is_double_like HR Hf). change (length charges) with 9%nat in HW.
  destruct (bal_logs _ _ _ _ HR) as (B & HL).
  destruct (rounded_bal_potential double_round double_norm double_log eps49 _ _ double_is_double_like double_real _ double_complex 10 ltac:(lia) 3 9 m M charges HR [] f Hf HW _ half_among half_representable B true HL) as (v & V & _).
  exists f, v. split; [exact Hf|]. split; [exact Ht|]. split; [exact HW|]. split; [exact half_among|]. split; [exact half_representable|exact V].
Qed.
Theorem charges_bal_force_case : exists f v,
  make_bal_r double_round double_norm (ops2_r (textbook double_round double_norm double_log) 10) 2 3 charges (table_after []) (Ok f) /\
  leaves_within 9 f /\ among 2 (@ps_pos R) charges [1 / 2; 1 / 2] /\ representable double_round [1 / 2; 1 / 2] /\
  bal_force_r double_round double_norm (ops2_r (textbook double_round double_norm double_log) 10) 2 true (1 / 8) f [1 / 2; 1 / 2] = Ok v /\ length v = 2%nat.
Proof.
  destruct charges_bal as (m & M & HR).
  destruct (rounded_bal_constructs double_round double_norm eps49 (textbook double_round double_norm double_log) 10 [] 3 m M charges double_is_double_like ltac:(lra) double_complex ltac:(lia) HR) as (f & Ht & U).
  assert (Hf := proj2 (U _) eq_refl). assert (HW := leaves_within_all _ _ _ _ _ _ _ _ _ double_is_double_like HR Hf). change (length charges) with 9%nat in HW.
  destruct (rounded_bal_force double_round double_norm double_log eps49 _ _ double_is_double_like double_real _ double_complex 10 ltac:(lia) 3 9 m M charges HR [] f Hf HW _ half_among half_representable true (1 / 8) ltac:(lra))
    as (near & far & v & _ & _ & V & L & _).
  exists f, v. split; [exact Hf|]. split; [exact HW|]. split; [exact half_among|]. split; [exact half_representable|]. split; [exact V|exact L].
Qed.
