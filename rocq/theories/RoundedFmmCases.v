(** Cases for the accuracy theorems of the two-dimensional adaptive tree in rounded arithmetic. *)
From Coq Require Import Reals List Bool ZArith Arith Lia Lra.
From Flocq Require Import Core.
From Verif Require Import Num Outcome Vec Orthtree AdaptiveTree TreeSpec CAux FieldSpec FmmPasses Expansion2D Exp2Theorems RoundedFields RoundedSpec RoundedProofs RoundedCases RoundedPairCases
  RoundedTree RoundedTreeSpec RoundedTreeCases RoundedExpansion2D RoundedComplexSpec TextbookComplex TextbookProofs RoundedFmmSpec RoundedFmmTheorems.
Import ListNotations.
Local Open Scope R_scope.

(** Double precision. *)
Notation eps49 := (/ 562949953421312) (only parsing).
Theorem double_real : accurate_real eps49 (/ 9007199254740992) (/ 4503599627370496) double_round double_norm double_log.
Proof.
  split; [lra|]. split; [lra|]. split; [lra|]. split; [apply double_accurate|]. split; [apply double_norm_accurate|apply double_log_accurate].
Qed.
Theorem double_complex : accurate_complex eps49 (textbook double_round double_norm double_log).
Proof.
  apply (textbook_accurate double_round double_norm double_log (/ 9007199254740992) (/ 4503599627370496)); try lra.
  - apply double_accurate.
  - apply double_norm_accurate.
  - apply double_log_accurate.
Qed.

(** Nine charges. *)
Definition charges : list (psrc R) := map (fun x => PSrc x (-1)) nine.
Lemma charges_refinable : in_refinable_range 2 12 (@ps_pos R) charges.
Proof.
  destruct nine_refinable as (H1 & H2 & L & m & M & S & Md & ND & AP). split; [exact H1|]. split; [exact H2|]. split; [|exists m, M; split; [|split; [exact Md|split]]].
  - intros s Hs. apply in_map_iff in Hs. destruct Hs as (x & <- & Hx). apply L. exact Hx.
  - intros j Hj. destruct (S j Hj) as ((a & Ha & A) & (b & Hb & B) & C). split; [|split].
    + exists (PSrc a (-1)). split; [apply in_map_iff; exists a; auto|exact A].
    + exists (PSrc b (-1)). split; [apply in_map_iff; exists b; auto|exact B].
    + intros s Hs. apply in_map_iff in Hs. destruct Hs as (x & <- & Hx). apply C. exact Hx.
  - apply FinFun.Injective_map_NoDup; [|exact ND]. intros a b E. injection E. auto.
  - intros s s' Hs Hs' NE. apply in_map_iff in Hs, Hs'. destruct Hs as (x & <- & Hx), Hs' as (x' & <- & Hx'). apply (AP x x'); try assumption. intros ->. apply NE. reflexivity.
Qed.
Lemma charges_plane : exists m M, plane_range 12 m M charges.
Proof.
  destruct charges_refinable as (_ & H2 & L & m & M & S & Md & _). exists m, M. split; [apply H2|]. split; [exact L|]. split; assumption.
Qed.
Lemma round_half : double_round (- (1 / 2)) = - (1 / 2).
Proof. replace (- (1 / 2)) with (IZR (-1) * bpow radix2 (-1)) by (cbn; lra). apply round_int_pow. cbn. lia. Qed.
(** The tree of the nine charges, with one source per leaf and order 10, in double precision, and its potential at a point. *)
Theorem charges_case : exists f v, make_fmm_r double_round double_norm (ops2_r (textbook double_round double_norm double_log) 10) 2 1 12 charges (table_after []) (Ok f) /\
  (at_height (f_tree f) <= 12)%nat /\
  eval_pot_r double_round double_norm double_log (ops2_r (textbook double_round double_norm double_log) 10) 2 true charges f [1 / 2; 1 / 2] = Ok v.
Proof.
  destruct (rounded_constructs double_round double_norm eps49 (textbook double_round double_norm double_log) 10 [] 12 1 12 charges double_is_double_like ltac:(lra) double_complex ltac:(lia)
    charges_refinable ltac:(lia) ltac:(lia)) as (f & Ht & U). exists f.
  destruct charges_plane as (m & M & PR). destruct (logs_within_ex 12 m M) as (B & HB).
  { destruct PR as (_ & _ & S & Md). eapply m_le_M; eassumption. }
  destruct (lists_within_ex f) as (K & HK). assert (Hf := proj2 (U _) eq_refl).
  assert (RP : representable double_round [1 / 2; 1 / 2]) by (intros c [<-|[<-|[]]]; apply round_half).
  assert (NS : forall s, In s charges -> ps_pos s <> [1 / 2; 1 / 2]). { intros s Hs E. cbn in Hs. intuition (subst; cbn in E; injection E; intros; lra). }
  destruct (rounded_lookup_ends double_round double_norm double_log eps49 _ _ double_is_double_like double_real _ double_complex 10 ltac:(lia) 12 1 12 K m M B charges PR HB [] f Hf Ht HK [1 / 2; 1 / 2]) as ([n|] & CL).
  - destruct (rounded_potential_found double_round double_norm double_log eps49 _ _ double_is_double_like double_real _ double_complex 10 ltac:(lia) 12 1 12 K m M B charges PR HB [] f Hf Ht HK [1 / 2; 1 / 2] eq_refl RP true n CL) as (v & V & _).
    exists v. auto.
  - destruct (rounded_potential_outside double_round double_norm double_log eps49 _ _ double_is_double_like double_real _ double_complex 10 ltac:(lia) 12 1 12 K m M B charges PR HB [] f Hf Ht HK [1 / 2; 1 / 2] eq_refl RP true CL NS) as (v & V & _).
    exists v. auto.
Qed.
(** Its force field at a point, with smoothing. *)
Theorem charges_force_case : exists f v, make_fmm_r double_round double_norm (ops2_r (textbook double_round double_norm double_log) 10) 2 1 12 charges (table_after []) (Ok f) /\
  (at_height (f_tree f) <= 12)%nat /\
  eval_force_r double_round double_norm (ops2_r (textbook double_round double_norm double_log) 10) 2 true (1 / 8) charges f [1 / 2; 1 / 2] = Ok v /\ length v = 2%nat.
Proof.
  destruct (rounded_constructs double_round double_norm eps49 (textbook double_round double_norm double_log) 10 [] 12 1 12 charges double_is_double_like ltac:(lra) double_complex ltac:(lia)
    charges_refinable ltac:(lia) ltac:(lia)) as (f & Ht & U). exists f.
  destruct charges_plane as (m & M & PR). destruct (logs_within_ex 12 m M) as (B & HB).
  { destruct PR as (_ & _ & S & Md). eapply m_le_M; eassumption. }
  destruct (lists_within_ex f) as (K & HK). assert (Hf := proj2 (U _) eq_refl).
  assert (RP : representable double_round [1 / 2; 1 / 2]) by (intros c [<-|[<-|[]]]; apply round_half).
  assert (NS : forall s, In s charges -> ps_pos s <> [1 / 2; 1 / 2]). { intros s Hs E. cbn in Hs. intuition (subst; cbn in E; injection E; intros; lra). }
  destruct (rounded_lookup_ends double_round double_norm double_log eps49 _ _ double_is_double_like double_real _ double_complex 10 ltac:(lia) 12 1 12 K m M B charges PR HB [] f Hf Ht HK [1 / 2; 1 / 2]) as ([n|] & CL).
  - destruct (rounded_force_found double_round double_norm double_log eps49 _ _ double_is_double_like double_real _ double_complex 10 ltac:(lia) 12 1 12 K m M B charges PR HB [] f Hf Ht HK [1 / 2; 1 / 2] eq_refl RP true (1 / 8) n ltac:(lra) CL)
      as (near & far & v & _ & _ & V & L & _). exists v. auto.
  - destruct (rounded_force_outside double_round double_norm double_log eps49 _ _ double_real (textbook double_round double_norm double_log) 10 12 m M charges PR f [1 / 2; 1 / 2] eq_refl RP true (1 / 8) ltac:(lra) CL NS) as (v & V & L & _).
    exists v. auto.
Qed.
