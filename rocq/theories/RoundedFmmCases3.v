(** Cases for the accuracy theorems of the three-dimensional adaptive tree in rounded arithmetic. *)
From Coq Require Import Reals List Bool ZArith Arith Lia Lra.
From Coquelicot Require Import Complex.
From Flocq Require Import Core.
From Verif Require Import Num Outcome Vec Orthtree AdaptiveTree TreeSpec CAux FieldSpec FmmPasses Tables3D Spherical Kernel3 Harmonics3D Exp3Loops Exp3Theorems CoefNorms FmmTree3D Expansion3D
  RoundedFields RoundedSpec RoundedProofs RoundedCases RoundedPairCases RoundedTree RoundedTreeSpec RoundedTreeCases RoundedExpansion2D RoundedExpansion3D RoundedComplexSpec
  RoundedHarmonicSpec TextbookComplex TextbookProofs RoundedFmmSpec RoundedFmmSpec3 RoundedFmmTheorems RoundedApi RoundedApi3 RoundedFmmTheorems3 RoundedFmmCases.
Import ListNotations.
Local Open Scope R_scope.

(** Double precision, with correctly rounded spherical harmonics. *)
Definition double_harith : harith :=
  mkha (textbook double_round double_norm double_log) double_round (fun a b => double_round (a - b)) double_norm
    (fun v l m => match to_spherical 3 v with
                  | Ok [r; th; ph] => (double_round (Re (Yr (polar 1 th ph) l m)), double_round (Im (Yr (polar 1 th ph) l m)))
                  | _ => RtoC 0
                  end)
    (fun _ _ a => double_round a).
Lemma w_pow l : / 562949953421312 <= (1 + / 562949953421312) ^ (1 * (Z.to_nat l + 1)) - 1.
Proof. rewrite Nat.mul_1_l, pow_add, pow_1. assert (G := pow_R1_Rle (1 + / 562949953421312) (Z.to_nat l) ltac:(lra)). nra. Qed.
Theorem double_harmonics : accurate_harmonics (/ 562949953421312) 1 double_harith.
Proof.
  assert (DR : forall x, close (/ 562949953421312) (double_round x) x).
  { intros x. unfold close. eapply Rle_trans; [apply double_accurate|]. apply Rmult_le_compat_r; [apply Rabs_pos|lra]. }
  constructor; cbn [double_harith h_c h_rnd h_dif h_norm h_ylm h_alm].
  - exact double_complex.
  - exact DR.
  - intros a b. apply DR.
  - intros x y z. unfold close. rewrite (Rabs_right (sqrt _)) by (apply Rle_ge, sqrt_pos).
    replace (sqrt (x * x + y * y + z * z)) with (sqrt (rsum (fun c => c ^ 2) [x; y; z])) by (f_equal; unfold rsum; cbn; ring).
    eapply Rle_trans; [apply double_norm_accurate|]. apply Rmult_le_compat_r; [apply sqrt_pos|lra].
  - intros x y z r th ph lmax tab l m Y T HT Hl HY. rewrite T.
    destruct (spherical_ok [x; y; z] eq_refl) as (r' & th' & ph' & T' & _ & _ & _ & S). rewrite T in T'. injection T' as <- <- <-.
    destruct (ylm_table_ok lmax th ph S ltac:(lia)) as (tab' & HT' & HV). rewrite HT in HT'. injection HT' as <-.
    rewrite HV in HY by lia. injection HY as <-. eapply Rle_trans; [|apply w_pow]. set (V := Yr (polar 1 th ph) l m).
    assert (B : Cmod V <= 1). { eapply Rle_trans; [apply Yr_pt; lia|]. rewrite polar_pn by lra. rewrite pow1. lra. }
    replace ((double_round (Re V), double_round (Im V)) - V)%C with (double_round (Re V) - Re V, double_round (Im V) - Im V) by (destruct V; reflexivity).
    eapply Rle_trans; [apply Cmod_2Rmax|]. cbn [fst snd].
    assert (P1 : Rabs (Re V) <= 1) by (eapply Rle_trans; [eapply Rle_trans; [apply Rmax_l|apply Rmax_Cmod]|exact B]).
    assert (P2 : Rabs (Im V) <= 1). { eapply Rle_trans; [eapply Rle_trans; [apply Rmax_r|apply Rmax_Cmod]|exact B]. }
    assert (Q1 := double_accurate (Re V)). assert (Q2 := double_accurate (Im V)).
    assert (S2 : sqrt 2 <= 2). { rewrite <- (sqrt_square 2) at 2 by lra. apply sqrt_le_1_alt. lra. }
    assert (X : Rmax (Rabs (double_round (Re V) - Re V)) (Rabs (double_round (Im V) - Im V)) <= / 9007199254740992).
    { apply Rmax_lub; [eapply Rle_trans; [exact Q1|]|eapply Rle_trans; [exact Q2|]]; rewrite <- (Rmult_1_r (/ 9007199254740992)) at 2; apply Rmult_le_compat_l; lra. }
    assert (Y0 : 0 <= Rmax (Rabs (double_round (Re V) - Re V)) (Rabs (double_round (Im V) - Im V))) by (eapply Rle_trans; [apply Rabs_pos|apply Rmax_l]).
    assert (Z0 := sqrt_pos 2). nra.
  - intros n m a. apply DR.
Qed.
Theorem double_space : accurate_space (/ 562949953421312) (/ 9007199254740992) (/ 4503599627370496) double_round double_norm.
Proof. split; [lra|]. split; [lra|]. split; [lra|]. split; [apply double_accurate|apply double_norm_accurate]. Qed.

(** Ten charges of space, at distances from a tenth to hundred. *)
Definition ten : list (list R) :=
  [[-1/10; 0; 0]; [1/10; 1/10; 0]; [0; -1/10; 1/10]; [0; 0; -1/10]; [3; 7; -20]; [-100; 20; 40]; [50; 50; 50]; [50; 51; 50]; [-99; -99; 99]; [1; -100; -100]].
Definition ten_charges : list (psrc R) := map (fun x => PSrc x (-1)) ten.
Theorem ten_refinable : in_refinable_range 3 12 (@ps_pos R) ten_charges.
Proof.
  split; [lia|]. split; [lia|]. split; [intros s Hs; cbn in Hs; intuition (subst; reflexivity)|]. exists (1/10), 100. split; [|split].
  - intros j Hj. assert (B : forall s, In s ten_charges -> Rabs (nth j (ps_pos s) 0) <= 100).
    { intros s Hs. apply Rabs_le. destruct j as [|[|[|j]]]; [| | |lia]; cbn in Hs; intuition (subst; cbn; lra). }
    destruct j as [|[|[|j]]]; [| | |lia]; (split; [|split; [|exact B]]).
    + exists (PSrc [-1/10; 0; 0] (-1)). split; [left; reflexivity|cbn; lra].
    + exists (PSrc [1/10; 1/10; 0] (-1)). split; [right; left; reflexivity|cbn; lra].
    + exists (PSrc [0; -1/10; 1/10] (-1)). split; [right; right; left; reflexivity|cbn; lra].
    + exists (PSrc [1/10; 1/10; 0] (-1)). split; [right; left; reflexivity|cbn; lra].
    + exists (PSrc [0; 0; -1/10] (-1)). split; [right; right; right; left; reflexivity|cbn; lra].
    + exists (PSrc [0; -1/10; 1/10] (-1)). split; [right; right; left; reflexivity|cbn; lra].
  - split; [lra|split; cbn; lra].
  - split.
    + unfold ten_charges, ten. cbn [map]. repeat constructor; intros H; cbn in H; repeat destruct H as [H|H]; try (injection H; intros; lra); destruct H.
    + intros s s' Hs Hs' NE. replace (2 ^ 12) with 4096 by (cbn; lra). cbn in Hs, Hs'.
      repeat destruct Hs as [Hs|Hs]; try contradiction; repeat destruct Hs' as [Hs'|Hs']; try contradiction; subst; try (exfalso; apply NE; reflexivity);
      (exists 0%nat; split; [lia|]; cbn [nth ps_pos]; unfold Rabs; destruct Rcase_abs; lra) || (exists 1%nat; split; [lia|]; cbn [nth ps_pos]; unfold Rabs; destruct Rcase_abs; lra)
      || (exists 2%nat; split; [lia|]; cbn [nth ps_pos]; unfold Rabs; destruct Rcase_abs; lra).
Qed.
Lemma ten_space : exists m M, space_range 12 m M ten_charges.
Proof. destruct ten_refinable as (_ & H2 & L & m & M & S & Md & _). exists m, M. split; [apply H2|]. split; [exact L|]. split; assumption. Qed.
Lemma ten_order : 1001 / 1000 * (1 / 100) < abs_charge ten_charges <= 2 ^ 41 * (1 / 100) /\ INR (length ten_charges) * / 9007199254740992 <= / 10000.
Proof.
  replace (abs_charge ten_charges) with 10.
  2:{ unfold abs_charge, rsum, ten_charges, ten. cbn [map fold_right ps_q]. unfold Rabs. destruct Rcase_abs; lra. }
  replace (INR (length ten_charges)) with 10 by (cbn; lra). cbn [pow]. lra.
Qed.
(** The tree of the ten charges for accuracy 1/100, with one source per leaf, in double precision, and its potential at a point. *)
Theorem ten_case : exists tb o v, tables3_after [] = Ok tb /\
  adaptive_fmm3_r double_round double_norm double_log double_harith (fun _ _ => UB) (fun _ _ => UB) 1 12 (1 / 100) ten_charges tb (Ok o) /\
  potential3_at_r double_round double_norm double_log double_harith (fun _ _ => UB) (fun _ _ => UB) true ten_charges o [1 / 2; 1 / 2; 1 / 2] = Ok v.
Proof.
  destruct (adaptive_rounded3 double_round double_norm double_log _ _ _ double_is_double_like double_space double_log_accurate ltac:(lra) 1 double_harith double_harmonics
    (fun _ _ => UB) (fun _ _ => UB) (1 / 100) ten_charges ltac:(lra) (proj2 ten_order) (proj1 ten_order) 1 12 12 ltac:(lia) ltac:(lia) ten_refinable [] _ eq_refl) as (o & U & _ & Hh & E).
  destruct ten_space as (m & M & SR). destruct (lists_within_ex (f3_fmm o)) as (K & HK).
  assert (RP : representable double_round [1 / 2; 1 / 2; 1 / 2]) by (intros c [<-|[<-|[<-|[]]]]; apply round_half).
  assert (NS : forall s, In s ten_charges -> ps_pos s <> [1 / 2; 1 / 2; 1 / 2]). { intros s Hs E'. cbn in Hs. intuition (subst; cbn in E'; injection E'; intros; lra). }
  destruct (E m M K [1 / 2; 1 / 2; 1 / 2] true SR HK eq_refl RP) as ((ol & CL) & E1 & E2). assert (Hf := proj2 (U _) eq_refl).
  eexists. exists o. destruct ol as [n|].
  - destruct (E1 n CL) as (v & V & _). exists v. split; [reflexivity|]. split; [exact Hf|exact V].
  - destruct (E2 CL NS) as (v & V & _). exists v. split; [reflexivity|]. split; [exact Hf|exact V].
Qed.
