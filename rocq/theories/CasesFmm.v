(** Concrete cases that meet the hypotheses of theorems about whole trees and about the programs that use them. *)
From Coq Require Import List Arith Reals Lia Lra ZArith Permutation.
From Verif Require Import Num Outcome Vec Orthtree AdaptiveTree GeometrySpec CAux FieldSpec Fields BuildProofs TreeTheorems TreeTheorems3 TableProofs Exp2Theorems Tables3D Exp3Theorems
  FmmPasses FmmTree2D FmmApi FmmTree3D FmmApiProofs PassTree BalancedTree BalancedSpec BalancedFmm BalancedApiProofs BalancedTheorems
  Fmm3ApiProofs Fmm3Theorems Interfaces InterfaceProofs InterfaceTheorems IntegratorProofs FileProofs LibraryTheorems.
Import ListNotations.
Local Open Scope R_scope.

Lemma tree2_case : exists fuel t c l o, same_dim 2 five_unit /\ order_of 1 five_unit = Ok 3%nat /\ (1 <= 3)%nat /\
  build_adaptive 2 (@ps_pos R) 1 fuel five_unit = Ok t /\ root_box 2 (map (@ps_pos R) five_unit) = Some (c, l) /\
  (forall s, In s five_unit -> in_box 2 c l (ps_pos s)) /\ adaptive_fmm2 1 fuel 1 five_unit (table_after []) (Ok o).
Proof.
  destruct five_unit_case as (Hd & Hs & Hc & Ho & He).
  destruct (proj2 (adaptive_builds 2 (@ps_pos R) 1 five_unit ltac:(lia) ltac:(discriminate) Hd Hs) Hc) as (fuel & t & HB).
  destruct (fmm2_usable [] 1 1 five_unit 3 Hd Hs Hc Ho He) as (_ & _ & c & l & RB & Hin & _).
  destruct (fmm2_potential [] 1 fuel 1 five_unit 3 t c l Hd Ho ltac:(lia) HB RB Hin) as (o & Hex & _).
  exists fuel, t, c, l, o. repeat (split; [first [assumption|lia]|]). apply Hex. reflexivity.
Qed.
Lemma tree3_case : exists fuel t c l o, tables3_after [] = Ok tb3_init /\ same_dim 3 five3_unit /\ order_of 1 five3_unit = Ok 3%nat /\ (1 <= 3 <= 42)%nat /\
  build_adaptive 3 (@ps_pos R) 1 fuel five3_unit = Ok t /\ root_box 3 (map (@ps_pos R) five3_unit) = Some (c, l) /\
  (forall s, In s five3_unit -> in_box 3 c l (ps_pos s)) /\ adaptive_fmm3 1 fuel 1 five3_unit tb3_init (Ok o).
Proof.
  destruct five3_case as (Hd & Hs & _ & Hc & Ho & He).
  assert (TB : tables3_after [] = Ok tb3_init) by apply five3_tables.
  destruct (fmm3_usable [] tb3_init 1 1 five3_unit 3 TB Hd Hs Hc Ho He ltac:(lia)) as (fuel & t & o & c & l & RB & Hin & HB & Hex & _).
  exists fuel, t, c, l, o. repeat (split; [first [assumption|lia]|]). apply Hex. reflexivity.
Qed.
Lemma height3_case : bal_height 3 (length five3_unit) 1 = Ok 1%nat.
Proof.
  apply bal_height_spec; [lia|]. cbn [length five3_unit five3 map]. split; [lia|]. split; [cbn; lia|]. split; [reflexivity|]. split; [cbn; lia|].
  intros [|k] Hk; cbn; lia.
Qed.
Lemma balanced3_case : exists c l, tables3_after [] = Ok tb3_init /\ same_dim 3 five3_unit /\ spread 3 (@ps_pos R) five3_unit /\
  bal_height 3 (length five3_unit) 1 = Ok 1%nat /\ (1 < length five3_unit * 2 ^ 3)%nat /\ (Z.of_nat (length five3_unit) <= Z.of_nat 1 * 2 ^ 30)%Z /\
  root_box 3 (map (@ps_pos R) five3_unit) = Some (c, l) /\ 0 < l /\ (forall s, In s five3_unit -> in_half_open 3 c l (ps_pos s)).
Proof.
  destruct five3_case as (Hd & _ & Hs & _).
  destruct (spread_inside 3 (@ps_pos R) five3_unit ltac:(lia) Hd Hs) as (c & l & RB & _ & Hl & Hin).
  exists c, l. split; [apply five3_tables|]. split; [exact Hd|]. split; [exact Hs|]. split; [exact height3_case|].
  split; [cbn; lia|]. split; [cbn; lia|]. split; [exact RB|]. split; assumption.
Qed.
(** A tree over the sources of the argument arrays, with the values it reports. *)
Definition value_of {A} (d : A) (r : outcome A) : A := match r with Ok v => v | _ => d end.
Lemma library_case : exists fuel o g h,
  exactly (adaptive_fmm2 1 fuel 1 (sources_in 2 five_pos five_chg) (table_after [])) (Ok o) /\
  (forall x, In x (points_in 2 [0; 0; 5; 5]) -> potential_at true (sources_in 2 five_pos five_chg) o x = Ok (g x)) /\
  (forall s, In s (sources_in 2 five_pos five_chg) -> force_at true 0 (sources_in 2 five_pos five_chg) o (ps_pos s) = Ok (h (ps_pos s)) /\ length (h (ps_pos s)) = 2%nat).
Proof.
  rewrite five_sources. destruct tree2_case as (fuel & t & c & l & o & Hd & Ho & Hp & HB & RB & Hin & HO).
  exists fuel, o, (fun x => value_of 0 (potential_at true five_unit o x)), (fun x => value_of [] (force_at true 0 five_unit o x)).
  destruct (fmm2_potential [] 1 fuel 1 five_unit 3 t c l Hd Ho Hp HB RB Hin) as (o' & Hex & _ & P).
  destruct (fmm2_force [] 1 fuel 1 five_unit 3 t c l Hd Ho Hp HB RB Hin) as (o2 & Hex2 & F).
  assert (E : o' = o) by (apply Hex in HO; congruence). assert (E2 : o2 = o) by (apply Hex2 in HO; congruence). subst o' o2.
  split; [exact Hex|]. split.
  - intros x Hx. destruct (P true x) as (v & V & _); [|rewrite V; reflexivity].
    unfold points_in in Hx. cbn in Hx. destruct Hx as [<-|[<-|[]]]; reflexivity.
  - intros s Hs. destruct (F true 0 (ps_pos s) (Hd s Hs) (Rle_refl 0)) as (v & V & _). rewrite V. split; reflexivity.
Qed.
Lemma outside_tree_case : exists fuel t c l o, build_adaptive 2 (@ps_pos R) 1 fuel five_unit = Ok t /\ root_box 2 (map (@ps_pos R) five_unit) = Some (c, l) /\
  adaptive_fmm2 1 fuel 1 five_unit (table_after []) (Ok o) /\ exists x, length x = 2%nat /\ ~ in_box 2 c l x.
Proof.
  destruct tree2_case as (fuel & t & c & l & o & Hd & Ho & Hp & HB & RB & Hin & HO). exists fuel, t, c, l, o.
  split; [exact HB|]. split; [exact RB|]. split; [exact HO|]. exists [nth 0 c 0 + Rabs l + 1; 0]. split; [reflexivity|].
  intros H. specialize (H 0%nat ltac:(lia)). cbn [nth] in H. pose proof (Rle_abs l). pose proof (Rabs_pos l). lra.
Qed.
Lemma forces3_outputs : (length five3_pos / 3 <= length five_chg)%nat /\ straddles 3 (sources_in 3 five3_pos five_chg) /\
  order_of 1 (sources_in 3 five3_pos five_chg) = Ok 3%nat /\ 1 < abs_charge (sources_in 3 five3_pos five_chg) /\
  (forall x, count_occ list_R_eq_dec (map (@ps_pos R) (sources_in 3 five3_pos five_chg)) x <= 1)%nat /\
  NoDup (map (@ps_pos R) (sources_in 3 five3_pos five_chg)).
Proof.
  rewrite five3_sources. destruct five3_case as (Hd & Hs & _ & Hc & Ho & He). split; [cbn; lia|].
  repeat (split; [assumption|]). apply (NoDup_count_occ list_R_eq_dec). exact Hc.
Qed.
Lemma integrator_case : (5 <= length [1; 2; 1; 1; 3])%nat /\ (forall i, (i < 5)%nat -> nth i [1; 2; 1; 1; 3] 0 <> 0) /\
  NoDup (map (@ps_pos R) five_unit).
Proof.
  split; [cbn; lia|]. split; [intros i Hi; do 5 (destruct i as [|i]; [cbn; lra|]); lia|].
  apply (NoDup_count_occ list_R_eq_dec). apply five_unit_case.
Qed.
