(** The fast and the direct functions of the Mathematica library agree up to the error bounds; accuracy of the integrator's derivative. *)
From Coq Require Import List Bool ZArith Arith Lia Lra Reals Permutation.
From Verif Require Import Num Outcome Vec Orthtree AdaptiveTree TreeSpec VecProofs GeometrySpec GeometryProofs TreeGeometry
  AdaptiveProofs BuildProofs RootBoxProofs TreeTheorems TreeTheorems3 Tables Tables3D CAux TableProofs FieldSpec Schedule Fields FieldProofs FieldTheorems
  FmmPasses PassTree FmmTree2D FmmTree2DProofs FmmTheorems FmmApi FmmApiProofs Expansion2D Exp2Errors Exp2Theorems FmmTree3D Exp3Theorems Fmm3ApiProofs Fmm3Theorems Fmm3ForceProofs Force3Theorems
  Interfaces InterfaceProofs InterfaceTheorems IntegratorProofs.
Import ListNotations.
Local Open Scope R_scope.

Lemma trunc_nonneg p srcs : 0 <= trunc_bound (sqrt 2 / 2) p * abs_charge srcs.
Proof. apply Rmult_le_pos; [apply trunc_bound_nonneg; apply ratio2_lt|]. apply rsum_nonneg; intros; apply Rabs_pos. Qed.
Lemma distinct_counts (srcs : list (psrc R)) cap : NoDup (map (@ps_pos R) srcs) -> (1 <= cap)%nat -> (forall x, count_occ list_R_eq_dec (map (@ps_pos R) srcs) x <= cap)%nat.
Proof. intros ND Hc x. apply (NoDup_count_occ list_R_eq_dec) with (x := x) in ND. lia. Qed.

(** ** Two dimensions *)
Section Two.
Variables (orders : list nat) (cap : nat) (eps : R) (pos chg : list R) (p : nat).
Notation srcs := (sources_in 2 pos chg).
Hypothesis Hchg : (length pos / 2 <= length chg)%nat.
Hypothesis Hst : straddles 2 srcs.
Hypothesis Hord : order_of eps srcs = Ok p.
Hypothesis HA : eps < abs_charge srcs.
Theorem library2_potentials grav pts out out' : (forall x, count_occ list_R_eq_dec (map (@ps_pos R) srcs) x <= cap)%nat ->
  length out = (length pts / 2)%nat -> length out' = (length pts / 2)%nat -> exists fuel r r',
  exactly (FMMEvaluatePotentials 2 fmm_obj (fun s => adaptive_fmm2 cap fuel eps s (table_after orders)) (potential_at grav) pos chg pts out) (Ok r) /\
  exactly (DirectEvaluatePotentials 2 grav pos chg pts out') (Ok r') /\ length r = (length pts / 2)%nat /\ length r' = (length pts / 2)%nat /\
  forall i, (i < length pts / 2)%nat -> Rabs (nth i r 0 - nth i r' 0) <= trunc_bound (sqrt 2 / 2) p * abs_charge srcs.
Proof.
  intros Hcnt Ho Ho'. destruct (fmm2_usable orders cap eps srcs p (sources_in_dim 2 pos chg ltac:(lia)) Hst Hcnt Hord HA) as (fuel & o & c & l & _ & Hbox & U & V).
  exists fuel. apply (compare_potentials 2 fmm_obj _ _ grav ltac:(lia) pos chg o c l); try assumption.
  - apply trunc_nonneg.
  - apply V.
  - apply (in_box_dec 2 ltac:(lia)).
Qed.
Theorem library2_energies grav out out' : NoDup (map (@ps_pos R) srcs) -> (1 <= cap)%nat ->
  length out = (length pos / 2)%nat -> length out' = (length pos / 2)%nat -> exists fuel r r',
  exactly (FMMParticlePotentialEnergies 2 fmm_obj (fun s => adaptive_fmm2 cap fuel eps s (table_after orders)) (potential_at grav) pos chg out) (Ok r) /\
  exactly (DirectParticlePotentialEnergies 2 grav pos chg out') (Ok r') /\ length r = (length pos / 2)%nat /\ length r' = (length pos / 2)%nat /\
  forall i, (i < length pos / 2)%nat -> Rabs (nth i r 0 - nth i r' 0) <= Rabs (nth i chg 0) * (trunc_bound (sqrt 2 / 2) p * abs_charge srcs).
Proof.
  intros ND Hc Ho Ho'. destruct (fmm2_usable orders cap eps srcs p (sources_in_dim 2 pos chg ltac:(lia)) Hst (distinct_counts _ _ ND Hc) Hord HA) as (fuel & o & c & l & _ & Hbox & U & V).
  exists fuel. apply (compare_energies 2 fmm_obj _ _ grav ltac:(lia) pos chg o c l); try assumption. apply V.
Qed.
End Two.
(** Unsmoothed forces at the sources. *)
Lemma fmm2_source_forces orders cap eps srcs p : same_dim 2 srcs -> straddles 2 srcs -> (forall x, count_occ list_R_eq_dec (map (@ps_pos R) srcs) x <= cap)%nat ->
  order_of eps srcs = Ok p -> eps < abs_charge srcs -> exists fuel t c l o, root_box 2 (map (@ps_pos R) srcs) = Some (c, l) /\
    build_adaptive 2 (@ps_pos R) cap fuel srcs = Ok t /\ exactly (adaptive_fmm2 cap fuel eps srcs (table_after orders)) (Ok o) /\ (forall s, In s srcs -> in_box 2 c l (ps_pos s)) /\
    forall grav s, In s srcs -> exists v, force_at grav 0 srcs o (ps_pos s) = Ok v /\ length v = 2%nat /\ forall k, (k < 2)%nat ->
      Rabs (nth k v 0 - nth k (direct_force 2 grav 0 (filter (fun u => negb (is_at (ps_pos s) u)) srcs) (ps_pos s)) 0) <=
      (sqrt 2 / 2) ^ p / ((2 - sqrt 2) * (l / 2 ^ at_height t)) * abs_charge srcs.
Proof.
  intros Hdim Hst Hcnt Hord HA. assert (Hp := order_pos _ _ _ Hord HA).
  assert (HN : srcs <> []). { intros ->. destruct (Hst 0%nat ltac:(lia)) as [(s & [] & _) _]. }
  destruct (proj2 (adaptive_builds 2 (@ps_pos R) cap srcs ltac:(lia) HN Hdim Hst) Hcnt) as (fuel & t & HB).
  destruct (adaptive_inv 2 (@ps_pos R) cap fuel srcs t ltac:(lia) Hdim HB) as (c & l & h & HR & _).
  assert (Hbox := root_box_contains 2 (@ps_pos R) srcs c l ltac:(lia) Hdim HR Hst).
  destruct (fmm2_potential orders cap fuel eps srcs p t c l Hdim Hord Hp HB HR Hbox) as (o & U & _).
  exists fuel, t, c, l, o. split; [exact HR|]. split; [exact HB|]. split; [exact U|]. split; [exact Hbox|]. intros grav s Hs.
  destruct (fmm2_force_unsmoothed orders cap fuel eps srcs p t c l Hdim Hord Hp HB HR Hbox o (proj2 (U _) eq_refl) grav (ps_pos s) (Hdim s Hs)) as (v & E & L & B).
  exists v. split; [exact E|]. split; [exact L|]. apply B, Hbox. exact Hs.
Qed.
Theorem library2_forces orders cap eps pos chg p grav out out' : let srcs := sources_in 2 pos chg in
  (length pos / 2 <= length chg)%nat -> straddles 2 srcs -> order_of eps srcs = Ok p -> eps < abs_charge srcs ->
  NoDup (map (@ps_pos R) srcs) -> (1 <= cap)%nat ->
  length out = (length pos / 2 * 2)%nat -> length out' = (length pos / 2 * 2)%nat -> exists fuel t c l r r',
  root_box 2 (map (@ps_pos R) srcs) = Some (c, l) /\ build_adaptive 2 (@ps_pos R) cap fuel srcs = Ok t /\
  exactly (FMMParticleForces 2 fmm_obj (fun s => adaptive_fmm2 cap fuel eps s (table_after orders)) (force_at grav 0) pos chg out) (Ok r) /\
  exactly (DirectParticleForces 2 grav 0 pos chg out') (Ok r') /\
  forall i k, (i < length pos / 2)%nat -> (k < 2)%nat -> Rabs (nth (2 * i + k) r 0 - nth (2 * i + k) r' 0) <=
    Rabs (nth i chg 0) * ((sqrt 2 / 2) ^ p / ((2 - sqrt 2) * (l / 2 ^ at_height t)) * abs_charge srcs).
Proof.
  intros srcs Hchg Hst Hord HA ND Hc Ho Ho'.
  destruct (fmm2_source_forces orders cap eps srcs p (sources_in_dim 2 pos chg ltac:(lia)) Hst (distinct_counts _ _ ND Hc) Hord HA) as (fuel & t & c & l & o & HR & HB & U & Hbox & V).
  destruct (compare_forces 2 fmm_obj (fun s => adaptive_fmm2 cap fuel eps s (table_after orders)) (force_at grav 0) grav ltac:(lia) pos chg o
    ((sqrt 2 / 2) ^ p / ((2 - sqrt 2) * (l / 2 ^ at_height t)) * abs_charge srcs) Hchg U 0 out out' (Rle_refl 0) ND (V grav) Ho Ho') as (r & r' & A & B & C).
  exists fuel, t, c, l, r, r'. split; [exact HR|]. split; [exact HB|]. split; [exact A|]. split; [exact B|]. exact C.
Qed.
(** The derivative computed by the integrator: velocities, and accelerations up to the error bound. *)
Theorem integrator2_derivative orders cap eps n charges masses y f p grav : 
  let srcs := map (fun i => PSrc (point_at 2 y i) (nth i charges 0)) (seq 0 n) in
  length y = (2 * n * 2)%nat -> length f = (2 * n * 2)%nat -> (n <= length masses)%nat -> (n <= length charges)%nat ->
  (forall i, (i < n)%nat -> nth i masses 0 <> 0) ->
  straddles 2 srcs -> order_of eps srcs = Ok p -> eps < abs_charge srcs -> (forall x, count_occ list_R_eq_dec (map (@ps_pos R) srcs) x <= cap)%nat ->
  exists fuel t c l r, root_box 2 (map (@ps_pos R) srcs) = Some (c, l) /\ build_adaptive 2 (@ps_pos R) cap fuel srcs = Ok t /\
  exactly (derivative_func 2 fmm_obj (fun s => adaptive_fmm2 cap fuel eps s (table_after orders)) (force_at grav 0) n charges masses y f) (Ok r) /\
  length r = (2 * n * 2)%nat /\ (forall k, (k < n * 2)%nat -> nth k r 0 = nth (n * 2 + k) y 0) /\
  forall i k, (i < n)%nat -> (k < 2)%nat ->
    Rabs (nth (n * 2 + i * 2 + k) r 0 -
      nth i charges 0 / nth i masses 0 * nth k (direct_force 2 grav 0 (filter (fun u => negb (is_at (point_at 2 y i) u)) srcs) (point_at 2 y i)) 0) <=
    Rabs (nth i charges 0 / nth i masses 0) * ((sqrt 2 / 2) ^ p / ((2 - sqrt 2) * (l / 2 ^ at_height t)) * abs_charge srcs).
Proof.
  intros srcs Ly Lf Lm Lc Hm Hst Hord HA Hcnt.
  assert (Hdim : same_dim 2 srcs).
  { intros s Hs. apply in_map_iff in Hs. destruct Hs as (i & <- & Hi). apply in_seq in Hi. cbn [ps_pos]. unfold point_at. rewrite firstn_length, skipn_length. lia. }
  destruct (fmm2_source_forces orders cap eps srcs p Hdim Hst Hcnt Hord HA) as (fuel & t & c & l & o & HR & HB & U & Hbox & V).
  destruct (derivative_ok 2 fmm_obj (fun s => adaptive_fmm2 cap fuel eps s (table_after orders)) (force_at grav 0) n charges masses y f o
    (fun x => val_of [] (force_at grav 0 srcs o x)) ltac:(lia) Ly Lf Lm Lc U) as (r & A & L & B & C); [|exact Hm|].
  - intros s Hs. destruct (V grav s Hs) as (v & E & Lv & _). unfold srcs in *. rewrite E. split; [reflexivity|exact Lv].
  - exists fuel, t, c, l, r. split; [exact HR|]. split; [exact HB|]. split; [exact A|]. split; [exact L|]. split; [exact B|].
    intros i k Hi Hk. rewrite (C i k Hi Hk). set (s := PSrc (point_at 2 y i) (nth i charges 0)).
    assert (Hs : In s srcs) by (apply (in_map (fun i => PSrc (point_at 2 y i) (nth i charges 0))), in_seq; lia).
    destruct (V grav s Hs) as (v & E & _ & Bv). cbn [ps_pos s] in *. rewrite E. cbn [val_of]. specialize (Bv k Hk).
    match goal with |- Rabs (?q * ?a / ?m - ?q / ?m * ?b) <= _ => replace (q * a / m - q / m * b) with (q / m * (a - b)) by (unfold Rdiv; ring) end.
    rewrite Rabs_mult. apply Rmult_le_compat_l; [apply Rabs_pos|exact Bv].
Qed.

(** ** Three dimensions *)
Section Three.
Variables (orders : list nat) (tb0 : tb3) (cap : nat) (eps : R) (pos chg : list R) (p : nat).
Notation srcs := (sources_in 3 pos chg).
Hypothesis Htb : tables3_after orders = Ok tb0.
Hypothesis Hchg : (length pos / 3 <= length chg)%nat.
Hypothesis Hst : straddles 3 srcs.
Hypothesis Hord : order_of eps srcs = Ok p.
Hypothesis HA : eps < abs_charge srcs.
Hypothesis Hp : (p <= 42)%nat.
Lemma side_cond t c l fuel : root_box 3 (map (@ps_pos R) srcs) = Some (c, l) -> build_adaptive 3 (@ps_pos R) cap fuel srcs = Ok t ->
  0 <= (if (length srcs <=? cap)%nat then 0 else bound3 p (l / 2 ^ at_height t) * abs_charge srcs).
Proof.
  intros HR HB. destruct (Nat.leb_spec (length srcs) cap) as [|L]; [lra|]. apply Rmult_le_pos; [|apply rsum_nonneg; intros; apply Rabs_pos].
  apply bound3_nonneg. destruct (adaptive_inv 3 (@ps_pos R) cap fuel srcs t ltac:(lia) (sources_in_dim 3 pos chg ltac:(lia)) HB) as (c' & l' & h & HR' & _ & _ & _ & _ & HL & _).
  rewrite HR in HR'. injection HR' as <- <-. assert (l > 0). { destruct HL as [|H]; [assumption|]. unfold rr in H. apply Bool.negb_false_iff, Nat.leb_le in H. lia. }
  apply Rdiv_lt_0_compat; [lra|apply pow_lt; lra].
Qed.
Theorem library3_potentials grav pts out out' : (forall x, count_occ list_R_eq_dec (map (@ps_pos R) srcs) x <= cap)%nat ->
  length out = (length pts / 3)%nat -> length out' = (length pts / 3)%nat -> exists fuel t c l r r',
  root_box 3 (map (@ps_pos R) srcs) = Some (c, l) /\ build_adaptive 3 (@ps_pos R) cap fuel srcs = Ok t /\
  exactly (FMMEvaluatePotentials 3 fmm3_obj (fun s => adaptive_fmm3 cap fuel eps s tb0) (potential3_at grav) pos chg pts out) (Ok r) /\
  exactly (DirectEvaluatePotentials 3 grav pos chg pts out') (Ok r') /\ length r = (length pts / 3)%nat /\ length r' = (length pts / 3)%nat /\
  forall i, (i < length pts / 3)%nat -> Rabs (nth i r 0 - nth i r' 0) <= if (length srcs <=? cap)%nat then 0 else bound3 p (l / 2 ^ at_height t) * abs_charge srcs.
Proof.
  intros Hcnt Ho Ho'. destruct (fmm3_usable orders tb0 cap eps srcs p Htb (sources_in_dim 3 pos chg ltac:(lia)) Hst Hcnt Hord HA Hp) as (fuel & t & o & c & l & HR & Hbox & HB & U & V).
  destruct (compare_potentials 3 fmm3_obj (fun s => adaptive_fmm3 cap fuel eps s tb0) (potential3_at grav) grav ltac:(lia) pos chg o c l
    _ Hchg U Hbox (side_cond t c l fuel HR HB) (V grav) (in_box_dec 3 ltac:(lia) c l) pts out out' Ho Ho') as (r & r' & R1 & R2 & R3).
  exists fuel, t, c, l, r, r'. split; [exact HR|]. split; [exact HB|]. split; [exact R1|]. split; [exact R2|]. exact R3.
Qed.
Theorem library3_energies grav out out' : NoDup (map (@ps_pos R) srcs) -> (1 <= cap)%nat ->
  length out = (length pos / 3)%nat -> length out' = (length pos / 3)%nat -> exists fuel t c l r r',
  root_box 3 (map (@ps_pos R) srcs) = Some (c, l) /\ build_adaptive 3 (@ps_pos R) cap fuel srcs = Ok t /\
  exactly (FMMParticlePotentialEnergies 3 fmm3_obj (fun s => adaptive_fmm3 cap fuel eps s tb0) (potential3_at grav) pos chg out) (Ok r) /\
  exactly (DirectParticlePotentialEnergies 3 grav pos chg out') (Ok r') /\ length r = (length pos / 3)%nat /\ length r' = (length pos / 3)%nat /\
  forall i, (i < length pos / 3)%nat -> Rabs (nth i r 0 - nth i r' 0) <=
    Rabs (nth i chg 0) * if (length srcs <=? cap)%nat then 0 else bound3 p (l / 2 ^ at_height t) * abs_charge srcs.
Proof.
  intros ND Hc Ho Ho'. destruct (fmm3_usable orders tb0 cap eps srcs p Htb (sources_in_dim 3 pos chg ltac:(lia)) Hst (distinct_counts _ _ ND Hc) Hord HA Hp) as (fuel & t & o & c & l & HR & Hbox & HB & U & V).
  destruct (compare_energies 3 fmm3_obj (fun s => adaptive_fmm3 cap fuel eps s tb0) (potential3_at grav) grav ltac:(lia) pos chg o c l
    _ Hchg U Hbox (V grav) out out' ND Ho Ho') as (r & r' & R1 & R2 & R3).
  exists fuel, t, c, l, r, r'. split; [exact HR|]. split; [exact HB|]. split; [exact R1|]. split; [exact R2|]. exact R3.
Qed.
Theorem library3_forces grav out out' : NoDup (map (@ps_pos R) srcs) -> (1 <= cap)%nat ->
  length out = (length pos / 3 * 3)%nat -> length out' = (length pos / 3 * 3)%nat -> exists fuel t c l,
  root_box 3 (map (@ps_pos R) srcs) = Some (c, l) /\ build_adaptive 3 (@ps_pos R) cap fuel srcs = Ok t /\
  ((forall s n, In s srcs -> In n (heap t) -> ~ on_axis (an_center n) (ps_pos s)) -> exists r r',
   exactly (FMMParticleForces 3 fmm3_obj (fun s => adaptive_fmm3 cap fuel eps s tb0) (force3_at grav 0) pos chg out) (Ok r) /\
   exactly (DirectParticleForces 3 grav 0 pos chg out') (Ok r') /\
   forall i k, (i < length pos / 3)%nat -> (k < 3)%nat -> Rabs (nth (3 * i + k) r 0 - nth (3 * i + k) r' 0) <=
     Rabs (nth i chg 0) * if (length srcs <=? cap)%nat then 0 else bound3f p (l / 2 ^ at_height t) * abs_charge srcs).
Proof.
  intros ND Hc Ho Ho'. destruct (fmm3_force_usable orders tb0 cap eps srcs p Htb (sources_in_dim 3 pos chg ltac:(lia)) Hst (distinct_counts _ _ ND Hc) Hord HA Hp) as (fuel & t & o & c & l & HR & Hbox & HB & U & V).
  exists fuel, t, c, l. split; [exact HR|]. split; [exact HB|]. intros Hoff.
  apply (compare_forces 3 fmm3_obj _ _ grav ltac:(lia) pos chg o _ Hchg U 0 out out' (Rle_refl 0) ND); try assumption.
  intros s Hs. destruct (V grav 0 (ps_pos s) (sources_in_dim 3 pos chg ltac:(lia) s Hs) (Rle_refl 0) (fun n Hn => Hoff s n Hs Hn)) as (v & E & B & _).
  exists (map v (seq 0 3)). split; [exact E|]. split; [reflexivity|]. intros k Hk. destruct (B (Hbox s Hs)) as (near & far & P1 & _ & P3). specialize (P3 k Hk).
  rewrite direct_force_nth by exact Hk. change (fun u => negb (is_at (ps_pos s) u)) with (not_at (ps_pos s)). rewrite <- (rsum_perm _ _ _ P1), rsum_app.
  replace (nth k (map v (seq 0 3)) 0) with (v k) by (destruct k as [|[|[|k]]]; [reflexivity|reflexivity|reflexivity|lia]). exact P3.
Qed.
End Three.

(** ** A concrete input *)
Definition five_pos : list R := concat five.
Definition five_chg : list R := [1; 1; 1; 1; 1].
Lemma five_sources : sources_in 2 five_pos five_chg = five_unit.
Proof. reflexivity. Qed.
Definition five3_pos : list R := concat five3.
Lemma five3_sources : sources_in 3 five3_pos five_chg = five3_unit.
Proof. reflexivity. Qed.
