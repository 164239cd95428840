(** The functions of the Mathematica library: exact contents of the results, and comparison of the fast and the direct versions. *)
From Coq Require Import List Bool ZArith Arith Lia Lra Reals Permutation.
From Verif Require Import Num Outcome Vec Tables TableProofs CAux Schedule Fields FieldSpec FieldProofs FieldSchedules FieldTheorems GeometrySpec
  FmmPasses FmmApi FmmApiProofs Interfaces InterfaceProofs.
Import ListNotations.
Local Open Scope R_scope.
Local Open Scope outcome_scope.

Lemma points_in_length d pts : length (points_in d pts) = (length pts / d)%nat.
Proof. unfold points_in. rewrite map_length, seq_length. reflexivity. Qed.
Lemma points_in_dim d pts x : (0 < d)%nat -> In x (points_in d pts) -> length x = d.
Proof. intros Hd Hx. unfold points_in in Hx. apply in_map_iff in Hx. destruct Hx as (i & <- & Hi). apply in_seq in Hi. apply point_at_length; [exact Hd|lia]. Qed.

(** ** For any tree *)
Section Any.
Variables (d : nat) (O : Type) (ctor : list (psrc R) -> outcome O -> Prop)
  (pot : list (psrc R) -> O -> list R -> outcome R) (frc : list (psrc R) -> O -> list R -> outcome (list R)).
Hypothesis Hd : (0 < d)%nat.
Variables (pos chg : list R) (o : O).
Notation srcs := (sources_in d pos chg).
Hypothesis Hchg : (length pos / d <= length chg)%nat.
Hypothesis Hctor : exactly (ctor srcs) (Ok o).
Theorem potentials_exact (g : list R -> R) pts out : (forall x, In x (points_in d pts) -> pot srcs o x = Ok (g x)) ->
  length out = (length pts / d)%nat ->
  exactly (FMMEvaluatePotentials d O ctor pot pos chg pts out) (Ok (map g (points_in d pts))).
Proof.
  intros Hg Ho. unfold FMMEvaluatePotentials. eapply andthen_ok; [apply unpack_sources_ok; assumption|].
  eapply andthen_ok; [apply unpack_points_ok; exact Hd|]. eapply andthen_ok; [exact Hctor|]. apply eval_out_ok; [exact Hg|]. rewrite points_in_length. exact Ho.
Qed.
Theorem energies_exact (g : list R -> R) out : (forall s, In s srcs -> pot srcs o (ps_pos s) = Ok (g (ps_pos s))) ->
  length out = (length pos / d)%nat ->
  exactly (FMMParticlePotentialEnergies d O ctor pot pos chg out) (Ok (map (fun s => ps_q s * g (ps_pos s)) srcs)).
Proof.
  intros Hg Ho. unfold FMMParticlePotentialEnergies. eapply andthen_ok; [apply unpack_sources_ok; assumption|].
  eapply andthen_ok; [exact Hctor|]. eapply andthen_ok; [exact (batch_pointwise Rmult (pot srcs o) 0 srcs (fun s => g (ps_pos s)) Hg)|].
  apply copy_out_ok; [|exact Ho]. rewrite map_length. apply sources_in_length.
Qed.
Theorem forces_exact (g : list R -> list R) out : (forall s, In s srcs -> frc srcs o (ps_pos s) = Ok (g (ps_pos s)) /\ length (g (ps_pos s)) = d) ->
  length out = (length pos / d * d)%nat ->
  exactly (FMMParticleForces d O ctor frc pos chg out) (Ok (concat (map (fun s => map (fun u => u * ps_q s) (g (ps_pos s))) srcs))).
Proof.
  intros Hg Ho. unfold FMMParticleForces. eapply andthen_ok; [apply unpack_sources_ok; assumption|].
  eapply andthen_ok; [exact Hctor|]. eapply andthen_ok; [exact (batch_pointwise (fun q v => vscale v q) (frc srcs o) (vzero d) srcs (fun s => g (ps_pos s)) (fun s H => proj1 (Hg s H)))|].
  apply flatten_ok; [exact Hd|rewrite map_length; apply sources_in_length| |exact Ho].
  intros f Hf. apply in_map_iff in Hf. destruct Hf as (s & <- & Hs). unfold vscale. rewrite map_length. apply Hg. exact Hs.
Qed.
End Any.
(** Too few charges: an element behind the end of the array is read, whatever the tree. *)
Theorem library_short_charges d O ctor pot frc pos chg pts out : (0 < d)%nat -> (length chg < length pos / d)%nat ->
  exactly (FMMEvaluatePotentials d O ctor pot pos chg pts out) UB /\ exactly (FMMParticlePotentialEnergies d O ctor pot pos chg out) UB /\
  exactly (FMMParticleForces d O ctor frc pos chg out) UB /\
  (forall grav, exactly (DirectEvaluatePotentials d grav pos chg pts out) UB /\ exactly (DirectParticlePotentialEnergies d grav pos chg out) UB) /\
  (forall grav smooth, exactly (DirectParticleForces d grav smooth pos chg out) UB).
Proof.
  intros Hd Hc. assert (U := unpack_sources_short d pos chg Hd Hc).
  repeat split; try (apply andthen_ub; exact U).
Qed.

(** ** Direct versions *)
Lemma list_as_seq {A} (f : A -> R) (l : list A) : rsum f l = rsum (fun j => match nth_error l j with Some a => f a | None => 0 end) (seq 0 (length l)).
Proof.
  induction l as [|a l IH]; [reflexivity|]. cbn [length seq]. rewrite !rsum_cons. cbn [nth_error]. f_equal. rewrite IH, rsum_seq_shift. reflexivity.
Qed.
Lemma others_sum (f : psrc R -> R) srcs k sk : NoDup (map (@ps_pos R) srcs) -> nth_error srcs k = Some sk ->
  rsum f (filter (fun s => negb (is_at (ps_pos sk) s)) srcs) =
  rsum (fun j => match nth_error srcs j with Some sj => if (j =? k)%nat then 0 else f sj | None => 0 end) (seq 0 (length srcs)).
Proof.
  intros ND Hk. rewrite rsum_filter, list_as_seq. apply rsum_ext. intros j Hj. apply in_seq in Hj. destruct (nth_error srcs j) as [sj|] eqn:Ej; [|reflexivity].
  unfold is_at. destruct (list_eq_dec Req_EM_T (ps_pos sj) (ps_pos sk)) as [E|E].
  - assert (j = k). { rewrite NoDup_nth_error in ND. apply ND; [rewrite map_length; lia|]. rewrite !nth_error_map, Ej, Hk. cbn. f_equal. exact E. }
    subst j. rewrite Nat.eqb_refl. reflexivity.
  - destruct (Nat.eqb_spec j k) as [->|N]; [|reflexivity]. rewrite Hk in Ej. injection Ej as ->. contradiction.
Qed.
Lemma direct_energies_ok d grav srcs : same_dim d srcs -> NoDup (map (@ps_pos R) srcs) ->
  exactly (direct_energies d grav srcs)
    (Ok (map (fun s => ps_q s * direct_potential d grav (filter (fun u => negb (is_at (ps_pos s) u)) srcs) (ps_pos s)) srcs)).
Proof.
  intros Hs ND r. destruct (ppe_schedule_independent d grav srcs Hs ND) as (its & E & (run0 & H0) & H). unfold direct_energies. rewrite E.
  assert (G : forall run, interleaving its run -> ppe_result (length srcs) run = map (fun s => ps_q s * direct_potential d grav (filter (fun u => negb (is_at (ps_pos s) u)) srcs) (ps_pos s)) srcs).
  { intros run I. destruct (H run I) as [L V]. apply (nth_ext _ _ 0 0); [rewrite L, map_length; reflexivity|]. intros k Hk. rewrite L in Hk.
    destruct (nth_error srcs k) as [sk|] eqn:Ek; [|apply nth_error_None in Ek; lia]. rewrite (V k sk Ek).
    erewrite (nth_error_nth (map _ srcs)) by (rewrite nth_error_map, Ek; reflexivity). unfold direct_potential. rewrite (others_sum _ srcs k sk ND Ek), <- rsum_scal.
    apply rsum_ext. intros j _. destruct (nth_error srcs j); [|ring]. destruct (j =? k)%nat; ring. }
  split.
  - intros (run & I & ->). f_equal. apply G. exact I.
  - intros ->. exists run0. split; [exact H0|]. f_equal. symmetry. apply G. exact H0.
Qed.
Lemma direct_forces_ok d grav eps srcs : same_dim d srcs -> NoDup (map (@ps_pos R) srcs) -> 0 <= eps ->
  exactly (direct_forces d grav eps srcs)
    (Ok (map (fun s => map (fun u => u * ps_q s) (direct_force d grav eps (filter (fun u => negb (is_at (ps_pos s) u)) srcs) (ps_pos s))) srcs)).
Proof.
  intros Hs ND He r. destruct (pf_schedule_independent' d grav eps srcs Hs ND He) as (its & E & (run0 & H0) & H). unfold direct_forces. rewrite E.
  assert (G : forall run, interleaving its run -> pf_result d (length srcs) run = map (fun s => map (fun u => u * ps_q s) (direct_force d grav eps (filter (fun u => negb (is_at (ps_pos s) u)) srcs) (ps_pos s))) srcs).
  { intros run I. destruct (H run I) as (L & L1 & V). apply (nth_ext _ _ [] []); [rewrite L, map_length; reflexivity|]. intros k Hk. rewrite L in Hk.
    destruct (nth_error srcs k) as [sk|] eqn:Ek; [|apply nth_error_None in Ek; lia].
    erewrite (nth_error_nth (map _ srcs)) by (rewrite nth_error_map, Ek; reflexivity).
    assert (L2 : length (nth k (pf_result d (length srcs) run) []) = d) by (apply L1, nth_In; lia).
    apply (nth_ext _ _ 0 0); [unfold direct_force; rewrite L2, !map_length, seq_length; reflexivity|]. intros c Hc. rewrite L2 in Hc.
    rewrite (V k sk c Ek Hc). rewrite (nth_indep _ 0 (0 * ps_q sk)) by (unfold direct_force; rewrite !map_length, seq_length; exact Hc).
    rewrite (map_nth (fun u => u * ps_q sk)), direct_force_nth by exact Hc. rewrite (others_sum _ srcs k sk ND Ek), <- rsum_scal_r.
    apply rsum_ext. intros j _. destruct (nth_error srcs j); [|ring]. destruct (j =? k)%nat; ring. }
  split.
  - intros (run & I & ->). f_equal. apply G. exact I.
  - intros ->. exists run0. split; [exact H0|]. f_equal. symmetry. apply G. exact H0.
Qed.
Section Direct.
Variables (d : nat) (grav : bool) (pos chg : list R).
Hypothesis Hd : (0 < d)%nat.
Hypothesis Hchg : (length pos / d <= length chg)%nat.
Notation srcs := (sources_in d pos chg).
Theorem direct_potentials_exact pts out : length out = (length pts / d)%nat ->
  exactly (DirectEvaluatePotentials d grav pos chg pts out)
    (Ok (map (fun x => direct_potential d grav (filter (fun s => negb (is_at x s)) srcs) x) (points_in d pts))).
Proof.
  intros Ho. unfold DirectEvaluatePotentials. eapply andthen_ok; [apply unpack_sources_ok; assumption|].
  eapply andthen_ok; [apply unpack_points_ok; exact Hd|]. apply eval_out_ok; [|rewrite points_in_length; exact Ho].
  intros x Hx. apply (potential_safe_flag d grav srcs x). rewrite (points_in_dim d pts x Hd Hx). apply sources_in_dim. exact Hd.
Qed.
Hypothesis ND : NoDup (map (@ps_pos R) srcs).
Theorem direct_energies_exact out : length out = (length pos / d)%nat ->
  exactly (DirectParticlePotentialEnergies d grav pos chg out)
    (Ok (map (fun s => ps_q s * direct_potential d grav (filter (fun u => negb (is_at (ps_pos s) u)) srcs) (ps_pos s)) srcs)).
Proof.
  intros Ho. unfold DirectParticlePotentialEnergies. eapply andthen_ok; [apply unpack_sources_ok; assumption|].
  eapply andthen_ok; [apply direct_energies_ok; [apply sources_in_dim; exact Hd|exact ND]|]. apply copy_out_ok; [|exact Ho]. rewrite map_length. apply sources_in_length.
Qed.
Theorem direct_forces_exact smooth out : 0 <= smooth -> length out = (length pos / d * d)%nat ->
  exactly (DirectParticleForces d grav smooth pos chg out)
    (Ok (concat (map (fun s => map (fun u => u * ps_q s) (direct_force d grav smooth (filter (fun u => negb (is_at (ps_pos s) u)) srcs) (ps_pos s))) srcs))).
Proof.
  intros Hs Ho. unfold DirectParticleForces. eapply andthen_ok; [apply unpack_sources_ok; assumption|].
  eapply andthen_ok; [apply direct_forces_ok; [apply sources_in_dim; exact Hd|exact ND|exact Hs]|]. apply flatten_ok; [exact Hd|rewrite map_length; apply sources_in_length| |exact Ho].
  intros f Hf. apply in_map_iff in Hf. destruct Hf as (s & <- & _). unfold direct_force. rewrite !map_length. apply seq_length.
Qed.
End Direct.

(** ** Comparison *)
Definition val_of {A} (d0 : A) (r : outcome A) : A := match r with Ok v => v | _ => d0 end.
Section Compare.
Variables (d : nat) (O : Type) (ctor : list (psrc R) -> outcome O -> Prop)
  (pot : list (psrc R) -> O -> list R -> outcome R) (frc : list (psrc R) -> O -> list R -> outcome (list R)) (grav : bool).
Hypothesis Hd : (0 < d)%nat.
Variables (pos chg : list R) (o : O) (c : list R) (l B : R).
Notation srcs := (sources_in d pos chg).
Hypothesis Hchg : (length pos / d <= length chg)%nat.
Hypothesis Hctor : exactly (ctor srcs) (Ok o).
Hypothesis Hbox : forall s, In s srcs -> in_box d c l (ps_pos s).
Hypothesis HB : 0 <= B.
Lemma source_nth i : (i < length pos / d)%nat -> nth_error srcs i = Some (PSrc (point_at d pos i) (nth i chg 0)).
Proof. intros Hi. unfold sources_in. rewrite nth_error_map, (nth_error_nth' _ 0%nat) by (rewrite seq_length; exact Hi). rewrite seq_nth by exact Hi. reflexivity. Qed.
Section Potentials.
Hypothesis Hpot : forall x, length x = d -> exists v, pot srcs o x = Ok v /\
  (in_box d c l x -> Rabs (v - direct_potential d grav (filter (fun s => negb (is_at x s)) srcs) x) <= B) /\
  (~ in_box d c l x -> v = direct_potential d grav srcs x).
Theorem compare_potentials (Hdec : forall x, in_box d c l x \/ ~ in_box d c l x) pts out out' :
  length out = (length pts / d)%nat -> length out' = (length pts / d)%nat -> exists r r',
  exactly (FMMEvaluatePotentials d O ctor pot pos chg pts out) (Ok r) /\ exactly (DirectEvaluatePotentials d grav pos chg pts out') (Ok r') /\
  length r = (length pts / d)%nat /\ length r' = (length pts / d)%nat /\
  forall i, (i < length pts / d)%nat -> Rabs (nth i r 0 - nth i r' 0) <= B.
Proof.
  intros Ho Ho'. exists (map (fun x => val_of 0 (pot srcs o x)) (points_in d pts)). eexists. split; [|split; [apply direct_potentials_exact; assumption|]].
  - apply (potentials_exact d O ctor pot Hd pos chg o Hchg Hctor (fun x => val_of 0 (pot srcs o x))); [|exact Ho]. intros x Hx. destruct (Hpot x (points_in_dim d pts x Hd Hx)) as (v & E & _). rewrite E. reflexivity.
  - rewrite !map_length, points_in_length. split; [reflexivity|]. split; [reflexivity|]. intros i Hi. rewrite <- points_in_length in Hi.
    set (x := nth i (points_in d pts) []). assert (Hx : In x (points_in d pts)) by (apply nth_In; exact Hi).
    rewrite (nth_indep _ 0 (val_of 0 (pot srcs o []))) by (rewrite map_length; exact Hi). rewrite (map_nth (fun x => val_of 0 (pot srcs o x))). fold x.
    rewrite (nth_indep (map (fun x => direct_potential _ _ _ x) _) 0 (direct_potential d grav (filter (fun s => negb (is_at [] s)) srcs) [])) by (rewrite map_length; exact Hi).
    rewrite (map_nth (fun x => direct_potential d grav (filter (fun s => negb (is_at x s)) srcs) x)). fold x.
    destruct (Hpot x (points_in_dim d pts x Hd Hx)) as (v & E & B1 & B2). rewrite E. cbn [val_of]. destruct (Hdec x) as [I|I]; [apply B1; exact I|].
    rewrite (B2 I). assert (F : filter (fun s => negb (is_at x s)) srcs = srcs).
    { rewrite (filter_ext_in _ (fun _ => true)); [generalize srcs; clear; intros u; induction u as [|a u IH]; [reflexivity|cbn; f_equal; exact IH]|].
      intros s Hs. unfold is_at. destruct (list_eq_dec Req_EM_T (ps_pos s) x) as [Es|]; [|reflexivity]. exfalso. apply I. rewrite <- Es. apply Hbox. exact Hs. }
    rewrite F, Rminus_diag_eq by reflexivity. rewrite Rabs_R0. exact HB.
Qed.
Theorem compare_energies out out' : NoDup (map (@ps_pos R) srcs) ->
  length out = (length pos / d)%nat -> length out' = (length pos / d)%nat -> exists r r',
  exactly (FMMParticlePotentialEnergies d O ctor pot pos chg out) (Ok r) /\ exactly (DirectParticlePotentialEnergies d grav pos chg out') (Ok r') /\
  length r = (length pos / d)%nat /\ length r' = (length pos / d)%nat /\
  forall i, (i < length pos / d)%nat -> Rabs (nth i r 0 - nth i r' 0) <= Rabs (nth i chg 0) * B.
Proof.
  intros ND Ho Ho'. exists (map (fun s => ps_q s * val_of 0 (pot srcs o (ps_pos s))) srcs). eexists. split; [|split; [apply direct_energies_exact; assumption|]].
  - apply (energies_exact d O ctor pot Hd pos chg o Hchg Hctor (fun x => val_of 0 (pot srcs o x))); [|exact Ho]. intros s Hs. destruct (Hpot (ps_pos s) (sources_in_dim d pos chg Hd s Hs)) as (v & E & _). rewrite E. reflexivity.
  - rewrite !map_length, sources_in_length. split; [reflexivity|]. split; [reflexivity|]. intros i Hi. assert (Es := source_nth i Hi). set (s := PSrc _ _) in Es.
    assert (Hs : In s srcs) by (eapply nth_error_In; exact Es).
    erewrite (nth_error_nth (map _ srcs) i 0) by (rewrite nth_error_map, Es; reflexivity).
    erewrite (nth_error_nth (map (fun s => _ * direct_potential _ _ _ _) srcs) i 0) by (rewrite nth_error_map, Es; reflexivity).
    destruct (Hpot (ps_pos s) (sources_in_dim d pos chg Hd s Hs)) as (v & E & B1 & _). rewrite E. cbn [val_of].
    rewrite <- Rmult_minus_distr_l, Rabs_mult. apply Rmult_le_compat_l; [apply Rabs_pos|]. apply B1, Hbox. exact Hs.
Qed.
End Potentials.
Lemma nth_concat d0 (F : list (list R)) i k f : (forall f, In f F -> length f = d0) -> nth_error F i = Some f -> (k < d0)%nat -> nth (d0 * i + k) (concat F) 0 = nth k f 0.
Proof.
  revert i. induction F as [|g F IH]; intros i HF Hi Hk; [destruct i; discriminate|]. cbn [concat]. assert (Lg : length g = d0) by (apply HF; left; reflexivity).
  destruct i as [|i].
  - injection Hi as ->. rewrite Nat.mul_0_r, app_nth1 by (cbn; lia). reflexivity.
  - rewrite app_nth2 by nia. rewrite Lg. replace (d0 * S i + k - d0)%nat with (d0 * i + k)%nat by nia. apply IH; [intros; apply HF; right; assumption|exact Hi|exact Hk].
Qed.
Theorem compare_forces smooth out out' : 0 <= smooth -> NoDup (map (@ps_pos R) srcs) ->
  (forall s, In s srcs -> exists v, frc srcs o (ps_pos s) = Ok v /\ length v = d /\ forall k, (k < d)%nat ->
    Rabs (nth k v 0 - nth k (direct_force d grav smooth (filter (fun u => negb (is_at (ps_pos s) u)) srcs) (ps_pos s)) 0) <= B) ->
  length out = (length pos / d * d)%nat -> length out' = (length pos / d * d)%nat -> exists r r',
  exactly (FMMParticleForces d O ctor frc pos chg out) (Ok r) /\ exactly (DirectParticleForces d grav smooth pos chg out') (Ok r') /\
  forall i k, (i < length pos / d)%nat -> (k < d)%nat -> Rabs (nth (d * i + k) r 0 - nth (d * i + k) r' 0) <= Rabs (nth i chg 0) * B.
Proof.
  intros Hs0 ND Hf Ho Ho'. eexists. eexists. split; [|split; [apply direct_forces_exact; assumption|]].
  - apply (forces_exact d O ctor frc Hd pos chg o Hchg Hctor (fun x => val_of [] (frc srcs o x))); [|exact Ho]. intros s Hs. destruct (Hf s Hs) as (v & E & L & _). rewrite E. split; [reflexivity|exact L].
  - intros i k Hi Hk. assert (Es := source_nth i Hi). set (s := PSrc _ _) in Es. assert (Hs : In s srcs) by (eapply nth_error_In; exact Es).
    destruct (Hf s Hs) as (v & E & L & B1).
    rewrite (nth_concat d _ i k (map (fun u => u * ps_q s) v)); [| |rewrite nth_error_map, Es; cbn [option_map]; rewrite E; reflexivity|exact Hk].
    2:{ intros f Hin. apply in_map_iff in Hin. destruct Hin as (s' & <- & Hs'). destruct (Hf s' Hs') as (v' & E' & L' & _). rewrite E', map_length. exact L'. }
    rewrite (nth_concat d _ i k (map (fun u => u * ps_q s) (direct_force d grav smooth (filter (fun u => negb (is_at (ps_pos s) u)) srcs) (ps_pos s)))); [| |rewrite nth_error_map, Es; reflexivity|exact Hk].
    2:{ intros f Hin. apply in_map_iff in Hin. destruct Hin as (s' & <- & Hs'). unfold direct_force. rewrite !map_length. apply seq_length. }
    rewrite (nth_indep (map _ v) 0 (0 * ps_q s)) by (rewrite map_length; lia). rewrite (map_nth (fun u => u * ps_q s)).
    rewrite (nth_indep (map _ (direct_force _ _ _ _ _)) 0 (0 * ps_q s)) by (unfold direct_force; rewrite !map_length, seq_length; exact Hk). rewrite (map_nth (fun u => u * ps_q s)).
    rewrite <- Rmult_minus_distr_r, Rabs_mult, (Rmult_comm (Rabs (_ - _))). apply Rmult_le_compat_l; [apply Rabs_pos|]. apply B1. exact Hk.
Qed.
End Compare.
