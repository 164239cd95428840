(** Accuracy of rounded expansions as one invariant, preserved by every operation on expansions. *)
From Coq Require Import Reals List Arith Lra Lia.
From Coquelicot Require Import Complex.
From Verif Require Import Num Outcome Vec VecProofs Tables CAux TableProofs Expansion2D Exp2Proofs M2LError Exp2Local Fields FieldSpec FieldProofs Exp2Errors Exp2Forces Exp2ForceErrors
  RoundedExpansion2D RoundedComplexSpec ApproxC RoundedSeries RoundedLocal RoundedConvert.
Import ListNotations.
Local Open Scope R_scope.
Arguments Cmod x%C.
Arguments Re z%C.
Arguments Im z%C.
Arguments ap w n%nat x'%C x%C X%R.
Arguments re z%C.
Arguments Cpow z%C n%nat.
Arguments peval cs z%C.
Arguments dpeval cs z%C.

(** The two components of the field whose complex form is [v]. *)
Definition field_of (v : C) : list R := [- Re v; Im v].
Global Arguments field_of v%C.
Lemma field_of_add k a b : nth k (field_of (a + b)) 0 = nth k (field_of a) 0 + nth k (field_of b) 0.
Proof. destruct k as [|[|k]]; cbn [nth field_of]; unfold Re, Im; simpl; try (destruct k); ring. Qed.
Lemma field_of_bound k a : Rabs (nth k (field_of a) 0) <= Cmod a.
Proof.
  destruct k as [|[|k]]; cbn [nth field_of]; [rewrite Rabs_Ropp; apply Re_le_Cmod|apply Im_le_Cmod|]. destruct k; rewrite Rabs_R0; apply Cmod_ge_0.
Qed.
Lemma dpeval_zero n z : dpeval (repeat (RtoC 0) n) z = RtoC 0.
Proof. induction n as [|n IH]; cbn [repeat dpeval]; [reflexivity|]. rewrite IH, peval_zero. ring. Qed.

Section Good.
Variable w : R.
Hypothesis Hw : 0 <= w <= 1 / 2.
Variable A : carith.
Hypothesis HA : accurate_complex w A.
Variable p : nat.
Hypothesis Hp1 : (1 <= p)%nat.
Variable rho L : R.
Hypothesis Hrho : 0 <= rho < 1.
Notation ap := (ap w).
Notation le_close := (le_close w p).
Notation me_close := (me_close w p).
Definition gain : R := L + 1 + rho / (1 - rho).
Notation U := (direct_potential 2 true).
Notation tau := (trunc_bound rho p).

Notation ftau := (rho ^ Datatypes.S p / (1 - rho)).
Notation Fk k S x := (rsum (fun s => force_on 2 true 0 s x k) S).
Lemma ftau_bound r y D : 0 <= r <= y -> y <= rho * D -> 0 < D -> r * ((y / D) ^ p / (D - y)) <= ftau.
Proof.
  intros Hr Hy HD. assert (DY : 0 < (1 - rho) * D) by (apply Rmult_lt_0_compat; lra). assert (DY' : (1 - rho) * D <= D - y) by lra.
  assert (T : 0 <= y / D <= rho).
  { split; [apply Rmult_le_pos; [lra|left; apply Rinv_0_lt_compat; exact HD]|]. apply (Rmult_le_reg_r D); [exact HD|]. unfold Rdiv. rewrite Rmult_assoc, Rinv_l by lra. lra. }
  pose proof (pow_incr _ _ p T) as P. assert (P0 : 0 <= (y / D) ^ p) by (apply pow_le; lra).
  apply Rle_trans with ((rho * D) * (rho ^ p / ((1 - rho) * D))).
  - apply Rmult_le_compat; [lra| |lra|].
    + apply Rmult_le_pos; [exact P0|left; apply Rinv_0_lt_compat; lra].
    + unfold Rdiv. apply Rmult_le_compat; [exact P0|left; apply Rinv_0_lt_compat; lra|exact P|apply Rinv_le_contravar; lra].
  - right. cbn [pow]. field. lra.
Qed.
Lemma pevalR_pos Bs r : 0 <= r -> Forall (fun b => 0 <= b) Bs -> 0 <= pevalR Bs r.
Proof. intros Hr H. induction H as [|b Bs Hb _ IH]; cbn [pevalR]; [lra|]. assert (0 <= r * pevalR Bs r) by (apply Rmult_le_pos; assumption). lra. Qed.
Lemma dpevalR_pos Bs r : 0 <= r -> Forall (fun b => 0 <= b) Bs -> 0 <= dpevalR Bs r.
Proof.
  intros Hr H. induction H as [|b Bs Hb HB IH]; cbn [dpevalR]; [lra|]. assert (0 <= r * dpevalR Bs r) by (apply Rmult_le_pos; assumption).
  pose proof (pevalR_pos Bs r Hr HB). lra.
Qed.
Lemma apl_pos n : forall cs' cs Bs, apl w n cs' cs Bs -> Forall (fun b => 0 <= b) Bs.
Proof.
  induction cs' as [|a' cs' IH]; intros [|a cs] [|B Bs] H; cbn in H; try contradiction; constructor.
  - destruct H as [H _]. exact (ap_nonneg _ _ _ _ _ H).
  - destruct H as [_ H]. exact (IH _ _ H).
Qed.
Lemma le_close_dpos n c bs Bs e r : le_close n c bs Bs e -> 0 <= r -> 0 <= dpevalR Bs r.
Proof.
  intros (_ & _ & _ & H) Hr. destruct (se_co e), bs, Bs; cbn in H; try contradiction. destruct H as [_ H].
  pose proof (apl_pos _ _ _ _ H) as F. cbn [dpevalR]. pose proof (pevalR_pos _ r Hr F). pose proof (dpevalR_pos _ r Hr F). assert (0 <= r * dpevalR Bs r) by (apply Rmult_le_pos; assumption). lra.
Qed.

(** [e], about [c], represents the potential of [S], and its gradient, in the disc of radius [r]. *)
Definition lgood (n : nat) (c : list R) (S : list (psrc R)) (r : R) (e : se2) : Prop :=
  exists bs Bs, le_close n (cplx c) bs Bs e /\ pevalR Bs r <= gain * abs_charge S /\
    (forall x, length x = 2%nat -> Cmod (cplx x - cplx c) <= r -> Rabs (Re (peval bs (cplx x - cplx c)) - U S x) <= abs_charge S * tau) /\
    r * dpevalR Bs r <= rho / (1 - rho) * abs_charge S /\
    forall x, length x = 2%nat -> Cmod (cplx x - cplx c) <= r -> forall k, (k < 2)%nat ->
      r * Rabs (nth k (field_of (dpeval bs (cplx x - cplx c))) 0 - Fk k S x) <= abs_charge S * ftau.

Lemma lgood_le n m c S r e : lgood n c S r e -> (n <= m)%nat -> lgood m c S r e.
Proof. intros (bs & Bs & H1 & H2) Hm. exists bs, Bs. split; [eapply le_close_le; eassumption|exact H2]. Qed.
Lemma lgood_size n c S r e : lgood n c S r e -> length (se_co e) = Datatypes.S p.
Proof. intros (bs & Bs & (_ & _ & H & _) & _). exact H. Qed.
Lemma lgood_zero n c r : lgood n c [] r (se_zero c p).
Proof.
  exists (repeat (RtoC 0) (S p)), (repeat 0 (S p)). split; [apply zero_close; exact Hw|].
  rewrite pevalR_zero. unfold abs_charge; cbn [rsum fold_right]. split; [lra|]. split.
  { intros x _ _. rewrite peval_zero. cbn. rewrite Rminus_0_r, Rabs_R0. lra. }
  rewrite dpevalR_zero. split; [lra|]. intros x _ _ k Hk. rewrite dpeval_zero. replace (nth k (field_of (RtoC 0)) 0) with 0.
  - rewrite Rminus_0_r, Rabs_R0. lra.
  - destruct k as [|[|k]]; [cbn; ring|reflexivity|lia].
Qed.
Lemma lgood_add n c S T r e1 e2 : lgood n c S r e1 -> lgood n c T r e2 -> exists e, se_add_r A e1 e2 = Ok e /\ lgood (Datatypes.S n) c (S ++ T) r e.
Proof.
  intros (b1 & B1 & H1 & H2 & H3 & H4 & H5) (b2 & B2 & K1 & K2 & K3 & K4 & K5). destruct (add_close w Hw A HA p Hp1 n (cplx c) e1 b1 B1 e2 b2 B2 H1 K1) as (e & E & Q).
  exists e. split; [exact E|]. exists (map2 Cplus b1 b2), (map2 Rplus B1 B2). split; [exact Q|].
  destruct (le_close_len w p Hp1 n _ _ _ _ H1) as [L1 L2]. destruct (le_close_len w p Hp1 n _ _ _ _ K1) as [M1 M2].
  split. { rewrite pevalR_add by congruence. rewrite abs_charge_app'. lra. }
  split; [|split; [rewrite dpevalR_add by congruence; rewrite abs_charge_app'; lra|]].
  2:{ intros x Hx Hr k Hk. rewrite dpeval_add by congruence. rewrite field_of_add, rsum_app, abs_charge_app'. specialize (H5 x Hx Hr k Hk). specialize (K5 x Hx Hr k Hk).
      set (a := nth k (field_of (dpeval b1 (cplx x - cplx c))) 0) in *. set (b := nth k (field_of (dpeval b2 (cplx x - cplx c))) 0) in *.
      assert (P : 0 <= r) by (pose proof (Cmod_ge_0 (cplx x - cplx c)%C); lra).
      replace (a + b - (Fk k S x + Fk k T x)) with ((a - Fk k S x) + (b - Fk k T x)) by ring.
      eapply Rle_trans; [apply Rmult_le_compat_l; [exact P|apply Rabs_triang]|]. lra. }
  intros x Hx Hr. rewrite peval_add by congruence. rewrite direct_potential_app, abs_charge_app', Re_plus. specialize (H3 x Hx Hr). specialize (K3 x Hx Hr).
  replace (Re (peval b1 (cplx x - cplx c)) + Re (peval b2 (cplx x - cplx c)) - (U S x + U T x)) with
    ((Re (peval b1 (cplx x - cplx c)) - U S x) + (Re (peval b2 (cplx x - cplx c)) - U T x)) by ring.
  eapply Rle_trans; [apply Rabs_triang|]. lra.
Qed.
Lemma lgood_l2l tb n c S r e c' r' : (p <= bt_max tb)%nat -> lgood n c S r e -> 0 <= r' -> r' + Cmod (cplx c - cplx c') <= r ->
  exists e', le2_l2l_r A tb c' e = Ok (e', tb) /\ lgood (n + 3 * p + 3) c' S r' e'.
Proof.
  intros HT (bs & Bs & H1 & H2 & H3 & H4 & H5) Hr0 Hr. pose proof (Cmod_ge_0 (cplx c - cplx c')%C) as Hm.
  destruct (l2l_close w Hw A HA p Hp1 tb n (cplx c) c' bs Bs e (r - r') HT H1) as (e' & E & Q); [lra|]. exists e'. split; [exact E|].
  eexists; eexists. split; [exact Q|]. split. { rewrite pevalR_hshift. replace (r' + (r - r')) with r by ring. exact H2. }
  assert (IN : forall x, Cmod (cplx x - cplx c') <= r' -> Cmod (cplx x - cplx c) <= r).
  { intros x Hx'. replace (cplx x - cplx c)%C with ((cplx x - cplx c') + - (cplx c - cplx c'))%C by ring. eapply Rle_trans; [apply Cmod_triangle|]. rewrite Cmod_opp. lra. }
  split; [|split].
  - intros x Hx Hx'. rewrite peval_hshift. replace (cplx x - cplx c' - (cplx c - cplx c'))%C with (cplx x - cplx c)%C by ring. apply H3; [exact Hx|exact (IN x Hx')].
  - rewrite dpevalR_hshift. replace (r' + (r - r')) with r by ring. eapply Rle_trans; [|exact H4]. apply Rmult_le_compat_r; [|lra]. eapply le_close_dpos; [exact H1|lra].
  - intros x Hx Hx' k Hk. rewrite dpeval_hshift. replace (cplx x - cplx c' - (cplx c - cplx c'))%C with (cplx x - cplx c)%C by ring.
    eapply Rle_trans; [|exact (H5 x Hx (IN x Hx') k Hk)]. apply Rmult_le_compat_r; [apply Rabs_pos|lra].
Qed.
Lemma lgood_p2l c S r D : length c = 2%nat -> same_dim 2 S -> 0 <= r <= rho * D -> 0 < D ->
  (forall s, In s S -> D <= Cmod (src_at (cplx c) s) /\ Rabs (ln (Cmod (src_at (cplx c) s))) <= L) ->
  exists e, le2_sources_r A c p S = Ok e /\ lgood (3 * p + 3 + length S) c S r e.
Proof.
  intros Hc Hd Hr HD HS. destruct (p2l_close w Hw A HA p Hp1 c D L S HD HS) as (e & E & Q). exists e. split; [exact E|].
  eexists; eexists. split; [exact Q|]. split. { eapply Rle_trans; [apply (p2l_norm p Hp1 D L _ r rho); try assumption; [apply abs_charge_pos|lra]|]. unfold gain. lra. }
  split; [|split; [rewrite (Rmult_comm (rho / (1 - rho))); apply (p2l_dnorm p Hp1 D L _ r rho); try assumption; [apply abs_charge_pos|lra]|]].
  2:{ intros x Hx Hxr k Hk. assert (RD : r < D) by nra. rewrite <- dist_Cmod in Hxr by assumption.
      destruct (le2_error c p S x r D Hc Hx Hd (conj (proj1 Hr) RD)) as (e' & E' & _).
      { intros s Hin. rewrite dist_Cmod by (try assumption; apply Hd; exact Hin). apply HS. exact Hin. } { exact Hxr. }
      assert (B := le2_force_error c p S x r D e' Hc Hx Hd (conj (proj1 Hr) RD)).
      specialize (B ltac:(intros s Hin; rewrite dist_Cmod by (try assumption; apply Hd; exact Hin); apply HS; exact Hin) Hxr E' k Hk).
      rewrite le2_sources_coeffs in E'. 2:{ intros s Hin. apply Cmod_gt_0. destruct (HS s Hin). lra. }
      injection E' as <-. rewrite le2_force_dpeval in B by discriminate. cbn [se_co se_ctr] in B.
      eapply Rle_trans; [apply Rmult_le_compat_l; [exact (proj1 Hr)|exact B]|]. pose proof (ftau_bound r r D ltac:(lra) (proj2 Hr) HD) as T. pose proof (abs_charge_pos S).
      replace (r * (abs_charge S * ((r / D) ^ p / (D - r)))) with (abs_charge S * (r * ((r / D) ^ p / (D - r)))) by ring. apply Rmult_le_compat_l; assumption. }
  intros x Hx Hxr. assert (RD : r < D) by nra. rewrite <- dist_Cmod in Hxr by assumption.
  destruct (le2_error c p S x r D Hc Hx Hd (conj (proj1 Hr) RD)) as (e' & E' & B).
  - intros s Hin. rewrite dist_Cmod by (try assumption; apply Hd; exact Hin). apply HS. exact Hin.
  - exact Hxr.
  - rewrite le2_sources_coeffs in E'. 2:{ intros s Hin. apply Cmod_gt_0. destruct (HS s Hin). lra. }
    injection E' as <-. rewrite le2_pot_peval in B. cbn [se_co se_ctr] in B. eapply Rle_trans; [exact B|].
    apply Rmult_le_compat_l; [apply abs_charge_pos|]. apply trunc_bound_mono; [apply Rmult_le_pos; [lra|left; apply Rinv_0_lt_compat; lra]| |lra].
    apply (Rmult_le_reg_r D); [lra|]. unfold Rdiv. rewrite Rmult_assoc, Rinv_l by lra. lra.
Qed.
Lemma lgood_m2l tb n c cq S r rq e : bt_ok tb -> (p <= bt_max tb)%nat -> length c = 2%nat -> length cq = 2%nat -> same_dim 2 S ->
  me_close n (cplx cq) S rq e -> (forall s, In s S -> dist (ps_pos s) cq <= rq) -> 0 <= r -> 0 <= rq -> r + rq <= rho * Cmod (cplx cq - cplx c) -> 0 < Cmod (cplx cq - cplx c) ->
  Rabs (ln (Cmod (cplx cq - cplx c))) <= L ->
  exists e', le2_m2l_r A tb c e = Ok (e', tb) /\ lgood (n + 9 * p + 4) c S r e'.
Proof.
  intros Hok HT Hc Hq Hd HM HS Hr Hrq HD HP HL. set (D := Cmod (cplx cq - cplx c)) in *.
  destruct (m2l_close w Hw A HA p Hp1 tb n c (cplx cq) S rq D L e Hok HT HM) as (e' & E & Q); [unfold D in *; lra|exact HL|]. exists e'. split; [exact E|].
  eexists; eexists. split; [exact Q|]. split. { eapply Rle_trans; [apply (m2l_norm p Hp1 (bt_max tb) D L rq _ r rho); try assumption; [apply abs_charge_pos|lra]|]. unfold gain. lra. }
  split; [|split; [rewrite (Rmult_comm (rho / (1 - rho))); apply (m2l_dnorm p (bt_max tb) D L rq _ r rho); try assumption; [apply abs_charge_pos|lra]|]].
  2:{ intros x Hx Hxr k Hk. assert (RD : r + rq < D) by nra. rewrite <- dist_Cmod in Hxr by assumption. assert (DD : D <= dist cq c) by (rewrite dist_Cmod by assumption; unfold D; lra).
      destruct (m2l2_error tb c cq p S x r rq D Hok Hp1 Hc Hq Hx Hd Hr Hrq RD) as (e2 & E2 & _); try assumption.
      assert (B := m2l2_force_error tb c cq p S x r rq D e2 Hok Hp1 Hc Hq Hx Hd Hr Hrq RD DD HS Hxr E2 k Hk).
      rewrite me2_sources_map, le2_m2l_eq in E2; [|exact Hok|exact Hp1|apply Cmod_gt_0; exact HP]. injection E2 as <-.
      rewrite se_table_id in B by exact HT. rewrite le2_force_dpeval in B by discriminate. cbn [se_co se_ctr] in B.
      eapply Rle_trans; [apply Rmult_le_compat_l; [exact Hr|exact B]|]. pose proof (ftau_bound r (r + rq) D ltac:(lra) HD HP) as T. pose proof (abs_charge_pos S).
      replace (r * (abs_charge S * (((r + rq) / D) ^ p / (D - (r + rq))))) with (abs_charge S * (r * (((r + rq) / D) ^ p / (D - (r + rq))))) by ring. apply Rmult_le_compat_l; assumption. }
  intros x Hx Hxr. assert (RD : r + rq < D) by nra. rewrite <- dist_Cmod in Hxr by assumption.
  destruct (m2l2_error tb c cq p S x r rq D Hok Hp1 Hc Hq Hx Hd Hr Hrq RD) as (e2 & E2 & _ & _ & _ & B); try assumption.
  { rewrite dist_Cmod by assumption. unfold D. lra. }
  rewrite me2_sources_map, le2_m2l_eq in E2; [|exact Hok|exact Hp1|apply Cmod_gt_0; exact HP]. injection E2 as <-.
  rewrite se_table_id in B by exact HT. rewrite le2_pot_peval in B. cbn [se_co se_ctr] in B. eapply Rle_trans; [exact B|].
  apply Rmult_le_compat_l; [apply abs_charge_pos|]. apply trunc_bound_mono; [apply Rmult_le_pos; [lra|left; apply Rinv_0_lt_compat; lra]| |lra].
  apply (Rmult_le_reg_r D); [lra|]. unfold Rdiv. rewrite Rmult_assoc, Rinv_l by lra. lra.
Qed.
(** Several multipole expansions. *)
Lemma lgood_many tb n c r (parts : list (list R * list (psrc R) * R)) es : bt_ok tb -> (p <= bt_max tb)%nat -> length c = 2%nat -> es <> [] -> 0 <= r ->
  Forall2 (fun q e => me_close n (cplx (fst (fst q))) (snd (fst q)) (snd q) e /\ length (fst (fst q)) = 2%nat /\ same_dim 2 (snd (fst q)) /\
    (forall s, In s (snd (fst q)) -> dist (ps_pos s) (fst (fst q)) <= snd q) /\ 0 <= snd q /\ r + snd q <= rho * Cmod (cplx (fst (fst q)) - cplx c) /\
    0 < Cmod (cplx (fst (fst q)) - cplx c) /\ Rabs (ln (Cmod (cplx (fst (fst q)) - cplx c))) <= L) parts es ->
  exists e, le2_m2l_many_r A tb c es = Ok (e, tb) /\ lgood (n + 9 * p + 4 + length es) c (flat_map (fun q => snd (fst q)) parts) r e.
Proof.
  intros Hok HT Hc Hne Hr HF. unfold le2_m2l_many_r. destruct es as [|e0 es0] eqn:Ees; [congruence|]. rewrite <- Ees in HF |- *.
  assert (O : se_ord e0 = p). { rewrite Ees in HF. inversion HF as [|? ? ? ? ((H & _) & _)]. exact H. }
  rewrite O, se_table_id by exact HT. clear Ees O Hne e0 es0.
  assert (G : forall es parts, Forall2 (fun q e => me_close n (cplx (fst (fst q))) (snd (fst q)) (snd q) e /\ length (fst (fst q)) = 2%nat /\ same_dim 2 (snd (fst q)) /\
    (forall s, In s (snd (fst q)) -> dist (ps_pos s) (fst (fst q)) <= snd q) /\ 0 <= snd q /\ r + snd q <= rho * Cmod (cplx (fst (fst q)) - cplx c) /\
    0 < Cmod (cplx (fst (fst q)) - cplx c) /\ Rabs (ln (Cmod (cplx (fst (fst q)) - cplx c))) <= L) parts es ->
    forall S m e, (n + 9 * p + 4 <= m)%nat -> lgood m c S r e -> exists e', ofold (fun st e => bind (le2_m2l_r A (snd st) c e) (fun r =>
        bind (se_add_r A (fst st) (fst r)) (fun s => Ok (s, snd r)))) es (e, tb) = Ok (e', tb) /\ lgood (m + length es) c (S ++ flat_map (fun q => snd (fst q)) parts) r e').
  { clear HF es parts. intros es. induction es as [|e1 es IH]; intros parts HF S m e Hm HG.
    - inversion HF; subst. cbn [ofold flat_map length]. exists e. rewrite app_nil_r, Nat.add_0_r. split; [reflexivity|exact HG].
    - destruct parts as [|q parts]; [inversion HF|]. apply Forall2_cons_inv in HF. destruct HF as ((Q1 & Q2 & Q3 & Q4 & Q5 & Q6 & Q7 & Q8) & HF).
      destruct (lgood_m2l tb n c (fst (fst q)) (snd (fst q)) r (snd q) e1) as (e2 & E2 & G2); try assumption.
      destruct (lgood_add m c S (snd (fst q)) r e e2 HG) as (e3 & E3 & G3); [eapply lgood_le; [exact G2|exact Hm]|].
      destruct (IH parts HF (S ++ snd (fst q)) (Datatypes.S m) e3) as (e4 & E4 & G4); [lia|exact G3|].
      exists e4. cbn [ofold fst snd flat_map length]. rewrite E2. cbn [bind fst snd]. rewrite E3. cbn [bind]. split; [exact E4|].
      rewrite app_assoc. replace (m + Datatypes.S (length es))%nat with (Datatypes.S m + length es)%nat by lia. exact G4. }
  destruct (G es parts HF [] (n + 9 * p + 4)%nat (se_zero c p)) as (e' & E & Q); [lia|apply lgood_zero|]. exists e'. split; [exact E|exact Q].
Qed.

(** The value of a good local expansion. *)
Theorem lgood_value n c S r e x : lgood n c S r e -> length x = 2%nat -> Cmod (cplx x - cplx c) <= r ->
  exists t, ap (n + 3 * p + 4) (RtoC (le2_pot_r A e x)) (RtoC t) (gain * abs_charge S) /\ Rabs (t - U S x) <= abs_charge S * tau.
Proof.
  intros (bs & Bs & H1 & H2 & H3 & _) Hx Hr. specialize (H3 x Hx Hr).
  assert (P := lpot_close w Hw A HA p Hp1 n (cplx c) bs Bs e x r H1 Hr).
  apply (ap_weaken w Hw _ _ _ _ _ (gain * abs_charge S) P (Nat.le_refl _)) in H2. eexists. split; [exact H2|exact H3].
Qed.

(** The value of a multipole expansion. *)
Lemma mpot_loop z' z D : close_norm w z' z -> 0 < D <= Cmod z -> forall cs' cs Bs n k ip' ip IP res' res X, apl w n cs' cs Bs -> ap k ip' ip IP ->
  forall N, (n + k + 3 * length cs' + 1 <= N)%nat -> ap N (re res') (re res) X ->
  ap (N + length cs') (re (me2_pot_loop_r A z' ip' res' cs')) (re (me2_pot_loop z ip res cs)) (X + IP * pevalR Bs (/ D)).
Proof.
  intros Z HD cs'. induction cs' as [|a' cs' IH]; intros [|a cs] [|Y Bs] n k ip' ip IP res' res X H P N HN HR; cbn in H; try contradiction.
  - cbn [me2_pot_loop_r me2_pot_loop pevalR length]. rewrite Rmult_0_r, Rplus_0_r, Nat.add_0_r. exact HR.
  - destruct H as [H1 H2]. cbn [me2_pot_loop_r me2_pot_loop pevalR length]. cbn [length] in HN.
    replace (N + S (length cs'))%nat with (S N + length cs')%nat by lia.
    eapply ap_eq; [eapply (IH cs Bs n (k + 3)%nat _ _ (IP / D) _ _ (X + Y * IP) H2)|reflexivity|].
    + eapply (op_div w Hw A HA); [exact P|exact Z|exact HD].
    + lia.
    + apply (op_add_re w Hw A HA); [exact HR|]. apply ap_re. eapply ap_le; [exact Hw|eapply (op_mul w Hw A HA); [exact H1|exact P]|lia].
    + unfold Rdiv. ring.
Qed.
Theorem mgood_value n c S r e x : length c = 2%nat -> length x = 2%nat -> same_dim 2 S -> me_close n (cplx c) S r e ->
  (forall s, In s S -> dist (ps_pos s) c <= r) -> 0 <= r <= rho * Cmod (cplx x - cplx c) -> 0 < Cmod (cplx x - cplx c) -> Rabs (ln (Cmod (cplx x - cplx c))) <= L ->
  exists v t, me2_pot_r A e x = Ok v /\ ap (n + 4 * p + 5) (RtoC v) (RtoC t) (gain * abs_charge S) /\ Rabs (t - U S x) <= abs_charge S * tau.
Proof.
  intros Hc Hx Hd (E1 & E2 & E3 & E4 & E5 & E6) HS Hr HP HL. set (z := (cplx x - cplx c)%C) in *. set (D := Cmod z) in *. set (Q := abs_charge S) in *.
  destruct (me2_error c p S x r D Hc Hx Hd) as (v & V & B).
  { split; [lra|]. nra. } { exact HS. } { rewrite dist_Cmod by assumption. unfold D, z. lra. }
  rewrite me2_sources_map in V. unfold me2_pot in V. cbn [se_ctr se_co se_ord] in V. fold z in V. rewrite se_get_map in V by lia. cbn [bind] in V.
  assert (Nz : z <> RtoC 0) by (apply Cmod_gt_0; exact HP). rewrite clog_ok in V by exact Nz. cbn [bind] in V. rewrite cdiv_ok in V by exact Nz. cbn [bind] in V.
  change (seq 0 (Datatypes.S p)) with (0%nat :: seq 1 p) in V. cbn [map tl] in V. injection V as V.
  unfold me2_pot_r. rewrite E2. set (z' := c_sub A (cplx x) (cplx c)). assert (Z : close_norm w z' z) by (apply (op_diff w Hw A HA)).
  assert (HDz : 0 < D <= Cmod z) by (split; [exact HP|apply Rle_refl]).
  assert (Nz' : z' <> RtoC 0) by (eapply close_nz; eassumption).
  unfold se_get. rewrite (nth_error_C (se_co e) 0) by lia. cbn [of_option bind]. rewrite clog_r_ok by exact Nz'. cbn [bind]. rewrite cdiv_r_ok by exact Nz'. cbn [bind].
  eexists. exists v. split; [reflexivity|]. set (v' := Re _).
  destruct (se_co e) as [|a' cs']; [discriminate|]. cbn [nth tl] in *. cbn [length] in E3.
  assert (AL : apl w n cs' (map (me_coef (cplx c) S) (seq 1 p)) (map (fun k => Q * r ^ k / INR k) (seq 1 p))).
  { apply (apl_nth w p Hp1); rewrite ?map_length, ?seq_length; try lia. intros k Hk. rewrite nth_map_seq_C, nth_map_seq_R by lia. apply (E6 (1 + k)%nat). lia. }
  assert (IPa : ap 3 (c_div A (RtoC 1) z') (RtoC 1 / z) (/ D)).
  { eapply ap_eq; [apply (op_inv w Hw A HA); [exact Z|exact HDz]|field; exact Nz|reflexivity]. }
  assert (R0 : ap (n + 3 * p + 5) (re (c_scale A (Re a') (c_log A z'))) (re (RtoC (Re (me_coef (cplx c) S 0)) * clogv z)%C) (Q * (L + 1))).
  { eapply ap_le; [exact Hw|eapply (op_scale_ap_re w Hw A HA 4 n); [|eapply (op_log w Hw A HA z' z (clogv z) L); [exact Z|exact HP|exact HL|reflexivity]]|lia].
    rewrite <- (real_eq a' E4). exact E5. }
  assert (M := mpot_loop z' z D Z HDz cs' _ _ n 3 _ _ _ _ _ _ AL IPa (n + 3 * p + 5) ltac:(lia) R0).
  assert (N1 : Q * (L + 1) + / D * pevalR (map (fun k => Q * r ^ k / INR k) (seq 1 p)) (/ D) <= gain * Q).
  { replace (/ D * pevalR (map (fun k => Q * r ^ k / INR k) (seq 1 p)) (/ D)) with (Q * rsum (fun k => (r / D) ^ k / INR k) (seq 1 p)).
    - assert (T : 0 <= r / D <= rho).
      { split; [apply Rmult_le_pos; [lra|left; apply Rinv_0_lt_compat; exact HP]|]. apply (Rmult_le_reg_r D); [exact HP|]. unfold Rdiv. rewrite Rmult_assoc, Rinv_l by lra. lra. }
      assert (rsum (fun k => (r / D) ^ k / INR k) (seq 1 p) <= rho / (1 - rho)).
      { eapply Rle_trans; [|apply (geom_bound rho p Hrho)]. apply rsum_le. intros k Hk. apply in_seq in Hk. apply Rmult_le_compat_r; [left; apply Rinv_0_lt_compat, lt_0_INR; lia|]. apply pow_incr. exact T. }
      unfold gain. assert (0 <= Q) by apply abs_charge_pos. nra.
    - replace (/ D * pevalR (map (fun k => Q * r ^ k / INR k) (seq 1 p)) (/ D)) with ((/ D) ^ 1 * pevalR (map (fun k => Q * r ^ k / INR k) (seq 1 p)) (/ D)) by ring.
      rewrite pevalR_map_seq, <- rsum_const_mul. apply rsum_ext. intros k _. unfold Rdiv. rewrite Rpow_mult_distr. ring. }
  apply (ap_weaken w Hw _ (n + 4 * p + 5) _ _ _ (gain * Q) M) in N1; [|lia].
  unfold re in N1. fold v' in N1. change (Re (me_coef (cplx c) S 0)) with (rsum (fun s => ps_q s) S) in N1. rewrite V in N1.
  assert (B' : Rabs (v - U S x) <= Q * tau).
  { eapply Rle_trans; [exact B|]. apply Rmult_le_compat_l; [apply abs_charge_pos|].
    apply trunc_bound_mono; [apply Rmult_le_pos; [lra|left; apply Rinv_0_lt_compat; lra]| |lra]. apply (Rmult_le_reg_r D); [lra|]. unfold Rdiv. rewrite Rmult_assoc, Rinv_l by lra. lra. }
  split; [exact N1|exact B'].
Qed.
End Good.
