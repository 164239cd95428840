(** Order selection, batch evaluation and the two-dimensional adaptive tree end to end. *)
From Coq Require Import List Bool ZArith Arith Lia Lra Reals Permutation.
From Coquelicot Require Import Complex.
From Verif Require Import Num Outcome Vec Orthtree AdaptiveTree TreeSpec VecProofs GeometrySpec GeometryProofs TreeGeometry
  AdaptiveProofs BuildProofs ListProofs ListContents RootBoxProofs TreeTheorems TreeTheorems3 Tables Expansion2D CAux TableProofs Exp2Proofs Exp2Local Exp2Errors Exp2ForceErrors Exp2Theorems FieldSpec Schedule Fields FieldProofs FieldSchedules
  FmmPasses PassProofs PassSteps PassTree PassSpec PassEval FmmTree2D FmmTree2DProofs FmmForce2DProofs FmmTheorems PassAgree FmmApi.
Import ListNotations.
Local Open Scope R_scope.

(** *** Order *)
Lemma total_charge_sum srcs : total_charge srcs = abs_charge srcs.
Proof. unfold total_charge, abs_charge. rewrite fold_left_rsum. ring. Qed.
Lemma Rceil_spec x : IZR (Rceil x) - 1 < x <= IZR (Rceil x).
Proof. unfold Rceil. destruct (archimed (- x)) as [A B]. rewrite minus_IZR. lra. Qed.
Lemma ln2_pos : 0 < ln 2. Proof. rewrite <- ln_1. apply ln_increasing; lra. Qed.
Lemma ln_pow2 n : ln (2 ^ n) = INR n * ln 2.
Proof. rewrite ln_pow by lra. reflexivity. Qed.
(** [z] is at least the logarithm iff [A <= eps 2^z]. *)
Lemma log2_le A eps n : 0 < A -> 0 < eps -> (ln (A / eps) / ln 2 <= INR n <-> A / 2 ^ n <= eps).
Proof.
  intros HA He. assert (L2 := ln2_pos). assert (P2 := pow_lt 2 n ltac:(lra)).
  assert (E : ln (A / eps) / ln 2 <= INR n <-> ln (A / eps) <= ln (2 ^ n)).
  { rewrite ln_pow2. split; intros H.
    - apply (Rmult_le_compat_r (ln 2)) in H; [|lra]. unfold Rdiv in H at 1. rewrite Rmult_assoc, Rinv_l, Rmult_1_r in H by lra. exact H.
    - apply (Rmult_le_reg_r (ln 2)); [exact L2|]. unfold Rdiv at 1. rewrite Rmult_assoc, Rinv_l, Rmult_1_r by lra. exact H. }
  rewrite E. assert (HD : 0 < A / eps) by (apply Rdiv_lt_0_compat; assumption).
  assert (E2 : A / eps <= 2 ^ n <-> A / 2 ^ n <= eps).
  { split; intros H.
    - apply (Rmult_le_reg_r (2 ^ n)); [exact P2|]. apply (Rmult_le_compat_r eps) in H; [|lra].
      unfold Rdiv in *. rewrite Rmult_assoc, Rinv_l, Rmult_1_r in H by lra. rewrite Rmult_assoc, Rinv_l by lra. lra.
    - apply (Rmult_le_reg_r eps); [exact He|]. apply (Rmult_le_compat_r (2 ^ n)) in H; [|lra].
      unfold Rdiv in *. rewrite Rmult_assoc, Rinv_l, Rmult_1_r in H by lra. rewrite Rmult_assoc, Rinv_l by lra. lra. }
  rewrite <- E2. split; intros H.
  - destruct (Rle_lt_dec (A / eps) (2 ^ n)) as [|C0]; [assumption|]. apply ln_increasing in C0; [lra|exact P2].
  - destruct H as [H| ->]; [left; apply ln_increasing; assumption|lra].
Qed.
Lemma log2_gt A eps : 0 < A -> 0 < eps -> (-1 < ln (A / eps) / ln 2 <-> eps / 2 < A).
Proof.
  intros HA He. assert (L2 := ln2_pos). assert (HD : 0 < A / eps) by (apply Rdiv_lt_0_compat; assumption).
  assert (E : -1 < ln (A / eps) / ln 2 <-> ln (/ 2) < ln (A / eps)).
  { rewrite ln_Rinv by lra. split; intros H.
    - apply (Rmult_lt_compat_r (ln 2)) in H; [|lra]. unfold Rdiv in H. rewrite Rmult_assoc, Rinv_l in H by lra. lra.
    - apply (Rmult_lt_reg_r (ln 2)); [exact L2|]. unfold Rdiv at 1. rewrite Rmult_assoc, Rinv_l by lra. lra. }
  rewrite E. split; intros H.
  - apply ln_lt_inv in H; [|lra|exact HD]. apply (Rmult_lt_compat_r eps) in H; [|lra]. unfold Rdiv in *. rewrite Rmult_assoc, Rinv_l in H by lra. lra.
  - apply ln_increasing; [lra|]. apply (Rmult_lt_reg_r eps); [exact He|]. unfold Rdiv at 1. rewrite Rmult_assoc, Rinv_l by lra. lra.
Qed.

(** The order is the least [p] with [A / 2^p <= eps] that fits 32 bits; nothing else is defined. *)
Theorem order_spec eps srcs p : 
  order_of eps srcs = Ok p <->
  0 < eps /\ eps / 2 < abs_charge srcs /\ (Z.of_nat p < 2 ^ 32)%Z /\
  abs_charge srcs / 2 ^ p <= eps /\ (forall q, (q < p)%nat -> eps < abs_charge srcs / 2 ^ q).
Proof.
  unfold order_of. rewrite total_charge_sum. set (A := abs_charge srcs).
  destruct (Rlt_dec 0 eps) as [He|He]; [|split; [discriminate|intros (H & _); contradiction]].
  destruct (Rlt_dec 0 A) as [HA|HA].
  2:{ split; [discriminate|]. intros (_ & H & _). lra. }
  destruct (Rceil_spec (ln (A / eps) / ln 2)) as [C1 C2]. set (z := Rceil (ln (A / eps) / ln 2)) in *. clearbody z.
  unfold to_unsigned. split.
  - destruct (Z.leb_spec 0 z) as [Z0|Z0]; [|discriminate]. destruct (Z.ltb_spec z (2 ^ 32)) as [Z1|Z1]; [|discriminate]. cbn [andb].
    intros H. injection H as <-. assert (EZ : IZR z = INR (Z.to_nat z)) by (rewrite INR_IZR_INZ, Z2Nat.id by exact Z0; reflexivity).
    split; [exact He|]. split.
    + apply log2_gt; [assumption|assumption|]. apply IZR_le in Z0. lra.
    + split; [rewrite Z2Nat.id by exact Z0; exact Z1|]. split; [apply log2_le; [assumption|assumption|rewrite <- EZ; exact C2]|].
      intros q Hq. apply Rnot_le_lt. intros H. apply (log2_le A eps q HA He) in H.
      assert (Hz : INR q <= IZR z - 1). { rewrite EZ. assert (INR (S q) <= INR (Z.to_nat z)) by (apply le_INR; lia). rewrite S_INR in H0. lra. } lra.
  - intros (_ & H1 & H2 & H3 & H4). apply (log2_gt A eps HA He) in H1. apply (log2_le A eps p HA He) in H3.
    assert (Z0 : (0 <= z)%Z). { assert (-1 < IZR z) by lra. apply lt_IZR in H. lia. }
    assert (Zp : (z <= Z.of_nat p)%Z).
    { assert (IZR z - 1 < IZR (Z.of_nat p)) by (rewrite <- INR_IZR_INZ; lra). replace 1 with (IZR 1) in H by reflexivity. rewrite <- minus_IZR in H. apply lt_IZR in H. lia. }
    assert (Zq : z = Z.of_nat p).
    { destruct (Z.eq_dec z (Z.of_nat p)) as [|N]; [assumption|]. exfalso.
      assert (L : (Z.to_nat z < p)%nat) by lia. specialize (H4 _ L). apply Rlt_not_le in H4. apply H4. apply log2_le; [assumption|assumption|].
      rewrite INR_IZR_INZ, Z2Nat.id by exact Z0. exact C2. }
    subst z. rewrite (proj2 (Z.leb_le 0 (Z.of_nat p)) Z0), (proj2 (Z.ltb_lt _ _) H2). cbn [andb]. rewrite Nat2Z.id. reflexivity.
Qed.
Theorem order_undefined eps srcs : 0 < eps -> abs_charge srcs <= eps / 2 -> order_of eps srcs = UB.
Proof.
  intros He HA. destruct (order_of eps srcs) as [p| | | | |] eqn:E; try reflexivity; [apply order_spec in E; lra| | | |];
  exfalso; revert E; unfold order_of, to_unsigned; destruct (Rlt_dec 0 eps); try discriminate; destruct (Rlt_dec 0 _); try discriminate; destruct (_ && _)%bool; discriminate.
Qed.

(** *** Batch evaluation *)
Lemma interleaving_singletons {A} (xs run : list A) : interleaving (map (fun a => [a]) xs) run -> Permutation xs run.
Proof.
  intros H. apply interleaving_perm in H. rewrite <- H. clear H. induction xs as [|a xs IH]; [constructor|]. cbn [map concat app]. constructor. exact IH.
Qed.
Lemma lset_seq {A} (dv : A) (f : nat -> A) idx n v : NoDup idx -> (forall i, In i idx -> (i < n)%nat) -> length v = n ->
  length (fold_left (fun v i => lset v i (f i)) idx v) = n /\
  forall k, (k < n)%nat -> nth k (fold_left (fun v i => lset v i (f i)) idx v) dv = if in_dec Nat.eq_dec k idx then f k else nth k v dv.
Proof.
  revert v. induction idx as [|i idx IH]; intros v ND Hin Hl; cbn [fold_left].
  - split; [exact Hl|]. intros k Hk. reflexivity.
  - inversion ND as [|? ? N1 N2]; subst. destruct (IH (lset v i (f i)) N2 (fun j Hj => Hin j (or_intror Hj)) (lset_length _ _ _)) as [L V].
    split; [exact L|]. intros k Hk. rewrite V by exact Hk. destruct (in_dec Nat.eq_dec k idx) as [I1|I1]; destruct (in_dec Nat.eq_dec k (i :: idx)) as [I2|I2]; try reflexivity.
    + exfalso. apply I2. right. exact I1.
    + destruct I2 as [->|I2]; [|contradiction]. apply nth_lset_same. apply Hin. left. reflexivity.
    + apply nth_lset_other. intros E. apply I2. left. symmetry. exact E.
Qed.
(** Every schedule gives the pointwise values in input order. *)
Theorem batch_pointwise {A} (scale : R -> A -> A) (eval : list R -> outcome A) init srcs (val : psrc R -> A) :
  (forall s, In s srcs -> eval (ps_pos s) = Ok (val s)) ->
  forall r, batch_result scale eval init srcs r <-> r = Ok (map (fun s => scale (ps_q s) (val s)) srcs).
Proof.
  intros HV.
  assert (G : forall run, interleaving (map (fun i => [batch_step scale eval srcs i]) (seq 0 (length srcs))) run ->
    ofold (fun v st => st v) run (repeat init (length srcs)) = Ok (map (fun s => scale (ps_q s) (val s)) srcs)).
  { intros run H. rewrite <- (map_map (batch_step scale eval srcs) (fun a => [a])) in H. apply interleaving_singletons in H.
    apply Permutation_sym, Permutation_map_inv in H. destruct H as (idx & -> & PI).
    assert (ND : NoDup idx) by (eapply Permutation_NoDup; [exact PI|apply seq_NoDup]).
    assert (HI : forall i, In i idx -> (i < length srcs)%nat) by (intros i Hi; apply Permutation_sym in PI; apply (Permutation_in _ PI), in_seq in Hi; lia).
    destruct srcs as [|s0 srcs']; [cbn [length seq] in PI; apply Permutation_nil in PI; subst idx; reflexivity|]. set (S := s0 :: srcs') in *.
    set (f := fun i => scale (ps_q (nth i S s0)) (val (nth i S s0))).
    assert (E : forall l v, (forall i, In i l -> (i < length S)%nat) -> ofold (fun v st => st v) (map (batch_step scale eval S) l) v = Ok (fold_left (fun v i => lset v i (f i)) l v)).
    { induction l as [|i l IH]; intros v Hl; [reflexivity|]. cbn [map ofold fold_left]. unfold batch_step at 1.
      rewrite (nth_error_nth' S s0 (Hl i (or_introl eq_refl))). cbn [of_option bind]. rewrite HV by (apply nth_In; apply Hl; left; reflexivity). cbn [bind].
      apply IH. intros j Hj. apply Hl. right. exact Hj. }
    rewrite E by exact HI. f_equal. destruct (lset_seq init f idx (length S) (repeat init (length S)) ND HI (repeat_length _ _)) as [L V].
    apply (nth_ext _ _ init init); [rewrite L, map_length; reflexivity|]. intros k Hk. rewrite L in Hk. rewrite V by exact Hk.
    destruct (in_dec Nat.eq_dec k idx) as [_|N].
    - rewrite (nth_indep _ init (scale (ps_q s0) (val s0))) by (rewrite map_length; exact Hk).
      rewrite (map_nth (fun s => scale (ps_q s) (val s))). reflexivity.
    - exfalso. apply N. apply (Permutation_in _ PI). apply in_seq. lia. }
  intros r. split.
  - intros (run & H & ->). apply G. exact H.
  - intros ->. exists (map (batch_step scale eval srcs) (seq 0 (length srcs))). split; [|symmetry; apply G].
    + rewrite <- (map_map (batch_step scale eval srcs) (fun a => [a])).
      set (xs := map (batch_step scale eval srcs) (seq 0 (length srcs))). replace xs with (concat (map (fun a => [a]) xs)) at 2; [apply interleaving_seq|].
      clear. induction xs as [|a xs IH]; [reflexivity|]. cbn [map concat app]. rewrite IH. reflexivity.
    + rewrite <- (map_map (batch_step scale eval srcs) (fun a => [a])).
      set (xs := map (batch_step scale eval srcs) (seq 0 (length srcs))). replace xs with (concat (map (fun a => [a]) xs)) at 2; [apply interleaving_seq|].
      clear. induction xs as [|a xs IH]; [reflexivity|]. cbn [map concat app]. rewrite IH. reflexivity.
Qed.

(** *** The two-dimensional adaptive tree *)
Notation not_at x := (fun s => negb (is_at x s)).
Section EndToEnd.
Variables (orders : list nat) (cap fuel : nat) (eps : R) (srcs : list (psrc R)) (p : nat) (t : @atree R (psrc R)) (c : list R) (l : R).
Hypothesis Hdim : same_dim 2 srcs.
Hypothesis Hord : order_of eps srcs = Ok p.
Hypothesis Hp : (1 <= p)%nat.
Hypothesis Hbuild : build_adaptive 2 (@ps_pos R) cap fuel srcs = Ok t.
Hypothesis Hroot : root_box 2 (map (@ps_pos R) srcs) = Some (c, l).
Hypothesis Hbox : forall s, In s srcs -> in_box 2 c l (ps_pos s).
Notation tb0 := (table_after orders).

Lemma api_unique f : (forall r, make_fmm2 cap fuel p srcs tb0 r <-> r = Ok f) ->
  forall r, adaptive_fmm2 cap fuel eps srcs tb0 r <-> r = Ok (FmmObj p f).
Proof.
  intros U r. split.
  - intros H. inversion H as [r0 X1 X2|p0 r0 X1 X2]; subst.
    + exfalso. apply (X2 p). exact Hord.
    + assert (p0 = p) by congruence. subst p0. apply U in X2. subst r0. reflexivity.
  - intros ->. change (Ok (FmmObj p f)) with (omap (FmmObj p) (Ok f)). apply af_make; [exact Hord|]. apply U. reflexivity.
Qed.

Theorem fmm2_end_to_end : exists o, (forall r, adaptive_fmm2 cap fuel eps srcs tb0 r <-> r = Ok o) /\ fo_order o = p /\ f_tree (fo_fmm o) = t /\
  m_tb (f_mem (fo_fmm o)) = se_table tb0 p /\
  (forall grav x, length x = 2%nat -> exists v, potential_at grav srcs o x = Ok v /\
     (in_box 2 c l x -> Rabs (v - direct_potential 2 grav (filter (not_at x) srcs) x) <=
        (if (length srcs <=? cap)%nat then 0 else trunc_bound (sqrt 2 / 2) p * abs_charge srcs)) /\
     (~ in_box 2 c l x -> v = direct_potential 2 grav srcs x)) /\
  (forall grav smooth x, length x = 2%nat -> 0 <= smooth -> exists v, force_at grav smooth srcs o x = Ok (map v (seq 0 2)) /\
     (in_box 2 c l x -> exists near far, Permutation (near ++ far) (filter (not_at x) srcs) /\
       (forall s, In s far -> apart 2 (ps_pos s) x (l / 2 ^ at_height t)) /\
       forall k, (k < 2)%nat ->
       Rabs (v k - (rsum (fun s => force_on 2 grav smooth s x k) near + rsum (fun s => force_on 2 grav 0 s x k) far)) <=
        (if (length srcs <=? cap)%nat then 0 else (sqrt 2 / 2) ^ p / ((2 - sqrt 2) * (l / 2 ^ at_height t)) * abs_charge srcs)) /\
     (~ in_box 2 c l x -> map v (seq 0 2) = direct_force 2 grav smooth srcs x)).
Proof.
  assert (Hok := table_after_ok orders).
  destruct (make_fmm_good (ops2 p) 2 tb0 (se_table tb0 p) (ME2 p) (LE2 p) lv dr (E2 p) (sound2 p Hp tb0 Hok) eq_refl ltac:(lia)
    cap fuel srcs t c l Hdim Hbuild Hroot Hbox) as (f & U & Ef & Hc & G).
  destruct (make_fmm_good (ops2 p) 2 tb0 (se_table tb0 p) (ME2 p) (LE2 p) lf df (E2f p) (sound2f p Hp tb0 Hok) eq_refl ltac:(lia)
    cap fuel srcs t c l Hdim Hbuild Hroot Hbox) as (f' & U' & Ef' & _ & G').
  assert (f' = f). { assert (X : Ok f = Ok f') by (apply U'; apply U; reflexivity). congruence. } subst f'. clear U' Ef'.
  exists (FmmObj p f). split; [apply api_unique; exact U|]. split; [reflexivity|]. split; [exact Ef|]. split; [|split].
  - destruct (Nat.le_gt_cases (length srcs) cap) as [Hcap|Hcap].
    + assert (HL : exists ls, all_lists 2 t = Ok ls).
      { destruct (adaptive_inv 2 (@ps_pos R) cap fuel srcs t ltac:(lia) Hdim Hbuild) as (c' & l' & h & _ & Hc' & _ & Hh & Et & Hl' & _).
        rewrite Et. eexists. apply lists_final; assumption. }
      destruct HL as (ls & HL). assert (X := mf_leaf (ops2 p) 2 cap fuel srcs tb0 t ls Hbuild HL Hcap). apply U in X. injection X as <-. reflexivity.
    + destruct G as [G0 _ _ _|h _ _ _ _ _ (Tm & _)]; [lia|exact Tm].
  - intros grav x Hx.
    destruct (eval_pot_accurate (ops2 p) 2 tb0 (se_table tb0 p) (ME2 p) (LE2 p) lv dr (E2 p) (sound2 p Hp tb0 Hok) ltac:(lia) tt)
      with (cap := cap) (srcs := srcs) (c := c) (l := l) (f := f) (grav := grav) (x := x) as (v & Hv & B1 & B2); try assumption.
    + intros; reflexivity.
    + intros. eapply mpot2; eassumption.
    + reflexivity.
    + intros. unfold E2. apply trunc_bound_nonneg. apply ratio2_lt.
    + exists v. split; [exact Hv|]. split; [|exact B2]. intros Hin. exact (B1 Hin).
  - intros grav smooth x Hx Hs.
    destruct (eval_force_accurate (ops2 p) 2 tb0 (se_table tb0 p) (ME2 p) (LE2 p) lf df (E2f p) (sound2f p Hp tb0 Hok) ltac:(lia) (fun k => k) (fun _ _ => True))
      with (cap := cap) (srcs := srcs) (c := c) (l := l) (f := f) (grav := grav) (eps := smooth) (x := x) as (v & Hv & B1 & B2); try assumption.
    + intros. eapply lfrc2; eassumption.
    + intros. eapply mfrc2; eassumption.
    + reflexivity.
    + intros. apply E2f_nonneg; assumption.
    + intros; exact Logic.I.
    + exists v. split; [exact Hv|]. split; [|exact B2]. intros Hin. destruct (B1 Hin) as (near & far & P1 & P2 & P3).
      rewrite Ef in P2. exists near, far. split; [exact P1|]. split; [exact P2|]. intros k Hk. specialize (P3 k Hk). unfold tree_bound, E2f in P3. rewrite Ef in P3. exact P3.
Qed.
End EndToEnd.

(** With no smoothing the split into near and far sources does not matter. *)
Lemma direct_force_nth d grav eps srcs x k : (k < d)%nat -> nth k (direct_force d grav eps srcs x) 0 = rsum (fun s => force_on d grav eps s x k) srcs.
Proof.
  intros Hk. unfold direct_force. rewrite (nth_indep _ 0 (rsum (fun s => force_on d grav eps s x 0) srcs)) by (rewrite map_length, seq_length; exact Hk).
  rewrite (map_nth (fun k => rsum (fun s => force_on d grav eps s x k) srcs)). rewrite seq_nth by exact Hk. reflexivity.
Qed.
Lemma order_pos eps srcs p : order_of eps srcs = Ok p -> eps < abs_charge srcs -> (1 <= p)%nat.
Proof.
  intros H L. apply order_spec in H. destruct H as (H1 & H2 & H3 & H4 & H5). destruct p as [|p]; [|lia]. cbn [pow] in H4. lra.
Qed.

(** Hypotheses stated on the input alone. *)
Definition straddles (d : nat) (srcs : list (psrc R)) : Prop := forall j, (j < d)%nat ->
  (exists s, In s srcs /\ nth j (ps_pos s) 0 <= 0) /\ (exists s, In s srcs /\ 0 <= nth j (ps_pos s) 0).
Theorem fmm2_usable orders cap eps srcs p : same_dim 2 srcs -> straddles 2 srcs ->
  (forall x, count_occ list_R_eq_dec (map (@ps_pos R) srcs) x <= cap)%nat ->
  order_of eps srcs = Ok p -> eps < abs_charge srcs ->
  exists fuel o c l, root_box 2 (map (@ps_pos R) srcs) = Some (c, l) /\ (forall s, In s srcs -> in_box 2 c l (ps_pos s)) /\
  (forall r, adaptive_fmm2 cap fuel eps srcs (table_after orders) r <-> r = Ok o) /\
  forall grav x, length x = 2%nat -> exists v, potential_at grav srcs o x = Ok v /\
     (in_box 2 c l x -> Rabs (v - direct_potential 2 grav (filter (not_at x) srcs) x) <= trunc_bound (sqrt 2 / 2) p * abs_charge srcs) /\
     (~ in_box 2 c l x -> v = direct_potential 2 grav srcs x).
Proof.
  intros Hdim Hst Hcnt Hord HA. assert (Hp := order_pos _ _ _ Hord HA).
  assert (HN : srcs <> []). { intros ->. destruct (Hst 0%nat ltac:(lia)) as [(s & [] & _) _]. }
  destruct (proj2 (adaptive_builds 2 (@ps_pos R) cap srcs ltac:(lia) HN Hdim Hst) Hcnt) as (fuel & t & HB).
  destruct (adaptive_inv 2 (@ps_pos R) cap fuel srcs t ltac:(lia) Hdim HB) as (c & l & h & HR & _).
  assert (Hbox := root_box_contains 2 (@ps_pos R) srcs c l ltac:(lia) Hdim HR Hst).
  destruct (fmm2_end_to_end orders cap fuel eps srcs p t c l Hdim Hord Hp HB HR Hbox) as (o & U & _ & _ & _ & V & _).
  exists fuel, o, c, l. split; [exact HR|]. split; [exact Hbox|]. split; [exact U|]. intros grav x Hx. destruct (V grav x Hx) as (v & Hv & B1 & B2).
  exists v. split; [exact Hv|]. split; [|exact B2]. intros Hin. eapply Rle_trans; [exact (B1 Hin)|].
  destruct (length srcs <=? cap)%nat; [|lra]. apply Rmult_le_pos; [apply trunc_bound_nonneg; apply ratio2_lt|]. apply rsum_nonneg. intros. apply Rabs_pos.
Qed.

(** Five unit charges. *)
Definition five_unit : list (psrc R) := map (fun x => PSrc x 1) five.
Lemma five_unit_charge : abs_charge five_unit = 5.
Proof. unfold abs_charge, five_unit, five. cbn. rewrite !Rabs_R1. unfold rsum. cbn. lra. Qed.
Lemma five_unit_order : order_of 1 five_unit = Ok 3%nat.
Proof.
  apply order_spec. rewrite five_unit_charge. split; [lra|]. split; [lra|]. split; [reflexivity|]. split; [cbn; lra|].
  intros q Hq. destruct q as [|[|[|q]]]; [cbn; lra|cbn; lra|cbn; lra|lia].
Qed.
Lemma five_unit_case : same_dim 2 five_unit /\ straddles 2 five_unit /\
  (forall x, count_occ list_R_eq_dec (map (@ps_pos R) five_unit) x <= 1)%nat /\ order_of 1 five_unit = Ok 3%nat /\ 1 < abs_charge five_unit.
Proof.
  assert (EM : map (@ps_pos R) five_unit = five) by (unfold five_unit; rewrite map_map; apply map_id).
  split; [|split; [|split; [|split; [exact five_unit_order|rewrite five_unit_charge; lra]]]].
  - intros s Hs. apply five_dim. rewrite <- EM. apply in_map. exact Hs.
  - intros j Hj. destruct (five_straddles j Hj) as [(a & Ha & A) (b & Hb & B)]. 
    split; [exists (PSrc a 1)|exists (PSrc b 1)]; (split; [apply (in_map (fun x => PSrc x 1)); assumption|assumption]).
  - intros x. rewrite EM. assert (ND := five_distinct). apply (NoDup_count_occ list_R_eq_dec) with (x := x) in ND. exact ND.
Qed.
Lemma quarter_charges : 0 < 1 /\ abs_charge [PSrc [0; 0] (1/4); PSrc [1; 0] (-1/4)] <= 1 / 2.
Proof. split; [lra|]. unfold abs_charge, rsum. cbn. rewrite (Rabs_pos_eq (1/4)) by lra. rewrite (Rabs_left (-1/4)) by lra. lra. Qed.

(** *** Forms used by the property file *)
Section Forms.
Variables (orders : list nat) (cap fuel : nat) (eps : R) (srcs : list (psrc R)) (p : nat) (t : @atree R (psrc R)) (c : list R) (l : R).
Hypothesis Hdim : same_dim 2 srcs.
Hypothesis Hord : order_of eps srcs = Ok p.
Hypothesis Hp : (1 <= p)%nat.
Hypothesis Hbuild : build_adaptive 2 (@ps_pos R) cap fuel srcs = Ok t.
Hypothesis Hroot : root_box 2 (map (@ps_pos R) srcs) = Some (c, l).
Hypothesis Hbox : forall s, In s srcs -> in_box 2 c l (ps_pos s).

Theorem fmm2_potential : exists o, (forall r, adaptive_fmm2 cap fuel eps srcs (table_after orders) r <-> r = Ok o) /\ fo_order o = p /\
  forall grav x, length x = 2%nat -> exists v, potential_at grav srcs o x = Ok v /\
     (in_box 2 c l x -> Rabs (v - direct_potential 2 grav (filter (not_at x) srcs) x) <=
        (if (length srcs <=? cap)%nat then 0 else (sqrt 2 / 2) ^ S p / (INR (S p) * (1 - sqrt 2 / 2)) * abs_charge srcs)) /\
     (~ in_box 2 c l x -> v = direct_potential 2 grav srcs x).
Proof.
  destruct (fmm2_end_to_end orders cap fuel eps srcs p t c l Hdim Hord Hp Hbuild Hroot Hbox) as (o & U & E1 & _ & _ & V & _).
  exists o. split; [exact U|]. split; [exact E1|exact V].
Qed.
Theorem fmm2_force : exists o, (forall r, adaptive_fmm2 cap fuel eps srcs (table_after orders) r <-> r = Ok o) /\
  forall grav smooth x, length x = 2%nat -> 0 <= smooth -> exists v, force_at grav smooth srcs o x = Ok (map v (seq 0 2)) /\
     (in_box 2 c l x -> exists near far, Permutation (near ++ far) (filter (not_at x) srcs) /\
       (forall s, In s far -> exists j, (j < 2)%nat /\ l / 2 ^ at_height t <= Rabs (nth j (ps_pos s) 0 - nth j x 0)) /\
       forall k, (k < 2)%nat ->
       Rabs (v k - (rsum (fun s => force_on 2 grav smooth s x k) near + rsum (fun s => force_on 2 grav 0 s x k) far)) <=
        (if (length srcs <=? cap)%nat then 0 else (sqrt 2 / 2) ^ p / ((2 - sqrt 2) * (l / 2 ^ at_height t)) * abs_charge srcs)) /\
     (~ in_box 2 c l x -> map v (seq 0 2) = direct_force 2 grav smooth srcs x).
Proof.
  destruct (fmm2_end_to_end orders cap fuel eps srcs p t c l Hdim Hord Hp Hbuild Hroot Hbox) as (o & U & _ & _ & _ & _ & V).
  exists o. split; [exact U|exact V].
Qed.
Theorem fmm2_deterministic : exists o, (forall r, adaptive_fmm2 cap fuel eps srcs (table_after orders) r <-> r = Ok o) /\
    m_tb (f_mem (fo_fmm o)) = m_tb (mem0 (ops2 p) t (table_after orders)).
Proof.
  destruct (fmm2_end_to_end orders cap fuel eps srcs p t c l Hdim Hord Hp Hbuild Hroot Hbox) as (o & U & _ & _ & V & _).
  exists o. split; [exact U|exact V].
Qed.
Lemma leaf_side_pos : (cap < length srcs)%nat -> 0 < l.
Proof.
  intros Hcap. destruct (adaptive_inv 2 (@ps_pos R) cap fuel srcs t ltac:(lia) Hdim Hbuild) as (c' & l' & h & HR & _ & _ & _ & _ & HL & _).
  rewrite Hroot in HR. injection HR as <- <-. destruct HL as [|H]; [assumption|]. unfold rr in H. apply Bool.negb_false_iff, Nat.leb_le in H. lia.
Qed.
Lemma sqrt2_gap : 0 < 2 - sqrt 2. Proof. assert (H := sqrt2_lt). lra. Qed.
Lemma side_nonneg : 0 <= l.
Proof.
  destruct (adaptive_inv 2 (@ps_pos R) cap fuel srcs t ltac:(lia) Hdim Hbuild) as (c' & l' & h & HR & _ & H & _).
  rewrite Hroot in HR. injection HR as <- <-. exact H.
Qed.
Theorem fmm2_force_unsmoothed : forall o, adaptive_fmm2 cap fuel eps srcs (table_after orders) (Ok o) ->
  forall grav x, length x = 2%nat -> exists v, force_at grav 0 srcs o x = Ok v /\ length v = 2%nat /\
     (in_box 2 c l x -> forall k, (k < 2)%nat ->
       Rabs (nth k v 0 - nth k (direct_force 2 grav 0 (filter (not_at x) srcs) x) 0) <=
        (sqrt 2 / 2) ^ p / ((2 - sqrt 2) * (l / 2 ^ at_height t)) * abs_charge srcs).
Proof.
  intros o Ho grav x Hx. destruct fmm2_force as (o' & U & V). apply U in Ho. injection Ho as ->.
  destruct (V grav 0 x Hx ltac:(lra)) as (v & Hv & B & _). exists (map v (seq 0 2)). split; [exact Hv|]. split; [reflexivity|].
  intros Hin k Hk. destruct (B Hin) as (near & far & P1 & _ & P3). specialize (P3 k Hk). rewrite direct_force_nth by exact Hk.
  rewrite <- (rsum_perm _ _ _ P1), rsum_app. replace (nth k (map v (seq 0 2)) 0) with (v k) by (destruct k as [|[|k]]; [reflexivity|reflexivity|lia]).
  eapply Rle_trans; [exact P3|]. destruct (Nat.leb_spec (length srcs) cap) as [_|_]; [|apply Rle_refl].
  assert (S0 := side_nonneg). assert (G := sqrt2_gap). assert (A0 : 0 <= abs_charge srcs) by (apply rsum_nonneg; intros; apply Rabs_pos).
  apply Rmult_le_pos; [|exact A0]. assert (P2 := pow_lt 2 (at_height t) ltac:(lra)). apply Rmult_le_pos; [apply pow_le; assert (H := sqrt2_lt); lra|].
  destruct (Req_dec l 0) as [->|N].
  - replace ((2 - sqrt 2) * (0 / 2 ^ at_height t)) with 0 by (unfold Rdiv; ring). rewrite Rinv_0. lra.
  - apply Rlt_le, Rinv_0_lt_compat. apply Rmult_lt_0_compat; [exact G|]. apply Rdiv_lt_0_compat; lra.
Qed.
Theorem fmm2_energies : forall o, adaptive_fmm2 cap fuel eps srcs (table_after orders) (Ok o) ->
  forall grav, exists v, (forall r, particle_energies (potential_at grav srcs o) srcs r <-> r = Ok (map v srcs)) /\
    forall s, In s srcs -> Rabs (v s - ps_q s * direct_potential 2 grav (filter (not_at (ps_pos s)) srcs) (ps_pos s)) <=
       Rabs (ps_q s) * ((sqrt 2 / 2) ^ S p / (INR (S p) * (1 - sqrt 2 / 2)) * abs_charge srcs).
Proof.
  intros o Ho grav. destruct fmm2_potential as (o' & U & _ & V). apply U in Ho. injection Ho as ->.
  set (val := fun s : psrc R => match potential_at grav srcs o' (ps_pos s) with Ok v => v | _ => 0 end).
  assert (HV : forall s, In s srcs -> potential_at grav srcs o' (ps_pos s) = Ok (val s) /\
    Rabs (val s - direct_potential 2 grav (filter (not_at (ps_pos s)) srcs) (ps_pos s)) <= (sqrt 2 / 2) ^ S p / (INR (S p) * (1 - sqrt 2 / 2)) * abs_charge srcs).
  { intros s Hs. destruct (V grav (ps_pos s) (Hdim s Hs)) as (v & Hv & B & _). unfold val. rewrite Hv. split; [reflexivity|].
    eapply Rle_trans; [exact (B (Hbox s Hs))|]. destruct (length srcs <=? cap)%nat; [|apply Rle_refl].
    apply Rmult_le_pos; [apply (trunc_bound_nonneg (sqrt 2 / 2) p); apply ratio2_lt|]. apply rsum_nonneg; intros; apply Rabs_pos. }
  exists (fun s => ps_q s * val s). split.
  - apply batch_pointwise. intros s Hs. apply HV. exact Hs.
  - intros s Hs. destruct (HV s Hs) as [_ B]. rewrite <- Rmult_minus_distr_l, Rabs_mult. apply Rmult_le_compat_l; [apply Rabs_pos|exact B].
Qed.
End Forms.

(** *** All schedules agree, for every source set *)
Section Tame2.
Variable p : nat.
Variable tb0 : btab.
Notation tb := (se_table tb0 p).
Definition ok2 (e : se2) : Prop := (se_ord e <= p)%nat.
Lemma tb_small k : (k <= p)%nat -> se_table tb k = tb.
Proof. intros H. apply se_table_id. rewrite se_table_max. lia. Qed.
Lemma m2l2_tame c e e' tb' : ok2 e -> le2_m2l tb c e = Ok (e', tb') -> ok2 e' /\ tb' = tb.
Proof.
  intros H. unfold le2_m2l. destruct (se_ord e =? 0)%nat; [discriminate|]. intros X. apply bind_ok in X. destruct X as (cs & _ & X). injection X as <- <-.
  split; [exact H|]. apply tb_small. exact H.
Qed.
Lemma add2_tame a b e : ok2 a -> ok2 b -> se_add a b = Ok e -> ok2 e.
Proof.
  intros Ha Hb. unfold se_add. repeat match goal with |- context [if ?u then _ else _] => destruct u end; try discriminate; intros X; injection X as <-; assumption.
Qed.
Lemma m2l2_many_tame c es e tb' : Forall ok2 es -> le2_m2l_many tb c es = Ok (e, tb') -> ok2 e /\ tb' = tb.
Proof.
  intros H. unfold le2_m2l_many. destruct es as [|e0 es0] eqn:Ee; [discriminate|]. rewrite <- Ee in *.
  assert (H0 : ok2 e0) by (rewrite Ee in H; inversion H; assumption). rewrite (tb_small (se_ord e0) H0).
  assert (Z0 : ok2 (se_zero c (se_ord e0))) by exact H0. clear Ee. revert Z0. generalize (se_zero c (se_ord e0)) as z.
  induction es as [|a es IH]; intros z Hz.
  - cbn. intros X. injection X as <- <-. split; [exact Hz|reflexivity].
  - inversion H as [|? ? Ha Hes]; subst. cbn [ofold]. intros X. apply bind_ok in X. destruct X as ([s t] & X1 & X2). cbn [fst snd] in X1.
    apply bind_ok in X1. destruct X1 as ([r t1] & X1 & X3). cbn [fst snd] in X3. apply bind_ok in X3. destruct X3 as (s1 & X3 & X4). injection X4 as <- <-.
    apply m2l2_tame in X1; [|exact Ha]. destruct X1 as [Hr ->]. apply (IH Hes s1); [|exact X2]. eapply add2_tame; [exact Hz|exact Hr|exact X3].
Qed.
Theorem tame2 : tame (ops2 p) tb0 tb ok2 ok2.
Proof.
  constructor; cbn [ops2 o_default o_zero o_p2m o_m2m o_m2l o_l2l o_p2l o_add fst snd].
  - unfold ok2. cbn. lia.
  - intros c. unfold ok2. cbn. lia.
  - reflexivity.
  - intros c S e tb' X. injection X as <- <-. split; [unfold ok2; cbn; lia|apply tb_small; lia].
  - intros c es e tb' H X. unfold me2_merge in X. destruct es as [|e0 es]; [discriminate|]. inversion H as [|? ? H0 _]; subst.
    apply bind_ok in X. destruct X as (cs & _ & X). injection X as <- <-. split; [exact H0|apply tb_small; exact H0].
  - intros c es e tb' H X. eapply m2l2_many_tame; eassumption.
  - intros c a e tb' H X. unfold le2_l2l in X. destruct (se_ord a =? 0)%nat; [discriminate|]. apply bind_ok in X. destruct X as (cs & _ & X).
    injection X as <- <-. split; [exact H|apply tb_small; exact H].
  - intros c S e tb' X. apply bind_ok in X. destruct X as (u & X1 & X). injection X as <- <-.
    unfold le2_sources in X1. apply bind_ok in X1. destruct X1 as (cs & _ & X1). injection X1 as <-. split; [unfold ok2; cbn; lia|apply tb_small; lia].
  - apply add2_tame.
Qed.
End Tame2.

Theorem fmm2_schedules_agree cap fuel eps srcs tb0 o : same_dim 2 srcs -> adaptive_fmm2 cap fuel eps srcs tb0 (Ok o) ->
  (forall r, adaptive_fmm2 cap fuel eps srcs tb0 r <-> r = Ok o) /\ m_tb (f_mem (fo_fmm o)) = se_table tb0 (fo_order o).
Proof.
  intros Hdim H. inversion H as [r0 X1 X2 X3|p r0 X1 X2 X3].
  - exfalso. destruct r0; try discriminate. 
  - destruct r0 as [f| | | | |]; try discriminate. cbn in X3. injection X3 as <-.
    destruct (make_fmm_agree (ops2 p) 2 tb0 (se_table tb0 p) (ok2 p) (ok2 p) (tame2 p tb0) cap fuel srcs f ltac:(lia) Hdim X2) as [U T].
    split; [|exact T]. intros r. split.
    + intros Hr. inversion Hr as [r1 Y1 Y2|p1 r1 Y1 Y2]; subst.
      * exfalso. apply (Y2 p). exact X1.
      * assert (p1 = p) by congruence. subst p1. apply U in Y2. subst r1. reflexivity.
    + intros ->. exact H.
Qed.

(** *** Order zero *)
Lemma interleaving_head {A} (its : list (list A)) run : interleaving its run -> (exists it, In it its /\ it <> []) ->
  exists a it run', run = a :: run' /\ In (a :: it) its.
Proof.
  intros H (it & Hit & N). inversion H as [its0 E|before a it0 after run0 H1]; subst.
  - exfalso. apply N. apply E. exact Hit.
  - exists a, it0, run0. split; [reflexivity|]. apply in_or_app. right. left. reflexivity.
Qed.
Lemma local_region_order0 tb0 t ls ns m m' : ns <> [] -> Im (se_table tb0 0) (ok2 0) (ok2 0) m ->
  ~ region_result (map (it_local (ops2 0) t ls) ns) m (Ok m').
Proof.
  intros NE (_ & _ & HL) (run & Hi & He).
  destruct (interleaving_head _ _ Hi) as (a & it & run' & -> & Ha).
  { destruct ns as [|n0 ns]; [contradiction|]. unfold tagged. cbn [map length seq]. eexists. split; [left; reflexivity|]. discriminate. }
  unfold tagged in Ha. apply in_map_iff in Ha. destruct Ha as (i & Ha & Hk). apply in_seq in Hk. rewrite map_length in Hk.
  destruct (nth_error ns i) as [n|] eqn:En; [|apply nth_error_None in En; lia].
  assert (E : nth i (map (it_local (ops2 0) t ls) ns) [] = it_local (ops2 0) t ls n).
  { apply nth_error_nth. rewrite nth_error_map, En. reflexivity. }
  rewrite E in Ha. unfold it_local in Ha. cbn [map app] in Ha. injection Ha as <- _.
  unfold exec in He. cbn [ofold] in He. unfold exec_step at 1 in He. cbn [fst snd] in He.
  assert (X : forall r, st_l2l (ops2 0) n (m, no_locals) <> Ok r).
  { intros r. unfold st_l2l. destruct (an_addr n) as [|j q]; [discriminate|]. cbn [fst snd]. destruct (m_le m q) as [pe|] eqn:Ep; [|discriminate]. cbn [of_option bind].
    destruct (o_size (ops2 0) pe =? 0)%nat; [discriminate|]. cbn [ops2 o_l2l]. unfold le2_l2l. specialize (HL q pe Ep). unfold ok2 in HL.
    replace (se_ord pe) with 0%nat by lia. discriminate. }
  destruct (st_l2l (ops2 0) n (m, no_locals)) as [u| | | | |]; cbn in He; try discriminate. exact (X u eq_refl).
Qed.
Lemma passes_last {ME LE Tb} (rgs : list (@region ME LE Tb)) rg m m' : passes_result (rgs ++ [rg]) m (Ok m') ->
  exists m1, passes_result rgs m (Ok m1) /\ region_result rg m1 (Ok m').
Proof.
  revert m. induction rgs as [|r0 rgs IH]; intros m H.
  - cbn in H. inversion H as [|? ? ? mb ? Hb Hp|? ? ? ? Hb Hn]; subst.
    + inversion Hp; subst. exists m. split; [constructor|exact Hb].
    + exfalso. eapply Hn. reflexivity.
  - cbn in H. inversion H as [|? ? ? mb ? Hb Hp|? ? ? ? Hb Hn]; subst.
    + destruct (IH _ Hp) as (m1 & X & Y). exists m1. split; [|exact Y]. eapply pr_ok; eassumption.
    + exfalso. eapply Hn. reflexivity.
Qed.
Theorem fmm2_order_zero cap fuel eps srcs tb0 : same_dim 2 srcs -> order_of eps srcs = Ok 0%nat -> (cap < length srcs)%nat ->
  forall o, ~ adaptive_fmm2 cap fuel eps srcs tb0 (Ok o).
Proof.
  intros Hdim Hord Hcap o H. inversion H as [r0 X1 X2 X3|p r0 X1 X2 X3].
  { destruct r0; discriminate. }
  assert (p = 0%nat) by congruence. subst p. destruct r0 as [f| | | | |]; try discriminate. clear X3 H.
  inversion X2 as [r0 Y1 Y2 E|t0 r0 Y1 Y2 Y3 E|t0 ls0 Y1 Y2 Y3|t0 ls0 Y1 Y2 Y3 Y4|t ls r0 Y1 Y2 Y3 Y4 Y5 Y6 E].
  - destruct r0; try discriminate. eapply Y2. reflexivity.
  - destruct r0; try discriminate. eapply Y3. reflexivity.
  - lia.
  - destruct r0 as [m1| | | | |]; try discriminate. clear E.
    destruct (adaptive_inv 2 (@ps_pos R) cap fuel srcs t ltac:(lia) Hdim Y1) as (c & l & h & HR & Hc & _ & Hh & Et & Hl & _).
    assert (Hhh : (1 <= h)%nat).
    { destruct h as [|h']; [|lia]. destruct Hh as [X _]. cbn in X. unfold rr in X. destruct (Nat.leb_spec (length srcs) cap); [lia|discriminate X]. }
    assert (RT := regions_tame (ops2 0) 2 tb0 (se_table tb0 0) (ok2 0) (ok2 0) (tame2 0 tb0) c l cap srcs (rr cap srcs) h Hh Hhh ls). rewrite <- Et in RT.
    unfold regions in RT, Y6. rewrite !app_assoc in RT, Y6. apply Forall_app in RT. destruct RT as [RT _].
    apply passes_last in Y6. destruct Y6 as (m2 & P1 & P2).
    assert (M0 : Im (se_table tb0 0) (ok2 0) (ok2 0) (mem0 (ops2 0) t tb0)) by (rewrite Et; apply mem0_Im; apply tame2).
    assert (Hm := proj1 (passes_agree (se_table tb0 0) (Im (se_table tb0 0) (ok2 0) (ok2 0)) (Il (ok2 0) (ok2 0)) (fun m Hm => proj1 Hm)
      (Il_no_locals (ok2 0) (ok2 0)) _ _ m2 RT M0 P1)).
    eapply local_region_order0; [|exact Hm|exact P2].
    rewrite Et. unfold spec_tree; cbn [at_height at_leaves].
    rewrite (nth_indep _ [] (leaf_level 2 (@ps_pos R) c l cap srcs (rr cap srcs) 0)) by (rewrite map_length, seq_length; lia).
    rewrite map_nth, seq_nth by lia. cbn [plus].
    destruct Hh as [Hn Hr]. specialize (Hr (h - 1)%nat ltac:(lia)).
    destruct (filter _ (AdaptiveProofs.level _ _ _ _ _ _ _ (h - 1))) as [|q qs] eqn:Eq; [contradiction|].
    assert (Hq : In q (q :: qs)) by (left; reflexivity). rewrite <- Eq in Hq. apply filter_In in Hq. destruct Hq as [Hq Rq]. apply in_level in Hq. destruct Hq as [Lq Pq].
    intros EN. assert (I0 : In (mk 2 (@ps_pos R) c l cap srcs (rr cap srcs) (0%nat :: q)) []).
    { rewrite <- EN. apply leaf_level_in. exists (0%nat :: q). split; [reflexivity|].
      assert (P0 : present 2 (@ps_pos R) c l cap srcs (rr cap srcs) (0%nat :: q)).
      { simpl. split; [|auto]. unfold n_children. cbn. lia. }
      split; [exact P0|]. split; [simpl; lia|]. destruct (refined 2 (@ps_pos R) c l cap srcs (rr cap srcs) (0%nat :: q)) eqn:R0; [|reflexivity].
      exfalso. assert (I1 : In (0%nat :: q) (filter (refined 2 (@ps_pos R) c l cap srcs (rr cap srcs)) (level 2 (@ps_pos R) c l cap srcs (rr cap srcs) h))).
      { apply filter_In. split; [apply in_level; split; [simpl; lia|exact P0]|exact R0]. }
      rewrite Hn in I1. destruct I1. }
    destruct I0.
Qed.
Lemma five_unit_order0 : order_of 6 five_unit = Ok 0%nat.
Proof.
  apply order_spec. rewrite five_unit_charge. split; [lra|]. split; [lra|]. split; [reflexivity|]. split; [cbn; lra|]. intros q Hq. lia.
Qed.
