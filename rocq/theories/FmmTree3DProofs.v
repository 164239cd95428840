(** The three-dimensional expansions satisfy what the passes need, so the tree is accurate. *)
From Coq Require Import List Bool ZArith Arith Lia Lra Reals Permutation.
From Coquelicot Require Import Complex.
From Verif Require Import Num Outcome Vec Orthtree AdaptiveTree TreeSpec VecProofs GeometrySpec GeometryProofs TreeGeometry
  AdaptiveProofs BuildProofs ListProofs ListContents TreeTheorems Tables Tables3D Expansion3D CAux TableProofs Table3DProofs FieldSpec Schedule Fields FieldProofs
  FmmPasses PassProofs PassSteps PassTree PassSpec PassEval FmmTree2DProofs Kernel3 Harmonics3D Exp3Loops Exp3Proofs Exp3Errors FmmTree3D.
Import ListNotations.
Local Open Scope R_scope.

(** *** Distances in boxes *)
Lemma sqrt3_pos : 0 < sqrt 3. Proof. apply sqrt_lt_R0; lra. Qed.
Lemma sqrt3_sq : sqrt 3 * sqrt 3 = 3. Proof. apply sqrt_sqrt; lra. Qed.
Lemma sqrt3_lt : 1.73 < sqrt 3 < 1.74.
Proof. assert (H := sqrt3_sq). assert (P := sqrt3_pos). split; nra. Qed.

Lemma in_box_dist3 c len x : length c = 3%nat -> length x = 3%nat -> 0 < len -> in_box 3 c len x -> dist x c <= sqrt 3 / 2 * len.
Proof.
  intros Hc Hx Hl H. unfold dist. rewrite Hx. cbn [seq rsum fold_right].
  assert (H0 := H 0%nat ltac:(lia)). assert (H1 := H 1%nat ltac:(lia)). assert (H2 := H 2%nat ltac:(lia)).
  set (a := nth 0 x 0 - nth 0 c 0) in *. set (b := nth 1 x 0 - nth 1 c 0) in *. set (e := nth 2 x 0 - nth 2 c 0) in *.
  assert (A : - (len / 2) <= a <= len / 2) by (unfold a; lra). assert (B : - (len / 2) <= b <= len / 2) by (unfold b; lra).
  assert (E : - (len / 2) <= e <= len / 2) by (unfold e; lra).
  assert (P := sqrt3_pos). assert (S3 := sqrt3_sq).
  rewrite <- (sqrt_Rsqr (sqrt 3 / 2 * len)) by (apply Rmult_le_pos; lra). apply sqrt_le_1_alt. unfold Rsqr.
  replace (sqrt 3 / 2 * len * (sqrt 3 / 2 * len)) with ((sqrt 3 * sqrt 3) * (len * len / 4)) by field. rewrite S3.
  assert (a ^ 2 <= len * len / 4) by nra. assert (b ^ 2 <= len * len / 4) by nra. assert (e ^ 2 <= len * len / 4) by nra. lra.
Qed.

Section Instance.
Variable p : nat.
Hypothesis Hp : (1 <= p)%nat.
Notation P := (Z.of_nat p).
Variable tb : tb3.
Hypothesis Htb : tb3_for tb P.

(** The ratio and the bound for boxes of side [len]. *)
Definition ratio3 : R := sqrt 3 / (4 - sqrt 3).
Definition E3 (i : unit) (len : R) : R := 2 * ratio3 ^ S p / ((2 - sqrt 3) * len).
Lemma ratio3_lt : sqrt 3 / 3 <= ratio3 < 1 /\ 0 <= ratio3.
Proof.
  assert (S := sqrt3_lt). unfold ratio3. split; [split|].
  - apply Rmult_le_compat_l; [lra|]. apply Rinv_le_contravar; lra.
  - apply (Rmult_lt_reg_r (4 - sqrt 3)); [lra|]. unfold Rdiv. rewrite Rmult_assoc, Rinv_l by lra. lra.
  - apply Rmult_le_pos; [lra|left; apply Rinv_0_lt_compat; lra].
Qed.
Lemma E3_nonneg i len : 0 < len -> 0 <= E3 i len.
Proof.
  intros Hl. assert (S := sqrt3_lt). unfold E3. apply Rmult_le_pos.
  - apply Rmult_le_pos; [lra|]. apply pow_le. apply ratio3_lt.
  - left. apply Rinv_0_lt_compat. apply Rmult_lt_0_compat; lra.
Qed.
Lemma E3_two len : 0 < len -> trunc3_two (sqrt 3 / 2 * len) (sqrt 3 / 2 * len) (2 * len) p = E3 tt len.
Proof.
  intros Hl. assert (S := sqrt3_lt). unfold trunc3_two, E3, ratio3.
  replace (sqrt 3 / 2 * len / (2 * len - sqrt 3 / 2 * len)) with (sqrt 3 / (4 - sqrt 3)) by (field; repeat split; nra).
  replace (2 * len - sqrt 3 / 2 * len - sqrt 3 / 2 * len) with ((2 - sqrt 3) * len) by field.
  unfold Rdiv. ring.
Qed.
Lemma E3_one len : 0 < len -> trunc3 (sqrt 3 / 2 * len) (3 / 2 * len) p <= E3 tt len.
Proof.
  intros Hl. assert (S := sqrt3_lt). destruct ratio3_lt as [[R1 R2] R0]. unfold trunc3, E3.
  replace (sqrt 3 / 2 * len / (3 / 2 * len)) with (sqrt 3 / 3) by (field; lra).
  assert (Q : (sqrt 3 / 3) ^ Datatypes.S p <= ratio3 ^ Datatypes.S p) by (apply pow_incr; split; [lra|exact R1]).
  assert (Q0 : 0 <= (sqrt 3 / 3) ^ Datatypes.S p) by (apply pow_le; lra).
  apply div_mono; [lra|]. split; [apply Rmult_lt_0_compat; lra|]. nra.
Qed.

Lemma refresh_id : tb3_refresh tb P = Ok tb.
Proof.
  destruct Htb as (_ & _ & H). unfold tb3_refresh. destruct (Z.ltb_spec (at_max (t_alm tb)) P); [lia|reflexivity].
Qed.
Lemma grow_id es : (forall e, In e es -> s3_ord e = P) -> tb3_grow tb es = Ok tb.
Proof.
  unfold tb3_grow. induction es as [|e es IH]; intros H; [reflexivity|]. cbn [ofold]. rewrite (H e (or_introl eq_refl)), refresh_id. cbn [bind].
  apply IH. intros; apply H; right; assumption.
Qed.

Definition ME3 (c : list R) (S : list (psrc R)) (e : se3) : Prop := length c = 3%nat /\ same_dim 3 S /\ e = s3_of P c (me_coef c S).
Definition LE3 (c : list R) (e : se3) : Prop := length c = 3%nat /\ exists f, e = s3_of P c f.
Definition lv3 (i : unit) (e : se3) (x : list R) : R :=
  if (length x =? 3)%nat then match le3_pot e x with Ok v => v | _ => 0 end else 0.
Definition dr3 (i : unit) (s : psrc R) (x : list R) : R := kernel 3 (ps_q s) (dist (ps_pos s) x).

Lemma dr3_direct S x : rsum (fun s => dr3 tt s x) S = direct_potential 3 true S x.
Proof. unfold direct_potential. apply rsum_ext. intros s _. unfold dr3, field_sign. ring. Qed.
Lemma lv3_of i c f x : length c = 3%nat -> lv3 i (s3_of P c f) x = if (length x =? 3)%nat then - Re (lval3 P f (p3 (vsub x c))) else 0.
Proof.
  intros Hc. unfold lv3. destruct (Nat.eqb_spec (length x) 3) as [Hx|Hx]; [|reflexivity]. rewrite le3_pot_ok by (try assumption; lia). reflexivity.
Qed.

Lemma sources_app (parts : list (list R * list (psrc R) * se3)) :
  flat_map snd (map fst parts) = flat_map (fun u => snd (fst u)) parts.
Proof. induction parts as [|u parts IH]; [reflexivity|]. cbn [map flat_map]. rewrite IH. reflexivity. Qed.
Lemma parts_ME (parts : list (list R * list (psrc R) * se3)) :
  (forall u, In u parts -> ME3 (fst (fst u)) (snd (fst u)) (snd u)) ->
  map snd parts = map (fun u => s3_of P (fst u) (me_coef (fst u) (snd u))) (map fst parts).
Proof. intros H. rewrite map_map. apply map_ext_in. intros u Hu. destruct (H u Hu) as (_ & _ & E). exact E. Qed.
Lemma parts_ord (parts : list (list R * list (psrc R) * se3)) :
  (forall u, In u parts -> ME3 (fst (fst u)) (snd (fst u)) (snd u)) -> forall e, In e (map snd parts) -> s3_ord e = P.
Proof. intros H e He. apply in_map_iff in He. destruct He as (u & <- & Hu). destruct (H u Hu) as (_ & _ & ->). reflexivity. Qed.

Theorem sound3 : sound (ops3 p) 3 tb ME3 LE3 lv3 dr3 E3.
Proof.
  assert (S3 := sqrt3_lt). constructor.
  - intros c S Hc HS. exists (s3_of P c (me_coef c S)). split; [|repeat split; assumption]. cbn [ops3 o_p2m]. rewrite refresh_id. cbn [bind].
    rewrite me3_sources_ok by (try assumption; lia). reflexivity.
  - intros c parts Hc Hne HM. exists (s3_of P c (me_coef c (flat_map (fun u => snd (fst u)) parts))). split.
    + cbn [ops3 o_m2m]. rewrite grow_id.
      * cbn [bind]. rewrite (parts_ME parts HM), me3_merge_exact; [cbn [bind]; now rewrite sources_app|exact Htb|exact Hc|destruct parts; [congruence|discriminate]|].
        intros u Hu. apply in_map_iff in Hu. destruct Hu as (w & <- & Hw). destruct (HM w Hw) as (A & B & _). split; assumption.
      * intros e He. apply (parts_ord parts HM). destruct (map snd parts); [destruct He|]. destruct He as [<-|[]]. left. reflexivity.
    + split; [exact Hc|]. split; [|reflexivity]. intros s Hs. apply in_flat_map in Hs. destruct Hs as (u & Hu & Hs). destruct (HM u Hu) as (_ & B & _). apply B. exact Hs.
  - intros tb' c Hc. cbn [ops3 o_zero fst]. rewrite zero_co by lia. split; [split; [exact Hc|eexists; reflexivity]|].
    intros i x. rewrite lv3_of by exact Hc. destruct (length x =? 3)%nat; [|reflexivity]. rewrite lval_zero. unfold Re. cbn. ring.
  - intros c e (Hc & f & ->). cbn [ops3 o_size s3_co s3_of]. rewrite co_of_length by lia. nia.
  - intros c a b (Hc & f & ->) (_ & g & ->). cbn [ops3 o_add]. rewrite s3_add_of. eexists. split; [reflexivity|].
    split; [split; [exact Hc|eexists; reflexivity]|]. intros i x. rewrite !lv3_of by exact Hc. destruct (length x =? 3)%nat; [|ring].
    rewrite lval_plus. unfold Re. cbn. ring.
  - intros c c' e Hc' (Hc & f & ->). cbn [ops3 o_l2l s3_ord s3_of]. fold (s3_of P c f). rewrite refresh_id. cbn [bind].
    destruct (le3_translate_exact p tb c c' f Htb Hc Hc') as (f' & E & V). rewrite E. cbn [bind]. eexists. split; [reflexivity|].
    split; [split; [exact Hc'|eexists; reflexivity]|]. intros i x. rewrite !lv3_of by assumption.
    destruct (Nat.eqb_spec (length x) 3) as [Hx|]; [|reflexivity]. rewrite V by exact Hx. reflexivity.
  - intros c len parts Hc Hl Hne HM.
    assert (HM1 : forall u, In u parts -> ME3 (fst (fst u)) (snd (fst u)) (snd u)) by (intros u Hu; apply HM; exact Hu).
    cbn [ops3 o_m2l]. rewrite grow_id by (apply parts_ord; exact HM1). cbn [bind]. rewrite (parts_ME parts HM1).
    destruct (le3_convert_all_error p tb c (map fst parts) (sqrt 3 / 2 * len) (sqrt 3 / 2 * len) (2 * len) Htb Hc) as (f & E & B); try nra.
    + destruct parts; [congruence|discriminate].
    + intros u Hu. apply in_map_iff in Hu. destruct Hu as (w & <- & Hw). destruct (HM w Hw) as (_ & M2 & M3 & M4 & M5).
      split; [exact M2|]. split; [exact M3|]. split.
      * intros s Hs. apply in_box_dist3; [exact M2|apply M3; exact Hs|exact Hl|apply M4; exact Hs].
      * rewrite dist_sym by congruence. apply (apart_dist 3); try assumption. lra.
    + rewrite E. cbn [bind]. eexists. split; [reflexivity|]. split; [split; [exact Hc|eexists; reflexivity]|].
      intros i x Hx Hin. destruct i. rewrite dr3_direct, lv3_of by exact Hc. rewrite Hx. cbn [Nat.eqb]. rewrite <- sources_app, <- E3_two by exact Hl.
      apply B; [exact Hx|]. apply in_box_dist3; assumption.
  - intros c len S Hc Hl HS Hap. cbn [ops3 o_p2l]. rewrite refresh_id. cbn [bind].
    assert (Hd : forall s, In s S -> 3 / 2 * len <= dist (ps_pos s) c).
    { intros s Hs. rewrite dist_sym by (rewrite (HS s Hs); congruence). apply (apart_dist 3); [exact Hc|apply HS; exact Hs|lra|apply Hap; exact Hs]. }
    assert (E : le3_sources c P S = Ok (s3_of P c (le_coef c S))).
    { apply le3_sources_ok; [lia|exact Hc|]. intros s Hs. split; [apply HS; exact Hs|]. unfold rel. rewrite <- dist_pn by (try assumption; apply HS; exact Hs).
      apply Rgt_not_eq. specialize (Hd s Hs). lra. }
    rewrite E. cbn [bind]. eexists. split; [reflexivity|]. split; [split; [exact Hc|eexists; reflexivity]|].
    intros i x Hx Hin. destruct i.
    destruct (le3_error p c S x (sqrt 3 / 2 * len) (3 / 2 * len)) as (e & v & E1 & E2 & B); try assumption; [nra|apply in_box_dist3; assumption|].
    assert (Ee : e = s3_of P c (le_coef c S)) by congruence. rewrite <- Ee. unfold lv3. rewrite Hx, E2. cbn [Nat.eqb]. rewrite dr3_direct.
    eapply Rle_trans; [exact B|]. apply Rmult_le_compat_r; [apply abs_charge_nonneg|]. apply E3_one. exact Hl.
  - intros i l1 l2 [H1 H2]. unfold E3. apply div_mono.
    + split; [|lra]. apply Rmult_le_pos; [lra|]. apply pow_le, ratio3_lt.
    + split; [apply Rmult_lt_0_compat; lra|]. apply Rmult_le_compat_l; lra.
Qed.

Lemma lpot3 c e y : LE3 c e -> length y = 3%nat -> o_lpot (ops3 p) e y = Ok (lv3 tt e y).
Proof.
  intros (Hc & f & ->) Hy. cbn [ops3 o_lpot]. rewrite lv3_of by exact Hc. rewrite Hy. cbn [Nat.eqb]. apply le3_pot_ok; try assumption. lia.
Qed.
Lemma mpot3 c len S e y : ME3 c S e -> length c = 3%nat -> same_dim 3 S -> 0 < len ->
  (forall s, In s S -> in_box 3 c len (ps_pos s)) -> length y = 3%nat -> apart 3 c y (3 / 2 * len) ->
  exists v, o_mpot (ops3 p) e y = Ok v /\ Rabs (v - rsum (fun s => dr3 tt s y) S) <= E3 tt len * abs_charge S.
Proof.
  intros (_ & _ & ->) Hc HS Hl Hin Hy Hap. assert (S3 := sqrt3_lt).
  destruct (me3_error p c S y (sqrt 3 / 2 * len) (3 / 2 * len)) as (e & v & E1 & Hv & B); try assumption.
  - nra.
  - intros s Hs. apply in_box_dist3; [exact Hc|apply HS; exact Hs|exact Hl|apply Hin; exact Hs].
  - rewrite dist_sym by congruence. apply (apart_dist 3); [exact Hc|exact Hy|lra|exact Hap].
  - rewrite me3_sources_ok in E1 by (try assumption; lia). injection E1 as <-. exists v. split; [exact Hv|]. rewrite dr3_direct.
    eapply Rle_trans; [exact B|]. apply Rmult_le_compat_r; [apply abs_charge_nonneg|]. apply E3_one. exact Hl.
Qed.
End Instance.
