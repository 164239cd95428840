(** The force fields of the three-dimensional expansions also satisfy what the passes need. *)
From Coq Require Import List Bool ZArith Arith Lia Lra Reals Permutation.
From Coquelicot Require Import Complex.
From Verif Require Import Num Outcome Vec Orthtree AdaptiveTree TreeSpec VecProofs GeometrySpec GeometryProofs TreeGeometry
  AdaptiveProofs BuildProofs ListProofs ListContents TreeTheorems Tables Tables3D Expansion3D CAux TableProofs Table3DProofs FieldSpec Schedule Fields FieldProofs
  FmmPasses PassProofs PassSteps PassTree PassSpec PassEval FmmTree2DProofs Kernel3 Harmonics3D Exp3Loops Exp3Proofs Exp3Errors
  Exp3Forces KernelGradient3 KernelGradBounds3 Exp3ForceErrors FmmTree3D FmmTree3DProofs.
Import ListNotations.
Local Open Scope R_scope.

Section Instance.
Variable p : nat.
Hypothesis Hp : (1 <= p)%nat.
Notation P := (Z.of_nat p).
Variable tb : tb3.
Hypothesis Htb : tb3_for tb P.

(** The coefficients of an expansion, and component [k] of its force as a function of the point. *)
Definition cof (e : se3) (n m : Z) : C := match zget (s3_co e) (sh_index n m) with Ok v => v | _ => RtoC 0 end.
Definition lf3 (k : nat) (e : se3) (x : list R) : R :=
  if ((length x =? 3) && (k <? 3))%nat then Re (lgrad3 P (cof e) (bv k) (p3 (vsub x (s3_ctr e)))) else 0.
Definition df3 (k : nat) (s : psrc R) (x : list R) : R := force_on 3 true 0 s x k.
(** The points where the force is computed. *)
Definition okx3 (c x : list R) : Prop := off_axis (p3 (vsub x c)).

Lemma lf3_of k c f x : lf3 k (s3_of P c f) x = if ((length x =? 3) && (k <? 3))%nat then Re (lgrad3 P f (bv k) (p3 (vsub x c))) else 0.
Proof.
  unfold lf3. destruct ((length x =? 3) && (k <? 3))%nat; [|reflexivity]. cbn [s3_ctr s3_of]. fold (s3_of P c f). f_equal. apply lgrad_ext.
  intros n m Hm Hn. unfold cof. cbn [s3_co s3_of]. rewrite co_of_get by assumption. reflexivity.
Qed.
Lemma lf3_in k c f x : length x = 3%nat -> (k < 3)%nat -> lf3 k (s3_of P c f) x = Re (lgrad3 P f (bv k) (p3 (vsub x c))).
Proof. intros Hx Hk. rewrite lf3_of, Hx, (proj2 (Nat.ltb_lt k 3) Hk). reflexivity. Qed.
Lemma lf3_high k c f x : (3 <= k)%nat -> lf3 k (s3_of P c f) x = 0.
Proof. intros Hk. rewrite lf3_of, (proj2 (Nat.ltb_ge k 3) Hk), Bool.andb_false_r. reflexivity. Qed.
Lemma df3_high k s x : (3 <= k)%nat -> length (ps_pos s) = 3%nat -> length x = 3%nat -> df3 k s x = 0.
Proof. intros Hk Hs Hx. unfold df3, force_on. rewrite !nth_overflow by lia. unfold Rdiv. ring. Qed.

(** Error per unit charge of one component of the force, for boxes of side [len]. *)
Definition E3f (k : nat) (len : R) : R := gtrunc3_two (sqrt 3 / 2 * len) (sqrt 3 / 2 * len) (2 * len) p.
Lemma E3f_eq k len : 0 < len -> E3f k len = (INR (p + 2) * ratio3 ^ S p + INR (p + 1) * ratio3 ^ p) / ((2 - sqrt 3) * len) ^ 2.
Proof.
  intros Hl. assert (S := sqrt3_lt). unfold E3f, gtrunc3_two.
  replace (sqrt 3 / 2 * len / (2 * len - sqrt 3 / 2 * len)) with ratio3 by (unfold ratio3; field; repeat split; nra).
  replace (2 * len - sqrt 3 / 2 * len - sqrt 3 / 2 * len) with ((2 - sqrt 3) * len) by field. reflexivity.
Qed.
Lemma E3f_nonneg k len : 0 < len -> 0 <= E3f k len.
Proof. intros Hl. assert (S := sqrt3_lt). apply gtrunc3_two_nonneg; nra. Qed.
Lemma E3f_anti k l1 l2 : 0 < l1 <= l2 -> E3f k l2 <= E3f k l1.
Proof.
  intros [H1 H2]. assert (S := sqrt3_lt). destruct ratio3_lt as [_ R0]. rewrite !E3f_eq by lra. apply div_mono.
  - split; [|apply Rle_refl]. apply Rplus_le_le_0_compat; apply Rmult_le_pos; try apply pos_INR; apply pow_le; exact R0.
  - split; [apply pow_lt, Rmult_lt_0_compat; lra|]. apply pow_incr. split; [apply Rmult_le_pos; lra|apply Rmult_le_compat_l; lra].
Qed.
Lemma pow_le_one a n m : 0 <= a <= 1 -> (n <= m)%nat -> a ^ m <= a ^ n.
Proof.
  intros Ha H. replace m with (n + (m - n))%nat by lia. rewrite pow_add.
  assert (0 <= a ^ n) by (apply pow_le; lra). assert (a ^ (m - n) <= 1) by (rewrite <- (pow1 (m - n)); apply pow_incr; lra). nra.
Qed.
Lemma E3f_one k len : 0 < len -> gtrunc3 (sqrt 3 / 2 * len) (3 / 2 * len) p <= E3f k len /\ gtrunc3_loc p (sqrt 3 / 2 * len) (3 / 2 * len) <= E3f k len.
Proof.
  intros Hl. assert (S := sqrt3_lt). destruct ratio3_lt as [[R1 R2] R0]. rewrite E3f_eq by lra. unfold gtrunc3, gtrunc3_loc.
  replace (sqrt 3 / 2 * len / (3 / 2 * len)) with (sqrt 3 / 3) by (field; lra).
  assert (Q : forall n, 0 <= (sqrt 3 / 3) ^ n <= ratio3 ^ n) by (intros n; split; [apply pow_le; lra|apply pow_incr; split; [lra|exact R1]]).
  assert (D : 0 < ((2 - sqrt 3) * len) ^ 2 <= (3 / 2 * len - sqrt 3 / 2 * len) ^ 2).
  { split; [apply pow_lt, Rmult_lt_0_compat; lra|]. apply pow_incr. split; [apply Rmult_le_pos; lra|]. nra. }
  assert (Z1 := pos_INR (p + 2)). assert (Z2 := pos_INR (p + 1)). assert (Q1 := Q (Datatypes.S p)). assert (Q2 := Q p).
  assert (M1 : 0 <= INR (p + 2) * (sqrt 3 / 3) ^ Datatypes.S p <= INR (p + 2) * ratio3 ^ Datatypes.S p) by (split; [apply Rmult_le_pos; lra|apply Rmult_le_compat_l; lra]).
  assert (M2 : 0 <= INR (p + 1) * (sqrt 3 / 3) ^ p <= INR (p + 1) * ratio3 ^ p) by (split; [apply Rmult_le_pos; lra|apply Rmult_le_compat_l; lra]).
  split; apply div_mono; try assumption; lra.
Qed.

(** The bounds, for every component. *)
Lemma comp k c f S x B : length x = 3%nat -> same_dim 3 S -> 0 <= B ->
  ((k < 3)%nat -> Rabs (Re (lgrad3 P f (bv k) (p3 (vsub x c))) - rsum (fun s => force_on 3 true 0 s x k) S) <= B * abs_charge S) ->
  Rabs (lf3 k (s3_of P c f) x - rsum (fun s => df3 k s x) S) <= B * abs_charge S.
Proof.
  intros Hx HS HB H. destruct (le_lt_dec 3 k) as [Hk|Hk].
  - rewrite lf3_high by exact Hk. rewrite (rsum_ext (fun s => df3 k s x) (fun _ => 0)) by (intros s Hs; apply df3_high; [exact Hk|apply HS; exact Hs|exact Hx]).
    rewrite rsum_zero, Rminus_0_r, Rabs_R0. apply Rmult_le_pos; [exact HB|apply abs_charge_nonneg].
  - rewrite lf3_in by assumption. apply H. exact Hk.
Qed.

Lemma s3_of_ext c f g : (forall n m, f n m = g n m) -> s3_of P c f = s3_of P c g.
Proof. intros H. unfold s3_of. f_equal. apply co_of_ext. intros; apply H. Qed.
(** The conversion of several multipole expansions adds the converted coefficients. *)
Lemma convert_all_coef c (parts : list (list R * list (psrc R))) : length c = 3%nat -> parts <> [] ->
  (forall u, In u parts -> length (fst u) = 3%nat /\ 0 < dist (fst u) c) ->
  le3_convert_all tb c (map (fun u => s3_of P (fst u) (me_coef (fst u) (snd u))) parts) =
  Ok (s3_of P c (fun n m => lsum (fun u => m2l_coef P (me_coef (fst u) (snd u)) (p3 (vsub (fst u) c)) n m) parts)).
Proof.
  intros Hc Hne HU. unfold le3_convert_all. destruct parts as [|u0 parts0] eqn:Ep; [congruence|]. cbn [map]. rewrite <- Ep in *.
  assert (E0 : s3_of P (fst u0) (me_coef (fst u0) (snd u0)) :: map (fun u => s3_of P (fst u) (me_coef (fst u) (snd u))) parts0
    = map (fun u => s3_of P (fst u) (me_coef (fst u) (snd u))) parts) by (rewrite Ep; reflexivity).
  rewrite E0. cbn [s3_ord s3_of]. rewrite zero_co by lia.
  assert (F : forall ps (f : Z -> Z -> C), (forall u, In u ps -> In u parts) ->
    ofold (fun le me => bind (le3_convert tb c me) (fun e => s3_add le e))
      (map (fun u => s3_of P (fst u) (me_coef (fst u) (snd u))) ps) (s3_of P c f)
    = Ok (s3_of P c (fun n m => f n m + lsum (fun u => m2l_coef P (me_coef (fst u) (snd u)) (p3 (vsub (fst u) c)) n m) ps)%C)).
  { induction ps as [|u ps IH]; intros f Hps.
    - cbn [map ofold]. f_equal. apply s3_of_ext. intros. rewrite lsum_nil. ring.
    - cbn [map ofold]. destruct (HU u (Hps u (or_introl eq_refl))) as (Lu & Du). rewrite le3_convert_ok; try assumption; try lia.
      + cbn [bind]. rewrite s3_add_of. cbn [bind]. rewrite IH by (intros v Hv; apply Hps; right; exact Hv). f_equal. apply s3_of_ext. intros. rewrite lsum_cons. ring.
      + rewrite <- dist_pn by assumption. lra. }
  rewrite F by auto. f_equal. apply s3_of_ext. intros. ring.
Qed.

Lemma sources_flat x k (parts : list (list R * list (psrc R))) :
  rsum (fun s => force_on 3 true 0 s x k) (flat_map snd parts) = rsum (fun u => rsum (fun s => force_on 3 true 0 s x k) (snd u)) parts.
Proof. apply rsum_flat_map. Qed.
Lemma convert_all_bound c (parts : list (list R * list (psrc R))) x X Y r k : (k < 3)%nat -> length c = 3%nat -> length x = 3%nat ->
  X + Y < r -> dist x c <= X ->
  (forall u, In u parts -> length (fst u) = 3%nat /\ same_dim 3 (snd u) /\ (forall s, In s (snd u) -> dist (ps_pos s) (fst u) <= Y) /\ r <= dist (fst u) c) ->
  Rabs (Re (lgrad3 P (fun n m => lsum (fun u => m2l_coef P (me_coef (fst u) (snd u)) (p3 (vsub (fst u) c)) n m) parts) (bv k) (p3 (vsub x c)))
     - rsum (fun s => force_on 3 true 0 s x k) (flat_map snd parts)) <= gtrunc3_two Y X r p * abs_charge (flat_map snd parts).
Proof.
  intros Hk Hc Hx Hr Hd HU. rewrite lgrad_lsum, sources_flat. unfold abs_charge. rewrite rsum_flat_map.
  induction parts as [|u parts IH].
  - rewrite lsum_nil. unfold rsum, Re; cbn. rewrite Rminus_0_r, Rabs_R0. lra.
  - rewrite lsum_cons, !rsum_cons. destruct (HU u (or_introl eq_refl)) as (H1 & H2 & H3 & H4).
    assert (B := m2l_force_bound p c (fst u) (snd u) x X Y r k Hk Hc H1 Hx H2 Hr H3 H4 Hd). specialize (IH (fun v Hv => HU v (or_intror Hv))).
    unfold abs_charge in B. change (fun n m : Z => m2l_coef P (me_coef (fst u) (snd u)) (p3 (vsub (fst u) c)) n m) with (m2l_coef P (me_coef (fst u) (snd u)) (p3 (vsub (fst u) c))).
    set (a := lgrad3 P (m2l_coef P _ _) _ _) in *. set (b := lsum _ parts) in *. rewrite Re_plus.
    match goal with |- Rabs (_ + _ - (?u1 + ?u2)) <= _ => replace (Re a + Re b - (u1 + u2)) with ((Re a - u1) + (Re b - u2)) by ring end.
    eapply Rle_trans; [apply Rabs_triang|]. lra.
Qed.

Theorem sound3f : sound (ops3 p) 3 tb (ME3 p) (LE3 p) lf3 df3 E3f.
Proof.
  assert (SO := sound3 p Hp tb Htb). assert (S3 := sqrt3_lt). constructor.
  - exact (so_p2m _ _ _ _ _ _ _ _ SO).
  - exact (so_m2m _ _ _ _ _ _ _ _ SO).
  - intros tb' c Hc. cbn [ops3 o_zero fst]. rewrite zero_co by lia. split; [split; [exact Hc|eexists; reflexivity]|].
    intros k x. rewrite lf3_of. destruct (_ && _); [|reflexivity]. rewrite lgrad_zero. reflexivity.
  - exact (so_size _ _ _ _ _ _ _ _ SO).
  - intros c a b (Hc & f & ->) (_ & g & ->). cbn [ops3 o_add]. rewrite s3_add_of. eexists. split; [reflexivity|].
    split; [split; [exact Hc|eexists; reflexivity]|]. intros k x. rewrite !lf3_of. destruct (_ && _); [|ring].
    rewrite lgrad_plus. apply Re_plus.
  - intros c c' e Hc' (Hc & f & ->). cbn [ops3 o_l2l s3_ord s3_of]. fold (s3_of P c f). rewrite refresh_id by assumption. cbn [bind].
    unfold le3_translate. cbn [s3_ctr s3_ord s3_of]. fold (s3_of P c f).
    rewrite le3_shift_ok by (try assumption; try lia; apply len3_vsub; assumption). cbn [omap bind]. fold (s3_of P c' (l2l_coef P f (p3 (vsub c c')))).
    eexists. split; [reflexivity|]. split; [split; [exact Hc'|eexists; reflexivity]|]. intros k x. rewrite !lf3_of.
    destruct (Nat.eqb_spec (length x) 3) as [Hx|]; [|reflexivity]. destruct (k <? 3)%nat; [|reflexivity]. cbn [andb]. rewrite lgrad_shift. do 2 f_equal.
    rewrite !p3_sub by assumption. unfold psub, c1, c2, c3. cbn [fst snd]. f_equal; [f_equal|]; ring.
  - intros c len parts Hc Hl Hne HM.
    assert (HM1 : forall u, In u parts -> ME3 p (fst (fst u)) (snd (fst u)) (snd u)) by (intros u Hu; apply HM; exact Hu).
    assert (HU : forall u, In u (map fst parts) -> length (fst u) = 3%nat /\ same_dim 3 (snd u) /\
       (forall s, In s (snd u) -> dist (ps_pos s) (fst u) <= sqrt 3 / 2 * len) /\ 2 * len <= dist (fst u) c).
    { intros u Hu. apply in_map_iff in Hu. destruct Hu as (w & <- & Hw). destruct (HM w Hw) as (_ & M2 & M3 & M4 & M5).
      split; [exact M2|]. split; [exact M3|]. split.
      * intros s Hs. apply in_box_dist3; [exact M2|apply M3; exact Hs|exact Hl|apply M4; exact Hs].
      * rewrite dist_sym by congruence. apply (apart_dist 3); try assumption. lra. }
    cbn [ops3 o_m2l]. rewrite (grow_id p Hp tb Htb) by (apply (parts_ord p); exact HM1). cbn [bind]. rewrite (parts_ME p parts HM1).
    rewrite convert_all_coef; try assumption.
    + cbn [bind]. eexists. split; [reflexivity|]. split; [split; [exact Hc|eexists; reflexivity]|].
      intros k x Hx Hin. apply comp; [exact Hx| |apply E3f_nonneg; exact Hl|].
      * intros s Hs. apply in_flat_map in Hs. destruct Hs as (u & Hu & Hs). destruct (HM1 u Hu) as (_ & B & _). apply B. exact Hs.
      * intros Hk. rewrite <- sources_app. apply convert_all_bound; try assumption; [nra|]. apply in_box_dist3; assumption.
    + destruct parts; [congruence|discriminate].
    + intros u Hu. destruct (HU u Hu) as (H1 & _ & _ & H4). split; [exact H1|lra].
  - intros c len S Hc Hl HS Hap. destruct (so_p2l _ _ _ _ _ _ _ _ SO c len S Hc Hl HS Hap) as (e & H1 & H2 & _).
    assert (Hd : forall s, In s S -> 3 / 2 * len <= dist (ps_pos s) c).
    { intros s Hs. rewrite dist_sym by (rewrite (HS s Hs); congruence). apply (apart_dist 3); [exact Hc|apply HS; exact Hs|lra|apply Hap; exact Hs]. }
    assert (E : le3_sources c P S = Ok (s3_of P c (le_coef c S))).
    { apply le3_sources_ok; [lia|exact Hc|]. intros s Hs. split; [apply HS; exact Hs|]. unfold rel. rewrite <- dist_pn by (try assumption; apply HS; exact Hs).
      apply Rgt_not_eq. specialize (Hd s Hs). lra. }
    exists e. split; [exact H1|]. split; [exact H2|]. cbn [ops3 o_p2l] in H1. rewrite refresh_id in H1 by assumption. cbn [bind] in H1. rewrite E in H1. cbn [bind] in H1.
    assert (e = s3_of P c (le_coef c S)) by congruence. subst e.
    intros k x Hx Hin. apply comp; [exact Hx|exact HS|apply E3f_nonneg; exact Hl|]. intros Hk.
    eapply Rle_trans; [apply (le_force_bound p c S x (sqrt 3 / 2 * len) (3 / 2 * len) k); try assumption; [nra|apply in_box_dist3; assumption]|].
    apply Rmult_le_compat_r; [apply abs_charge_nonneg|]. apply E3f_one. exact Hl.
  - intros k l1 l2 H. apply E3f_anti. exact H.
Qed.

Lemma lfrc3 c e y : LE3 p c e -> length y = 3%nat -> okx3 c y -> o_lforce (ops3 p) e y = Ok (map (fun k => lf3 k e y) (seq 0 3)).
Proof.
  intros (Hc & f & ->) Hy Hok. cbn [ops3 o_lforce]. rewrite le3_force_ok by (try assumption; lia). f_equal. apply map_ext_in. intros k Hk. apply in_seq in Hk.
  rewrite lf3_in by (try assumption; lia). reflexivity.
Qed.
Lemma mfrc3 c len S e y : ME3 p c S e -> length c = 3%nat -> same_dim 3 S -> 0 < len ->
  (forall s, In s S -> in_box 3 c len (ps_pos s)) -> length y = 3%nat -> apart 3 c y (3 / 2 * len) -> okx3 c y ->
  exists v, o_mforce (ops3 p) e y = Ok (map v (seq 0 3)) /\ forall k, (k < 3)%nat -> Rabs (v k - rsum (fun s => df3 k s y) S) <= E3f k len * abs_charge S.
Proof.
  intros (_ & _ & ->) Hc HS Hl Hin Hy Hap Hok. assert (S3 := sqrt3_lt). cbn [ops3 o_mforce]. rewrite me3_force_ok by (try assumption; lia).
  eexists. split; [reflexivity|]. intros k Hk. cbv beta.
  eapply Rle_trans; [apply (me_force_bound p c S y (sqrt 3 / 2 * len) (3 / 2 * len) k); try assumption|].
  - nra.
  - intros s Hs. apply in_box_dist3; [exact Hc|apply HS; exact Hs|exact Hl|apply Hin; exact Hs].
  - rewrite dist_sym by congruence. apply (apart_dist 3); [exact Hc|exact Hy|lra|exact Hap].
  - apply Rmult_le_compat_r; [apply abs_charge_nonneg|]. apply E3f_one. exact Hl.
Qed.
End Instance.
