(** Accuracy of rounded three-dimensional expansions as one invariant, preserved by every operation on expansions. *)
From Coq Require Import Reals List Arith ZArith Lia Lra Psatz.
From Coquelicot Require Import Coquelicot.
From Verif Require Import Num Outcome Vec VecProofs Tables CAux TableProofs Tables3D Table3DProofs SolidHarmonics Zonal HarmonicBounds Kernel3 Spherical SphericalProofs Harmonics3D Fields FieldSpec FieldProofs
  Expansion3D Exp3Loops Exp3Proofs Exp3Errors HarmonicNorms ShiftGroup CoefNorms CoefBounds RoundedExpansion2D RoundedExpansion3D RoundedComplexSpec ApproxC RoundedHarmonicSpec RoundedHarmonics RoundedLoops3
  RoundedErrors3 PassTree.
Import ListNotations.
Local Open Scope R_scope.
Arguments Cmod x%C.
Arguments ap w n%nat x'%C x%C X%R.

(** The sum of the magnitudes of the contributions. *)
Definition dsum (S : list (psrc R)) (x : list R) : R := rsum (fun s => Rabs (ps_q s) / dist (ps_pos s) x) S.
Lemma dsum_app S T x : dsum (S ++ T) x = dsum S x + dsum T x.
Proof. apply rsum_app. Qed.
Lemma co_of_map2 p (o : C -> C -> C) f g : map2 o (co_of p f) (co_of p g) = co_of p (fun n m => o (f n m) (g n m)).
Proof. unfold co_of, map2. generalize (jk_pairs p). induction l as [|a l IH]; [reflexivity|]. cbn [map combine fst snd]. f_equal. exact IH. Qed.
Lemma dist_move x c c' : length x = 3%nat -> length c = 3%nat -> length c' = 3%nat -> dist x c <= dist x c' + pn (p3 (vsub c c')).
Proof.
  intros Hx Hc Hc'. rewrite !dist_pn by assumption. rewrite !p3_sub by assumption. rewrite <- (pn_pneg (psub (p3 c) (p3 c'))).
  replace (psub (p3 x) (p3 c)) with (padd (psub (p3 x) (p3 c')) (pneg (psub (p3 c) (p3 c')))); [apply pn_add|].
  unfold psub, padd, pneg, pscal, c1, c2, c3. cbn [fst snd]. f_equal; [f_equal|]; ring.
Qed.
Lemma dist_three a b c : length a = 3%nat -> length b = 3%nat -> length c = 3%nat -> dist a b <= dist a c + dist b c.
Proof. intros Ha Hb Hc. rewrite (dist_sym b c) by congruence. rewrite (dist_pn c b) by assumption. rewrite <- pn_pneg. replace (pneg (p3 (vsub c b))) with (p3 (vsub b c)).
  - apply dist_move; assumption.
  - rewrite !p3_sub by assumption. unfold psub, pneg, pscal, c1, c2, c3. cbn [fst snd]. f_equal; [f_equal|]; ring.
Qed.

Lemma abs_charge_ge0 S : 0 <= abs_charge S.
Proof. apply rsum_nonneg. intros; apply Rabs_pos. Qed.

Section Good3.
Variable w : R.
Hypothesis Hw : 0 <= w <= 1 / 2.
Variable ky : nat.
Variable A : harith.
Hypothesis HA : accurate_harmonics w ky A.
Variable p : nat.
Notation P := (Z.of_nat p).
Variable tau : R.
Variable tb : tb3.
Hypothesis Htb : tb3_for tb P.
Notation Nop := (Nop ky P).
Notation Nev := (Nop + Z.to_nat ((P + 1) * (P + 1)))%nat.
Notation mclose := (mclose w p).
Notation lclose := (lclose w p).
Notation k1 := (k1 p).
Notation ge := (ge w p).
Notation B := (h_c A).
Let HB : accurate_complex w B := ah_c _ _ _ HA.
Notation U := (direct_potential 3 true).
Lemma P0' : (0 <= P)%Z. Proof. lia. Qed.

Lemma add_norm a b : close_norm w (c_add B a b) (a + b)%C.
Proof. apply comps_norm; [lra|]. apply (ac_add _ _ HB). Qed.
Lemma s3_add_r_of c f g : s3_add_r A (s3_of P c f) (s3_of P c g) = Ok (s3_of P c (fun n m => c_add B (f n m) (g n m))).
Proof.
  unfold s3_add_r, s3_of. cbn [s3_co s3_ctr s3_ord]. unfold co_of at 1 2. rewrite !map_length, Nat.eqb_refl. cbn [negb].
  destruct (pt_eq_dec c c) as [_|N]; [|contradiction]. now rewrite co_of_map2.
Qed.

(** ** Multipole expansions *)
Definition mgood (n : nat) (c : list R) (S : list (psrc R)) (a : R) (e : se3) : Prop :=
  length c = 3%nat /\ same_dim 3 S /\ (forall s, In s S -> dist (ps_pos s) c <= a) /\
  exists f', e = s3_of P c f' /\ mclose n a (abs_charge S) f' (me_coef c S).

Lemma mgood_le n m c S a e : 0 <= a -> mgood n c S a e -> (n <= m)%nat -> mgood m c S a e.
Proof. intros Ha (H1 & H2 & H3 & f & E & H4) Hm. repeat (split; [assumption|]). exists f. split; [exact E|]. eapply mclose_le; eassumption. Qed.
Lemma mgood_p2m c S a : 0 <= a -> length c = 3%nat -> same_dim 3 S -> (forall s, In s S -> dist (ps_pos s) c <= a) ->
  exists e, me3_sources_r A c P S = Ok e /\ mgood (Nop + length S) c S a e.
Proof.
  intros Ha Hc HS Hd. destruct (me3_sources_r_ok w Hw ky A HA P P0' c S Hc HS) as (f & E & F). eexists. split; [exact E|].
  repeat (split; [assumption|]). exists f. split; [reflexivity|]. apply (mclose_sources w Hw p c S a f _ Ha); [|exact F].
  intros s Hs. unfold rel. rewrite <- dist_pn by (try assumption; apply HS; exact Hs). apply Hd. exact Hs.
Qed.
Lemma mclose_ext n a X f' f g : (forall j k, (Z.abs k <= j)%Z -> (j <= P)%Z -> f j k = g j k) -> mclose n a X f' f -> mclose n a X f' g.
Proof. intros H [H1 H2]. split; [eapply RMN_ext; eassumption|]. eapply RMN_ext; [|exact H2]. intros j k Hk Hj. cbv beta. rewrite H by assumption. reflexivity. Qed.
Lemma mclose_wide n a b X f' f : 0 <= a <= b -> mclose n a X f' f -> mclose n b X f' f.
Proof. intros H [H1 H2]. split; (eapply RMN_mono; [lia|exact H|apply Rle_refl|assumption]). Qed.
Lemma m2m_loop n c a (es : list se3) : length c = 3%nat -> 0 <= a -> forall parts,
  Forall2 (fun q e => mgood n (fst (fst q)) (snd (fst q)) (snd q) e /\ 0 <= snd q /\ snd q + dist (fst (fst q)) c <= a) parts es ->
  forall S m f', (n + Nop <= m)%nat -> mclose m a (abs_charge S) f' (me_coef c S) ->
  exists g', ofold (fun co me => bind (me3_shift_r A tb me (vdif_r A (s3_ctr me) c)) (fun sh => co_plus_r A co sh)) es (co_of P f') = Ok (co_of P g') /\
    mclose (m + length es) a (abs_charge (S ++ flat_map (fun q => snd (fst q)) parts)) g' (me_coef c (S ++ flat_map (fun q => snd (fst q)) parts)).
Proof.
  intros Hc Ha. induction es as [|e es IH]; intros parts HF S m f' Hm H.
  - inversion HF; subst. exists f'. cbn [ofold length flat_map]. rewrite app_nil_r, Nat.add_0_r. split; [reflexivity|exact H].
  - destruct parts as [|q parts]; [inversion HF|]. inversion HF as [|? ? ? ? Hq HF']; subst. clear HF. destruct q as [[cq Sq] aq]. cbn [fst snd] in Hq.
    destruct Hq as ((Q1 & Q2 & Q3 & fq & -> & Q4) & Q5 & Q6).
    assert (NV := near_dif w Hw ky A HA P cq c Q1 Hc). set (V := p3 (vsub cq c)) in *.
    destruct (me3_shift_r_ok w Hw ky A HA P P0' tb cq fq _ V Htb NV) as (g & Eg & Gg).
    assert (M := mclose_shift w Hw p ky n aq _ fq _ V g Q5 Q4 Gg). assert (PV := pn_nonneg V).
    rewrite dist_pn in Q6 by assumption. fold V in Q6.
    apply (mclose_wide _ _ a) in M; [|lra]. apply (mclose_le w Hw p _ m) in M; [|exact Ha|exact Hm].
    apply (mclose_ext _ _ _ _ _ (me_coef c Sq)) in M; [|intros j k Hk Hj; apply m2m_exact; assumption].
    cbn [ofold s3_ctr s3_of]. fold (s3_of P cq fq). rewrite Eg. cbn [bind]. unfold co_plus_r. rewrite !co_of_length by lia. rewrite Nat.ltb_irrefl. cbn [bind].
    rewrite firstn_all2 by (rewrite co_of_length by lia; lia). rewrite co_of_map2.
    destruct (IH parts HF' (S ++ Sq) (m + 1)%nat (fun n m => c_add B (f' n m) (g n m))) as (g' & E' & G').
    + lia.
    + rewrite abs_charge_app. eapply mclose_ext; [|eapply (mclose_add w Hw p m a _ _ f' (me_coef c S) g (me_coef c Sq)); [exact Ha|exact H|exact M|intros; apply add_norm]].
      intros j k _ _. cbv beta. unfold me_coef. now rewrite lsum_app.
    + exists g'. split; [exact E'|]. cbn [flat_map length]. cbn [fst snd]. rewrite app_assoc. replace (m + Datatypes.S (length es))%nat with (m + 1 + length es)%nat by lia. exact G'.
Qed.
Lemma Forall2_inc {X Y} (R : X -> Y -> Prop) xs ys : Forall2 R xs ys -> forall x, In x xs -> exists y, In y ys /\ R x y.
Proof.
  induction 1 as [|x y xs ys H F IH]; intros a [].
  - subst. exists y. split; [left; reflexivity|assumption].
  - destruct (IH a H0) as (b & Hb & Hr). exists b. split; [right; assumption|assumption].
Qed.
Lemma mgood_m2m n c a parts es : length c = 3%nat -> 0 <= a -> es <> [] ->
  Forall2 (fun q e => mgood n (fst (fst q)) (snd (fst q)) (snd q) e /\ 0 <= snd q /\ snd q + dist (fst (fst q)) c <= a) parts es ->
  exists e, me3_merge_r A tb c es = Ok e /\ mgood (n + Nop + length es) c (flat_map (fun q => snd (fst q)) parts) a e.
Proof.
  intros Hc Ha Hne HF. unfold me3_merge_r. destruct es as [|e0 es0] eqn:Ees; [congruence|]. rewrite <- Ees in *.
  assert (O : s3_ord e0 = P). { subst es. inversion HF as [|? ? ? ? ((_ & _ & _ & f & -> & _) & _) _]. reflexivity. }
  rewrite O, zero_co by lia. cbn [s3_co s3_of].
  destruct (m2m_loop n c a es Hc Ha parts HF [] (n + Nop)%nat (fun _ _ => RtoC 0)) as (g & E & G).
  - lia.
  - eapply mclose_ext; [|apply (mclose_zero w p _ a Ha)]. intros. unfold me_coef. now rewrite lsum_nil.
  - rewrite E. cbn [bind]. eexists. split; [reflexivity|]. cbn [app] in G.
    assert (FI : forall s, In s (flat_map (fun q => snd (fst q)) parts) -> length (ps_pos s) = 3%nat /\ dist (ps_pos s) c <= a).
    { intros s Hs. apply in_flat_map in Hs. destruct Hs as (q & Hq & Hs). destruct (Forall2_inc _ _ _ HF q Hq) as (e1 & _ & (M1 & M2 & M3 & _) & M5 & M6).
      split; [apply M2; exact Hs|]. assert (X := dist_three (ps_pos s) c (fst (fst q)) (M2 s Hs) Hc M1). rewrite (dist_sym c) in X by congruence.
      specialize (M3 s Hs). lra. }
    split; [exact Hc|]. split; [intros s Hs; apply FI; exact Hs|]. split; [intros s Hs; apply FI; exact Hs|]. exists g. split; [reflexivity|exact G].
Qed.
Lemma mgood_value n c S a r e x : mgood n c S a e -> length x = 3%nat -> 0 <= a < r -> r <= dist x c -> trunc3 a r p <= tau ->
  exists y, me3_pot_r A e x = Ok y /\ Rabs (y - U S x) <= tau * abs_charge S + (ge (n + Nev) - 1) * (2 * k1 ^ 3 * dsum S x).
Proof.
  intros (Hc & HS & Hd & f' & -> & M) Hx Hr Hrx Ht. set (X := p3 (vsub x c)). assert (EX : dist x c = pn X) by (apply dist_pn; assumption).
  destruct (me3_pot_r_ok w Hw ky A HA P P0' c f' x Hc Hx) as (y & E & Y); [fold X; lra|]. exists y. split; [exact E|]. fold X in Y.
  assert (V := mclose_value w Hw p ky n a _ f' _ X y ltac:(lra) ltac:(lra) M Y).
  destruct (me3_error p c S x a r Hc Hx HS Hr Hd Hrx) as (e1 & v & E1 & E2 & T).
  rewrite me3_sources_ok in E1 by (try assumption; lia). injection E1 as <-. rewrite me3_pot_ok in E2 by (try assumption; try lia; fold X; lra). injection E2 as <-. fold X in T.
  set (t := - Re (mval3 P (me_coef c S) X)) in *. replace (y - U S x) with ((t - U S x) + (y - t)) by ring. eapply Rle_trans; [apply Rabs_triang|].
  assert (Q : 0 <= abs_charge S) by (apply abs_charge_ge0). apply Rplus_le_compat.
  - eapply Rle_trans; [exact T|]. apply Rmult_le_compat_r; assumption.
  - eapply Rle_trans; [exact V|]. assert (G := ge_1 w Hw p (n + Nev)). assert (K := k1_ge p). apply Rmult_le_compat_l; [lra|].
    apply Rle_trans with (2 * k1 * dsum S x).
    + replace (2 * k1 * dsum S x) with (k1 * (2 * dsum S x)) by ring. apply Rmult_le_compat_l; [lra|]. unfold abs_charge, dsum, Rdiv. rewrite Rmult_comm, <- !rsum_scal. apply rsum_le.
      intros s Hs. assert (D := dist_three (ps_pos s) x c (HS s Hs) Hx Hc). specialize (Hd s Hs). rewrite EX in D.
      assert (D2 := dist_three x c (ps_pos s) Hx Hc (HS s Hs)). rewrite (dist_sym x (ps_pos s)), (dist_sym c (ps_pos s)) in D2 by (rewrite (HS s Hs); congruence).
      assert (DP : 0 < dist (ps_pos s) x) by lra.
      assert (I : / pn X <= 2 * / dist (ps_pos s) x). { replace (2 * / dist (ps_pos s) x) with (/ (dist (ps_pos s) x / 2)) by (field; lra). apply Rinv_le_contravar; lra. }
      assert (QS := Rabs_pos (ps_q s)). replace (2 * (Rabs (ps_q s) * / dist (ps_pos s) x)) with (2 * / dist (ps_pos s) x * Rabs (ps_q s)) by ring. apply Rmult_le_compat_r; assumption.
    + assert (DS : 0 <= dsum S x). { apply rsum_nonneg. intros s Hs. specialize (Hd s Hs).
        assert (D2 := dist_three x c (ps_pos s) Hx Hc (HS s Hs)). rewrite (dist_sym x (ps_pos s)), (dist_sym c (ps_pos s)) in D2 by (rewrite (HS s Hs); congruence).
        apply Rmult_le_pos; [apply Rabs_pos|]. left. apply Rinv_0_lt_compat. lra. }
      apply Rmult_le_compat_r; [exact DS|]. apply k_le. right. right. right. apply Rle_refl.
Qed.

(** ** Local expansions *)
Definition lgood (n : nat) (c : list R) (S : list (psrc R)) (b : R) (e : se3) : Prop :=
  length c = 3%nat /\ exists f' f E, e = s3_of P c f' /\ lclose n b E f' f /\
  forall x, length x = 3%nat -> dist x c <= b ->
    Rabs (- Re (lval3 P f (p3 (vsub x c))) - U S x) <= tau * abs_charge S /\ E <= 2 * k1 ^ 2 * dsum S x.

Lemma lgood_le n m c S b e : 0 <= b -> lgood n c S b e -> (n <= m)%nat -> lgood m c S b e.
Proof. intros Hb (H0 & f' & f & E & H1 & H2 & H3) Hm. split; [exact H0|]. exists f', f, E. split; [exact H1|]. split; [eapply lclose_le; eassumption|exact H3]. Qed.
Lemma lgood_zero n c b : length c = 3%nat -> lgood n c [] b (s3_zero c P).
Proof.
  intros Hc. split; [exact Hc|]. exists (fun _ _ => RtoC 0), (fun _ _ => RtoC 0), 0. split; [apply zero_co; lia|]. split; [apply lclose_zero|].
  intros x _ _. rewrite lval_zero. unfold abs_charge, dsum, direct_potential, rsum; cbn [fold_right]. unfold Re; cbn [fst RtoC]. rewrite Ropp_0, Rminus_0_r, Rabs_R0. lra.
Qed.
Lemma lgood_size n c S b e : lgood n c S b e -> length (s3_co e) <> 0%nat.
Proof. intros (_ & f' & f & E & -> & _). cbn [s3_co s3_of]. rewrite co_of_length by lia. nia. Qed.
Lemma lgood_ord n c S b e : lgood n c S b e -> s3_ord e = P.
Proof. intros (_ & f' & f & E & -> & _). reflexivity. Qed.
Lemma mgood_ord n c S b e : mgood n c S b e -> s3_ord e = P.
Proof. intros (_ & _ & _ & f & -> & _). reflexivity. Qed.
Lemma lgood_add n c S T b e1 e2 : 0 <= b -> lgood n c S b e1 -> lgood n c T b e2 -> exists e, s3_add_r A e1 e2 = Ok e /\ lgood (n + 1) c (S ++ T) b e.
Proof.
  intros Hb (Hc & f' & f & E & -> & H1 & H2) (_ & g' & g & F & -> & G1 & G2). rewrite s3_add_r_of. eexists. split; [reflexivity|]. split; [exact Hc|].
  eexists. exists (fun n m => f n m + g n m)%C, (E + F). split; [reflexivity|]. split; [eapply (lclose_add w Hw p n b E F f' f g' g); [exact Hb|exact H1|exact G1|intros; apply add_norm]|].
  intros x Hx Hd. destruct (H2 x Hx Hd) as [A1 A2]. destruct (G2 x Hx Hd) as [B1 B2]. rewrite lval_plus, direct_potential_app, abs_charge_app, dsum_app. split; [|lra].
  set (u := lval3 P f _) in *. set (v := lval3 P g _) in *. unfold Re in *. cbn [fst Cplus].
  replace (- (fst u + fst v) - (U S x + U T x)) with ((- fst u - U S x) + (- fst v - U T x)) by ring. eapply Rle_trans; [apply Rabs_triang|]. lra.
Qed.
Lemma lgood_l2l n c S b e c' b' : lgood n c S b e -> length c' = 3%nat -> 0 <= b' -> b' + dist c c' <= b ->
  exists e', le3_translate_r A tb c' e = Ok e' /\ lgood (n + Nop) c' S b' e'.
Proof.
  intros (Hc & f' & f & E & -> & H1 & H2) Hc' Hb Hd. rewrite dist_pn in Hd by assumption. set (V := p3 (vsub c c')) in *.
  assert (NV := near_dif w Hw ky A HA P c c' Hc Hc'). fold V in NV. unfold le3_translate_r. cbn [s3_ctr s3_ord s3_of]. fold (s3_of P c f').
  destruct (le3_shift_r_ok w Hw ky A HA P P0' tb c f' _ V Htb NV) as (g & Eg & Gg). rewrite Eg. cbn [omap bind]. eexists. split; [reflexivity|]. split; [exact Hc'|].
  exists g, (l2l_coef P f V), E. split; [reflexivity|]. split; [eapply (lclose_shift w Hw p ky n b b' E f' f V g); eassumption|].
  intros x Hx Hxd. rewrite l2l_exact by lia. replace (psub (p3 (vsub x c')) V) with (p3 (vsub x c)).
  - apply H2; [exact Hx|]. assert (X := dist_move x c c' Hx Hc Hc'). fold V in X. lra.
  - unfold V. rewrite !p3_sub by assumption. unfold psub, c1, c2, c3. cbn [fst snd]. f_equal; [f_equal|]; ring.
Qed.
Lemma two_inv a b : 0 < b -> b <= 2 * a -> / a <= 2 * / b.
Proof. intros H1 H2. replace (2 * / b) with (/ (b / 2)) by (field; lra). apply Rinv_le_contravar; lra. Qed.
Lemma lgood_p2l c S b r : length c = 3%nat -> same_dim 3 S -> 0 <= b < r -> (forall s, In s S -> r <= dist (ps_pos s) c) -> trunc3 b r p <= tau ->
  exists e, le3_sources_r A c P S = Ok e /\ lgood (Nop + length S) c S b e.
Proof.
  intros Hc HS Hb Hr Ht.
  assert (Hd : forall s, In s S -> dist (ps_pos s) c = pn (rel s c)) by (intros s Hs; unfold rel; rewrite <- dist_pn by (try assumption; apply HS; exact Hs); reflexivity).
  destruct (le3_sources_r_ok w Hw ky A HA P P0' c S Hc) as (f & E & F). { intros s Hs. split; [apply HS; exact Hs|]. rewrite <- Hd by exact Hs. specialize (Hr s Hs). lra. }
  eexists. split; [exact E|]. split; [exact Hc|]. exists f, (le_coef c S), (k1 * rsum (fun s => Rabs (ps_q s) / pn (rel s c)) S). split; [reflexivity|]. split.
  { apply (lclose_sources w Hw p c S b f _ (proj1 Hb)); [|exact F]. intros s Hs. rewrite <- Hd by exact Hs. specialize (Hr s Hs). lra. }
  intros x Hx Hxd. split.
  - destruct (le3_error p c S x b r Hc Hx HS Hb Hr Hxd) as (e1 & v & E1 & E2 & T).
    rewrite le3_sources_ok in E1; [|lia|exact Hc|intros s Hs; split; [apply HS; exact Hs|rewrite <- Hd by exact Hs; specialize (Hr s Hs); lra]].
    injection E1 as <-. rewrite le3_pot_ok in E2 by (try assumption; lia). injection E2 as <-. eapply Rle_trans; [exact T|]. apply Rmult_le_compat_r; [apply abs_charge_ge0|exact Ht].
  - assert (K := k1_ge p). apply Rle_trans with (k1 * (2 * dsum S x)).
    + apply Rmult_le_compat_l; [lra|]. unfold dsum. rewrite <- rsum_scal. apply rsum_le. intros s Hs. rewrite <- Hd by exact Hs. unfold Rdiv.
      assert (D := dist_three (ps_pos s) x c (HS s Hs) Hx Hc). assert (D2 := dist_three (ps_pos s) c x (HS s Hs) Hc Hx). rewrite (dist_sym c x) in D2 by congruence. specialize (Hr s Hs).
      replace (2 * (Rabs (ps_q s) * / dist (ps_pos s) x)) with (Rabs (ps_q s) * (2 * / dist (ps_pos s) x)) by ring. apply Rmult_le_compat_l; [apply Rabs_pos|]. apply two_inv; lra.
    + assert (DS : 0 <= dsum S x). { apply rsum_nonneg. intros s Hs. specialize (Hr s Hs). assert (D2 := dist_three (ps_pos s) c x (HS s Hs) Hc Hx). rewrite (dist_sym c x) in D2 by congruence.
        apply Rmult_le_pos; [apply Rabs_pos|]. left. apply Rinv_0_lt_compat. lra. }
      replace (k1 * (2 * dsum S x)) with (2 * k1 * dsum S x) by ring. apply Rmult_le_compat_r; [exact DS|]. cbn [pow]. nra.
Qed.
Lemma lgood_m2l n c cq S b a e r : length c = 3%nat -> mgood n cq S a e -> 0 <= a -> 0 <= b -> a + b < r -> r <= dist cq c -> trunc3_two a b r p <= tau ->
  exists e', le3_convert_r A tb c e = Ok e' /\ lgood (n + Nop) c S b e'.
Proof.
  intros Hc (Hq & HS & Hd & f' & -> & M) Ha Hb Hab Hr Ht. set (D := p3 (vsub cq c)). assert (ED : dist cq c = pn D) by (apply dist_pn; assumption).
  destruct (le3_convert_r_ok w Hw ky A HA P P0' tb c cq f' Htb Hc Hq) as (g & E & G); [fold D; lra|]. fold D in G. eexists. split; [exact E|]. split; [exact Hc|].
  exists g, (m2l_coef P (me_coef cq S) D), (k1 ^ 2 * (abs_charge S / pn D)). split; [reflexivity|].
  split; [apply (lclose_convert w Hw p ky n a b _ f' _ D g Ha Hb ltac:(lra) ltac:(lra) M G)|].
  intros x Hx Hxd. split.
  - destruct (m2l3_error p tb c cq S b a r Htb Hc Hq HS Hb Ha ltac:(lra) Hd Hr) as (e1 & _ & -> & B). destruct (B x Hx Hxd) as (v & E2 & T). fold D in E2.
    rewrite le3_pot_ok in E2 by (try assumption; lia). injection E2 as <-. eapply Rle_trans; [exact T|]. apply Rmult_le_compat_r; [apply abs_charge_ge0|exact Ht].
  - assert (K := k1_ge p). replace (2 * k1 ^ 2 * dsum S x) with (k1 ^ 2 * (2 * dsum S x)) by ring. apply Rmult_le_compat_l; [apply pow_le; lra|].
    unfold abs_charge, dsum, Rdiv. rewrite Rmult_comm, <- !rsum_scal. apply rsum_le. intros s Hs. specialize (Hd s Hs).
    assert (D1 := dist_three (ps_pos s) x cq (HS s Hs) Hx Hq). assert (D2 := dist_three x cq c Hx Hq Hc).
    assert (D3 := dist_three cq c x Hq Hc Hx). assert (D4 := dist_three cq x (ps_pos s) Hq Hx (HS s Hs)).
    rewrite (dist_sym c x), (dist_sym cq x) in D3 by congruence. rewrite (dist_sym cq x), (dist_sym cq (ps_pos s)), (dist_sym x (ps_pos s)) in D4 by (rewrite ?(HS s Hs); congruence).
    replace (2 * (Rabs (ps_q s) * / dist (ps_pos s) x)) with (2 * / dist (ps_pos s) x * Rabs (ps_q s)) by ring. apply Rmult_le_compat_r; [apply Rabs_pos|]. apply two_inv; lra.
Qed.
Lemma lgood_many n c b parts es : length c = 3%nat -> 0 <= b -> es <> [] ->
  Forall2 (fun q e => mgood n (fst (fst q)) (snd (fst q)) (snd q) e /\ 0 <= snd q /\ exists r, snd q + b < r /\ r <= dist (fst (fst q)) c /\ trunc3_two (snd q) b r p <= tau) parts es ->
  exists e, le3_convert_all_r A tb c es = Ok e /\ lgood (n + Nop + length es) c (flat_map (fun q => snd (fst q)) parts) b e.
Proof.
  intros Hc Hb Hne HF. unfold le3_convert_all_r. destruct es as [|e0 es0] eqn:Ees; [congruence|]. rewrite <- Ees in *.
  assert (O : s3_ord e0 = P). { subst es. inversion HF as [|? ? ? ? (M & _) _]. eapply mgood_ord. exact M. }
  rewrite O. clear Ees O Hne e0 es0.
  assert (G : forall es parts, Forall2 (fun q e => mgood n (fst (fst q)) (snd (fst q)) (snd q) e /\ 0 <= snd q /\ exists r, snd q + b < r /\ r <= dist (fst (fst q)) c /\ trunc3_two (snd q) b r p <= tau) parts es ->
    forall S m e, (n + Nop <= m)%nat -> lgood m c S b e ->
    exists e', ofold (fun le me => bind (le3_convert_r A tb c me) (fun x => s3_add_r A le x)) es e = Ok e' /\ lgood (m + length es) c (S ++ flat_map (fun q => snd (fst q)) parts) b e').
  { clear HF es parts. intros es. induction es as [|e1 es IH]; intros parts HF S m e Hm HG.
    - inversion HF; subst. cbn [ofold flat_map length]. exists e. rewrite app_nil_r, Nat.add_0_r. split; [reflexivity|exact HG].
    - destruct parts as [|q parts]; [inversion HF|]. inversion HF as [|? ? ? ? (Q1 & Q2 & r & Q3 & Q4 & Q5) HF']; subst.
      destruct (lgood_m2l n c _ _ b _ e1 r Hc Q1 Q2 Hb Q3 Q4 Q5) as (e2 & E2 & G2).
      destruct (lgood_add m c S (snd (fst q)) b e e2 Hb HG) as (e3 & E3 & G3); [eapply lgood_le; [exact Hb|exact G2|exact Hm]|].
      destruct (IH parts HF' (S ++ snd (fst q)) (m + 1)%nat e3) as (e4 & E4 & G4); [lia|exact G3|].
      exists e4. cbn [ofold flat_map length]. rewrite E2. cbn [bind]. rewrite E3. cbn [bind]. split; [exact E4|].
      rewrite app_assoc. replace (m + Datatypes.S (length es))%nat with (m + 1 + length es)%nat by lia. exact G4. }
  destruct (G es parts HF [] (n + Nop)%nat (s3_zero c P)) as (e' & E & Q); [lia|apply lgood_zero; exact Hc|]. exists e'. split; [exact E|exact Q].
Qed.
Lemma lgood_value n c S b e x : lgood n c S b e -> length x = 3%nat -> dist x c <= b ->
  exists y, le3_pot_r A e x = Ok y /\ Rabs (y - U S x) <= tau * abs_charge S + (ge (n + Nev) - 1) * (2 * k1 ^ 3 * dsum S x).
Proof.
  intros (Hc & f' & f & E & -> & H1 & H2) Hx Hd. destruct (H2 x Hx Hd) as [T1 T2]. set (X := p3 (vsub x c)) in *. assert (EX : dist x c = pn X) by (apply dist_pn; assumption).
  destruct (le3_pot_r_ok w Hw ky A HA P P0' c f' x Hc Hx) as (y & Ey & Y). exists y. split; [exact Ey|]. fold X in Y.
  assert (V := lclose_value w Hw p ky n b E f' f X y ltac:(lra) H1 Y).
  set (t := - Re (lval3 P f X)) in *. replace (y - U S x) with ((t - U S x) + (y - t)) by ring. eapply Rle_trans; [apply Rabs_triang|]. apply Rplus_le_compat; [exact T1|].
  eapply Rle_trans; [exact V|]. assert (G := ge_1 w Hw p (n + Nev)). assert (K := k1_ge p). apply Rmult_le_compat_l; [lra|].
  replace (2 * k1 ^ 3 * dsum S x) with (k1 * (2 * k1 ^ 2 * dsum S x)) by ring. apply Rmult_le_compat_l; lra.
Qed.
End Good3.
