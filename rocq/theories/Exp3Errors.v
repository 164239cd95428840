(** Truncation errors of the three-dimensional expansions. *)
From Coq Require Import Reals List Arith ZArith Lia Lra.
From Coquelicot Require Import Complex.
From Verif Require Import Num Outcome Vec VecProofs Tables Tables3D Expansion3D Fields FieldSpec FieldProofs Spherical CAux TableProofs Table3DProofs
  SolidHarmonics Zonal HarmonicBounds NewtonSeries Kernel3 KernelBounds3 Harmonics3D Exp3Loops Exp3Proofs.
Import ListNotations.
Local Open Scope R_scope.

(** *** Distances *)
Lemma dist_pn a b : length a = 3%nat -> length b = 3%nat -> dist a b = pn (p3 (vsub a b)).
Proof.
  intros Ha Hb. rewrite p3_sub by assumption. unfold dist, pn, nrm, psub, p3, c1, c2, c3, vget. rewrite Ha. cbn [fst snd seq].
  rewrite !rsum_cons. unfold rsum. cbn [fold_right]. change (@n0 R NumR) with 0. f_equal. ring.
Qed.
Lemma dist_sub a b c : length a = 3%nat -> length b = 3%nat -> length c = 3%nat ->
  dist a b = pn (psub (p3 (vsub a c)) (p3 (vsub b c))).
Proof.
  intros Ha Hb Hc. rewrite dist_pn by assumption. rewrite !p3_sub by assumption. f_equal. unfold psub, c1, c2, c3. cbn [fst snd]. f_equal; [f_equal|]; ring.
Qed.
Lemma pn_psub_sym a b : pn (psub a b) = pn (psub b a).
Proof. unfold pn, nrm, psub, c1, c2, c3. cbn [fst snd]. f_equal. ring. Qed.
Lemma pn_pneg a : pn (pneg a) = pn a.
Proof. unfold pn, nrm, pneg, pscal, c1, c2, c3. cbn [fst snd]. f_equal. ring. Qed.
Lemma direction v : length v = 3%nat -> exists th ph, p3 v = polar (pn (p3 v)) th ph.
Proof.
  intros Hv. destruct (direction_fun v 0 Hv ltac:(lia)) as (r & th & ph & tab & Y & _ & _ & Er & _ & _ & _ & Ep & _).
  exists th, ph. rewrite <- Er. exact Ep.
Qed.

(** *** Sums of complex terms *)
Lemma Re_err_sum {A} (L : list A) (f : A -> C) (g bd : A -> R) :
  (forall a, In a L -> Cmod (RtoC (g a) - f a) <= bd a) -> Rabs (- Re (lsum f L) - rsum (fun a => - g a) L) <= rsum bd L.
Proof.
  intros H.
  assert (G : Cmod (RtoC (rsum g L) - lsum f L) <= rsum bd L).
  { induction L as [|a L IH].
    - rewrite lsum_nil. unfold rsum; cbn [fold_right]. replace (RtoC 0 - RtoC 0)%C with (RtoC 0) by ring. rewrite Cmod_0. lra.
    - rewrite lsum_cons, !rsum_cons, RtoC_plus.
      replace (RtoC (g a) + RtoC (rsum g L) - (f a + lsum f L))%C with ((RtoC (g a) - f a) + (RtoC (rsum g L) - lsum f L))%C by ring.
      eapply Rle_trans; [apply Cmod_triangle|]. apply Rplus_le_compat; [apply H; left; reflexivity|apply IH; intros; apply H; right; assumption]. }
  rewrite rsum_opp. replace (- Re (lsum f L) - - rsum g L) with (Re (RtoC (rsum g L) - lsum f L)%C) by (unfold Re; cbn; ring).
  eapply Rle_trans; [|exact G]. apply Re_le_Cmod.
Qed.
Lemma direct3 srcs x : direct_potential 3 true srcs x = rsum (fun s => - (ps_q s / dist (ps_pos s) x)) srcs.
Proof. unfold direct_potential. apply rsum_ext. intros s _. unfold field_sign, kernel. cbn [Nat.eqb]. unfold Rdiv. ring. Qed.
Lemma Cmod_scaled q (z : C) b t : Cmod (RtoC b - z)%C <= t -> Cmod (RtoC (q * b) - RtoC q * z)%C <= t * Rabs q.
Proof.
  intros H. rewrite RtoC_mult. replace (RtoC q * RtoC b - RtoC q * z)%C with (RtoC q * (RtoC b - z))%C by ring.
  rewrite Cmod_mult, Cmod_R. rewrite Rmult_comm. apply Rmult_le_compat_r; [apply Rabs_pos|exact H].
Qed.

(** *** Monotonicity of the bounds *)
Definition trunc3 (a r : R) (p : nat) : R := (a / r) ^ S p / (r - a).
Lemma div_mono a a' r r' : 0 <= a <= a' -> 0 < r' <= r -> 0 <= a / r <= a' / r'.
Proof.
  intros Ha Hr. split; [apply Rmult_le_pos; [lra|left; apply Rinv_0_lt_compat; lra]|].
  apply Rmult_le_compat; [lra|left; apply Rinv_0_lt_compat; lra|lra|apply Rinv_le_contravar; lra].
Qed.
Lemma frac_mono a a' r r' p : 0 <= a <= a' -> a' < r' <= r -> trunc3 a r p <= trunc3 a' r' p.
Proof.
  intros Ha Hr. unfold trunc3. apply div_mono; [|lra]. assert (B := div_mono a a' r r' Ha ltac:(lra)).
  split; [apply pow_le, B|]. apply pow_incr. exact B.
Qed.
Definition trunc3_two (Y X r : R) (p : nat) : R := ((Y / (r - X)) ^ S p + (X / (r - Y)) ^ S p) / (r - X - Y).
Lemma frac_two_mono Y X r r' p : 0 <= Y -> 0 <= X -> X + Y < r' <= r -> trunc3_two Y X r p <= trunc3_two Y X r' p.
Proof.
  intros HY HX Hr. unfold trunc3_two.
  assert (B1 := div_mono Y Y (r - X) (r' - X) ltac:(lra) ltac:(lra)).
  assert (B2 := div_mono X X (r - Y) (r' - Y) ltac:(lra) ltac:(lra)).
  apply div_mono; [|lra]. split.
  - apply Rplus_le_le_0_compat; apply pow_le; [apply B1|apply B2].
  - apply Rplus_le_compat; apply pow_incr; [exact B1|exact B2].
Qed.

Section Errors.
Variable p : nat.
Notation P := (Z.of_nat p).
Lemma Pto : Z.to_nat P = p. Proof. apply Nat2Z.id. Qed.
Lemma P0 : (0 <= P)%Z. Proof. lia. Qed.

(** Newton's series with the larger vector given by its components. *)
Lemma newton_pt D w a r : length D = 3%nat -> 0 <= a < r -> pn w <= a -> r <= pn (p3 D) ->
  pn (psub (p3 D) w) <> 0 /\
  Cmod (RtoC (/ pn (psub (p3 D) w)) - lsum (fun n => zon (H3 w) (H3 (p3 D)) n * RtoC (/ pn (p3 D) ^ (2 * n + 1)))%C (seq 0 (S p))) <= trunc3 a r p.
Proof.
  intros HD Ha Hw Hr. destruct (direction D HD) as (th & ph & E). set (R0 := pn (p3 D)) in *. rewrite E.
  assert (Hn := pn_nonneg w).
  split.
  - assert (Hd := dist_pos R0 th ph w). apply Rgt_not_eq. lra.
  - eapply Rle_trans; [apply (newton_one R0 th ph w ltac:(lra) ltac:(lra) p)|]. apply (frac_mono (pn w) a R0 r p); lra.
Qed.

Theorem me3_error c srcs x a r : length c = 3%nat -> length x = 3%nat -> same_dim 3 srcs -> 0 <= a < r ->
  (forall s, In s srcs -> dist (ps_pos s) c <= a) -> r <= dist x c ->
  exists e v, me3_sources c P srcs = Ok e /\ me3_pot e x = Ok v /\ Rabs (v - direct_potential 3 true srcs x) <= trunc3 a r p * abs_charge srcs.
Proof.
  intros Hc Hx HS Ha Hin Hr. exists (s3_of P c (me_coef c srcs)). rewrite dist_pn in Hr by assumption.
  assert (Hxc : length (vsub x c) = 3%nat) by (apply len3_vsub; assumption).
  eexists. split; [apply me3_sources_ok; try assumption; lia|]. split; [apply me3_pot_ok; try assumption; [lia|apply Rgt_not_eq; lra]|].
  rewrite direct3. unfold me_coef. rewrite mval_lsum. unfold abs_charge. rewrite <- rsum_scal.
  apply Re_err_sum. intros s Hs. rewrite mval_one by lia. rewrite Pto.
  rewrite (dist_sub (ps_pos s) x c) by (try assumption; apply HS; assumption). rewrite pn_psub_sym.
  destruct (newton_pt (vsub x c) (rel s c) a r) as [_ B]; try assumption.
  - unfold rel. rewrite <- dist_pn by (try assumption; apply HS; assumption). apply Hin. exact Hs.
  - unfold Rdiv. apply Cmod_scaled. exact B.
Qed.

Theorem le3_error c srcs x a r : length c = 3%nat -> length x = 3%nat -> same_dim 3 srcs -> 0 <= a < r ->
  (forall s, In s srcs -> r <= dist (ps_pos s) c) -> dist x c <= a ->
  exists e v, le3_sources c P srcs = Ok e /\ le3_pot e x = Ok v /\ Rabs (v - direct_potential 3 true srcs x) <= trunc3 a r p * abs_charge srcs.
Proof.
  intros Hc Hx HS Ha Hin Hr. exists (s3_of P c (le_coef c srcs)). rewrite dist_pn in Hr by assumption.
  assert (Hxc : length (vsub x c) = 3%nat) by (apply len3_vsub; assumption).
  assert (Hd : forall s, In s srcs -> r <= pn (rel s c)).
  { intros s Hs. unfold rel. rewrite <- dist_pn by (try assumption; apply HS; assumption). apply Hin. exact Hs. }
  eexists. split; [apply le3_sources_ok; try assumption; [lia|]|].
  { intros s Hs. split; [apply HS; exact Hs|]. specialize (Hd s Hs). lra. }
  split; [apply le3_pot_ok; try assumption; lia|].
  rewrite direct3. unfold le_coef. rewrite lval_lsum. unfold abs_charge. rewrite <- rsum_scal.
  apply Re_err_sum. intros s Hs. rewrite lval_source by lia. rewrite Pto.
  rewrite (dist_sub (ps_pos s) x c) by (try assumption; apply HS; assumption).
  destruct (newton_pt (vsub (ps_pos s) c) (p3 (vsub x c)) a r) as [_ B]; try assumption.
  - apply len3_vsub; [apply HS; exact Hs|assumption].
  - apply Hd. exact Hs.
  - unfold Rdiv. apply Cmod_scaled. exact B.
Qed.

(** Conversion of one multipole expansion. *)
Theorem m2l3_error tb c c1 srcs X Y r : tb3_for tb P -> length c = 3%nat -> length c1 = 3%nat -> same_dim 3 srcs ->
  0 <= X -> 0 <= Y -> X + Y < r -> (forall s, In s srcs -> dist (ps_pos s) c1 <= Y) -> r <= dist c1 c ->
  exists e, le3_convert tb c (s3_of P c1 (me_coef c1 srcs)) = Ok e /\ e = s3_of P c (m2l_coef P (me_coef c1 srcs) (p3 (vsub c1 c))) /\
  forall x, length x = 3%nat -> dist x c <= X ->
  exists v, le3_pot e x = Ok v /\ Rabs (v - direct_potential 3 true srcs x) <= trunc3_two Y X r p * abs_charge srcs.
Proof.
  intros Htb Hc Hc1 HS HX HY Hr Hin HD. rewrite dist_pn in HD by assumption.
  set (D := p3 (vsub c1 c)) in *.
  exists (s3_of P c (m2l_coef P (me_coef c1 srcs) D)). split; [apply le3_convert_ok; try assumption; [lia|fold D; apply Rgt_not_eq; lra]|].
  split; [reflexivity|]. intros x Hx Hd. rewrite dist_pn in Hd by assumption.
  eexists. split; [apply le3_pot_ok; try assumption; lia|].
  rewrite direct3. unfold me_coef.
  rewrite (lval_ext P _ (fun j k => lsum (fun s => m2l_coef P (fun n m => (RtoC (ps_q s) * Yr (rel s c1) n (- m))%C) D j k) srcs))
    by (intros; apply m2l_lsum).
  rewrite lval_lsum. unfold abs_charge. rewrite <- rsum_scal.
  apply Re_err_sum. intros s Hs. rewrite m2l_one by lia. rewrite Pto.
  assert (Hsl := HS s Hs).
  assert (Hy : pn (rel s c1) <= Y) by (unfold rel; rewrite <- dist_pn by assumption; apply Hin; exact Hs).
  assert (HDl : length (vsub c1 c) = 3%nat) by (apply len3_vsub; assumption).
  destruct (direction (vsub c1 c) HDl) as (th & ph & E). fold D in E.
  assert (N := newton_two (pn D) th ph (pneg (rel s c1)) (p3 (vsub x c)) X Y p). rewrite pn_pneg in N.
  specialize (N Hy Hd ltac:(lra)). rewrite <- E in N.
  replace (pn (psub D (padd (pneg (rel s c1)) (p3 (vsub x c))))) with (dist (ps_pos s) x) in N.
  - eapply Rle_trans; [unfold Rdiv; apply Cmod_scaled; exact N|].
    apply Rmult_le_compat_r; [apply Rabs_pos|]. apply (frac_two_mono Y X (pn D) r p); lra.
  - rewrite dist_pn by assumption. unfold D, rel. rewrite !p3_sub by assumption. f_equal.
    unfold psub, padd, pneg, pscal, Kernel3.c1, c2, c3. cbn [fst snd]. f_equal; [f_equal|]; ring.
Qed.

(** *** Merging, conversion of several expansions, translation *)
Theorem me3_merge_exact tb c (parts : list (list R * list (psrc R))) : tb3_for tb P -> length c = 3%nat -> parts <> [] ->
  (forall u, In u parts -> length (fst u) = 3%nat /\ same_dim 3 (snd u)) ->
  me3_merge tb c (map (fun u => s3_of P (fst u) (me_coef (fst u) (snd u))) parts) = Ok (s3_of P c (me_coef c (flat_map snd parts))).
Proof.
  intros Htb Hc Hne HU. unfold me3_merge. destruct parts as [|u0 parts0] eqn:Ep; [congruence|]. cbn [map]. rewrite <- Ep in *.
  assert (E0 : s3_of P (fst u0) (me_coef (fst u0) (snd u0)) :: map (fun u => s3_of P (fst u) (me_coef (fst u) (snd u))) parts0
    = map (fun u => s3_of P (fst u) (me_coef (fst u) (snd u))) parts) by (rewrite Ep; reflexivity).
  rewrite E0. cbn [s3_ord s3_of]. rewrite zero_co by lia. cbn [s3_co s3_of].
  assert (F : forall ps (f : Z -> Z -> C), (forall u, In u ps -> In u parts) ->
    ofold (fun co me => bind (me3_shift tb me (vsub (s3_ctr me) c)) (fun sh => co_plus co sh))
      (map (fun u => s3_of P (fst u) (me_coef (fst u) (snd u))) ps) (co_of P f)
    = Ok (co_of P (fun n m => f n m + me_coef c (flat_map snd ps) n m)%C)).
  { induction ps as [|u ps IH]; intros f Hps.
    - cbn [map ofold]. f_equal. apply co_of_ext. intros n m _ _. cbn [flat_map]. unfold me_coef. rewrite lsum_nil. ring.
    - cbn [map ofold s3_ctr s3_of]. destruct (HU u (Hps u (or_introl eq_refl))) as [H1 H2].
      fold (s3_of P (fst u) (me_coef (fst u) (snd u))). rewrite me3_shift_ok by (try assumption; try lia; apply len3_vsub; assumption). cbn [bind].
      unfold co_plus. rewrite !co_of_length by lia. rewrite Nat.ltb_irrefl. cbn [bind].
      rewrite firstn_all2 by (rewrite co_of_length by lia; lia). rewrite co_of_plus. rewrite IH by (intros; apply Hps; right; assumption).
      f_equal. apply co_of_ext. intros n m Hm Hn. rewrite m2m_exact by (try assumption; apply H2). cbn [flat_map]. unfold me_coef. rewrite lsum_app. ring. }
  rewrite F by auto. cbn [bind]. unfold s3_of. do 2 f_equal. apply co_of_ext. intros n m _ _. ring.
Qed.

Theorem le3_translate_exact tb c c' f : tb3_for tb P -> length c = 3%nat -> length c' = 3%nat ->
  exists f', le3_translate tb c' (s3_of P c f) = Ok (s3_of P c' f') /\
  forall x, length x = 3%nat -> lval3 P f' (p3 (vsub x c')) = lval3 P f (p3 (vsub x c)).
Proof.
  intros Htb Hc Hc'. unfold le3_translate. cbn [s3_ctr s3_ord s3_of]. fold (s3_of P c f).
  rewrite le3_shift_ok by (try assumption; try lia; apply len3_vsub; assumption). cbn [omap bind].
  exists (l2l_coef P f (p3 (vsub c c'))). split; [reflexivity|]. intros x Hx. rewrite l2l_exact by lia. f_equal.
  rewrite !p3_sub by assumption. unfold psub, c1, c2, c3. cbn [fst snd]. f_equal; [f_equal|]; ring.
Qed.

Theorem le3_convert_all_error tb c (parts : list (list R * list (psrc R))) X Y r : tb3_for tb P -> length c = 3%nat -> parts <> [] ->
  0 <= X -> 0 <= Y -> X + Y < r ->
  (forall u, In u parts -> length (fst u) = 3%nat /\ same_dim 3 (snd u) /\ (forall s, In s (snd u) -> dist (ps_pos s) (fst u) <= Y) /\ r <= dist (fst u) c) ->
  exists f, le3_convert_all tb c (map (fun u => s3_of P (fst u) (me_coef (fst u) (snd u))) parts) = Ok (s3_of P c f) /\
  forall x, length x = 3%nat -> dist x c <= X ->
  Rabs (- Re (lval3 P f (p3 (vsub x c))) - direct_potential 3 true (flat_map snd parts) x) <= trunc3_two Y X r p * abs_charge (flat_map snd parts).
Proof.
  intros Htb Hc Hne HX HY Hr HU. unfold le3_convert_all. destruct parts as [|u0 parts0] eqn:Ep; [congruence|]. cbn [map]. rewrite <- Ep in *.
  assert (E0 : s3_of P (fst u0) (me_coef (fst u0) (snd u0)) :: map (fun u => s3_of P (fst u) (me_coef (fst u) (snd u))) parts0
    = map (fun u => s3_of P (fst u) (me_coef (fst u) (snd u))) parts) by (rewrite Ep; reflexivity).
  rewrite E0. cbn [s3_ord s3_of]. rewrite zero_co by lia.
  assert (F : forall ps (f : Z -> Z -> C), (forall u, In u ps -> In u parts) -> exists g,
    ofold (fun le me => bind (le3_convert tb c me) (fun e => s3_add le e))
      (map (fun u => s3_of P (fst u) (me_coef (fst u) (snd u))) ps) (s3_of P c f)
    = Ok (s3_of P c g) /\ forall x, length x = 3%nat -> dist x c <= X ->
      Rabs (- Re (lval3 P g (p3 (vsub x c))) - (- Re (lval3 P f (p3 (vsub x c))) + direct_potential 3 true (flat_map snd ps) x))
      <= trunc3_two Y X r p * abs_charge (flat_map snd ps)).
  { induction ps as [|u ps IH]; intros f Hps.
    - exists f. split; [reflexivity|]. intros x _ _. cbn [flat_map]. unfold direct_potential, abs_charge, rsum; cbn [fold_right].
      replace (_ - _) with 0 by ring. rewrite Rabs_R0. lra.
    - cbn [map ofold]. destruct (HU u (Hps u (or_introl eq_refl))) as (H1 & H2 & H3 & H4).
      destruct (m2l3_error tb c (fst u) (snd u) X Y r Htb Hc H1 H2 HX HY Hr H3 H4) as (e & He & Ee & B). rewrite He. cbn [bind]. rewrite Ee, s3_add_of. cbn [bind].
      destruct (IH (fun n m => f n m + m2l_coef P (me_coef (fst u) (snd u)) (p3 (vsub (fst u) c)) n m)%C (fun v Hv => Hps v (or_intror Hv))) as (g & Hg & Bg).
      exists g. split; [exact Hg|]. intros x Hx Hxd. specialize (Bg x Hx Hxd). destruct (B x Hx Hxd) as (v & Hv & Bv). rewrite Ee in Hv.
      rewrite le3_pot_ok in Hv by (try assumption; lia). injection Hv as <-. rewrite lval_plus in Bg.
      cbn [flat_map]. rewrite direct_potential_app. unfold abs_charge. rewrite rsum_app. fold (abs_charge (snd u)) (abs_charge (flat_map snd ps)).
      set (a := lval3 P g _) in *. set (b := lval3 P f _) in *. set (q := lval3 P (m2l_coef P _ _) _) in *.
      set (d1 := direct_potential 3 true (snd u) x) in *. set (d2 := direct_potential 3 true (flat_map snd ps) x) in *.
      unfold Re in *. cbn [fst Cplus] in Bg.
      replace (- fst a - (- fst b + (d1 + d2))) with ((- fst a - (- (fst b + fst q) + d2)) + (- fst q - d1)) by ring.
      eapply Rle_trans; [apply Rabs_triang|]. lra. }
  destruct (F parts (fun _ _ => RtoC 0) (fun u H => H)) as (g & Hg & B). exists g. split; [exact Hg|].
  intros x Hx Hd. specialize (B x Hx Hd). rewrite lval_zero in B. unfold Re in B at 2. cbn [fst RtoC] in B. rewrite Ropp_0, Rplus_0_l in B. exact B.
Qed.
End Errors.
