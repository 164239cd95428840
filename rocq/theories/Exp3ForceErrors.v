(** Truncation errors of the forces of the three-dimensional expansions. *)
From Coq Require Import Reals List Arith ZArith Lia Lra.
From Coquelicot Require Import Coquelicot.
From Verif Require Import Num Outcome Vec VecProofs Tables Tables3D Expansion3D Fields FieldSpec FieldProofs Spherical CAux TableProofs Table3DProofs
  SolidHarmonics Zonal HarmonicBounds NewtonSeries Kernel3 KernelBounds3 Exp2Forces Exp2ForceErrors Harmonics3D Gradient3 Exp3Loops Exp3Forces KernelGradient3 KernelGradBounds3 Exp3Proofs Exp3Errors.
Import ListNotations.
Local Open Scope R_scope.

Lemma derive_minus (f g : R -> R) t a b : is_derive f t a -> is_derive g t b -> is_derive (fun s => f s - g s) t (a - b).
Proof. intros A B. exact (is_derive_minus (K := R_AbsRing) (V := R_NormedModule) f g t a b A B). Qed.
Lemma grad_scale (E : R -> R) q e B : (forall e', is_derive E 0 e' -> Rabs e' <= B) -> is_derive (fun t => q * E t) 0 e -> 0 <= B -> Rabs e <= Rabs q * B.
Proof.
  intros H HE HB. destruct (Req_dec q 0) as [->|Hq].
  - assert (D : is_derive (fun t => 0 * E t) 0 0).
    { apply (is_derive_ext (fun _ => 0)); [intros t; change (0 = 0 * E t); ring|]. apply (is_derive_const (K := R_AbsRing) (V := R_NormedModule)). }
    apply is_derive_unique in HE. apply is_derive_unique in D. rewrite HE in D. rewrite D, !Rabs_R0. lra.
  - assert (D : is_derive E 0 (/ q * e)).
    { apply (is_derive_ext (fun t => / q * (q * E t))); [intros t; change (/ q * (q * E t) = E t); field; exact Hq|]. apply (is_derive_scal). exact HE. }
    apply H in D. rewrite Rabs_mult in D. replace (Rabs e) with (Rabs q * (Rabs (/ q) * Rabs e)).
    + apply Rmult_le_compat_l; [apply Rabs_pos|exact D].
    + rewrite <- !Rabs_mult. f_equal. field. exact Hq.
Qed.

Lemma inv_dist_derive Z X u : pn (psub Z X) <> 0 -> is_derive (fun t => / pn (psub Z (padd X (pscal t u)))) 0 (pdot (psub Z X) u / pn (psub Z X) ^ 3).
Proof.
  intros H. set (g := fun t => padd (psub Z X) (pscal t (pneg u))).
  assert (G : dp3 g 0 (pneg u)) by apply dp3_line. assert (G0 : g 0 = psub Z X) by apply padd_0.
  assert (Hg : pn (g 0) <> 0) by (rewrite G0; exact H).
  pose proof (inv_pow_derive _ 0 _ 1 (pn_derive g 0 _ G Hg) Hg) as D.
  apply (is_derive_ext (fun s => / pn (g s) ^ 1)).
  - intros t. rewrite pow_1. do 2 f_equal. unfold g, padd, psub, pneg, pscal, c1, c2, c3. cbn [fst snd]. f_equal; [f_equal|]; ring.
  - rewrite G0 in D. match type of D with is_derive _ _ ?v => replace (pdot (psub Z X) u / pn (psub Z X) ^ 3) with v end; [exact D|].
    replace (pdot (psub Z X) (pneg u)) with (- pdot (psub Z X) u) by (unfold pdot, pneg, pscal, c1, c2, c3; cbn [fst snd]; ring).
    rewrite G0. simpl. field. exact H.
Qed.

Lemma gtrunc3_nonneg a r p : 0 <= a < r -> 0 <= gtrunc3 a r p.
Proof.
  intros H. unfold gtrunc3. apply Rmult_le_pos; [|left; apply Rinv_0_lt_compat, pow_lt; lra].
  apply Rmult_le_pos; [apply pos_INR|]. apply pow_le. apply Rmult_le_pos; [lra|left; apply Rinv_0_lt_compat; lra].
Qed.
Lemma sq_mono a b : 0 < a <= b -> 0 < a ^ 2 <= b ^ 2.
Proof. intros H. split; [apply pow_lt; lra|]. apply pow_incr. lra. Qed.
Lemma gtrunc3_mono a a' r r' p : 0 <= a <= a' -> a' < r' <= r -> gtrunc3 a r p <= gtrunc3 a' r' p.
Proof.
  intros Ha Hr. unfold gtrunc3. assert (B := div_mono a a' r r' Ha ltac:(lra)). apply div_mono; [|apply sq_mono; lra].
  split; [apply Rmult_le_pos; [apply pos_INR|apply pow_le, B]|]. apply Rmult_le_compat_l; [apply pos_INR|]. apply pow_incr. exact B.
Qed.
Lemma gtrunc3_two_nonneg Y X r p : 0 <= Y -> 0 <= X -> X + Y < r -> 0 <= gtrunc3_two Y X r p.
Proof.
  intros HY HX Hr. unfold gtrunc3_two. apply Rmult_le_pos; [|left; apply Rinv_0_lt_compat, pow_lt; lra].
  apply Rplus_le_le_0_compat; apply Rmult_le_pos; try apply pos_INR; apply pow_le; apply Rmult_le_pos; try lra; left; apply Rinv_0_lt_compat; lra.
Qed.
Lemma gtrunc3_two_mono Y Y' X X' r r' p : 0 <= Y <= Y' -> 0 <= X <= X' -> X' + Y' < r' <= r -> gtrunc3_two Y X r p <= gtrunc3_two Y' X' r' p.
Proof.
  intros HY HX Hr. unfold gtrunc3_two.
  assert (B1 := div_mono Y Y' (r - X) (r' - X') ltac:(lra) ltac:(lra)).
  assert (B2 := div_mono X X' (r - Y) (r' - Y') ltac:(lra) ltac:(lra)).
  apply div_mono; [|apply sq_mono; lra]. split.
  - apply Rplus_le_le_0_compat; apply Rmult_le_pos; try apply pos_INR; apply pow_le; [apply B1|apply B2].
  - apply Rplus_le_compat; apply Rmult_le_compat_l; try apply pos_INR; apply pow_incr; [exact B1|exact B2].
Qed.

(** ** Gradients of one source *)
Section Grad.
Variable p : nat.
Notation P := (Z.of_nat p).

Lemma mgrad_source q y X u a r : pn u <= 1 -> pn y <= a -> a < r <= pn X ->
  Rabs (Re (mgrad3 P (fun n m => RtoC q * Yr y n (- m))%C u X) - q * (pdot (psub y X) u / pn (psub y X) ^ 3)) <= gtrunc3 a r p * Rabs q.
Proof.
  intros Hu Hy Hr. pose proof (pn_nonneg y) as Hn.
  assert (Hd : pn (psub y X) <> 0).
  { rewrite pn_psub_sym. destruct (polar_of X) as (th & ph & E). assert (D := dist_pos (pn X) th ph y ltac:(lra)). rewrite <- E in D. apply Rgt_not_eq. lra. }
  rewrite Rabs_minus_sym. match goal with |- _ <= ?b * Rabs q => rewrite (Rmult_comm b) end.
  eapply Rle_trans; [|apply Rmult_le_compat_l; [apply Rabs_pos|apply (gtrunc3_mono a a (pn X) r p); lra]].
  apply (grad_scale (fun t => / pn (psub (padd X (pscal t u)) y) - Re (lsum (fun n => Tn y n (padd X (pscal t u))) (seq 0 (S p))))).
  - intros e He. apply (grad_one_at y X u a p e); try assumption. lra.
  - destruct (mval3_derive P (fun n m => (RtoC q * Yr y n (- m))%C) (fun t => padd X (pscal t u)) 0 u (dp3_line X u 0)) as [D _].
    { rewrite padd_0. apply Rgt_not_eq. lra. }
    rewrite padd_0 in D.
    assert (D2 := is_derive_scal _ 0 q _ (inv_dist_derive y X u Hd)).
    assert (D3 := derive_minus _ _ 0 _ _ D2 D).
    eapply is_derive_ext; [|exact D3]. intros t. cbv beta. match goal with |- ?a = ?b => change (@eq R a b) end.
    rewrite mval_one by lia. rewrite Nat2Z.id, Re_scal, (pn_psub_sym y). unfold Tn. ring.
  - apply gtrunc3_nonneg. lra.
Qed.

Lemma m2l_grad_source q y D X u Xb Y r : pn u <= 1 -> pn y <= Y -> pn X <= Xb -> Xb + Y < r <= pn D ->
  Rabs (Re (lgrad3 P (m2l_coef P (fun n m => RtoC q * Yr y n (- m))%C D) u X) - q * (pdot (psub (padd D y) X) u / pn (psub (padd D y) X) ^ 3)) <= gtrunc3_two Y Xb r p * Rabs q.
Proof.
  intros Hu Hy HX Hr. pose proof (pn_nonneg y) as Hn. pose proof (pn_nonneg X) as HnX.
  assert (EZ : forall w, psub (padd D y) w = psub D (padd (pneg y) w)).
  { intros w. unfold psub, padd, pneg, pscal, c1, c2, c3. cbn [fst snd]. f_equal; [f_equal|]; ring. }
  assert (Hd : pn (psub (padd D y) X) <> 0).
  { rewrite EZ. destruct (polar_of D) as (th & ph & E). pose proof (pn_add (pneg y) X) as A. rewrite pn_pneg in A.
    assert (B := dist_pos (pn D) th ph (padd (pneg y) X) ltac:(lra)). rewrite <- E in B. apply Rgt_not_eq. lra. }
  rewrite Rabs_minus_sym. match goal with |- _ <= ?b * Rabs q => rewrite (Rmult_comm b) end.
  eapply Rle_trans; [|apply Rmult_le_compat_l; [apply Rabs_pos|apply (gtrunc3_two_mono Y Y Xb Xb (pn D) r p); lra]].
  apply (grad_scale (fun t => / pn (psub D (padd (pneg y) (padd X (pscal t u)))) - Re (ksum3 (pneg y) (padd X (pscal t u)) D p))).
  - intros e He. apply (grad_two_at (pneg y) X u D Xb Y p e); try assumption; [rewrite pn_pneg; assumption|lra].
  - destruct (lval3_derive P (m2l_coef P (fun n m => (RtoC q * Yr y n (- m))%C) D) (fun t => padd X (pscal t u)) 0 u (dp3_line X u 0)) as [D1 _].
    rewrite padd_0 in D1.
    assert (D2 := is_derive_scal _ 0 q _ (inv_dist_derive (padd D y) X u Hd)).
    assert (D3 := derive_minus _ _ 0 _ _ D2 D1).
    eapply is_derive_ext; [|exact D3]. intros t. cbv beta. match goal with |- ?a = ?b => change (@eq R a b) end.
    rewrite m2l_one by lia. rewrite Nat2Z.id, Re_scal, EZ. unfold ksum3, kap3. ring.
  - apply gtrunc3_two_nonneg; lra.
Qed.

Lemma bic_zero w D n j : bic (H3 (0, 0, 0)) w D n j = if (n =? 0)%nat then zon w D j else RtoC 0.
Proof.
  assert (E : H3 (0, 0, 0) = hscal (RtoC 0) (H3 (0, 0, 0))).
  { rewrite <- H3_scal. f_equal. unfold pscal, c1, c2, c3. cbn [fst snd]. f_equal; [f_equal|]; ring. }
  destruct (Nat.eqb_spec n 0) as [->|Hn].
  - pose proof (zon_split (H3 (0, 0, 0)) w D j) as Z.
    replace (hadd (H3 (0, 0, 0)) w) with w in Z.
    + rewrite Z. rewrite <- cons_seq, lsum_cons, Nat.sub_0_r. rewrite lsum_all_zero; [ring|]. intros k Hk. apply in_seq in Hk.
      rewrite E, bic_scal, Cpow_0_l by lia. ring.
    + destruct w as [a b e]. unfold hadd, H3, hR, c1, c2, c3. cbn [SolidHarmonics.hz SolidHarmonics.hp SolidHarmonics.hq fst snd]. f_equal; apply injective_projections; cbn; field.
  - rewrite E, bic_scal, Cpow_0_l by lia. ring.
Qed.
Lemma ksum3_zero w D : ksum3 (0, 0, 0) w D p = lsum (fun n => zon (H3 w) (H3 D) n * RtoC (/ pn D ^ (2 * n + 1)))%C (seq 0 (S p)).
Proof.
  unfold ksum3. rewrite <- (cons_seq p 0), lsum_cons. rewrite (lsum_all_zero _ (seq 1 p)).
  - rewrite Cplus_0_r. apply lsum_ext. intros j _. unfold kap3. rewrite bic_zero. cbn [Nat.eqb]. reflexivity.
  - intros n Hn. apply in_seq in Hn. apply lsum_all_zero. intros j _. unfold kap3. rewrite bic_zero. destruct (Nat.eqb_spec n 0); [lia|]. ring.
Qed.

Definition gtrunc3_loc (a r : R) : R := INR (p + 1) * (a / r) ^ p / (r - a) ^ 2.
Lemma gtrunc3_loc_two a r : 0 <= a < r -> gtrunc3_two 0 a r p = gtrunc3_loc a r.
Proof. intros H. unfold gtrunc3_two, gtrunc3_loc. unfold Rdiv at 2. rewrite Rmult_0_l. rewrite pow_i by lia. rewrite Rmult_0_r, Rplus_0_l, !Rminus_0_r. reflexivity. Qed.

Lemma lgrad_source q D X u a r : pn u <= 1 -> pn X <= a -> a < r <= pn D ->
  Rabs (Re (lgrad3 P (fun n m => RtoC (q * / pn D ^ (2 * Z.to_nat n + 1)) * Yr D n (- m))%C u X) - q * (pdot (psub D X) u / pn (psub D X) ^ 3)) <= gtrunc3_loc a r * Rabs q.
Proof.
  intros Hu HX Hr. pose proof (pn_nonneg X) as HnX.
  assert (EZ : forall w, psub D w = psub D (padd (0, 0, 0) w)).
  { intros w. unfold psub, padd, c1, c2, c3. cbn [fst snd]. f_equal; [f_equal|]; ring. }
  assert (Hd : pn (psub D X) <> 0).
  { destruct (polar_of D) as (th & ph & E). assert (B := dist_pos (pn D) th ph X ltac:(lra)). rewrite <- E in B. apply Rgt_not_eq. lra. }
  rewrite Rabs_minus_sym. match goal with |- _ <= ?b * Rabs q => rewrite (Rmult_comm b) end. rewrite <- gtrunc3_loc_two by lra.
  eapply Rle_trans; [|apply Rmult_le_compat_l; [apply Rabs_pos|apply (gtrunc3_two_mono 0 0 a a (pn D) r p); lra]].
  apply (grad_scale (fun t => / pn (psub D (padd (0, 0, 0) (padd X (pscal t u)))) - Re (ksum3 (0, 0, 0) (padd X (pscal t u)) D p))).
  - intros e He. apply (grad_two_at (0, 0, 0) X u D a 0 p e); try assumption; [|lra].
    unfold pn, nrm, c1, c2, c3. cbn [fst snd]. replace (0 * 0 + 0 * 0 + 0 * 0) with 0 by ring. rewrite sqrt_0. lra.
  - destruct (lval3_derive P (fun n m => (RtoC (q * / pn D ^ (2 * Z.to_nat n + 1)) * Yr D n (- m))%C) (fun t => padd X (pscal t u)) 0 u (dp3_line X u 0)) as [D1 _].
    rewrite padd_0 in D1.
    assert (D2 := is_derive_scal _ 0 q _ (inv_dist_derive D X u Hd)).
    assert (D3 := derive_minus _ _ 0 _ _ D2 D1).
    eapply is_derive_ext; [|exact D3]. intros t. cbv beta. match goal with |- ?a = ?b => change (@eq R a b) end.
    rewrite lval_source by lia. rewrite Nat2Z.id, Re_scal, <- EZ, ksum3_zero. ring.
  - apply gtrunc3_two_nonneg; lra.
Qed.

(** ** Linearity *)
Lemma mgrad_lsum {A} (L : list A) (g : A -> Z -> Z -> C) u X :
  mgrad3 P (fun n m => lsum (fun a => g a n m) L) u X = lsum (fun a => mgrad3 P (g a) u X) L.
Proof.
  unfold mgrad3, lsum2. rewrite lsum_swap. apply lsum_ext. intros n _. rewrite lsum_swap. apply lsum_ext. intros m _.
  rewrite <- lsum_scal_r. reflexivity.
Qed.
Lemma lgrad_lsum {A} (L : list A) (g : A -> Z -> Z -> C) u X :
  lgrad3 P (fun n m => lsum (fun a => g a n m) L) u X = lsum (fun a => lgrad3 P (g a) u X) L.
Proof.
  unfold lgrad3, lsum2. rewrite lsum_swap. apply lsum_ext. intros n _. rewrite lsum_swap. apply lsum_ext. intros m _.
  rewrite <- lsum_scal_r. reflexivity.
Qed.
Lemma lgrad_ext f g u X : (forall n m, (Z.abs m <= n)%Z -> (n <= P)%Z -> f n m = g n m) -> lgrad3 P f u X = lgrad3 P g u X.
Proof. intros H. apply lsum2_ext. intros n m Hm Hn. now rewrite H. Qed.
Lemma lgrad_plus f g u X : lgrad3 P (fun n m => f n m + g n m)%C u X = (lgrad3 P f u X + lgrad3 P g u X)%C.
Proof.
  unfold lgrad3, lsum2. rewrite <- lsum_plus. apply lsum_ext. intros n _. rewrite <- lsum_plus. apply lsum_ext. intros m _. ring.
Qed.
Lemma lgrad_zero u X : lgrad3 P (fun _ _ => RtoC 0) u X = RtoC 0.
Proof. apply lsum_all_zero. intros n _. apply lsum_all_zero. intros m _. ring. Qed.
Lemma lgrad_shift f S u X : lgrad3 P (l2l_coef P f S) u X = lgrad3 P f u (psub X S).
Proof.
  assert (A := lval3_derive P (l2l_coef P f S) (fun t => padd X (pscal t u)) 0 u (dp3_line X u 0)).
  assert (B := lval3_derive P f (fun t => padd (psub X S) (pscal t u)) 0 u (dp3_line (psub X S) u 0)).
  cbv beta in *. rewrite padd_0 in *. apply (cdc_unique _ _ _ _ A). refine (cdc_ext _ _ _ _ _ B).
  intros t. cbv beta. rewrite l2l_exact by lia. f_equal. unfold psub, padd, pscal, c1, c2, c3. cbn [fst snd]. f_equal; [f_equal|]; ring.
Qed.

Lemma Re_grad_sum {A} (L : list A) (f : A -> C) (g bd : A -> R) :
  (forall a, In a L -> Rabs (Re (f a) - g a) <= bd a) -> Rabs (Re (lsum f L) - rsum g L) <= rsum bd L.
Proof.
  intros H. rewrite Re_lsum, <- rsum_minus. eapply Rle_trans; [apply rsum_abs|]. apply rsum_le. exact H.
Qed.

(** ** Force of a source *)
Lemma bv_unit k : pn (bv k) <= 1.
Proof. destruct k as [|[|k]]; unfold pn, nrm, bv, c1, c2, c3; cbn [fst snd]; (match goal with |- sqrt ?a <= _ => replace a with 1 by ring end); rewrite sqrt_1; lra. Qed.
Lemma force_on3 s x k c : (k < 3)%nat -> length (ps_pos s) = 3%nat -> length x = 3%nat -> length c = 3%nat ->
  force_on 3 true 0 s x k = ps_q s * (pdot (psub (rel s c) (p3 (vsub x c))) (bv k) / pn (psub (rel s c) (p3 (vsub x c))) ^ 3).
Proof.
  intros Hk Hs Hx Hc. unfold force_on, field_sign, force_den. cbn [Nat.eqb]. rewrite (dist_sub _ _ c) by assumption. unfold rel.
  rewrite Rplus_0_r, Rmult_1_l. unfold Rdiv. rewrite Rmult_assoc. f_equal. f_equal.
  rewrite !p3_sub by assumption. unfold pdot, psub, p3, vget, c1, c2, c3. cbn [fst snd]. change (@n0 R NumR) with 0.
  destruct k as [|[|[|k]]]; [| | |lia]; cbn [bv fst snd]; ring.
Qed.

Lemma me_force_bound c srcs x a r k : (k < 3)%nat -> length c = 3%nat -> length x = 3%nat -> same_dim 3 srcs -> 0 <= a < r ->
  (forall s, In s srcs -> dist (ps_pos s) c <= a) -> r <= dist x c ->
  Rabs (Re (mgrad3 P (me_coef c srcs) (bv k) (p3 (vsub x c))) - rsum (fun s => force_on 3 true 0 s x k) srcs) <= gtrunc3 a r p * abs_charge srcs.
Proof.
  intros Hk Hc Hx HS Ha Hin Hr. rewrite dist_pn in Hr by assumption. unfold me_coef. rewrite mgrad_lsum. unfold abs_charge. rewrite <- rsum_scal.
  apply Re_grad_sum. intros s Hs. rewrite (force_on3 s x k c Hk (HS s Hs) Hx Hc). apply mgrad_source; [apply bv_unit| |lra].
  unfold rel. rewrite <- dist_pn by (try assumption; apply HS; assumption). apply Hin. exact Hs.
Qed.
Lemma le_force_bound c srcs x a r k : (k < 3)%nat -> length c = 3%nat -> length x = 3%nat -> same_dim 3 srcs -> 0 <= a < r ->
  (forall s, In s srcs -> r <= dist (ps_pos s) c) -> dist x c <= a ->
  Rabs (Re (lgrad3 P (le_coef c srcs) (bv k) (p3 (vsub x c))) - rsum (fun s => force_on 3 true 0 s x k) srcs) <= gtrunc3_loc a r * abs_charge srcs.
Proof.
  intros Hk Hc Hx HS Ha Hin Hr. rewrite dist_pn in Hr by assumption. unfold le_coef. rewrite lgrad_lsum. unfold abs_charge. rewrite <- rsum_scal.
  apply Re_grad_sum. intros s Hs. rewrite (force_on3 s x k c Hk (HS s Hs) Hx Hc). apply lgrad_source; [apply bv_unit|exact Hr|].
  split; [lra|]. unfold rel. rewrite <- dist_pn by (try assumption; apply HS; assumption). apply Hin. exact Hs.
Qed.
Lemma m2l_force_bound c c0 srcs x X Y r k : (k < 3)%nat -> length c = 3%nat -> length c0 = 3%nat -> length x = 3%nat -> same_dim 3 srcs ->
  X + Y < r -> (forall s, In s srcs -> dist (ps_pos s) c0 <= Y) -> r <= dist c0 c -> dist x c <= X ->
  Rabs (Re (lgrad3 P (m2l_coef P (me_coef c0 srcs) (p3 (vsub c0 c))) (bv k) (p3 (vsub x c))) - rsum (fun s => force_on 3 true 0 s x k) srcs)
  <= gtrunc3_two Y X r p * abs_charge srcs.
Proof.
  intros Hk Hc Hc0 Hx HS Hr Hin HD Hd. rewrite dist_pn in HD, Hd by assumption. unfold me_coef.
  rewrite (lgrad_ext _ (fun j i => lsum (fun s => m2l_coef P (fun n m => (RtoC (ps_q s) * Yr (rel s c0) n (- m))%C) (p3 (vsub c0 c)) j i) srcs))
    by (intros; apply m2l_lsum).
  rewrite lgrad_lsum. unfold abs_charge. rewrite <- rsum_scal.
  apply Re_grad_sum. intros s Hs. assert (Hsl := HS s Hs). rewrite (force_on3 s x k c Hk Hsl Hx Hc).
  replace (rel s c) with (padd (p3 (vsub c0 c)) (rel s c0)).
  - apply m2l_grad_source; [apply bv_unit| |exact Hd|lra]. unfold rel. rewrite <- dist_pn by assumption. apply Hin. exact Hs.
  - unfold rel. rewrite !p3_sub by assumption. unfold psub, padd, c1, c2, c3. cbn [fst snd]. f_equal; [f_equal|]; ring.
Qed.

(** ** Forces computed by the expansions *)
Theorem me3_force_error c srcs x a r : length c = 3%nat -> length x = 3%nat -> same_dim 3 srcs -> 0 <= a < r ->
  (forall s, In s srcs -> dist (ps_pos s) c <= a) -> r <= dist x c -> off_axis (p3 (vsub x c)) ->
  exists e F, me3_sources c P srcs = Ok e /\ me3_force e x = Ok F /\ length F = 3%nat /\
  forall k, (k < 3)%nat -> Rabs (nth k F 0 - rsum (fun s => force_on 3 true 0 s x k) srcs) <= gtrunc3 a r p * abs_charge srcs.
Proof.
  intros Hc Hx HS Ha Hin Hr Hoff. do 2 eexists. split; [apply me3_sources_ok; try assumption; lia|].
  split; [apply me3_force_ok; try assumption; lia|]. split; [rewrite map_length, seq_length; reflexivity|].
  intros k Hk. rewrite nth_map_seq by exact Hk. now apply me_force_bound.
Qed.
Theorem le3_force_error c srcs x a r : length c = 3%nat -> length x = 3%nat -> same_dim 3 srcs -> 0 <= a < r ->
  (forall s, In s srcs -> r <= dist (ps_pos s) c) -> dist x c <= a -> off_axis (p3 (vsub x c)) ->
  exists e F, le3_sources c P srcs = Ok e /\ le3_force e x = Ok F /\ length F = 3%nat /\
  forall k, (k < 3)%nat -> Rabs (nth k F 0 - rsum (fun s => force_on 3 true 0 s x k) srcs) <= gtrunc3_loc a r * abs_charge srcs.
Proof.
  intros Hc Hx HS Ha Hin Hr Hoff. do 2 eexists. split.
  { apply le3_sources_ok; try assumption; [lia|]. intros s Hs. split; [apply HS; exact Hs|]. unfold rel.
    rewrite <- dist_pn by (try assumption; apply HS; assumption). specialize (Hin s Hs). apply Rgt_not_eq. lra. }
  split; [apply le3_force_ok; try assumption; lia|]. split; [rewrite map_length, seq_length; reflexivity|].
  intros k Hk. rewrite nth_map_seq by exact Hk. now apply le_force_bound.
Qed.
Theorem m2l3_force_error tb c c0 srcs X Y r : tb3_for tb P -> length c = 3%nat -> length c0 = 3%nat -> same_dim 3 srcs ->
  0 <= X -> 0 <= Y -> X + Y < r -> (forall s, In s srcs -> dist (ps_pos s) c0 <= Y) -> r <= dist c0 c ->
  exists e, le3_convert tb c (s3_of P c0 (me_coef c0 srcs)) = Ok e /\
  forall x, length x = 3%nat -> dist x c <= X -> off_axis (p3 (vsub x c)) ->
  exists F, le3_force e x = Ok F /\ length F = 3%nat /\
  forall k, (k < 3)%nat -> Rabs (nth k F 0 - rsum (fun s => force_on 3 true 0 s x k) srcs) <= gtrunc3_two Y X r p * abs_charge srcs.
Proof.
  intros Htb Hc Hc0 HS HX HY Hr Hin HD. eexists. split.
  { apply le3_convert_ok; try assumption; [lia|]. rewrite <- dist_pn by assumption. apply Rgt_not_eq. lra. }
  intros x Hx Hd Hoff. eexists. split; [apply le3_force_ok; try assumption; lia|]. split; [rewrite map_length, seq_length; reflexivity|].
  intros k Hk. rewrite nth_map_seq by exact Hk. now apply m2l_force_bound.
Qed.
End Grad.
