(** Sizes of the coefficients of two-dimensional expansions in a range of distances. *)
From Coq Require Import Reals List Bool ZArith Arith Lia Lra.
From Coquelicot Require Import Complex.
From Flocq Require Import Core BinarySingleNaN PrimFloat.
From Verif Require Import Num Outcome Vec Tables TableProofs CAux FloatCases FloatFit FloatExpansion2D FloatExpansionSpec FloatOverflow FloatExpansionProofs FloatExpansionCases FloatRangeSpec.
From Coq Require Import Floats.
Import ListNotations.
Local Open Scope R_scope.
Notation zn := Z.of_nat.

Lemma part_upto E y : part E y <-> upto 1 (zn E) y.
Proof. unfold part, upto. rewrite pw_pow, Rmult_1_l. reflexivity. Qed.
Lemma parts_upto E z : parts E z <-> cupto 1 (zn E) z.
Proof. unfold parts, cupto. rewrite !part_upto. reflexivity. Qed.
Lemma collapse k E j x : (0 <= j)%Z -> (k <= 2 ^ j)%Z -> upto k E x -> upto 1 (E + j) x.
Proof.
  intros J K [F B]. split; [exact F|]. eapply Rle_trans; [exact B|]. rewrite bpow_plus, Rmult_1_l, Rmult_comm. apply Rmult_le_compat_l; [apply bpow_ge_0|].
  rewrite <- IZR_Zpower by exact J. apply IZR_le. exact K.
Qed.
Lemma ccollapse k E j z : (0 <= j)%Z -> (k <= 2 ^ j)%Z -> cupto k E z -> cupto 1 (E + j) z.
Proof. intros J K [F G]. split; apply (collapse k); assumption. Qed.
Lemma cweaken k E l F z : (0 <= k)%Z -> (k <= l)%Z -> (E <= F)%Z -> cupto k E z -> cupto l F z.
Proof. intros K L HE [G H]. split; (eapply upto_weaken; [exact K|exact L|exact HE|]); assumption. Qed.
Lemma upto_opp k E x : upto k E x -> upto k E (- x)%float.
Proof. intros [F B]. unfold upto. rewrite is_finite_equiv in *. unfold real_of in *. rewrite opp_equiv, is_finite_Bopp, B2R_Bopp, Rabs_Ropp. split; assumption. Qed.
Lemma cneg_upto k E z : cupto k E z -> cupto k E (cneg z).
Proof. intros [F G]. split; apply upto_opp; assumption. Qed.
Lemma cadd_upto k l E y z : (0 <= k)%Z -> (0 <= l)%Z -> (k + l < 9007199254740992)%Z -> (-1000 <= E <= 970)%Z -> cupto k E y -> cupto l E z -> cupto (k + l) E (cadd y z).
Proof. intros K L KL HE [A1 A2] [B1 B2]. split; apply upto_add; assumption. Qed.
Lemma csub_upto2 k l E y z : (0 <= k)%Z -> (0 <= l)%Z -> (k + l < 9007199254740992)%Z -> (-1000 <= E <= 970)%Z -> cupto k E y -> cupto l E z -> cupto (k + l) E (csub y z).
Proof. intros K L KL HE [A1 A2] [B1 B2]. split; apply upto_sub; assumption. Qed.
Lemma zero_upto E : upto 1 E 0%float.
Proof. destruct zero_real as [Z1 Z2]. split; [exact Z1|]. rewrite Z2, Rabs_R0. assert (P := bpow_ge_0 radix2 E). lra. Qed.
Lemma zero_cupto k E : (0 <= k)%Z -> cupto k E zeroC.
Proof.
  intros K. destruct zero_real as [Z1 Z2]. assert (P := bpow_ge_0 radix2 E). assert (Q : 0 <= IZR k) by (apply IZR_le, K).
  split; (split; [exact Z1|]); cbn [fst snd zeroC]; rewrite Z2, Rabs_R0; apply Rmult_le_pos; assumption.
Qed.
Lemma one_cupto : cupto 1 0 oneC.
Proof. destruct one_real as [O1 O2]. split; [split; [exact O1|]|apply zero_upto]. cbn [fst oneC]. rewrite O2, Rabs_R1. change (pw 0) with 1. lra. Qed.
Lemma cdivr_upto k E z j : (0 <= k < 9007199254740992)%Z -> (-1000 <= E <= 970)%Z -> (1 <= j)%nat -> (zn j <= 9007199254740992)%Z -> cupto k E z -> cupto k E (cdivr z (nat_float j)).
Proof.
  intros K HE J L [F G]. assert (D : 1 <= real_of (nat_float j)). { unfold nat_float. rewrite (proj2 (of_Z_real (zn j) ltac:(lia))). apply IZR_le. lia. }
  split; apply div_upto; assumption.
Qed.
Lemma nat_upto j p : (j <= p)%nat -> (zn p <= 9007199254740992)%Z -> upto 1 (zn p) (nat_float j).
Proof.
  intros J L. unfold nat_float. destruct (of_Z_real (zn j) ltac:(lia)) as [F R]. split; [exact F|]. rewrite R, Rmult_1_l, Rabs_pos_eq by (apply IZR_le; lia).
  rewrite <- IZR_Zpower by lia. apply IZR_le. change (zn j <= 2 ^ zn p)%Z. assert (zn p < 2 ^ zn p)%Z by (apply Z.pow_gt_lin_r; lia). lia.
Qed.
Lemma ofold_keep {X St} (f : St -> X -> outcome St) (P : St -> Prop) l : (forall s x r, In x l -> P s -> f s x = Ok r -> P r) -> forall s r, P s -> ofold f l s = Ok r -> P r.
Proof.
  induction l as [|x l IH]; intros H s r PS E; cbn [ofold] in E; [injection E as <-; exact PS|]. destruct (f s x) as [s'| | | | |] eqn:F; try discriminate. cbn [bind] in E.
  apply (IH ltac:(intros s0 x0 r0 I; apply H; right; exact I) s' r); [|exact E]. apply (H s x s'); [left; reflexivity|exact PS|exact F].
Qed.
Lemma ofold_count {X St} (f : St -> X -> outcome St) (P : Z -> St -> Prop) M l : (forall k s x r, In x l -> (0 <= k < M)%Z -> P k s -> f s x = Ok r -> P (k + 1)%Z r) ->
  forall k s r, (0 <= k)%Z -> (k + zn (length l) <= M)%Z -> P k s -> ofold f l s = Ok r -> P (k + zn (length l))%Z r.
Proof.
  induction l as [|x l IH]; intros H k s r K L PS E; cbn [ofold length] in *; [injection E as <-; rewrite Z.add_0_r; exact PS|].
  destruct (f s x) as [s'| | | | |] eqn:F; try discriminate. cbn [bind] in E. replace (k + zn (S (length l)))%Z with (k + 1 + zn (length l))%Z by lia.
  apply (IH ltac:(intros k0 s0 x0 r0 I; apply H; right; exact I) (k + 1)%Z s' r); [lia|lia| |exact E]. apply (H k s x s'); [left; reflexivity|lia|exact PS|exact F].
Qed.
Lemma map2_nth {X} (f : X -> X -> X) a : forall b i z, nth_error (map2 f a b) i = Some z -> exists x y, nth_error a i = Some x /\ nth_error b i = Some y /\ z = f x y.
Proof.
  induction a as [|x a IH]; intros [|y b] [|i] z H; cbn in H; try discriminate.
  - injection H as <-. exists x, y. auto.
  - exact (IH b i z H).
Qed.
Lemma map2_len {X} (f : X -> X -> X) a b : length (map2 f a b) = Nat.min (length a) (length b).
Proof. unfold map2. rewrite map_length, combine_length. reflexivity. Qed.
Lemma omapM_back {X Y} (f : X -> outcome Y) l : forall r i y, omapM f l = Ok r -> nth_error r i = Some y -> exists x, nth_error l i = Some x /\ f x = Ok y.
Proof.
  induction l as [|x l IH]; intros r i y H N; cbn [omapM] in H; [injection H as <-; destruct i; discriminate|].
  destruct (f x) as [y0| | | | |] eqn:F; try discriminate. cbn [bind] in H. destruct (omapM f l) as [r'| | | | |] eqn:E; try discriminate. cbn [bind] in H. injection H as <-.
  destruct i as [|i]; cbn [nth_error] in *; [injection N as <-; exists x; auto|exact (IH r' i y eq_refl N)].
Qed.
Lemma omapM_len {X Y} (f : X -> outcome Y) l : forall r, omapM f l = Ok r -> length r = length l.
Proof.
  induction l as [|x l IH]; intros r H; cbn [omapM] in H; [injection H as <-; reflexivity|].
  destruct (f x) as [y0| | | | |]; try discriminate. cbn [bind] in H. destruct (omapM f l) as [r'| | | | |]; try discriminate. cbn [bind] in H. injection H as <-. cbn. rewrite (IH r' eq_refl). reflexivity.
Qed.
Lemma seq_nth s l i x : nth_error (seq s l) i = Some x -> x = (s + i)%nat /\ (i < l)%nat.
Proof. intros H. assert (L : (i < l)%nat) by (rewrite <- (seq_length l s); apply nth_error_Some; congruence). rewrite nth_seq in H by exact L. injection H as <-. auto. Qed.
Lemma lset_nth {X} (l : list X) : forall k i x z, nth_error (lset l k x) i = Some z -> (i = k /\ z = x) \/ (i <> k /\ nth_error l i = Some z).
Proof.
  induction l as [|y l IH]; intros [|k] [|i] x z H; cbn in *; try discriminate.
  - injection H as <-. auto.
  - right. auto.
  - right. auto.
  - destruct (IH k i x z H) as [[-> ->]|[D E]]; [left; auto|right; split; [lia|exact E]].
Qed.
Lemma lset_len {X} (l : list X) : forall k x, length (lset l k x) = length l.
Proof. induction l as [|y l IH]; intros [|k] x; cbn; try reflexivity. rewrite IH. reflexivity. Qed.
Lemma count_le l : (1 <= l)%Z -> (l + 1 <= 2 ^ l)%Z.
Proof. intros L. assert (l < 2 ^ l)%Z by (apply Z.pow_gt_lin_r; lia). lia. Qed.

(** *** Distances *)
Lemma near_upto b x c : (b <= 900)%nat -> near b x c -> cupto 1 (zn b) (csub (cplxF x) (cplxF c)).
Proof.
  intros B [F S].
  assert (FN : forall i v, (v = x \/ v = c) -> PrimFloat.is_finite (nth i v 0%float) = true).
  { intros i v V. destruct (nth_in_or_default i v 0%float) as [G|G]; [|rewrite G; apply zero_real]. rewrite Forall_forall in F. apply F, in_or_app. destruct V as [<-|<-]; auto. }
  rewrite <- pw_pow in S. unfold separation in S. set (u := real_of (nth 0 x 0%float) - real_of (nth 0 c 0%float)) in *.
  set (v := real_of (nth 1 x 0%float) - real_of (nth 1 c 0%float)) in *. assert (U := pow2_ge_0 u). assert (V := pow2_ge_0 v).
  split; cbn [csub cplxF fst snd]; (apply sub_upto; [lia|lia|apply FN; auto|apply FN; auto|]); rewrite Rmult_1_l; (eapply Rle_trans; [|exact S]); rewrite <- sqrt_Rsqr_abs, Rsqr_pow2; apply sqrt_le_1_alt; fold u v; lra.
Qed.
Lemma inv_half r : / 2 ^ S r = / 2 * / 2 ^ r.
Proof. cbn [pow]. rewrite Rinv_mult. reflexivity. Qed.
Lemma apart_between b x c : (b <= 900)%nat -> apart b x c -> between (S b) (csub (cplxF x) (cplxF c)).
Proof.
  intros B [[F S] L].
  assert (FN : forall i v, (v = x \/ v = c) -> PrimFloat.is_finite (nth i v 0%float) = true).
  { intros i v V. destruct (nth_in_or_default i v 0%float) as [G|G]; [|rewrite G; apply zero_real]. rewrite Forall_forall in F. apply F, in_or_app. destruct V as [<-|<-]; auto. }
  set (p := real_of (nth 0 x 0%float) - real_of (nth 0 c 0%float)). set (q := real_of (nth 1 x 0%float) - real_of (nth 1 c 0%float)).
  set (s := separation x c) in *.
  assert (SC : s = Cmod (p, q)) by reflexivity. assert (BM := Rmax_Cmod (p, q)). cbn [fst snd] in BM. rewrite <- SC in BM.
  assert (B1 := Rle_trans _ _ _ (Rmax_l _ _) BM). assert (B2 := Rle_trans _ _ _ (Rmax_r _ _) BM).
  assert (PB : 2 ^ b <= pw 970) by (rewrite <- pw_pow; apply bpow_le; lia).
  destruct (sub_small (nth 0 x 0%float) (nth 0 c 0%float)) as (F1 & E1 & D1); [apply FN; auto|apply FN; auto|fold p; lra|]. fold p in E1, D1.
  destruct (sub_small (nth 1 x 0%float) (nth 1 c 0%float)) as (F2 & E2 & D2); [apply FN; auto|apply FN; auto|fold q; lra|]. fold q in E2, D2.
  assert (Z := scaled_mod _ _ p q (1 + / 9007199254740992) ltac:(lra) E1 E2). assert (ZL := scaled_mod_ge _ _ p q (1 - / 9007199254740992) ltac:(lra) D1 D2). rewrite <- SC in Z, ZL.
  split; [exact F1|]. split; [exact F2|]. rewrite !Cmod_sq in Z, ZL. cbn [csub cplxF fst snd]. rewrite inv_half. assert (0 < / 2 ^ b) by (apply Rinv_0_lt_compat, pow_lt; lra). cbn [pow] in *. lra.
Qed.
Lemma between_neg r z : between r z -> between r (cneg z).
Proof.
  intros (F & G & H). unfold between, cneg. cbn [fst snd]. rewrite !is_finite_equiv in *. unfold real_of in *. rewrite !opp_equiv, !is_finite_Bopp, !B2R_Bopp.
  split; [exact F|]. split; [exact G|]. replace ((- B2R (Prim2B (fst z))) ^ 2 + (- B2R (Prim2B (snd z))) ^ 2) with (B2R (Prim2B (fst z)) ^ 2 + B2R (Prim2B (snd z)) ^ 2) by ring. exact H.
Qed.
Lemma center_pair e : cplxF (center_of e) = sf_ctr e.
Proof. unfold center_of, cplxF. cbn [nth]. symmetry. apply surjective_pairing. Qed.

Section Range.
Variable A : cfarith.
Notation m := (f_mul A).
Hypothesis HM : usual_product m.
Hypothesis HD : bounded_quotient (f_div A).
Variables (p a b g n N : nat).
Hypothesis HG : bounded_log g (S b) (f_log A).
Hypothesis P1 : (1 <= p)%nat.
Hypothesis HB : (b <= 198)%nat.
Hypothesis HN : (N <= 50)%nat.
Hypothesis Hn : (n <= 50)%nat.
Notation powers z w i := (Nat.iter i (fun p => m p w) z).
Notation quots z w i := (Nat.iter i (fun p => f_div A p w) z).

Lemma quot_upto E r x z : (0 <= E)%Z -> (E + zn r <= 960)%Z -> (r <= 400)%nat -> cupto 1 E x -> between r z -> cupto 1 (E + zn r + 1) (f_div A x z).
Proof.
  intros E0 ER R X Z. assert (H := HD (Z.to_nat E) r x z ltac:(lia) R). rewrite !parts_upto, Z2Nat.id in H by exact E0. specialize (H X Z).
  replace (zn (Z.to_nat E + r + 1)) with (E + zn r + 1)%Z in H by lia. exact H.
Qed.
Lemma power_upto w B i : (0 <= B)%Z -> (zn i * (B + 1) <= 960)%Z -> cupto 1 B w -> cupto 1 (zn i * (B + 1)) (powers oneC w i).
Proof.
  intros B0 L W. induction i as [|i IH]; [exact one_cupto|]. change (powers oneC w (S i)) with (m (powers oneC w i) w).
  assert (G : (0 <= zn i * (B + 1))%Z) by (apply Z.mul_nonneg_nonneg; lia). replace (zn (S i) * (B + 1))%Z with (zn i * (B + 1) + B + 1)%Z in * by lia.
  apply (product_upto A HM); [lia|apply IH; lia|exact W].
Qed.
Lemma quots_upto x z E i : (0 <= E)%Z -> (E + zn i * (zn b + 2) <= 960)%Z -> cupto 1 E x -> between (S b) z -> cupto 1 (E + zn i * (zn b + 2)) (quots x z i).
Proof.
  intros E0 L X Z. induction i as [|i IH]; [replace (E + zn 0 * (zn b + 2))%Z with E by lia; exact X|]. change (quots x z (S i)) with (f_div A (quots x z i) z).
  assert (G : (0 <= zn i * (zn b + 2))%Z) by (apply Z.mul_nonneg_nonneg; lia).
  replace (E + zn (S i) * (zn b + 2))%Z with (E + zn i * (zn b + 2) + zn (S b) + 1)%Z by lia. apply quot_upto; [lia|lia|lia|apply IH; lia|exact Z].
Qed.
Lemma pow_get_upto w B nmax i z : (0 <= B)%Z -> (zn i * (B + 1) <= 960)%Z -> (i <= nmax)%nat -> cupto 1 B w -> pow_get (pow_table oneC m w nmax) i = Ok z -> cupto 1 (zn i * (B + 1)) z.
Proof.
  intros B0 L I W E. unfold pow_get, pow_table in E. rewrite (pow_fill_nth A) in E by lia. cbn [of_option] in E. injection E as <-. apply power_upto; assumption.
Qed.

(** The coefficient [i] is at most [k 2^(f i)]. *)
Definition counted (k : Z) (f : nat -> Z) (cs : list CF) : Prop := length cs = S p /\ forall i c, nth_error cs i = Some c -> cupto k (f i) c.
Lemma counted_bound k f cs i c : counted k f cs -> nth_error cs i = Some c -> (i <= p)%nat /\ cupto k (f i) c.
Proof. intros [L H] E. split; [|exact (H i c E)]. assert (i < length cs)%nat by (apply nth_error_Some; congruence). lia. Qed.
Lemma counted_weaken k f l h cs : (0 <= k)%Z -> (k <= l)%Z -> (forall i, (i <= p)%nat -> (f i <= h i)%Z) -> counted k f cs -> counted l h cs.
Proof. intros K L H C. split; [apply C|]. intros i c E. destruct (counted_bound _ _ _ _ _ C E) as [I B]. eapply cweaken; [exact K|exact L|apply H, I|exact B]. Qed.
Lemma counted_collapse k f j cs : (0 <= j)%Z -> (k <= 2 ^ j)%Z -> counted k f cs -> counted 1 (fun i => f i + j)%Z cs.
Proof. intros J K [L H]. split; [exact L|]. intros i c E. apply (ccollapse k); [exact J|exact K|exact (H i c E)]. Qed.
Lemma counted_zero f : counted 0 f (repeat zeroC (S p)).
Proof. split; [apply repeat_length|]. intros i c E. apply nth_error_In in E. apply repeat_spec in E. subst c. apply zero_cupto. lia. Qed.
Lemma counted_fold {X} (step : list CF -> X -> list CF) f xs : (forall x cs k, In x xs -> (0 <= k)%Z -> (k + 1 < 9007199254740992)%Z -> counted k f cs -> counted (k + 1) f (step cs x)) ->
  forall k cs, (0 <= k)%Z -> (k + zn (length xs) < 9007199254740992)%Z -> counted k f cs -> counted (k + zn (length xs)) f (fold_left step xs cs).
Proof.
  induction xs as [|x xs IH]; intros H k cs K L C; cbn [fold_left length] in *; [rewrite Z.add_0_r; exact C|]. replace (k + zn (S (length xs)))%Z with (k + 1 + zn (length xs))%Z by lia.
  apply IH; [intros y ds k0 I; apply H; right; exact I|lia|lia|]. apply H; [left; reflexivity|lia|lia|exact C].
Qed.
Lemma counted_div k f cs : (0 <= k < 9007199254740992)%Z -> (forall i, (i <= p)%nat -> (-1000 <= f i <= 970)%Z) -> (p <= 960)%nat -> counted k f cs -> counted k f (div_tailF cs).
Proof.
  intros K F PP C. assert (C' := C). destruct C as [L H]. destruct cs as [|c0 cs]; [discriminate|]. cbn [div_tailF].
  assert (LD : forall j ds, length (div_fromF j ds) = length ds) by (intros j ds; revert j; induction ds as [|d ds IH]; intros j; cbn; [reflexivity|rewrite IH; reflexivity]).
  split; [cbn [length] in *; rewrite LD; exact L|]. intros [|i] c E; cbn [nth_error] in E; [exact (H 0%nat c E)|].
  assert (LI : (i < length cs)%nat) by (rewrite <- (LD 1%nat cs); apply nth_error_Some; congruence). destruct (nth_exists cs i LI) as [z Z].
  rewrite (div_from_nth _ _ _ _ Z) in E. injection E as <-. cbn [length] in L. apply cdivr_upto; [exact K|apply F; lia|lia|lia|exact (H (S i) z Z)].
Qed.
Lemma count_pow k K : (K <= 50)%nat -> (k <= 2 ^ K)%nat -> (zn k <= 2 ^ zn K < 9007199254740991)%Z.
Proof.
  intros H1 H2. assert (G : (zn k <= 2 ^ zn K)%Z) by (apply Nat2Z.inj_le in H2; rewrite Nat2Z.inj_pow in H2; exact H2). split; [exact G|].
  apply Z.le_lt_trans with (2 ^ 50)%Z; [apply Z.pow_le_mono_r; lia|reflexivity].
Qed.

(** *** Multipole expansions of sources *)
Notation C h := (zn a + zn N + zn h * zn n)%Z.
Notation be h := (zn b + 1 + 2 * zn h)%Z.
Definition msize (h i : nat) : Z := (C h + zn i * be h)%Z.
Definition good_multipole (h : nat) (e : seF) : Prop := sf_ord e = p /\ counted 1 (msize h) (sf_co e).
Lemma msize_zero i : msize 0 i = (zn a + zn N + zn i * (zn b + 1))%Z.
Proof. unfold msize. change (zn 0) with 0%Z. ring. Qed.
Lemma p2m_range c srcs : (zn a + zn N + zn p * (zn b + 1) <= 960)%Z -> (length srcs <= 2 ^ N)%nat -> (forall s, In s srcs -> part a (ps_q s) /\ near b (ps_pos s) c) ->
  good_multipole 0 (me2_sourcesF A c p srcs).
Proof.
  intros T L HS. assert (PP : (p <= 960)%nat) by nia. assert (CN := count_pow _ _ HN L). set (f := fun i => (zn a + zn i * (zn b + 1))%Z).
  assert (FB : forall i, (i <= p)%nat -> (0 <= f i <= 960)%Z). { intros i I. unfold f. assert (0 <= zn i * (zn b + 1))%Z by (apply Z.mul_nonneg_nonneg; lia). assert (zn i * (zn b + 1) <= zn p * (zn b + 1))%Z by (apply Z.mul_le_mono_nonneg_r; lia). lia. }
  split; [reflexivity|]. unfold me2_sourcesF. cbn [sf_co].
  assert (F : counted (0 + zn (length srcs)) f (fold_left (me2_add_sourceF A (cplxF c)) srcs (repeat zeroC (S p)))).
  { apply counted_fold; [|lia|lia|apply counted_zero]. intros s cs k I K0 K1 [LC H]. destruct (HS s I) as [Q W]. apply part_upto in Q. apply near_upto in W; [|lia].
    split; [rewrite (add_source_length A); exact LC|]. destruct cs as [|c0 cs]; [discriminate|]. cbn [length] in LC. cbn [me2_add_sourceF].
    set (w := csub (cplxF (ps_pos s)) (cplxF c)) in *. intros [|i] z E; cbn [nth_error] in E.
    - injection E as <-. assert (F0 := FB 0%nat ltac:(lia)). destruct (H 0%nat c0 eq_refl) as [G1 G2]. split; cbn [fst snd].
      + apply upto_add; [lia|lia|lia|lia|exact G1|]. apply (upto_weaken 1 (zn a)); [lia|lia|unfold f; lia|exact Q].
      + apply (upto_weaken k (f 0%nat)); [lia|lia|lia|exact G2].
    - assert (LI : (i < length cs)%nat) by (rewrite <- (acc_length A (ps_q s) w cs w); apply nth_error_Some; congruence). destruct (nth_exists cs i LI) as [y Y].
      rewrite (acc_nth A _ _ _ _ _ _ Y) in E. injection E as <-. assert (FI := FB (S i) ltac:(lia)). unfold f in FI. apply csub_upto2; [lia|lia|lia|unfold f; lia|exact (H (S i) y Y)|].
      assert (PU : cupto 1 (zn (S i) * (zn b + 1)) (powers w w i)).
      { assert (G : forall j, (j <= i)%nat -> cupto 1 (zn j * (zn b + 1) + zn b) (powers w w j)).
        { induction j as [|j IH]; intros J; [exact W|]. assert (0 <= zn j * (zn b + 1))%Z by (apply Z.mul_nonneg_nonneg; lia). assert (zn (S j) * (zn b + 1) <= zn i * (zn b + 1))%Z by (apply Z.mul_le_mono_nonneg_r; lia).
          change (powers w w (S j)) with (m (powers w w j) w). replace (zn (S j) * (zn b + 1) + zn b)%Z with (zn j * (zn b + 1) + zn b + zn b + 1)%Z by lia.
          apply (product_upto A HM); [lia|apply IH; lia|exact W]. }
        apply (cweaken 1 (zn i * (zn b + 1) + zn b)); [lia|lia|lia|apply G; lia]. }
      apply scale_upto; [lia|exact Q|exact PU]. }
  apply counted_div; [lia| |lia|].
  - intros i I. rewrite msize_zero. specialize (FB i I). unfold f in FB. assert (zn i * (zn b + 1) <= zn p * (zn b + 1))%Z by (apply Z.mul_le_mono_nonneg_r; lia). lia.
  - apply (counted_collapse _ _ (zn N)) in F; [|lia|lia]. apply (counted_weaken 1 (fun i => f i + zn N)%Z); [lia|lia| |exact F]. intros i I. rewrite msize_zero. unfold f. lia.
Qed.

(** *** Merging *)
Lemma mul_le i j x y : (0 <= i)%Z -> (i <= j)%Z -> (0 <= x)%Z -> (x <= y)%Z -> (0 <= i * x)%Z /\ (i * x <= j * y)%Z.
Proof. intros. split; [apply Z.mul_nonneg_nonneg; assumption|apply Z.mul_le_mono_nonneg; assumption]. Qed.
Lemma msize_range h i : (i <= p)%nat -> (C h + zn p * (be h + 2) <= 960)%Z -> (0 <= msize h i <= 960)%Z.
Proof. intros I T. unfold msize. assert (G := mul_le (zn i) (zn p) (be h) (be h + 2)%Z ltac:(lia) ltac:(lia) ltac:(lia) ltac:(lia)). assert (0 <= zn h * zn n)%Z by (apply Z.mul_nonneg_nonneg; lia). lia. Qed.
Lemma shift_range h tb e w sh : (C h + zn p * (be h + 2) <= 960)%Z -> bounded_binomials tb -> good_multipole h e -> cupto 1 (zn b) w -> me2_shiftF A tb e w = Ok sh ->
  counted 1 (fun l => C h + zn l * (be h + 2))%Z sh.
Proof.
  intros T HT [O HC] W E. assert (HN0 : (0 <= zn h * zn n)%Z) by (apply Z.mul_nonneg_nonneg; lia). unfold me2_shiftF in E. rewrite O in E.
  destruct (sf_get e 0) as [a0| | | | |] eqn:E0; try discriminate. cbn [bind] in E. unfold sf_get in E0. destruct (nth_error (sf_co e) 0) as [z0|] eqn:N0; [|discriminate]. injection E0 as ->.
  destruct (counted_bound _ _ _ _ _ HC N0) as [_ B0]. replace (msize h 0) with (C h) in B0 by (unfold msize; change (zn 0) with 0%Z; ring).
  destruct (omapM _ _) as [tl| | | | |] eqn:TL in E; try discriminate. cbn [bind] in E. injection E as <-.
  assert (LT := omapM_len _ _ _ TL). rewrite seq_length in LT. split; [cbn [length]; rewrite LT; reflexivity|].
  intros [|i] c NE; cbn [nth_error] in NE.
  { injection NE as <-. replace (C h + zn 0 * (be h + 2))%Z with (C h) by (change (zn 0) with 0%Z; ring). split; [apply B0|apply zero_upto]. }
  destruct (omapM_back _ _ _ _ _ TL NE) as (l & NL & FL). apply seq_nth in NL. destruct NL as [-> LI]. replace (1 + i)%nat with (S i) in * by lia. set (l := S i) in *.
  destruct (mul_le (zn l) (zn p) (be h + 2) (be h + 2)%Z) as [G1 G2]; try (unfold l; lia). destruct (mul_le (zn l) (zn l) (zn b + 1)%Z (be h)) as [G3 G4]; try (unfold l; lia).
  assert (GB : (zn l * (be h + 2) = zn l * be h + 2 * zn l)%Z) by ring. assert (GM : (0 <= zn l * be h)%Z) by lia.
  destruct (pow_get _ l) as [sl| | | | |] eqn:PG in FL; try discriminate. cbn [bind] in FL. apply (pow_get_upto w (zn b)) in PG; [|lia|lia|lia|exact W].
  set (E1 := (C h + zn l * (be h + 1))%Z).
  assert (EL : (0 <= E1 /\ E1 + zn l = C h + zn l * (be h + 2) /\ E1 = C h + zn l * be h + zn l)%Z) by (unfold E1; repeat split; try ring; lia). destruct EL as (EL0 & EL1 & EL2).
  rewrite <- EL1. apply (ccollapse (1 + zn (length (seq 1 l)))); [lia|rewrite seq_length; assert (Q := count_le (zn l) ltac:(unfold l; lia)); lia|].
  refine (ofold_count _ (fun k z => cupto k E1 z) 9007199254740990 _ _ 1 _ _ ltac:(lia) _ _ FL); [|rewrite seq_length; lia|].
  - intros k s j r J K BS G. apply in_seq in J. unfold sf_get in G. destruct (nth_error (sf_co e) j) as [y|] eqn:NY; [|discriminate]. cbn [of_option bind] in G.
    destruct (pow_get _ _) as [sp| | | | |] eqn:PS in G; try discriminate. cbn [bind] in G. destruct (bf_get _ _ _) as [bb| | | | |] eqn:BG in G; try discriminate. cbn [bind] in G. injection G as <-.
    destruct (counted_bound _ _ _ _ _ HC NY) as [JP BY]. unfold msize in BY. assert (JL : zn (l - j) = (zn l - zn j)%Z) by lia.
    destruct (mul_le (zn (l - j)) (zn (l - j)) (zn b + 1)%Z (be h)) as [G5 G6]; try lia. destruct (mul_le (zn j) (zn j) (be h) (be h)) as [G7 _]; try lia.
    assert (G8 : (zn j * be h + zn (l - j) * be h = zn l * be h)%Z) by (rewrite JL; ring).
    apply (pow_get_upto w (zn b)) in PS; [|lia|lia|lia|exact W]. apply HT in BG; [|lia]. apply part_upto in BG.
    apply cadd_upto; [lia|lia|lia|lia|exact BS|]. assert (PR := product_upto A HM (C h + zn j * be h) (zn (l - j) * (zn b + 1)) y sp ltac:(lia) BY PS).
    assert (SC := scale_upto (zn (l - 1)) (C h + zn j * be h + zn (l - j) * (zn b + 1) + 1) bb _ ltac:(lia) BG PR). eapply cweaken; [| | |exact SC]; lia.
  - apply cdivr_upto; [lia|lia|unfold l; lia|lia|]. assert (SC := scale_upto (C h) (zn l * (zn b + 1)) (- fst a0)%float sl ltac:(lia) (upto_opp _ _ _ (proj1 B0)) PG). eapply cweaken; [| | |exact SC]; lia.
Qed.
Lemma merge_range h tb c es r tb' : (C h + zn n + zn p * (be h + 2) <= 960)%Z -> (length es <= 2 ^ n)%nat -> bounded_binomials (sf_table A tb p) ->
  (forall e, In e es -> good_multipole h e /\ near b (center_of e) c) -> me2_mergeF A tb c es = Ok (r, tb') -> good_multipole (S h) r.
Proof.
  intros T L HT HE E. destruct es as [|e0 es]; [discriminate|]. unfold me2_mergeF in E. destruct (HE e0 (or_introl eq_refl)) as [[O0 _] _]. rewrite O0 in E.
  assert (HN0 : (0 <= zn h * zn n)%Z) by (apply Z.mul_nonneg_nonneg; lia). assert (CN := count_pow _ _ Hn L).
  destruct (ofold _ _ _) as [cs| | | | |] eqn:F in E; try discriminate. cbn [bind] in E. injection E as <- _. split; [reflexivity|]. cbn [sf_co].
  set (f := (fun l => C h + zn l * (be h + 2))%Z) in *.
  assert (K : counted (0 + zn (length (e0 :: es))) f cs).
  { refine (ofold_count _ (fun k z => counted k f z) 9007199254740990 _ _ 0 _ _ ltac:(lia) _ _ F); [|lia|apply counted_zero].
    intros k s e r I K BS G. destruct (me2_shiftF _ _ _ _) as [sh| | | | |] eqn:SH in G; try discriminate. cbn [bind] in G. destruct (length sh <? length s)%nat eqn:LS; [discriminate|]. injection G as <-.
    apply Nat.ltb_ge in LS. destruct (HE e I) as [GE NE]. apply near_upto in NE; [|lia]. rewrite center_pair in NE. assert (S1 := shift_range h _ e _ sh ltac:(lia) HT GE NE SH).
    split; [rewrite map2_len; destruct BS as [-> _]; destruct S1 as [-> _]; apply Nat.min_id|]. intros i z NZ. apply map2_nth in NZ. destruct NZ as (x & y & NX & NY & ->).
    destruct (counted_bound _ _ _ _ _ S1 NY) as [IP BY]. destruct (mul_le (zn i) (zn p) (be h + 2) (be h + 2)%Z) as [G1 G2]; try lia.
    apply cadd_upto; [lia|lia|lia|unfold f; lia|exact (proj2 (counted_bound _ _ _ _ _ BS NX))|exact BY]. }
  apply (counted_collapse _ _ (zn n)) in K; [|lia|lia]. apply (counted_weaken 1 (fun i => f i + zn n)%Z); [lia|lia| |exact K].
  intros i I. unfold f, msize. apply Z.eq_le_incl. replace (zn (S h)) with (zn h + 1)%Z by lia. ring.
Qed.

(** *** Conversion *)
Definition csize (h : nat) : Z := (C h + zn p * (be h + zn b + 5) + 2 + zn g)%Z.
Lemma sign_upto k : upto 1 0 (signF k).
Proof.
  unfold signF. destruct one_real as [O1 O2]. destruct (Nat.even k); [split; [exact O1|rewrite O2, Rabs_R1; change (pw 0) with 1; lra]|].
  assert (U : upto 1 0 (- (1))%float) by (apply upto_opp; split; [exact O1|rewrite O2, Rabs_R1; change (pw 0) with 1; lra]). exact U.
Qed.
Lemma convert_range h tb c e cs : (csize h + zn p * (zn b + 4) <= 960)%Z -> bounded_binomials tb -> good_multipole h e -> apart b (center_of e) c -> le2_m2l_coeffsF A tb (cplxF c) e = Ok cs ->
  counted 1 (fun l => csize h + zn l * (zn b + 4))%Z cs.
Proof.
  intros T HT [O HC] HA E. assert (HN0 : (0 <= zn h * zn n)%Z) by (apply Z.mul_nonneg_nonneg; lia). apply apart_between in HA; [|lia]. rewrite center_pair in HA.
  unfold le2_m2l_coeffsF in E. rewrite O in E. set (z0 := csub (sf_ctr e) (cplxF c)) in *. assert (W := quot_upto 0 (S b) oneC z0 ltac:(lia) ltac:(lia) ltac:(lia) one_cupto HA).
  replace (0 + zn (S b) + 1)%Z with (zn b + 2)%Z in W by lia. set (w := f_div A oneC z0) in *.
  destruct (sf_get e 0) as [a0| | | | |] eqn:E0; try discriminate. cbn [bind] in E. unfold sf_get in E0. destruct (nth_error (sf_co e) 0) as [y0|] eqn:N0; [|discriminate]. injection E0 as ->.
  destruct (counted_bound _ _ _ _ _ HC N0) as [_ B0]. replace (msize h 0) with (C h) in B0 by (unfold msize; change (zn 0) with 0%Z; ring).
  destruct (ofold _ _ _) as [b0| | | | |] eqn:F0 in E; try discriminate. cbn [bind] in E. destruct (omapM _ _) as [bs| | | | |] eqn:TL in E; try discriminate. cbn [bind] in E. injection E as <-.
  assert (G0 := mul_le 1 (zn p) 5 (be h + zn b + 5)%Z ltac:(lia) ltac:(lia) ltac:(lia) ltac:(lia)).
  set (X := (C h + zn p * (be h + zn b + 3) + 1)%Z). assert (XC : (csize h = X + 2 * zn p + 1 + zn g)%Z) by (unfold csize, X; ring). assert (X0 : (C h + 1 <= X)%Z) by (unfold X; assert (G := mul_le 1 (zn p) 3 (be h + zn b + 3)%Z ltac:(lia) ltac:(lia) ltac:(lia) ltac:(lia)); lia).
  assert (PB := mul_le 1 (zn p) 4 (zn b + 4)%Z ltac:(lia) ltac:(lia) ltac:(lia) ltac:(lia)).
  assert (TERM : forall k y zp, (1 <= k <= p)%nat -> nth_error (sf_co e) k = Some y -> pow_get (pow_table oneC m w p) k = Ok zp -> cupto 1 X (m (cscale (signF k) y) zp)).
  { intros k y zp K NY PG. destruct (counted_bound _ _ _ _ _ HC NY) as [_ BY]. unfold msize in BY.
    assert (G1 := mul_le (zn k) (zn p) (be h + zn b + 3)%Z (be h + zn b + 3)%Z ltac:(lia) ltac:(lia) ltac:(lia) ltac:(lia)).
    assert (G2 : (zn k * (be h + zn b + 3) = zn k * be h + zn k * (zn b + 2 + 1))%Z) by ring. assert (G3 := mul_le (zn k) (zn k) 0 (be h) ltac:(lia) ltac:(lia) ltac:(lia) ltac:(lia)).
    assert (G4 := mul_le (zn k) (zn k) 0 (zn b + 2 + 1)%Z ltac:(lia) ltac:(lia) ltac:(lia) ltac:(lia)).
    apply (pow_get_upto w (zn b + 2)) in PG; [|lia|unfold X in *; lia|lia|exact W].
    assert (SC := scale_upto 0 (C h + zn k * be h) (signF k) y ltac:(unfold X in *; lia) (sign_upto k) BY). rewrite Z.add_0_l in SC.
    assert (PR := product_upto A HM (C h + zn k * be h) (zn k * (zn b + 2 + 1)) _ zp ltac:(unfold X in *; lia) SC PG). eapply cweaken; [| | |exact PR]; [lia|lia|unfold X; lia]. }
  assert (LT := omapM_len _ _ _ TL). rewrite seq_length in LT. split; [cbn [length]; rewrite LT; reflexivity|].
  intros [|i] c1 NE; cbn [nth_error] in NE.
  { injection NE as <-. apply (cweaken 1 (X + zn g + zn p)); [lia|lia|change (zn 0) with 0%Z; lia|].
    apply (ccollapse (1 + zn (length (seq 1 p)))); [lia|rewrite seq_length; assert (Q := count_le (zn p) ltac:(lia)); lia|].
    refine (ofold_count _ (fun k z => cupto k (X + zn g) z) 9007199254740990 _ _ 1 _ _ ltac:(lia) _ _ F0); [|rewrite seq_length; lia|].
    - intros k s j r J K BS G. apply in_seq in J. unfold sf_get in G. destruct (nth_error (sf_co e) j) as [y|] eqn:NY; [|discriminate]. cbn [of_option bind] in G.
      destruct (pow_get _ _) as [zp| | | | |] eqn:PS in G; try discriminate. cbn [bind] in G. injection G as <-. apply cadd_upto; [lia|lia|lia|lia|exact BS|].
      eapply cweaken; [| | |exact (TERM j y zp ltac:(lia) NY PS)]; lia.
    - assert (LG := HG (cneg z0) (between_neg _ _ HA)). apply parts_upto in LG. assert (PR := product_upto A HM (C h) (zn g) a0 _ ltac:(lia) B0 LG). eapply cweaken; [| | |exact PR]; lia. }
  destruct (omapM_back _ _ _ _ _ TL NE) as (l & NL & FL). apply seq_nth in NL. destruct NL as [-> LI]. replace (1 + i)%nat with (S i) in * by lia. set (l := S i) in *.
  destruct (ofold _ _ _) as [bl| | | | |] eqn:FB in FL; try discriminate. cbn [bind] in FL. destruct (pow_get _ l) as [zl| | | | |] eqn:PG in FL; try discriminate. cbn [bind] in FL. injection FL as <-.
  assert (GL := mul_le (zn l) (zn p) (zn b + 4)%Z (zn b + 4)%Z ltac:(lia) ltac:(lia) ltac:(lia) ltac:(lia)). assert (GL2 : (zn l * (zn b + 4) = zn l * (zn b + 2 + 1) + zn l)%Z) by ring.
  assert (GL3 := mul_le (zn l) (zn l) 0 (zn b + 2 + 1)%Z ltac:(lia) ltac:(lia) ltac:(lia) ltac:(lia)).
  apply (pow_get_upto w (zn b + 2)) in PG; [|lia|lia|lia|exact W].
  assert (BL : cupto 1 (X + zn l + zn p + zn p) bl).
  { apply (ccollapse (1 + zn (length (seq 1 (p - 1))))); [lia|rewrite seq_length; assert (Q := count_le (zn p) ltac:(lia)); lia|].
    refine (ofold_count _ (fun k z => cupto k (X + zn l + zn p) z) 9007199254740990 _ _ 1 _ _ ltac:(lia) _ _ FB); [|rewrite seq_length; lia|].
    - intros k s j r J K BS G. apply in_seq in J. unfold sf_get in G. destruct (nth_error (sf_co e) j) as [y|] eqn:NY; [|discriminate]. cbn [of_option bind] in G.
      destruct (pow_get _ _) as [zp| | | | |] eqn:PS in G; try discriminate. cbn [bind] in G. destruct (bf_get _ _ _) as [bb| | | | |] eqn:BG in G; try discriminate. cbn [bind] in G. injection G as <-.
      apply HT in BG; [|lia]. apply part_upto in BG. apply cadd_upto; [lia|lia|lia|lia|exact BS|].
      assert (SC := scale_upto (zn (l + j - 1)) X bb _ ltac:(lia) BG (TERM j y zp ltac:(lia) NY PS)). eapply cweaken; [| | |exact SC]; lia.
    - apply cdivr_upto; [lia|lia|unfold l; lia|lia|]. eapply cweaken; [| | |exact (cneg_upto _ _ _ B0)]; lia. }
  assert (PR := product_upto A HM (X + zn l + zn p + zn p) (zn l * (zn b + 2 + 1)) bl zl ltac:(lia) BL PG). eapply cweaken; [| | |exact PR]; lia.
Qed.

(** *** Local expansions *)
Definition dsize (h j : nat) : Z := (zn a + 2 * zn N + zn h * zn n + zn g + 2 + zn p * (4 * zn b + 2 * zn h + 12 + zn j))%Z.
Definition lsize (h j i : nat) : Z := (dsize h j - zn i * (zn b + 2))%Z.
Definition good_local (h j : nat) (e : seF) : Prop := sf_ord e = p /\ counted 1 (lsize h j) (sf_co e).
Lemma lsize_range h j i : (i <= p)%nat -> (dsize h j <= 960)%Z -> (0 <= lsize h j i <= dsize h j)%Z.
Proof.
  intros I T. assert (HN0 : (0 <= zn h * zn n)%Z) by (apply Z.mul_nonneg_nonneg; lia). unfold lsize. assert (G := mul_le (zn i) (zn p) (zn b + 2)%Z (4 * zn b + 2 * zn h + 12 + zn j)%Z ltac:(lia) ltac:(lia) ltac:(lia) ltac:(lia)).
  unfold dsize in *. lia.
Qed.
Lemma table_idem tb : sf_table A (sf_table A tb p) p = sf_table A tb p.
Proof.
  unfold sf_table at 2 3. destruct (bf_max tb <? p)%nat eqn:E; unfold sf_table.
  - unfold bf_refresh. apply Nat.ltb_lt in E. destruct (p <=? bf_max tb)%nat eqn:F; [apply Nat.leb_le in F; lia|]. cbn [bf_max]. rewrite Nat.ltb_irrefl. reflexivity.
  - rewrite E. reflexivity.
Qed.
Lemma add_counted k l f e e' r : (0 <= k)%Z -> (0 <= l)%Z -> (k + l < 9007199254740992)%Z -> (forall i, (i <= p)%nat -> (-1000 <= f i <= 970)%Z) -> counted k f (sf_co e) -> counted l f (sf_co e') ->
  sf_add e e' = Ok r -> sf_ord r = sf_ord e /\ counted (k + l) f (sf_co r).
Proof.
  intros K L KL HF C1 C2 E. unfold sf_add in E. destruct (length (sf_co e) =? length (sf_co e'))%nat; [|discriminate]. cbn [negb] in E. destruct (same_center _ _); [|discriminate]. injection E as <-. cbn [sf_co sf_ord].
  split; [reflexivity|]. split; [rewrite map2_len; destruct C1 as [-> _]; destruct C2 as [-> _]; apply Nat.min_id|]. intros i z NZ. apply map2_nth in NZ. destruct NZ as (x & y & NX & NY & ->).
  destruct (counted_bound _ _ _ _ _ C1 NX) as [IP BX]. destruct (counted_bound _ _ _ _ _ C2 NY) as [_ BY]. apply cadd_upto; [lia|lia|lia|apply HF, IP|exact BX|exact BY].
Qed.
Lemma convert_many h tb c es r tb' : (dsize h 0 <= 960)%Z -> (length es <= 2 ^ N)%nat -> bounded_binomials (sf_table A tb p) ->
  (forall e, In e es -> good_multipole h e /\ apart b (center_of e) c) -> le2_m2l_manyF A tb c es = Ok (r, tb') -> good_local h 0 r.
Proof.
  intros T L HT HE E. destruct es as [|e0 es]; [discriminate|]. unfold le2_m2l_manyF in E. destruct (HE e0 (or_introl eq_refl)) as [[O0 _] _]. rewrite O0 in E.
  assert (HN0 : (0 <= zn h * zn n)%Z) by (apply Z.mul_nonneg_nonneg; lia). assert (CN := count_pow _ _ HN L). set (f := (fun l => csize h + zn l * (zn b + 4))%Z).
  assert (DS : (dsize h 0 = csize h + zn p * (zn b + 4) + zn p * (zn b + 2) + zn N)%Z) by (unfold dsize, csize; change (zn 0) with 0%Z; ring).
  assert (PB := mul_le 1 (zn p) 2 (zn b + 2)%Z ltac:(lia) ltac:(lia) ltac:(lia) ltac:(lia)).
  assert (C0 : (0 <= csize h)%Z) by (unfold csize; assert (G := mul_le 1 (zn p) 5 (be h + zn b + 5)%Z ltac:(lia) ltac:(lia) ltac:(lia) ltac:(lia)); lia).
  assert (FB : forall i, (i <= p)%nat -> (-1000 <= f i <= 970)%Z). { intros i I. unfold f. assert (G := mul_le (zn i) (zn p) (zn b + 4)%Z (zn b + 4)%Z ltac:(lia) ltac:(lia) ltac:(lia) ltac:(lia)). lia. }
  assert (K : (fun k (st : seF * btabF) => (sf_ord (fst st) = p /\ counted k f (sf_co (fst st))) /\ snd st = sf_table A tb p) (0 + zn (length (e0 :: es)))%Z (r, tb')).
  { refine (ofold_count _ (fun k (st : seF * btabF) => (sf_ord (fst st) = p /\ counted k f (sf_co (fst st))) /\ snd st = sf_table A tb p) 9007199254740990 _ _ 0 _ _ ltac:(lia) _ _ E); [|lia|].
    - intros k [s t] e [r1 t1] I K [[OS BS] TS] G. cbn [fst snd] in *. subst t. destruct (HE e I) as [GE AE]. unfold le2_m2lF in G. rewrite (proj1 GE), table_idem in G.
      destruct (p =? 0)%nat; [discriminate|]. destruct (le2_m2l_coeffsF _ _ _ _) as [cs| | | | |] eqn:CF in G; try discriminate. cbn [bind] in G.
      destruct (sf_add _ _) as [s1| | | | |] eqn:AD in G; try discriminate. cbn [bind fst snd] in G. injection G as <- <-. split; [|reflexivity]. cbn [fst snd] in AD.
      assert (CV := convert_range h _ c e cs ltac:(lia) HT GE AE CF). destruct (add_counted k 1 f s (mkseF p (cplxF c) cs) s1 ltac:(lia) ltac:(lia) ltac:(lia) FB BS CV AD) as [O1 C1]. split; [congruence|exact C1].
    - cbn [fst snd sf_zero sf_ord sf_co]. split; [split; [reflexivity|apply counted_zero]|reflexivity]. }
  cbn beta in K. destruct K as [[OR K] _]. cbn [fst] in OR, K. split; [exact OR|]. apply (counted_collapse _ _ (zn N)) in K; [|lia|lia]. apply (counted_weaken 1 (fun i => f i + zn N)%Z); [lia|lia| |exact K].
  intros i I. unfold f, lsize. rewrite DS. assert (G := mul_le (zn i) (zn p) (zn b + 4)%Z (zn b + 4)%Z ltac:(lia) ltac:(lia) ltac:(lia) ltac:(lia)). assert (G' := mul_le (zn i) (zn p) (zn b + 2)%Z (zn b + 2)%Z ltac:(lia) ltac:(lia) ltac:(lia) ltac:(lia)). lia.
Qed.
Lemma p2l_range h c srcs : (dsize h 0 <= 960)%Z -> (length srcs <= 2 ^ N)%nat -> (forall s, In s srcs -> part a (ps_q s) /\ apart b (ps_pos s) c) -> good_local h 0 (le2_sourcesF A c p srcs).
Proof.
  intros T L HS. assert (CN := count_pow _ _ HN L). set (f := fun i => (zn a + zn g + zn i * (zn b + 2))%Z). assert (HN0 : (0 <= zn h * zn n)%Z) by (apply Z.mul_nonneg_nonneg; lia).
  assert (G0 := mul_le (zn p) (zn p) (zn b + 2)%Z (zn b + 2)%Z ltac:(lia) ltac:(lia) ltac:(lia) ltac:(lia)). assert (G1 := mul_le (zn p) (zn p) 1 (2 * zn b + 2 * zn h + 8)%Z ltac:(lia) ltac:(lia) ltac:(lia) ltac:(lia)).
  assert (DS : (dsize h 0 = zn a + 2 * zn N + zn h * zn n + zn g + 2 + 2 * (zn p * (zn b + 2)) + zn p * (2 * zn b + 2 * zn h + 8))%Z) by (unfold dsize; change (zn 0) with 0%Z; ring).
  assert (FB : forall i, (i <= p)%nat -> (0 <= f i)%Z /\ (f i <= zn a + zn g + zn p * (zn b + 2))%Z /\ (zn i * (zn b + 2) <= zn p * (zn b + 2))%Z).
  { intros i I. unfold f. assert (G := mul_le (zn i) (zn p) (zn b + 2)%Z (zn b + 2)%Z ltac:(lia) ltac:(lia) ltac:(lia) ltac:(lia)). lia. }
  split; [reflexivity|]. unfold le2_sourcesF. cbn [sf_co].
  assert (F : counted (0 + zn (length srcs)) f (fold_left (le2_add_sourceF A (cplxF c)) srcs (repeat zeroC (S p)))).
  { apply counted_fold; [|lia|lia|apply counted_zero]. intros s cs k I K0 K1 [LC H]. destruct (HS s I) as [Q W]. apply part_upto in Q. apply apart_between in W; [|lia].
    split; [rewrite (ladd_length A); exact LC|]. destruct cs as [|c0 cs]; [discriminate|]. cbn [length] in LC. cbn [le2_add_sourceF].
    set (w := csub (cplxF (ps_pos s)) (cplxF c)) in *. intros [|i] z E; cbn [nth_error] in E.
    - injection E as <-. assert (F0 := FB 0%nat ltac:(lia)). apply cadd_upto; [lia|lia|lia|lia|exact (H 0%nat c0 eq_refl)|]. assert (LG := HG _ (between_neg _ _ W)). apply parts_upto in LG.
      assert (SC := scale_upto (zn a) (zn g) (ps_q s) _ ltac:(lia) Q LG). eapply cweaken; [| | |exact SC]; unfold f; lia.
    - assert (LI : (i < length cs)%nat) by (rewrite <- (lacc_length A (ps_q s) w cs (f_div A oneC w)); apply nth_error_Some; congruence). destruct (nth_exists cs i LI) as [y Y].
      rewrite (lacc_nth A _ _ _ _ _ _ Y) in E. injection E as <-. assert (FI := FB (S i) ltac:(lia)). unfold f in FI. apply csub_upto2; [lia|lia|lia|unfold f; lia|exact (H (S i) y Y)|].
      rewrite <- (iter_r (fun p0 => f_div A p0 w) oneC i). assert (QU := quots_upto oneC w 0 (S i) ltac:(lia) ltac:(lia) one_cupto W). rewrite Z.add_0_l in QU.
      assert (SC := scale_upto (zn a) (zn (S i) * (zn b + 2)) (ps_q s) _ ltac:(lia) Q QU). eapply cweaken; [| | |exact SC]; unfold f; lia. }
  apply counted_div; [lia| |lia|].
  - intros i I. assert (R := lsize_range h 0 i I T). lia.
  - apply (counted_collapse _ _ (zn N)) in F; [|lia|lia]. apply (counted_weaken 1 (fun i => f i + zn N)%Z); [lia|lia| |exact F]. intros i I. destruct (FB i I) as (F1 & F2 & F3). unfold lsize. rewrite DS. lia.
Qed.

(** *** Shifts *)
Notation step w := (fun cs k => bind (of_option (nth_error cs k)) (fun x => bind (of_option (nth_error cs (k + 1)%nat)) (fun y => Ok (lset cs k (csub x (m w y)))))).
Lemma sweep_range E w : (forall k, (k < p)%nat -> (zn b + E (S k) + 1 <= E k)%Z) -> (forall k, (k <= p)%nat -> (0 <= E k <= 960)%Z) -> cupto 1 (zn b) w ->
  forall len s cs r, (s + len = p)%nat -> length cs = S p -> (forall i c, nth_error cs i = Some c -> cupto 1 (if (i <? s)%nat then E i + 1 else E i) c) ->
  ofold (step w) (seq s len) cs = Ok r -> counted 1 (fun i => E i + 1)%Z r.
Proof.
  intros HE HR W. induction len as [|len IH]; intros s cs r L LC H F; cbn [seq ofold] in F.
  - injection F as <-. split; [exact LC|]. intros i c NE. eapply cweaken; [| | |exact (H i c NE)]; [lia|lia|]. destruct (i <? s)%nat; lia.
  - destruct (nth_error cs s) as [x|] eqn:NX; [|discriminate]. destruct (nth_error cs (s + 1)) as [y|] eqn:NY; [|discriminate]. cbn [of_option bind] in F.
    refine (IH (S s) _ r ltac:(lia) _ _ F); [rewrite lset_len; exact LC|]. intros i c NE. apply lset_nth in NE. destruct NE as [[-> ->]|[D NE]].
    + replace (s <? S s)%nat with true by (symmetry; apply Nat.ltb_lt; lia). assert (BX := H s x NX). assert (BY := H (s + 1)%nat y NY).
      rewrite Nat.ltb_irrefl in BX. replace (s + 1 <? s)%nat with false in BY by (symmetry; apply Nat.ltb_ge; lia). replace (s + 1)%nat with (S s) in BY by lia.
      assert (E1 := HE s ltac:(lia)). assert (R1 := HR s ltac:(lia)). assert (R2 := HR (S s) ltac:(lia)). assert (PR := product_upto A HM (zn b) (E (S s)) w y ltac:(lia) W BY).
      apply (ccollapse (1 + 1)); [lia|cbn; lia|]. apply csub_upto2; [lia|lia|lia|lia|exact BX|]. eapply cweaken; [| | |exact PR]; lia.
    + assert (B := H i c NE). destruct (i <? s)%nat eqn:IS; [apply Nat.ltb_lt in IS; replace (i <? S s)%nat with true by (symmetry; apply Nat.ltb_lt; lia); exact B|].
      apply Nat.ltb_ge in IS. replace (i <? S s)%nat with false by (symmetry; apply Nat.ltb_ge; lia). exact B.
Qed.
Lemma l2l_range h j tb c e r tb' : (dsize h (S j) <= 960)%Z -> good_local h j e -> near b (center_of e) c -> le2_l2lF A tb c e = Ok (r, tb') -> good_local h (S j) r.
Proof.
  intros T [O HC] NE E. apply near_upto in NE; [|lia]. rewrite center_pair in NE. unfold le2_l2lF in E. rewrite O in E. destruct (p =? 0)%nat; [discriminate|].
  destruct (le2_shiftF _ _ _) as [cs| | | | |] eqn:F in E; try discriminate. cbn [bind] in E. injection E as <- _. split; [reflexivity|]. cbn [sf_co]. unfold le2_shiftF in F. rewrite O in F.
  assert (DS : (dsize h (S j) = dsize h j + zn p)%Z) by (unfold dsize; replace (zn (S j)) with (zn j + 1)%Z by lia; ring).
  assert (K : counted 1 (fun i => lsize h j i + zn (length (seq 0 p)))%Z cs /\ True).
  { assert (Q : (fun t x => counted 1 (fun i => lsize h j i + t)%Z x /\ True) (0 + zn (length (seq 0 p)))%Z cs).
    { refine (ofold_count _ (fun t x => counted 1 (fun i => lsize h j i + t)%Z x /\ True) (zn p) _ _ 0 _ _ ltac:(lia) _ _ F); [|rewrite seq_length; lia|].
      - intros t x i y I TT [[LX X] _] G. apply in_seq in I. split; [|exact Logic.I].
        assert (SW := sweep_range (fun i => lsize h j i + t)%Z _ ltac:(intros k K; unfold lsize; lia) ltac:(intros k K; assert (R := lsize_range h j k K ltac:(lia)); lia) NE
          (p - (p - i - 1))%nat (p - i - 1)%nat x y ltac:(lia) LX ltac:(intros k z NZ; specialize (X k z NZ); destruct (k <? p - i - 1)%nat; [eapply cweaken; [| | |exact X]; lia|exact X]) G).
        apply (counted_weaken 1 (fun i0 => lsize h j i0 + t + 1)%Z); [lia|lia|intros k _; lia|exact SW].
      - split; [|exact Logic.I]. apply (counted_weaken 1 (lsize h j)); [lia|lia|intros k _; lia|exact HC]. }
    exact Q. }
  destruct K as [K _]. rewrite seq_length in K. apply (counted_weaken 1 (fun i => lsize h j i + zn p)%Z); [lia|lia| |exact K]. intros i I. unfold lsize. lia.
Qed.
Lemma local_add h j e e' r : (dsize h (S j) <= 960)%Z -> good_local h j e -> good_local h j e' -> sf_add e e' = Ok r -> good_local h (S j) r.
Proof.
  intros T [O C1] [_ C2] E. assert (DS : (dsize h (S j) = dsize h j + zn p)%Z) by (unfold dsize; replace (zn (S j)) with (zn j + 1)%Z by lia; ring).
  destruct (add_counted 1 1 (lsize h j) e e' r ltac:(lia) ltac:(lia) ltac:(lia)) as [OR K]; [intros i I; assert (R := lsize_range h j i I ltac:(lia)); lia|exact C1|exact C2|exact E|].
  split; [congruence|]. apply (counted_collapse _ _ 1) in K; [|lia|cbn; lia]. apply (counted_weaken 1 (fun i => lsize h j i + 1)%Z); [lia|lia| |exact K]. intros i I. unfold lsize. lia.
Qed.

(** *** Evaluation *)
Lemma square_between z : between (S b) z -> between (2 * b + 3) (m z z).
Proof.
  intros (FX & FY & L & H). destruct z as [x y]. cbn [fst snd] in *. set (t := R_sqrt.sqrt (real_of x ^ 2 + real_of y ^ 2)) in *.
  assert (T1 : t = Cmod (creal (x, y))) by reflexivity. assert (T0 : 0 <= t) by apply sqrt_pos. assert (PB : 0 < / 2 ^ S b) by (apply Rinv_0_lt_compat, pow_lt; lra).
  assert (CQ := csq (x, y)). cbn [fst snd] in CQ. rewrite <- T1 in CQ.
  assert (M1 : / 2 ^ (2 * b + 2) <= t ^ 2). { replace (/ 2 ^ (2 * b + 2)) with ((/ 2 ^ S b) ^ 2) by (rewrite pow_inv, <- pow_mult; do 2 f_equal; lia). apply pow_incr. lra. }
  assert (M2 : t ^ 2 <= 2 ^ (2 * b + 2)). { replace (2 ^ (2 * b + 2)) with ((2 ^ S b) ^ 2) by (rewrite <- pow_mult; f_equal; lia). apply pow_incr. lra. }
  assert (U1 : 2 ^ (2 * b + 2) <= 2 ^ 800) by (apply Rle_pow; [lra|lia]). assert (U2 : / 2 ^ 800 <= / 2 ^ (2 * b + 2)) by (apply Rinv_le_contravar; [apply pow_lt; lra|exact U1]).
  assert (P2 : 0 < / 2 ^ (2 * b + 2)) by (apply Rinv_0_lt_compat, pow_lt; lra).
  destruct (square_bounds x y FX FY) as (E0 & E1 & _); [rewrite CQ; lra|rewrite CQ; lra|]. rewrite CQ in E1. set (M := t ^ 2) in *.
  assert (EM : eta <= / 9007199254740992 * M) by (eapply Rle_trans; [exact E1|]; assert (0 <= M) by lra; nra).
  assert (BM := Rmax_Cmod (creal (x, y))). cbn [creal fst snd] in BM. rewrite <- T1 in BM.
  assert (B1 := Rle_trans _ _ _ (Rmax_l _ _) BM). assert (B2 := Rle_trans _ _ _ (Rmax_r _ _) BM).
  assert (ZU : cupto 1 (zn (S b)) (x, y)) by (split; (split; [assumption|rewrite pw_pow, Rmult_1_l; cbn [fst snd]; lra])).
  assert (PR := product_upto A HM (zn (S b)) (zn (S b)) (x, y) (x, y) ltac:(lia) ZU ZU). destruct PR as [[F1 _] [F2 _]].
  assert (EQ : m (x, y) (x, y) = (x * x - y * y, x * y + y * x)%float).
  { assert (H1 := HM (x, y) (x, y)). cbv zeta in H1. cbn [fst snd] in H1. destruct (_ && _)%bool in H1; [destruct H1 as [H1 _]; congruence|exact H1]. }
  split; [exact F1|]. split; [exact F2|]. rewrite EQ in *. cbn [fst snd] in *. apply sub_finite in F1. apply add_finite in F2. destruct F1 as (A1 & A2 & R12), F2 as (A3 & A4 & R34).
  apply mul_finite in A1, A2, A3, A4. destruct A1 as (_ & _ & R1), A2 as (_ & _ & R2), A3 as (_ & _ & R3), A4 as (_ & _ & R4).
  destruct (part_le (real_of x) (real_of y) (real_of x) (real_of y)) as (L1 & L2 & L3 & L4). change (Cmod (real_of x, real_of y)) with t in L1, L2, L3, L4. replace (t * t) with M in L1, L2, L3, L4 by (unfold M; ring).
  assert (T2 := two_products _ _ M ltac:(lra) EM L1 L2 (-1) (or_intror eq_refl)). assert (T3 := two_products _ _ M ltac:(lra) EM L3 L4 1 (or_introl eq_refl)).
  set (v := creal ((x * x - y * y)%float, (x * y + y * x)%float)). change (R_sqrt.sqrt (real_of (x * x - y * y)%float ^ 2 + real_of (x * y + y * x)%float ^ 2)) with (Cmod v).
  set (q := (creal (x, y) * creal (x, y))%C). assert (QM : Cmod q = M) by (unfold q; rewrite Cmod_mult, <- T1; unfold M; ring).
  assert (D1 : Rabs (Re v - Re q) <= 8 * / 9007199254740992 * M).
  { unfold v, q, creal, Cmult, Re. cbn [fst snd]. rewrite R12, R1, R2. replace (rndF (real_of x * real_of x) - rndF (real_of y * real_of y)) with (rndF (real_of x * real_of x) + -1 * rndF (real_of y * real_of y)) by ring.
    replace (real_of x * real_of x - real_of y * real_of y) with (real_of x * real_of x + -1 * (real_of y * real_of y)) by ring. exact T2. }
  assert (D2 : Rabs (Im v - Im q) <= 8 * / 9007199254740992 * M).
  { unfold v, q, creal, Cmult, Im. cbn [fst snd]. rewrite R34, R3, R4. rewrite !Rmult_1_l in T3. exact T3. }
  assert (V1 := close_mod v q _ D1 D2). rewrite Rabs_minus_sym in D1, D2. assert (V2 := close_mod q v _ D1 D2). rewrite QM in V1, V2.
  replace (2 * b + 3)%nat with (S (2 * b + 2)) by lia. rewrite inv_half. cbn [pow]. lra.
Qed.
Lemma me2_pot_size h z E : between (S b) z -> (C h + zn p * (be h + zn b + 2) + 1 <= E)%Z -> (E <= 960)%Z ->
  forall cs i ip res k, (i + length cs = S p)%nat -> (1 <= i)%nat -> (cs <> [] -> cupto 1 (zn i * (zn b + 2)) ip) -> (forall j c, nth_error cs j = Some c -> cupto 1 (msize h (i + j)) c) ->
  (0 <= k)%Z -> (k + zn (length cs) < 9007199254740992)%Z -> cupto k E res -> cupto (k + zn (length cs)) E (me2_pot_loopF A z ip res cs).
Proof.
  intros Z EE ET. assert (HN0 : (0 <= zn h * zn n)%Z) by (apply Z.mul_nonneg_nonneg; lia). induction cs as [|c cs IH]; intros i ip res k L I IP H K0 K1 R; cbn [me2_pot_loopF length] in *; [rewrite Z.add_0_r; exact R|].
  replace (k + zn (S (length cs)))%Z with (k + 1 + zn (length cs))%Z by lia. specialize (IP ltac:(discriminate)).
  assert (G1 := mul_le (zn i) (zn p) (be h + zn b + 2)%Z (be h + zn b + 2)%Z ltac:(lia) ltac:(lia) ltac:(lia) ltac:(lia)). assert (G2 := mul_le (zn i) (zn i) 0 (be h) ltac:(lia) ltac:(lia) ltac:(lia) ltac:(lia)).
  assert (G3 := mul_le (zn i) (zn i) 0 (zn b + 2)%Z ltac:(lia) ltac:(lia) ltac:(lia) ltac:(lia)). assert (G4 : (zn i * (be h + zn b + 2) = zn i * be h + zn i * (zn b + 2))%Z) by ring.
  apply (IH (S i)); [lia|lia| | |lia|lia|].
  - intros NC. destruct cs as [|c1 cs]; [contradiction|]. cbn [length] in L. assert (G5 := mul_le (zn (S i)) (zn p) (be h + zn b + 2)%Z (be h + zn b + 2)%Z ltac:(lia) ltac:(lia) ltac:(lia) ltac:(lia)).
    assert (G6 := mul_le (zn (S i)) (zn (S i)) (zn b + 2)%Z (be h + zn b + 2)%Z ltac:(lia) ltac:(lia) ltac:(lia) ltac:(lia)).
    replace (zn (S i) * (zn b + 2))%Z with (zn i * (zn b + 2) + zn (S b) + 1)%Z in * by lia. apply quot_upto; [lia|lia|lia|exact IP|exact Z].
  - intros j d NJ. specialize (H (S j) d NJ). replace (S i + j)%nat with (i + S j)%nat by lia. exact H.
  - apply cadd_upto; [lia|lia|lia|lia|exact R|]. assert (BC := H 0%nat c eq_refl). rewrite Nat.add_0_r in BC. unfold msize in BC.
    assert (PR := product_upto A HM (C h + zn i * be h) (zn i * (zn b + 2)) c ip ltac:(lia) BC IP). eapply cweaken; [| | |exact PR]; lia.
Qed.
Lemma me2_force_size h z E : between (S b) z -> (C h + zn p * (be h + zn b + 2) + zn b + 2 + zn p + 1 <= E)%Z -> (E <= 960)%Z ->
  forall cs i ip res k, (i + length cs = S p)%nat -> (1 <= i)%nat -> (cs <> [] -> cupto 1 (zn i * (zn b + 2) + zn b + 2) ip) -> (forall j c, nth_error cs j = Some c -> cupto 1 (msize h (i + j)) c) ->
  (0 <= k)%Z -> (k + zn (length cs) < 9007199254740992)%Z -> cupto k E res -> cupto (k + zn (length cs)) E (me2_force_loopF A z ip res i cs).
Proof.
  intros Z EE ET. assert (HN0 : (0 <= zn h * zn n)%Z) by (apply Z.mul_nonneg_nonneg; lia). assert (G0 := mul_le (zn p) (zn p) 0 (be h + zn b + 2)%Z ltac:(lia) ltac:(lia) ltac:(lia) ltac:(lia)).
  induction cs as [|c cs IH]; intros i ip res k L I IP H K0 K1 R; cbn [me2_force_loopF length] in *; [rewrite Z.add_0_r; exact R|].
  replace (k + zn (S (length cs)))%Z with (k + 1 + zn (length cs))%Z by lia. specialize (IP ltac:(discriminate)).
  assert (G1 := mul_le (zn i) (zn p) (be h + zn b + 2)%Z (be h + zn b + 2)%Z ltac:(lia) ltac:(lia) ltac:(lia) ltac:(lia)). assert (G2 := mul_le (zn i) (zn i) 0 (be h) ltac:(lia) ltac:(lia) ltac:(lia) ltac:(lia)).
  assert (G3 := mul_le (zn i) (zn i) 0 (zn b + 2)%Z ltac:(lia) ltac:(lia) ltac:(lia) ltac:(lia)). assert (G4 : (zn i * (be h + zn b + 2) = zn i * be h + zn i * (zn b + 2))%Z) by ring.
  apply (IH (S i)); [lia|lia| | |lia|lia|].
  - intros NC. destruct cs as [|c1 cs]; [contradiction|]. cbn [length] in L. assert (G5 := mul_le (zn (S i)) (zn p) (be h + zn b + 2)%Z (be h + zn b + 2)%Z ltac:(lia) ltac:(lia) ltac:(lia) ltac:(lia)).
    assert (G6 := mul_le (zn (S i)) (zn (S i)) (zn b + 2)%Z (be h + zn b + 2)%Z ltac:(lia) ltac:(lia) ltac:(lia) ltac:(lia)).
    replace (zn (S i) * (zn b + 2) + zn b + 2)%Z with (zn i * (zn b + 2) + zn b + 2 + zn (S b) + 1)%Z in * by lia. apply quot_upto; [lia|lia|lia|exact IP|exact Z].
  - intros j d NJ. specialize (H (S j) d NJ). replace (S i + j)%nat with (i + S j)%nat by lia. exact H.
  - apply csub_upto2; [lia|lia|lia|lia|exact R|]. assert (BC := H 0%nat c eq_refl). rewrite Nat.add_0_r in BC. unfold msize in BC.
    assert (NJ := nat_upto i p ltac:(lia) ltac:(lia)). assert (SC := scale_upto (zn p) (C h + zn i * be h) (nat_float i) c ltac:(lia) NJ BC).
    assert (PR := product_upto A HM (zn p + (C h + zn i * be h)) (zn i * (zn b + 2) + zn b + 2) _ ip ltac:(lia) SC IP). eapply cweaken; [| | |exact PR]; lia.
Qed.
Lemma le2_pot_size E f z : cupto 1 (zn b) z -> (E <= 960)%Z -> (forall i, (i <= p)%nat -> (0 <= f i)%Z /\ (f i + zn i * (zn b + 1) + 1 <= E)%Z) ->
  forall cs i pw_ res k, (i + length cs <= S p)%nat -> (cs <> [] -> cupto 1 (zn i * (zn b + 1)) pw_) -> (forall j c, nth_error cs j = Some c -> cupto 1 (f (i + j)%nat) c) ->
  (0 <= k)%Z -> (k + zn (length cs) < 9007199254740992)%Z -> cupto k E res -> cupto (k + zn (length cs)) E (le2_pot_loopF A z pw_ res cs).
Proof.
  intros Z ET HF. induction cs as [|c cs IH]; intros i pw_ res k L IP H K0 K1 R; cbn [le2_pot_loopF length] in *; [rewrite Z.add_0_r; exact R|].
  replace (k + zn (S (length cs)))%Z with (k + 1 + zn (length cs))%Z by lia. specialize (IP ltac:(discriminate)). assert (FI := HF i ltac:(lia)).
  assert (G3 := mul_le (zn i) (zn i) 0 (zn b + 1)%Z ltac:(lia) ltac:(lia) ltac:(lia) ltac:(lia)).
  apply (IH (S i)); [lia| | |lia|lia|].
  - intros NC. destruct cs as [|c1 cs]; [contradiction|]. cbn [length] in L. assert (FS := HF (S i) ltac:(lia)).
    replace (zn (S i) * (zn b + 1))%Z with (zn i * (zn b + 1) + zn b + 1)%Z in * by lia. apply (product_upto A HM); [lia|exact IP|exact Z].
  - intros j d NJ. specialize (H (S j) d NJ). replace (S i + j)%nat with (i + S j)%nat by lia. exact H.
  - apply cadd_upto; [lia|lia|lia|lia|exact R|]. assert (BC := H 0%nat c eq_refl). rewrite Nat.add_0_r in BC.
    assert (PR := product_upto A HM (f i) (zn i * (zn b + 1)) c pw_ ltac:(lia) BC IP). eapply cweaken; [| | |exact PR]; lia.
Qed.
Lemma le2_force_size E f z : cupto 1 (zn b) z -> (E <= 960)%Z -> (forall i, (i <= p)%nat -> (0 <= f i)%Z /\ (zn p + f i + zn i * (zn b + 1) + 1 <= E)%Z) ->
  forall cs i pw_ res k, (S i + length cs <= S p)%nat -> (cs <> [] -> cupto 1 (zn i * (zn b + 1)) pw_) -> (forall j c, nth_error cs j = Some c -> cupto 1 (f (S i + j)%nat) c) ->
  (0 <= k)%Z -> (k + zn (length cs) < 9007199254740992)%Z -> cupto k E res -> cupto (k + zn (length cs)) E (le2_force_loopF A z pw_ res (S i) cs).
Proof.
  intros Z ET HF. induction cs as [|c cs IH]; intros i pw_ res k L IP H K0 K1 R; cbn [le2_force_loopF length] in *; [rewrite Z.add_0_r; exact R|].
  replace (k + zn (S (length cs)))%Z with (k + 1 + zn (length cs))%Z by lia. specialize (IP ltac:(discriminate)). assert (FI := HF (S i) ltac:(lia)).
  assert (G3 := mul_le (zn i) (zn (S i)) (zn b + 1)%Z (zn b + 1)%Z ltac:(lia) ltac:(lia) ltac:(lia) ltac:(lia)).
  apply (IH (S i)); [lia| | |lia|lia|].
  - intros NC. replace (zn (S i) * (zn b + 1))%Z with (zn i * (zn b + 1) + zn b + 1)%Z in * by lia. apply (product_upto A HM); [lia|exact IP|exact Z].
  - intros j d NJ. specialize (H (S j) d NJ). replace (S (S i) + j)%nat with (S i + S j)%nat by lia. exact H.
  - apply cadd_upto; [lia|lia|lia|lia|exact R|]. assert (BC := H 0%nat c eq_refl). rewrite Nat.add_0_r in BC.
    assert (NJ := nat_upto (S i) p ltac:(lia) ltac:(lia)). assert (SC := scale_upto (zn p) (f (S i)) (nat_float (S i)) c ltac:(lia) NJ BC).
    assert (PR := product_upto A HM (zn p + f (S i)) (zn i * (zn b + 1)) _ pw_ ltac:(lia) SC IP). eapply cweaken; [| | |exact PR]; lia.
Qed.

(** *** All expansions *)
Lemma multipole_good h e : multipole_range A p a b n N h e -> (C h + zn p * be h <= 960)%Z -> good_multipole h e.
Proof.
  revert h e. fix IH 3. intros h e [c srcs L HS|h' tb c es r tb' L HE HT E|h' e' H] T.
  - apply p2m_range; [change (zn 0) with 0%Z in T; lia|exact L|exact HS].
  - replace (C (S h')) with (C h' + zn n)%Z in T by lia. replace (be (S h')) with (be h' + 2)%Z in T by lia.
    assert (G := mul_le (zn p) (zn p) (be h') (be h' + 2)%Z ltac:(lia) ltac:(lia) ltac:(lia) ltac:(lia)).
    apply (merge_range h' tb c es r tb' T L HT); [|exact E]. intros e0 I. destruct (HE e0 I) as [H0 N0]. split; [|exact N0]. apply (IH h' e0 H0). lia.
  - replace (C (S h')) with (C h' + zn n)%Z in T by lia. replace (be (S h')) with (be h' + 2)%Z in T by lia.
    assert (G := mul_le (zn p) (zn p) (be h') (be h' + 2)%Z ltac:(lia) ltac:(lia) ltac:(lia) ltac:(lia)).
    destruct (IH h' e' H ltac:(lia)) as [O K]. split; [exact O|]. apply (counted_weaken 1 (msize h')); [lia|lia| |exact K]. intros i I. unfold msize.
    replace (C (S h')) with (C h' + zn n)%Z by lia. replace (be (S h')) with (be h' + 2)%Z by lia. assert (G2 := mul_le (zn i) (zn i) (be h') (be h' + 2)%Z ltac:(lia) ltac:(lia) ltac:(lia) ltac:(lia)). lia.
Qed.
Lemma dsize_succ h j : dsize h (S j) = (dsize h j + zn p)%Z.
Proof. unfold dsize. replace (zn (S j)) with (zn j + 1)%Z by lia. ring. Qed.
Lemma local_good h j e : local_range A p a b n N h j e -> (dsize h j <= 960)%Z -> good_local h j e.
Proof.
  induction 1 as [h tb c es r tb' L HE HT E|h c srcs L HS|h j tb c e r tb' _ IH NE E|h j e e' r _ IH1 _ IH2 E|h j e _ IH]; intros T.
  - apply (convert_many h tb c es r tb' T L HT); [|exact E]. intros e I. destruct (HE e I) as [H0 A0]. split; [|exact A0]. apply multipole_good; [exact H0|].
    assert (G := mul_le (zn p) (zn p) (be h) (4 * zn b + 2 * zn h + 12 + zn 0)%Z ltac:(lia) ltac:(lia) ltac:(lia) ltac:(lia)). unfold dsize in T. lia.
  - apply p2l_range; assumption.
  - apply (l2l_range h j tb c e r tb' T); [apply IH; rewrite dsize_succ in T; lia|exact NE|exact E].
  - apply (local_add h j e e' r T); [apply IH1|apply IH2|exact E]; rewrite dsize_succ in T; lia.
  - rewrite dsize_succ in T. destruct (IH ltac:(lia)) as [O K]. split; [exact O|]. apply (counted_weaken 1 (lsize h j)); [lia|lia| |exact K]. intros i I. unfold lsize. rewrite dsize_succ. lia.
Qed.
Lemma counted_finite k f cs : counted k f cs -> Forall (fun z => PrimFloat.is_finite (fst z) = true /\ PrimFloat.is_finite (snd z) = true) cs.
Proof. intros [_ H]. apply Forall_forall. intros z I. apply In_nth_error in I. destruct I as [i E]. destruct (H i z E) as [[F _] [G _]]. auto. Qed.
Theorem multipole_values h e x : multipole_range A p a b n N h e -> (a + N + h * n + g + p * (2 * b + 2 * h + 5) + b + 4 <= 960)%nat -> apart b x (center_of e) ->
  Forall (fun z => PrimFloat.is_finite (fst z) = true /\ PrimFloat.is_finite (snd z) = true) (sf_co e) /\
  exists v f, me2_potF A e x = Ok v /\ me2_forceF A e x = Ok f /\ length f = 2%nat /\ forall y, In y (v :: f) -> PrimFloat.is_finite y = true.
Proof.
  intros R T X. assert (T' : (zn a + zn N + zn h * zn n + zn g + zn p * (2 * zn b + 2 * zn h + 5) + zn b + 4 <= 960)%Z) by lia. clear T. assert (HN0 : (0 <= zn h * zn n)%Z) by (apply Z.mul_nonneg_nonneg; lia).
  assert (TE : (zn p * (2 * zn b + 2 * zn h + 5) = zn p * (be h + zn b + 2) + 2 * zn p)%Z) by ring.
  assert (G0 := mul_le (zn p) (zn p) (be h) (be h + zn b + 2)%Z ltac:(lia) ltac:(lia) ltac:(lia) ltac:(lia)).
  destruct (multipole_good h e R ltac:(lia)) as [O HC]. split; [exact (counted_finite _ _ _ HC)|]. apply apart_between in X; [|lia]. rewrite center_pair in X.
  unfold me2_potF, me2_forceF, sf_get. destruct (sf_co e) as [|a0 cs] eqn:CE; [destruct HC as [L _]; discriminate|]. cbn [nth_error of_option bind tl]. set (z := csub (cplxF x) (sf_ctr e)) in *.
  destruct HC as [L H]. cbn [length] in L. injection L as L. assert (B0 := H 0%nat a0 eq_refl). replace (msize h 0) with (C h) in B0 by (unfold msize; change (zn 0) with 0%Z; ring).
  assert (HT : forall j c, nth_error cs j = Some c -> cupto 1 (msize h (1 + j)) c) by (intros j c E; exact (H (S j) c E)).
  eexists _, _. split; [reflexivity|]. split; [reflexivity|]. split; [reflexivity|].
  assert (PV : cupto (1 + zn (length cs)) (C h + zn g + zn p * (be h + zn b + 2) + 1) (me2_pot_loopF A z (f_div A oneC z) (cscale (fst a0) (f_log A z)) cs)).
  { apply (me2_pot_size h z (C h + zn g + zn p * (be h + zn b + 2) + 1) X ltac:(lia) ltac:(lia) cs 1); [lia|lia| |exact HT|lia|lia|].
    - intros _. assert (Q := quot_upto 0 (S b) oneC z ltac:(lia) ltac:(lia) ltac:(lia) one_cupto X). replace (zn 1 * (zn b + 2))%Z with (0 + zn (S b) + 1)%Z by lia. exact Q.
    - assert (LG := HG z X). apply parts_upto in LG. assert (SC := scale_upto (C h) (zn g) (fst a0) _ ltac:(lia) (proj1 B0) LG). eapply cweaken; [| | |exact SC]; lia. }
  assert (FV : cupto (1 + zn (length cs)) (C h + zn p * (be h + zn b + 2) + zn b + 2 + zn p + 1) (me2_force_loopF A z (f_div A oneC (m z z)) (f_div A (fst a0, 0%float) z) 1 cs)).
  { apply (me2_force_size h z (C h + zn p * (be h + zn b + 2) + zn b + 2 + zn p + 1) X ltac:(lia) ltac:(lia) cs 1); [lia|lia| |exact HT|lia|lia|].
    - intros _. assert (Q := quot_upto 0 (2 * b + 3) oneC (m z z) ltac:(lia) ltac:(lia) ltac:(lia) one_cupto (square_between z X)). replace (zn 1 * (zn b + 2) + zn b + 2)%Z with (0 + zn (2 * b + 3) + 1)%Z by lia. exact Q.
    - assert (Q := quot_upto (C h) (S b) (fst a0, 0%float) z ltac:(lia) ltac:(lia) ltac:(lia) (conj (proj1 B0) (zero_upto _)) X). eapply cweaken; [| | |exact Q]; lia. }
  destruct PV as [[PV _] _], FV as [FV1 FV2]. intros y [<-|[<-|[<-|[]]]]; [exact PV|exact (proj1 (upto_opp _ _ _ FV1))|exact (proj1 FV2)].
Qed.
Theorem local_values h j e x : local_range A p a b n N h j e -> (a + 2 * N + h * n + g + 4 + p * (4 * b + 2 * h + j + 14) <= 960)%nat -> near b x (center_of e) ->
  Forall (fun z => PrimFloat.is_finite (fst z) = true /\ PrimFloat.is_finite (snd z) = true) (sf_co e) /\
  length (le2_forceF A e x) = 2%nat /\ forall y, In y (le2_potF A e x :: le2_forceF A e x) -> PrimFloat.is_finite y = true.
Proof.
  intros R T X. assert (T' : (zn a + 2 * zn N + zn h * zn n + zn g + 4 + zn p * (4 * zn b + 2 * zn h + zn j + 14) <= 960)%Z) by lia. clear T.
  assert (DS : (dsize h j + 2 * zn p + 2 <= 960)%Z) by (unfold dsize; lia). destruct (local_good h j e R ltac:(lia)) as [O HC]. split; [exact (counted_finite _ _ _ HC)|]. split; [reflexivity|].
  assert (PB := mul_le 1 (zn p) 14 (4 * zn b + 2 * zn h + zn j + 14)%Z ltac:(lia) ltac:(lia) ltac:(lia) ltac:(lia)). assert (HN0 : (0 <= zn h * zn n)%Z) by (apply Z.mul_nonneg_nonneg; lia).
  apply near_upto in X; [|lia]. rewrite center_pair in X. unfold le2_potF, le2_forceF. set (z := csub (cplxF x) (sf_ctr e)) in *. destruct HC as [L H].
  assert (LS : forall i, (i <= p)%nat -> (0 <= lsize h j i)%Z /\ (lsize h j i + zn i * (zn b + 1) + zn i = dsize h j)%Z) by (intros i I; assert (Q := lsize_range h j i I ltac:(lia)); split; [lia|unfold lsize; ring]).
  assert (PV : cupto (0 + zn (length (sf_co e))) (dsize h j + 1) (le2_pot_loopF A z oneC zeroC (sf_co e))).
  { apply (le2_pot_size (dsize h j + 1) (lsize h j) z X ltac:(lia)) with (i := 0%nat); [intros i I; specialize (LS i I); lia|lia|intros _; exact one_cupto|intros i c E; exact (H i c E)|lia|lia|apply zero_cupto; lia]. }
  assert (FV : cupto (0 + zn (length (tl (sf_co e)))) (dsize h j + zn p + 1) (le2_force_loopF A z oneC zeroC 1 (tl (sf_co e)))).
  { destruct (sf_co e) as [|a0 cs]; [discriminate|]. cbn [tl length] in *.
    apply (le2_force_size (dsize h j + zn p + 1) (lsize h j) z X ltac:(lia)) with (i := 0%nat); [intros i I; specialize (LS i I); lia|lia|intros _; exact one_cupto|intros i c E; exact (H (S i) c E)|lia|lia|apply zero_cupto; lia]. }
  destruct PV as [[PV _] _], FV as [FV1 FV2]. intros y [<-|[<-|[<-|[]]]]; [exact PV|exact (proj1 (upto_opp _ _ _ FV1))|exact (proj1 FV2)].
Qed.
End Range.
