(** Rounding errors of the direct sums. *)
From Coq Require Import Reals List Arith Bool Lia Lra.
From Coquelicot Require Import Rcomplements.
From Verif Require Import Num Outcome Vec VecProofs CAux Fields FieldSpec FieldProofs RoundedFields RoundedSpec.
Import ListNotations.
Local Open Scope R_scope.
Local Open Scope outcome_scope.

(** [a] is [b] times a number between [lo] and [hi]. *)
Definition rel (lo hi a b : R) : Prop := exists t, lo <= t <= hi /\ a = b * t.

Lemma rel_bounds lo hi a b : lo <= hi -> 0 <= b -> lo * b <= a <= hi * b -> rel lo hi a b.
Proof.
  intros L [P|<-] B.
  - exists (a / b). split; [|field; lra]. split; apply (Rmult_le_reg_r b); try exact P; unfold Rdiv; rewrite Rmult_assoc, Rinv_l by lra; lra.
  - exists lo. lra.
Qed.
Lemma rel_mult lo hi lo' hi' a b c e : 0 <= lo -> 0 <= lo' -> rel lo hi a b -> rel lo' hi' c e -> rel (lo * lo') (hi * hi') (a * c) (b * e).
Proof.
  intros P P' (t & [T1 T2] & ->) (t' & [T1' T2'] & ->). exists (t * t'). split; [split|ring]; apply Rmult_le_compat; lra.
Qed.
Lemma rel_trans lo hi lo' hi' a b c : 0 <= lo -> 0 <= lo' -> rel lo hi a b -> rel lo' hi' b c -> rel (lo * lo') (hi * hi') a c.
Proof.
  intros P P' (t & [T1 T2] & ->) (t' & [T1' T2'] & ->). exists (t * t'). split; [split|ring]; apply Rmult_le_compat; lra.
Qed.
Lemma rel_div lo hi a b c : 0 < lo -> b <> 0 -> rel lo hi a b -> rel (/ hi) (/ lo) (c / a) (c / b).
Proof.
  intros P NB (t & [T1 T2] & ->). exists (/ t). split; [|field; lra]. split; apply Rinv_le_contravar; lra.
Qed.
Lemma rel_opp lo hi a b : rel lo hi a b -> rel lo hi (- a) (- b).
Proof. intros (t & T & ->). exists t. split; [exact T|ring]. Qed.
Lemma rel_add lo hi a b c e : lo <= hi -> 0 <= b -> 0 <= e -> rel lo hi a b -> rel lo hi c e -> rel lo hi (a + c) (b + e).
Proof. intros L B E (t & T & ->) (t' & T' & ->). apply rel_bounds; [exact L|lra|]. nra. Qed.
Lemma rel_weaken lo hi lo' hi' a b : lo' <= lo -> hi <= hi' -> rel lo hi a b -> rel lo' hi' a b.
Proof. intros L H (t & T & ->). exists t. split; [lra|reflexivity]. Qed.
Lemma rel_pos lo hi a b : 0 < lo -> 0 < b -> rel lo hi a b -> 0 < a.
Proof. intros L B (t & T & ->). apply Rmult_lt_0_compat; lra. Qed.
Lemma rel_err lo T a b : 0 <= lo -> 1 <= lo * T -> rel lo T a b -> Rabs (a - b) <= T * Rabs b - Rabs b.
Proof.
  intros L H (t & [T1 T2] & ->). replace (b * t - b) with (b * (t - 1)) by ring. rewrite Rabs_mult.
  assert (0 <= Rabs b) by apply Rabs_pos. assert (Rabs (t - 1) <= T - 1); [|nra].
  assert (0 <= T) by lra. assert (1 <= T).
  { destruct (Rle_dec 1 T); [assumption|]. assert (lo * T <= T * T) by (apply Rmult_le_compat_r; lra). nra. }
  apply Rabs_le. split; [|lra]. assert (2 - T <= lo); [|lra]. assert (0 <= (T - 1) * (T - 1)) by apply Rle_0_sqr.
  apply (Rmult_le_reg_r T); [lra|]. nra.
Qed.

Lemma nth_map2_R (f : R -> R -> R) a b j : (j < length a)%nat -> (j < length b)%nat -> nth j (map2 f a b) 0 = f (nth j a 0) (nth j b 0).
Proof.
  revert b j; induction a as [|x a IH]; intros [|y b] [|j] H1 H2; simpl in *; try lia; [reflexivity|]. apply (IH b j); lia.
Qed.

Lemma pow_le_1 a n : 0 <= a <= 1 -> 0 <= a ^ n <= 1.
Proof. intros H. split; [apply pow_le; lra|]. rewrite <- (pow1 n). apply pow_incr. lra. Qed.

Section Proofs.
Variable rnd : R -> R.
Variable u : R.
Hypothesis Hu : 0 <= u < 1.
Hypothesis Hrnd : forall x, Rabs (rnd x - x) <= u * Rabs x.

Lemma rnd_rel x : rel (1 - u) (1 + u) (rnd x) x.
Proof.
  assert (H := Hrnd x). apply Rabs_le_between in H.
  destruct (Rtotal_order x 0) as [N|[Z|P]].
  - rewrite (Rabs_left x N) in H. assert (K : rel (1 - u) (1 + u) (- rnd x) (- x)) by (apply rel_bounds; lra). apply rel_opp in K. rewrite !Ropp_involutive in K. exact K.
  - rewrite Z in *. rewrite Rabs_R0 in H. exists 1. lra.
  - rewrite (Rabs_pos_eq x) in H by lra. apply rel_bounds; lra.
Qed.
Lemma rnd_of lo hi x y : 0 <= lo -> rel lo hi x y -> rel ((1 - u) * lo) ((1 + u) * hi) (rnd x) y.
Proof. intros L H. apply (rel_trans _ _ _ _ _ x); [lra|lra|apply rnd_rel|exact H]. Qed.

(** *** Sums *)
Lemma sum_error (xs : list R) s :
  Rabs (fold_left (fun a b => rnd (a + b)) xs s - (s + rsum (fun x => x) xs))
  <= ((1 + u) ^ length xs - 1) * (Rabs s + rsum Rabs xs).
Proof.
  revert s; induction xs as [|x xs IH]; intros s; cbn [fold_left length].
  - replace (s - (s + rsum (fun x => x) [])) with 0 by (simpl; ring). rewrite Rabs_R0. simpl. lra.
  - rewrite !rsum_cons. specialize (IH (rnd (s + x))).
    replace (fold_left (fun a b => rnd (a + b)) xs (rnd (s + x)) - (s + (x + rsum (fun x => x) xs)))
      with (fold_left (fun a b => rnd (a + b)) xs (rnd (s + x)) - (rnd (s + x) + rsum (fun x => x) xs) + (rnd (s + x) - (s + x))) by ring.
    eapply Rle_trans; [apply Rabs_triang|].
    assert (E := Hrnd (s + x)). assert (A := Rabs_triang s x).
    assert (B : Rabs (rnd (s + x)) <= (1 + u) * (Rabs s + Rabs x)).
    { replace (rnd (s + x)) with ((rnd (s + x) - (s + x)) + (s + x)) by ring. eapply Rle_trans; [apply Rabs_triang|]. nra. }
    assert (P : 1 <= (1 + u) ^ length xs) by (apply pow_R1_Rle; lra).
    assert (S0 : 0 <= rsum Rabs xs) by (apply rsum_nonneg; intros; apply Rabs_pos).
    assert (S1 : 0 <= Rabs s) by apply Rabs_pos. assert (S2 : 0 <= Rabs x) by apply Rabs_pos.
    cbn [pow]. set (P' := (1 + u) ^ length xs) in *. 
    assert (I1 : (P' - 1) * (Rabs (rnd (s + x)) + rsum Rabs xs) <= (P' - 1) * ((1 + u) * (Rabs s + Rabs x) + rsum Rabs xs)) by (apply Rmult_le_compat_l; lra).
    assert (I2 : u * Rabs (s + x) <= u * (Rabs s + Rabs x)) by (apply Rmult_le_compat_l; lra).
    assert (I3 : 0 <= u * P' * rsum Rabs xs) by (apply Rmult_le_pos; [apply Rmult_le_pos|]; lra).
    nra.
Qed.

(** Terms with individual errors. *)
Lemma terms_error {A} (h : A -> R) (e B : A -> R) (xs : list A) :
  (forall a, In a xs -> Rabs (h a - e a) <= B a - Rabs (e a)) ->
  Rabs (fold_left (fun s a => rnd (s + h a)) xs 0 - rsum e xs) <= (1 + u) ^ length xs * rsum B xs - rsum (fun a => Rabs (e a)) xs.
Proof.
  intros H.
  assert (F : fold_left (fun s a => rnd (s + h a)) xs 0 = fold_left (fun a b => rnd (a + b)) (map h xs) 0).
  { generalize 0. clear H. induction xs as [|a xs IH]; intros z; [reflexivity|]. cbn [fold_left map]. apply IH. }
  rewrite F. assert (S := sum_error (map h xs) 0). rewrite Rabs_R0, !Rplus_0_l, map_length, !rsum_map in S. change (rsum (fun a => h a) xs) with (rsum h xs) in S.
  assert (D : Rabs (rsum h xs - rsum e xs) <= rsum B xs - rsum (fun a => Rabs (e a)) xs).
  { rewrite <- rsum_minus. eapply Rle_trans; [apply rsum_abs|]. rewrite <- rsum_minus. apply rsum_le. exact H. }
  assert (M : rsum (fun a => Rabs (h a)) xs <= rsum B xs).
  { apply rsum_le. intros a Ha. specialize (H a Ha). replace (h a) with (h a - e a + e a) by ring. eapply Rle_trans; [apply Rabs_triang|]. lra. }
  assert (P : 1 <= (1 + u) ^ length xs) by (apply pow_R1_Rle; lra).
  replace (fold_left (fun a b => rnd (a + b)) (map h xs) 0 - rsum e xs)
    with ((fold_left (fun a b => rnd (a + b)) (map h xs) 0 - rsum h xs) + (rsum h xs - rsum e xs)) by ring.
  eapply Rle_trans; [apply Rabs_triang|]. assert (0 <= rsum (fun a => Rabs (h a)) xs) by (apply rsum_nonneg; intros; apply Rabs_pos).
  assert (I := Rmult_le_compat_l ((1 + u) ^ length xs - 1) _ _ ltac:(lra) M). lra.
Qed.

(** *** Differences and distances *)
Definition exact_opp (v : list R) : Prop := forall y, In y v -> rnd (y * -1) = - y.

Lemma len_vsub_r a b : length a = length b -> length (vsub_r rnd a b) = length a.
Proof. intros H. unfold vsub_r, vadd_r, vneg_r, vscale_r, map2. rewrite map_length, combine_length, map_length. lia. Qed.
Lemma nth_vsub_r a b k : length a = length b -> (k < length a)%nat -> exact_opp b ->
  nth k (vsub_r rnd a b) 0 = rnd (nth k a 0 - nth k b 0).
Proof.
  intros HL Hk HB. unfold vsub_r, vadd_r. rewrite nth_map2_R by (unfold vneg_r, vscale_r; rewrite ?map_length; lia).
  f_equal. unfold Rminus. f_equal. unfold vneg_r, vscale_r.
  rewrite (nth_indep _ 0 (rnd (0 * -1))) by (rewrite map_length; lia). rewrite (map_nth (fun c => rnd (c * -1))).
  apply HB. apply nth_In. lia.
Qed.
Lemma vsub_r_rel a b k : length a = length b -> (k < length a)%nat -> exact_opp b ->
  rel (1 - u) (1 + u) (nth k (vsub_r rnd a b) 0) (nth k a 0 - nth k b 0).
Proof. intros. rewrite nth_vsub_r by assumption. apply rnd_rel. Qed.

Lemma norm_rel (v : list R) (w : nat -> R) lo hi : 0 <= lo <= hi -> (forall k, (k < length v)%nat -> rel lo hi (nth k v 0) (w k)) ->
  rel lo hi (vnorm v) (sqrt (rsum (fun k => w k ^ 2) (seq 0 (length v)))).
Proof.
  intros L H. assert (S : vnorm_sq v = rsum (fun k => nth k v 0 ^ 2) (seq 0 (length v))).
  { apply vnorm_sq_spec. }
  assert (P : 0 <= rsum (fun k => w k ^ 2) (seq 0 (length v))) by (apply rsum_nonneg; intros; apply pow2_ge_0).
  apply rel_bounds; [lra|apply sqrt_pos|]. unfold vnorm. rewrite S.
  rewrite <- (sqrt_pow2 lo) at 1 by lra. rewrite <- (sqrt_pow2 hi) by lra. rewrite <- !sqrt_mult by (assumption || apply pow2_ge_0).
  rewrite <- !rsum_scal. split; apply sqrt_le_1_alt; apply rsum_le; intros k Hk; apply in_seq in Hk; destruct (H k ltac:(lia)) as (t & T & ->).
  - rewrite Rpow_mult_distr, Rmult_comm. apply Rmult_le_compat_l; [apply pow2_ge_0|]. apply pow_incr. lra.
  - rewrite Rpow_mult_distr, (Rmult_comm (hi ^ 2)). apply Rmult_le_compat_l; [apply pow2_ge_0|]. apply pow_incr. lra.
Qed.

Variable hyp : list R -> R.
Variable lg : R -> R.
Variable e : R.
Hypothesis He : 0 <= e < 1.
Hypothesis Hhyp : forall v, Rabs (hyp v - vnorm v) <= e * vnorm v.
Hypothesis Hlg : forall r, 0 < r -> Rabs (lg r - ln r) <= e * Rabs (ln r).

Lemma hyp_rel v : rel (1 - e) (1 + e) (hyp v) (vnorm v).
Proof.
  assert (H := Hhyp v). apply Rabs_le_between in H. apply rel_bounds; [lra|apply sqrt_pos|lra].
Qed.
Lemma dist_rel p x : length p = length x -> exact_opp x ->
  rel ((1 - e) * (1 - u)) ((1 + e) * (1 + u)) (hyp (vsub_r rnd p x)) (dist p x).
Proof.
  intros L X. apply (rel_trans _ _ _ _ _ (vnorm (vsub_r rnd p x))); [lra|lra|apply hyp_rel|].
  assert (N := norm_rel (vsub_r rnd p x) (fun k => nth k p 0 - nth k x 0) (1 - u) (1 + u) ltac:(lra)).
  rewrite len_vsub_r in N by exact L. apply N. intros k Hk. apply vsub_r_rel; assumption.
Qed.
Lemma lo_pos : 0 < (1 - e) * (1 - u). Proof. apply Rmult_lt_0_compat; lra. Qed.
Lemma rel_zero lo hi a : rel lo hi a 0 -> a = 0.
Proof. intros (t & _ & ->). ring. Qed.
Lemma dist_same p : dist p p = 0.
Proof. apply dist_zero; reflexivity. Qed.

(** *** Potential of one source *)
Definition log_slack : R := - ln ((1 - e) * (1 - u)).
Definition term_bound (d : nat) (q r : R) : R :=
  if (d =? 2)%nat then (1 + u) * (1 + e) * (Rabs q * (Rabs (ln r) + log_slack))
  else (1 + u) / ((1 - e) * (1 - u)) * (Rabs q / r).

Lemma ln_rel a r : 0 < r -> rel ((1 - e) * (1 - u)) ((1 + e) * (1 + u)) a r -> Rabs (ln a - ln r) <= log_slack.
Proof.
  assert (LP := lo_pos). intros R0 (t & [T1 T2] & ->). assert (T0 : 0 < t) by lra. rewrite ln_mult by assumption.
  replace (ln r + ln t - ln r) with (ln t) by ring. unfold log_slack. apply Rabs_le. rewrite Ropp_involutive. split.
  - destruct T1 as [T1|T1]; [left; apply ln_increasing; assumption|rewrite T1; right; reflexivity].
  - apply Ropp_le_cancel. rewrite Ropp_involutive, <- ln_Rinv by exact T0.
    assert (I : (1 - e) * (1 - u) <= / t).
    { apply (Rmult_le_reg_r t); [exact T0|]. rewrite Rinv_l by lra.
      apply Rle_trans with ((1 - e) * (1 - u) * ((1 + e) * (1 + u))); [apply Rmult_le_compat_l; lra|].
      replace ((1 - e) * (1 - u) * ((1 + e) * (1 + u))) with ((1 - e * e) * (1 - u * u)) by ring.
      rewrite <- (Rmult_1_l 1) at 3. apply Rmult_le_compat; nra. }
    destruct I as [I|I]; [left; apply ln_increasing; assumption|rewrite I; right; reflexivity].
Qed.

Lemma sign_err (grav : bool) (a b B : R) : Rabs (a - b) <= B - Rabs b ->
  Rabs ((if grav then a else - a) - field_sign grav * b) <= B - Rabs (field_sign grav * b).
Proof.
  intros H. unfold field_sign. destruct grav; [rewrite Rmult_1_l; exact H|].
  replace (- a - -1 * b) with (- (a - b)) by ring. replace (-1 * b) with (- b) by ring. rewrite !Rabs_Ropp. exact H.
Qed.

Lemma potential_r_away d grav safe s x : length (ps_pos s) = length x -> exact_opp x -> ps_pos s <> x ->
  exists v, potential_r rnd hyp lg d grav safe s x = Ok v /\
  let t := field_sign grav * kernel d (ps_q s) (dist (ps_pos s) x) in
  Rabs (v - t) <= term_bound d (ps_q s) (dist (ps_pos s) x) - Rabs t.
Proof.
  intros L X N. assert (D := dist_rel _ _ L X). assert (D0 := dist_pos _ _ L N). set (r := dist (ps_pos s) x) in *.
  unfold potential_r. set (r' := hyp (vsub_r rnd (ps_pos s) x)) in *. assert (LP := lo_pos).
  assert (R0 : 0 < r') by exact (rel_pos _ _ _ _ LP D0 D).
  replace (safe && Req_bool r' 0) with false by (symmetry; apply andb_false_intro2, Req_bool_false; lra).
  unfold kernel, term_bound. destruct (d =? 2)%nat.
  - destruct (Req_EM_T r' 0) as [Z|_]; [lra|]. cbn [bind]. eexists; split; [reflexivity|]. cbv zeta. apply sign_err.
    assert (A := Hrnd (ps_q s * lg r')). assert (B := Hlg r' R0). assert (C := ln_rel r' r D0 D).
    set (l := ln r) in *. set (l' := ln r') in *. set (q := ps_q s) in *. set (g := lg r') in *. set (k := log_slack) in *.
    assert (K0 : 0 <= k) by (eapply Rle_trans; [apply Rabs_pos|exact C]).
    assert (A1 : Rabs l' <= Rabs l + k). { replace l' with (l' - l + l) by ring. eapply Rle_trans; [apply Rabs_triang|]. lra. }
    assert (A2 : Rabs g <= (1 + e) * Rabs l'). { replace g with (g - l' + l') by ring. eapply Rle_trans; [apply Rabs_triang|]. lra. }
    assert (Q0 := Rabs_pos q).
    assert (A3 : Rabs (rnd (q * g) - q * l) <= u * (Rabs q * Rabs g) + Rabs q * (e * Rabs l' + k)).
    { replace (rnd (q * g) - q * l) with ((rnd (q * g) - q * g) + q * (g - l' + (l' - l))) by ring.
      eapply Rle_trans; [apply Rabs_triang|]. rewrite Rabs_mult in A. rewrite (Rabs_mult q (g - l' + (l' - l))).
      apply Rplus_le_compat; [exact A|]. apply Rmult_le_compat_l; [exact Q0|]. eapply Rle_trans; [apply Rabs_triang|]. lra. }
    rewrite Rabs_mult. eapply Rle_trans; [exact A3|].
    apply Rle_trans with (Rabs q * (u * ((1 + e) * (Rabs l + k)) + (e * (Rabs l + k) + k))); [|right; ring].
    replace (u * (Rabs q * Rabs g) + Rabs q * (e * Rabs l' + k)) with (Rabs q * (u * Rabs g + (e * Rabs l' + k))) by ring.
    apply Rmult_le_compat_l; [exact Q0|]. apply Rplus_le_compat.
    + apply Rmult_le_compat_l; [lra|]. eapply Rle_trans; [exact A2|]. apply Rmult_le_compat_l; lra.
    + apply Rplus_le_compat_r. apply Rmult_le_compat_l; lra.
  - unfold rdiv_r. destruct (Req_EM_T r' 0) as [Z|_]; [lra|]. cbn [bind]. eexists; split; [reflexivity|]. cbv zeta. apply sign_err.
    assert (F : rel ((1 - u) * / ((1 + e) * (1 + u))) ((1 + u) * / ((1 - e) * (1 - u))) (rnd (- ps_q s / r')) (- ps_q s / r)).
    { apply rnd_of; [left; apply Rinv_0_lt_compat, Rmult_lt_0_compat; lra|]. apply rel_div; [exact LP|lra|exact D]. }
    apply rel_err in F.
    + replace (Rabs (- ps_q s / r)) with (Rabs (ps_q s) / r) in * ; [exact F|].
      unfold Rdiv. rewrite Rabs_mult, Rabs_Ropp. f_equal. symmetry. apply Rabs_pos_eq. left. apply Rinv_0_lt_compat. exact D0.
    + apply Rmult_le_pos; [lra|]. left. apply Rinv_0_lt_compat, Rmult_lt_0_compat; lra.
    + replace ((1 - u) * / ((1 + e) * (1 + u)) * ((1 + u) * / ((1 - e) * (1 - u)))) with (/ (1 - e * e)) by (field; repeat split; nra).
      rewrite <- Rinv_1 at 1. apply Rinv_le_contravar; nra.
Qed.
Lemma hyp_zero x : exact_opp x -> hyp (vsub_r rnd x x) = 0.
Proof. intros X. assert (D := dist_rel x x eq_refl X). rewrite dist_same in D. eapply rel_zero; exact D. Qed.
Lemma potential_r_at d grav s x : exact_opp x -> ps_pos s = x -> potential_r rnd hyp lg d grav true s x = Ok 0.
Proof.
  intros X E. unfold potential_r. rewrite E, hyp_zero by exact X. replace (Req_bool 0 0) with true by (symmetry; apply Req_bool_true; reflexivity). reflexivity.
Qed.

Lemma ofold_fold {A S} (f : S -> A -> outcome S) (g : S -> A -> S) l : forall z, (forall s a, In a l -> f s a = Ok (g s a)) -> ofold f l z = Ok (fold_left g l z).
Proof. induction l as [|a l IH]; intros z H; [reflexivity|]. simpl. rewrite H by (left; reflexivity). simpl. apply IH. intros; apply H; right; assumption. Qed.

Theorem potential_sum_error d grav safe srcs x : same_dim (length x) srcs -> exact_opp x ->
  (safe = true \/ forall s, In s srcs -> ps_pos s <> x) ->
  exists v, potential_sum_r rnd hyp lg d grav safe srcs x = Ok v /\
  Rabs (v - direct_potential d grav (others x srcs) x) <=
    (1 + u) ^ length srcs * rsum (fun s => term_bound d (ps_q s) (dist (ps_pos s) x)) (others x srcs)
    - rsum (fun s => Rabs (kernel d (ps_q s) (dist (ps_pos s) x))) (others x srcs).
Proof.
  intros SD X SF. unfold potential_sum_r.
  set (h := fun s => match potential_r rnd hyp lg d grav safe s x with Ok v => v | _ => 0 end).
  assert (T : forall s, In s srcs -> potential_r rnd hyp lg d grav safe s x = Ok (h s) /\
    Rabs (h s - (if negb (is_at x s) then field_sign grav * kernel d (ps_q s) (dist (ps_pos s) x) else 0)) <=
    (if negb (is_at x s) then term_bound d (ps_q s) (dist (ps_pos s) x) else 0)
    - Rabs (if negb (is_at x s) then field_sign grav * kernel d (ps_q s) (dist (ps_pos s) x) else 0)).
  { intros s Hs. destruct (is_at x s) eqn:At; cbn [negb].
    - apply is_at_true in At. destruct SF as [->|SF]; [|destruct (SF s Hs At)]. unfold h. rewrite (potential_r_at d grav s x X At).
      split; [reflexivity|]. rewrite Rminus_0_r, Rabs_R0. lra.
    - apply is_at_false in At. destruct (potential_r_away d grav safe s x (SD s Hs) X At) as (v & E & B). unfold h. rewrite E. split; [reflexivity|exact B]. }
  rewrite (ofold_fold _ (fun p s => rnd (p + h s))).
  2:{ intros p s Hs. destruct (T s Hs) as [-> _]. reflexivity. }
  eexists; split; [reflexivity|]. unfold direct_potential, others. rewrite !rsum_filter.
  eapply Rle_trans; [apply (terms_error _ _ _ _ (fun s Hs => proj2 (T s Hs)))|].
  apply Rplus_le_compat_l, Ropp_le_contravar, Req_le, rsum_ext. intros s _. destruct (negb (is_at x s)); [|symmetry; apply Rabs_R0].
  rewrite Rabs_mult. unfold field_sign. destruct grav; [rewrite Rabs_R1; ring|]. rewrite (Rabs_left (-1)) by lra. ring.
Qed.

Theorem potential_error_space grav safe srcs x : length x = 3%nat -> same_dim 3 srcs -> exact_opp x ->
  (safe = true \/ forall s, In s srcs -> ps_pos s <> x) ->
  exists v, potential_sum_r rnd hyp lg 3 grav safe srcs x = Ok v /\
  Rabs (v - direct_potential 3 grav (others x srcs) x) <=
    ((1 + u) ^ S (length srcs) / ((1 - e) * (1 - u)) - 1) * rsum (fun s => Rabs (ps_q s) / dist (ps_pos s) x) (others x srcs).
Proof.
  intros L SD X SF. rewrite <- L in SD. destruct (potential_sum_error 3 grav safe srcs x SD X SF) as (v & E & B). exists v. split; [exact E|].
  eapply Rle_trans; [exact B|]. right. unfold term_bound, kernel. cbn [Nat.eqb].
  rewrite rsum_scal. rewrite (rsum_ext (fun s => Rabs (- ps_q s / dist (ps_pos s) x)) (fun s => Rabs (ps_q s) / dist (ps_pos s) x)).
  - cbn [pow]. unfold Rdiv. ring.
  - intros s Hs. apply filter_In in Hs. destruct Hs as [Hs At]. apply negb_true_iff, is_at_false in At.
    unfold Rdiv. rewrite Rabs_mult, Rabs_Ropp. f_equal. apply Rabs_pos_eq. left. apply Rinv_0_lt_compat. apply dist_pos; [apply SD; exact Hs|exact At].
Qed.
Theorem potential_error_plane grav safe srcs x : length x = 2%nat -> same_dim 2 srcs -> exact_opp x ->
  (safe = true \/ forall s, In s srcs -> ps_pos s <> x) ->
  exists v, potential_sum_r rnd hyp lg 2 grav safe srcs x = Ok v /\
  Rabs (v - direct_potential 2 grav (others x srcs) x) <=
    ((1 + u) ^ S (length srcs) * (1 + e) - 1) * rsum (fun s => Rabs (ps_q s) * Rabs (ln (dist (ps_pos s) x))) (others x srcs)
    + (1 + u) ^ S (length srcs) * (1 + e) * - ln ((1 - e) * (1 - u)) * abs_charge (others x srcs).
Proof.
  intros L SD X SF. rewrite <- L in SD. destruct (potential_sum_error 2 grav safe srcs x SD X SF) as (v & E & B). exists v. split; [exact E|].
  eapply Rle_trans; [exact B|]. right. unfold term_bound, kernel, abs_charge. cbn [Nat.eqb].
  rewrite rsum_scal. fold log_slack.
  rewrite (rsum_ext (fun s => Rabs (ps_q s * ln (dist (ps_pos s) x))) (fun s => Rabs (ps_q s) * Rabs (ln (dist (ps_pos s) x)))) by (intros; apply Rabs_mult).
  rewrite (rsum_ext (fun s => Rabs (ps_q s) * (Rabs (ln (dist (ps_pos s) x)) + log_slack))
    (fun s => Rabs (ps_q s) * Rabs (ln (dist (ps_pos s) x)) + Rabs (ps_q s) * log_slack)) by (intros; ring).
  rewrite rsum_plus, rsum_scal_r. cbn [pow]. ring.
Qed.

(** *** Force of one source *)
Definition den_lo (d : nat) : R := if (d =? 2)%nat then (1 - u) ^ 5 else (1 - e) ^ 3 * (1 - u) ^ 6.
Definition den_hi (d : nat) : R := if (d =? 2)%nat then (1 + u) ^ 5 else (1 + e) ^ 3 * (1 + u) ^ 6.
Lemma den_lo_pos d : 0 < den_lo d.
Proof. unfold den_lo. destruct (d =? 2)%nat; [apply pow_lt; lra|]. apply Rmult_lt_0_compat; apply pow_lt; lra. Qed.
Lemma rel_eps lo hi eps : lo <= 1 <= hi -> rel lo hi eps eps.
Proof. intros H. exists 1. split; [exact H|ring]. Qed.

Lemma two_list (v : list R) : length v = 2%nat -> v = [nth 0 v 0; nth 1 v 0].
Proof. destruct v as [|a [|b [|c v]]]; try discriminate. reflexivity. Qed.
Lemma norm_sq_rel p x : length p = 2%nat -> length x = 2%nat -> exact_opp x ->
  rel ((1 - u) ^ 4) ((1 + u) ^ 4) (vnorm_sq_r rnd (vsub_r rnd p x)) (dist p x ^ 2).
Proof.
  intros LP LX X. assert (L : length p = length x) by lia.
  rewrite (two_list (vsub_r rnd p x)) by (rewrite len_vsub_r; lia).
  replace (dist p x ^ 2) with ((nth 0 p 0 - nth 0 x 0) ^ 2 + (nth 1 p 0 - nth 1 x 0) ^ 2).
  2:{ replace (dist p x ^ 2) with (dist p x * dist p x) by ring. rewrite dist_sq. unfold sqdist. rewrite LP. cbn [seq]. rewrite !rsum_cons. simpl. ring. }
  assert (C : forall k, (k < 2)%nat -> rel ((1 - u) ^ 3) ((1 + u) ^ 3) (rnd (nth k (vsub_r rnd p x) 0 * nth k (vsub_r rnd p x) 0)) ((nth k p 0 - nth k x 0) ^ 2)).
  { intros k Hk. replace ((1 - u) ^ 3) with ((1 - u) * ((1 - u) * (1 - u))) by ring. replace ((1 + u) ^ 3) with ((1 + u) * ((1 + u) * (1 + u))) by ring.
    replace ((nth k p 0 - nth k x 0) ^ 2) with ((nth k p 0 - nth k x 0) * (nth k p 0 - nth k x 0)) by ring.
    apply rnd_of; [apply Rmult_le_pos; lra|]. apply rel_mult; try lra; apply vsub_r_rel; (exact L || exact X || lia). }
  unfold vnorm_sq_r. replace ((1 - u) ^ 4) with ((1 - u) * (1 - u) ^ 3) by ring. replace ((1 + u) ^ 4) with ((1 + u) * (1 + u) ^ 3) by ring.
  apply rnd_of; [apply pow_le; lra|]. apply rel_add; [apply pow_incr; lra|apply pow2_ge_0|apply pow2_ge_0|apply C; lia|apply C; lia].
Qed.

Definition den_r (d : nat) (eps : R) (diff : list R) : R :=
  if (d =? 2)%nat then rnd (vnorm_sq_r rnd diff + eps) else rnd (rnd (rnd (hyp diff * hyp diff) * hyp diff) + eps).
Lemma den_rel d eps p x : length x = d -> length p = d -> exact_opp x -> 0 <= eps ->
  rel (den_lo d) (den_hi d) (den_r d eps (vsub_r rnd p x)) (force_den d eps (dist p x)).
Proof.
  intros LX LP X E. assert (D0 := dist_nonneg p x). unfold den_lo, den_hi, den_r, force_den. destruct (d =? 2)%nat eqn:D2.
  - apply Nat.eqb_eq in D2. replace ((1 - u) ^ 5) with ((1 - u) * (1 - u) ^ 4) by ring. replace ((1 + u) ^ 5) with ((1 + u) * (1 + u) ^ 4) by ring.
    apply rnd_of; [apply pow_le; lra|]. apply rel_add; [apply pow_incr; lra|apply pow2_ge_0|exact E|apply norm_sq_rel; (lia || exact X)|].
    apply rel_eps. split; [apply pow_le_1; lra|apply pow_R1_Rle; lra].
  - assert (H := dist_rel p x ltac:(lia) X). assert (P := lo_pos).
    set (lo := (1 - e) * (1 - u)) in *. set (hi := (1 + e) * (1 + u)) in *.
    replace ((1 - e) ^ 3 * (1 - u) ^ 6) with ((1 - u) * ((1 - u) * ((1 - u) * (lo * lo) * lo))) by (unfold lo; ring).
    replace ((1 + e) ^ 3 * (1 + u) ^ 6) with ((1 + u) * ((1 + u) * ((1 + u) * (hi * hi) * hi))) by (unfold hi; ring).
    assert (P2 : 0 <= lo * lo) by nra. assert (L1 : 0 <= lo <= 1) by (unfold lo in *; nra).
    assert (H1 : 1 <= hi) by (unfold hi; nra).
    assert (B : 0 <= (1 - u) * (lo * lo) * lo) by (apply Rmult_le_pos; [apply Rmult_le_pos|]; lra).
    assert (B1 : (1 - u) * (lo * lo) * lo <= 1).
    { replace 1 with (1 * (1 * 1) * 1) at 2 by ring. repeat (apply Rmult_le_compat; try nra). }
    assert (B2 : 1 <= (1 + u) * (hi * hi) * hi).
    { replace 1 with (1 * (1 * 1) * 1) at 1 by ring. repeat (apply Rmult_le_compat; try nra). }
    apply rnd_of; [apply Rmult_le_pos; lra|]. apply rel_add; [|apply pow_le; exact D0|exact E| |].
    + apply Rle_trans with (1 * 1); [apply Rmult_le_compat; lra|]. apply Rmult_le_compat; lra.
    + apply rnd_of; [exact B|]. replace (dist p x ^ 3) with (dist p x * dist p x * dist p x) by ring.
      apply rel_mult; [apply Rmult_le_pos; lra|lra| |exact H]. apply rnd_of; [exact P2|]. apply rel_mult; (lra || exact H).
    + apply rel_eps. split; [rewrite <- (Rmult_1_l 1)|rewrite <- (Rmult_1_l 1) at 1]; apply Rmult_le_compat; lra.
Qed.

(** The relative error of one component of the force of one source is at most [force_growth d - 1]. *)
Definition force_growth (d : nat) : R := (1 + u) ^ 4 / den_lo d.
Definition force_shrink (d : nat) : R := (1 - u) ^ 4 / den_hi d.
Lemma den_hi_1 d : 1 <= den_hi d.
Proof.
  unfold den_hi. destruct (d =? 2)%nat; [apply pow_R1_Rle; lra|]. rewrite <- (Rmult_1_l 1) at 1.
  apply Rmult_le_compat; try lra; apply pow_R1_Rle; lra.
Qed.
Lemma shrink_growth d : 0 <= force_shrink d /\ 1 <= force_shrink d * force_growth d.
Proof.
  assert (L := den_lo_pos d). assert (H := den_hi_1 d). split.
  - unfold force_shrink. apply Rmult_le_pos; [apply pow_le; lra|left; apply Rinv_0_lt_compat; lra].
  - unfold force_shrink, force_growth. replace ((1 - u) ^ 4 / den_hi d * ((1 + u) ^ 4 / den_lo d)) with ((1 - u * u) ^ 4 / (den_hi d * den_lo d)) by (field; lra).
    assert (Pd : 0 < den_hi d * den_lo d) by (apply Rmult_lt_0_compat; lra).
    apply (Rmult_le_reg_r (den_hi d * den_lo d)); [exact Pd|]. unfold Rdiv. rewrite Rmult_assoc, Rinv_l by lra.
    rewrite Rmult_1_l, Rmult_1_r. assert (W : 0 <= 1 - u * u <= 1) by nra. assert (W' : 0 <= 1 - e * e <= 1) by nra.
    unfold den_hi, den_lo. destruct (d =? 2)%nat.
    + replace ((1 + u) ^ 5 * (1 - u) ^ 5) with ((1 - u * u) ^ 4 * (1 - u * u)) by ring.
      rewrite <- (Rmult_1_r ((1 - u * u) ^ 4)) at 2. apply Rmult_le_compat_l; [apply pow_le; lra|lra].
    + replace ((1 + e) ^ 3 * (1 + u) ^ 6 * ((1 - e) ^ 3 * (1 - u) ^ 6)) with ((1 - u * u) ^ 4 * ((1 - u * u) ^ 2 * (1 - e * e) ^ 3)) by ring.
      rewrite <- (Rmult_1_r ((1 - u * u) ^ 4)) at 2. apply Rmult_le_compat_l; [apply pow_le; lra|].
      assert (A := pow_le_1 _ 2 W). assert (B := pow_le_1 _ 3 W'). rewrite <- (Rmult_1_l 1). apply Rmult_le_compat; lra.
Qed.

Lemma len_scale v f : length (vscale_r rnd v f) = length v.
Proof. apply map_length. Qed.
Lemma nth_scale v f k : (k < length v)%nat -> nth k (vscale_r rnd v f) 0 = rnd (nth k v 0 * f).
Proof.
  intros H. unfold vscale_r. rewrite (nth_indep _ 0 (rnd (0 * f))) by (rewrite map_length; exact H). apply (map_nth (fun c => rnd (c * f))).
Qed.

Lemma force_term d (grav : bool) eps s x k : length x = d -> length (ps_pos s) = d -> exact_opp x -> 0 <= eps -> ps_pos s <> x -> (k < d)%nat ->
  let diff := vsub_r rnd (ps_pos s) x in
  let f := rnd (ps_q s / den_r d eps diff) in
  rel (force_shrink d) (force_growth d)
    (nth k (if grav then vscale_r rnd diff f else vneg_r rnd (vscale_r rnd diff f)) 0) (force_on d grav eps s x k).
Proof.
  intros LX LP X E N K diff f. assert (LD : length diff = d) by (unfold diff; rewrite len_vsub_r; lia).
  assert (D := den_rel d eps (ps_pos s) x LX LP X E). fold diff in D.
  assert (P := den_lo_pos d). assert (H1 := den_hi_1 d). assert (F0 := force_den_pos d eps _ (dist_pos _ _ (eq_trans LP (eq_sym LX)) N) E).
  assert (Rf : rel ((1 - u) * / den_hi d) ((1 + u) * / den_lo d) f (ps_q s / force_den d eps (dist (ps_pos s) x))).
  { apply rnd_of; [left; apply Rinv_0_lt_compat; lra|]. apply rel_div; [exact P|lra|exact D]. }
  assert (I0 : 0 <= / den_hi d) by (left; apply Rinv_0_lt_compat; lra).
  assert (Rp : rel ((1 - u) ^ 3 / den_hi d) ((1 + u) ^ 3 / den_lo d) (nth k (vscale_r rnd diff f) 0)
    (ps_q s * (nth k (ps_pos s) 0 - nth k x 0) / force_den d eps (dist (ps_pos s) x))).
  { rewrite nth_scale by lia.
    replace ((1 - u) ^ 3 / den_hi d) with ((1 - u) * ((1 - u) * ((1 - u) * / den_hi d))) by (unfold Rdiv; ring).
    replace ((1 + u) ^ 3 / den_lo d) with ((1 + u) * ((1 + u) * ((1 + u) * / den_lo d))) by (unfold Rdiv; ring).
    replace (ps_q s * (nth k (ps_pos s) 0 - nth k x 0) / force_den d eps (dist (ps_pos s) x))
      with ((nth k (ps_pos s) 0 - nth k x 0) * (ps_q s / force_den d eps (dist (ps_pos s) x))) by (unfold Rdiv; ring).
    assert (0 <= (1 - u) * / den_hi d) by (apply Rmult_le_pos; lra).
    apply rnd_of; [apply Rmult_le_pos; lra|]. apply rel_mult; [lra|assumption| |exact Rf]. apply vsub_r_rel; (lia || exact X). }
  assert (B0 : 0 <= (1 - u) ^ 3 / den_hi d) by (apply Rmult_le_pos; [apply pow_le; lra|exact I0]).
  assert (J0 : 0 < / den_lo d) by (apply Rinv_0_lt_compat; exact P).
  assert (G0 : 0 <= (1 + u) ^ 3 / den_lo d) by (apply Rmult_le_pos; [apply pow_le; lra|lra]).
  unfold force_on, field_sign, force_shrink, force_growth.
  replace ((1 - u) ^ 4 / den_hi d) with ((1 - u) * ((1 - u) ^ 3 / den_hi d)) by (unfold Rdiv; ring).
  replace ((1 + u) ^ 4 / den_lo d) with ((1 + u) * ((1 + u) ^ 3 / den_lo d)) by (unfold Rdiv; ring).
  destruct grav.
  - rewrite Rmult_1_l. eapply rel_weaken; [| |exact Rp]; nra.
  - unfold vneg_r. rewrite nth_scale by (rewrite len_scale; lia). apply rnd_of; [exact B0|].
    replace (nth k (vscale_r rnd diff f) 0 * -1) with (- nth k (vscale_r rnd diff f) 0) by ring.
    replace (-1 * (ps_q s * (nth k (ps_pos s) 0 - nth k x 0) / force_den d eps (dist (ps_pos s) x)))
      with (- (ps_q s * (nth k (ps_pos s) 0 - nth k x 0) / force_den d eps (dist (ps_pos s) x))) by ring.
    apply rel_opp. exact Rp.
Qed.

Lemma len_vzero d : length (vzero d) = d. Proof. apply repeat_length. Qed.
Lemma nth_vzero d k : nth k (vzero d) 0 = 0.
Proof. unfold vzero. destruct (Nat.lt_ge_cases k d); [apply nth_repeat|]. apply nth_overflow. rewrite repeat_length. assumption. Qed.
Lemma den_not_zero d eps p x : length x = d -> length p = d -> exact_opp x -> 0 <= eps -> p <> x -> den_r d eps (vsub_r rnd p x) <> 0.
Proof.
  intros LX LP X E N. assert (D := den_rel d eps p x LX LP X E).
  assert (F0 := force_den_pos d eps _ (dist_pos _ _ (eq_trans LP (eq_sym LX)) N) E).
  apply Rgt_not_eq. exact (rel_pos _ _ _ _ (den_lo_pos d) F0 D).
Qed.

Lemma forcefield_r_term d grav safe eps s x : length x = d -> length (ps_pos s) = d -> exact_opp x -> 0 <= eps ->
  (safe = true \/ ps_pos s <> x) ->
  exists f, forcefield_r rnd hyp d grav safe eps s x = Ok f /\ length f = d /\
  forall k, (k < d)%nat -> rel (force_shrink d) (force_growth d) (nth k f 0) (if negb (is_at x s) then force_on d grav eps s x k else 0).
Proof.
  intros LX LP X E SF. assert (L : length (ps_pos s) = length x) by lia. assert (SG := shrink_growth d).
  destruct (is_at x s) eqn:At; cbn [negb].
  - apply is_at_true in At. destruct SF as [->|SF]; [|contradiction]. exists (vzero d). split; [|split; [apply len_vzero|]].
    + unfold forcefield_r. rewrite At. rewrite hyp_zero by exact X. destruct (d =? 2)%nat eqn:D2.
      * apply Nat.eqb_eq in D2. assert (H := norm_sq_rel x x ltac:(lia) ltac:(lia) X). rewrite dist_same in H.
        replace (0 ^ 2) with 0 in H by ring. rewrite (rel_zero _ _ _ H).
        replace (Req_bool 0 0) with true by (symmetry; apply Req_bool_true; reflexivity). reflexivity.
      * replace (Req_bool 0 0) with true by (symmetry; apply Req_bool_true; reflexivity). reflexivity.
    + intros k _. rewrite nth_vzero. exists (force_growth d). split; [|ring]. split; [|lra].
      assert (force_shrink d <= 1).
      { unfold force_shrink. assert (H1 := den_hi_1 d). apply (Rmult_le_reg_r (den_hi d)); [lra|]. unfold Rdiv. rewrite Rmult_assoc, Rinv_l by lra.
        assert (Q := pow_le_1 (1 - u) 4 ltac:(lra)). lra. }
      destruct (Rle_dec 1 (force_growth d)); [lra|]. assert (Q : 1 <= force_shrink d) by nra.
      replace (force_shrink d) with 1 in SG by lra. lra.
  - apply is_at_false in At. assert (NZ := den_not_zero d eps _ x LX LP X E At).
    assert (T := fun k => force_term d grav eps s x k LX LP X E At). cbv zeta in T.
    exists (if grav then vscale_r rnd (vsub_r rnd (ps_pos s) x) (rnd (ps_q s / den_r d eps (vsub_r rnd (ps_pos s) x)))
            else vneg_r rnd (vscale_r rnd (vsub_r rnd (ps_pos s) x) (rnd (ps_q s / den_r d eps (vsub_r rnd (ps_pos s) x))))).
    split; [|split].
    + unfold forcefield_r. unfold den_r in *. destruct (d =? 2)%nat eqn:D2.
      * apply Nat.eqb_eq in D2. assert (H := norm_sq_rel (ps_pos s) x ltac:(lia) ltac:(lia) X).
        assert (Z : vnorm_sq_r rnd (vsub_r rnd (ps_pos s) x) <> 0).
        { apply Rgt_not_eq. apply (rel_pos _ _ _ (dist (ps_pos s) x ^ 2)) in H; [exact H|apply pow_lt; lra|apply pow_lt, dist_pos; assumption]. }
        replace (safe && Req_bool (vnorm_sq_r rnd (vsub_r rnd (ps_pos s) x)) 0) with false by (symmetry; apply andb_false_intro2, Req_bool_false; exact Z).
        unfold rdiv_r. destruct (Req_EM_T _ 0) as [Q|_]; [contradiction|]. reflexivity.
      * assert (H := dist_rel (ps_pos s) x L X).
        assert (Z : hyp (vsub_r rnd (ps_pos s) x) <> 0) by (apply Rgt_not_eq; exact (rel_pos _ _ _ _ lo_pos (dist_pos _ _ L At) H)).
        replace (safe && Req_bool (hyp (vsub_r rnd (ps_pos s) x)) 0) with false by (symmetry; apply andb_false_intro2, Req_bool_false; exact Z).
        unfold rdiv_r. destruct (Req_EM_T _ 0) as [Q|_]; [contradiction|]. reflexivity.
    + destruct grav; unfold vneg_r; rewrite !len_scale, len_vsub_r; lia.
    + exact T.
Qed.

Lemma fold_vadd_r {A} d (h : A -> list R) (l : list A) : forall z, length z = d -> (forall a, In a l -> length (h a) = d) ->
  length (fold_left (fun f a => vadd_r rnd f (h a)) l z) = d /\
  forall k, (k < d)%nat -> nth k (fold_left (fun f a => vadd_r rnd f (h a)) l z) 0 = fold_left (fun s a => rnd (s + nth k (h a) 0)) l (nth k z 0).
Proof.
  induction l as [|a l IH]; intros z Z H; [split; [exact Z|reflexivity]|]. cbn [fold_left].
  assert (Ha := H a (or_introl eq_refl)).
  assert (L : length (vadd_r rnd z (h a)) = d) by (unfold vadd_r, map2; rewrite map_length, combine_length; lia).
  destruct (IH _ L (fun b Hb => H b (or_intror Hb))) as [I1 I2]. split; [exact I1|]. intros k K. rewrite I2 by exact K.
  f_equal. unfold vadd_r. apply nth_map2_R; lia.
Qed.

Theorem forcefield_sum_error d grav safe eps srcs x : length x = d -> same_dim d srcs -> exact_opp x -> 0 <= eps ->
  (safe = true \/ forall s, In s srcs -> ps_pos s <> x) ->
  exists f, forcefield_sum_r rnd hyp d grav safe eps srcs x = Ok f /\ length f = d /\
  forall k, (k < d)%nat ->
    Rabs (nth k f 0 - nth k (direct_force d grav eps (others x srcs) x) 0) <=
    ((1 + u) ^ length srcs * force_growth d - 1) * rsum (fun s => Rabs (force_on d grav eps s x k)) (others x srcs).
Proof.
  intros LX SD X E SF. unfold forcefield_sum_r.
  set (h := fun s => match forcefield_r rnd hyp d grav safe eps s x with Ok v => v | _ => [] end).
  assert (T : forall s, In s srcs -> forcefield_r rnd hyp d grav safe eps s x = Ok (h s) /\ length (h s) = d /\
    forall k, (k < d)%nat -> rel (force_shrink d) (force_growth d) (nth k (h s) 0) (if negb (is_at x s) then force_on d grav eps s x k else 0)).
  { intros s Hs. assert (SF' : safe = true \/ ps_pos s <> x) by (destruct SF as [?|SF]; [left; assumption|right; apply SF; exact Hs]).
    destruct (forcefield_r_term d grav safe eps s x LX (SD s Hs) X E SF') as (f & Ef & Lf & Rf).
    unfold h. rewrite Ef. split; [reflexivity|]. split; [exact Lf|exact Rf]. }
  rewrite (ofold_fold _ (fun f s => vadd_r rnd f (h s))).
  2:{ intros p s Hs. destruct (T s Hs) as [-> _]. reflexivity. }
  destruct (fold_vadd_r d h srcs (vzero d) (len_vzero d) (fun s Hs => proj1 (proj2 (T s Hs)))) as [F1 F2].
  eexists; split; [reflexivity|]. split; [exact F1|]. intros k K. rewrite F2 by exact K. rewrite nth_vzero.
  unfold direct_force. rewrite nth_map_seq by exact K. unfold others. rewrite !rsum_filter.
  destruct (shrink_growth d) as [S0 S1].
  eapply Rle_trans; [apply (terms_error (fun s => nth k (h s) 0) _ (fun s => force_growth d * Rabs (if negb (is_at x s) then force_on d grav eps s x k else 0)))|].
  - intros s Hs. apply (rel_err (force_shrink d)); [exact S0|exact S1|]. exact (proj2 (proj2 (T s Hs)) k K).
  - rewrite rsum_scal. right.
    rewrite (rsum_ext (fun a => if negb (is_at x a) then Rabs (force_on d grav eps a x k) else 0)
      (fun a => Rabs (if negb (is_at x a) then force_on d grav eps a x k else 0))) by (intros s _; destruct (negb (is_at x s)); [reflexivity|symmetry; apply Rabs_R0]).
    ring.
Qed.
End Proofs.

(** *** In the vocabulary of [RoundedSpec] *)
Lemma norm_of_spec e hyp : accurate_norm e hyp -> forall v, Rabs (hyp v - vnorm v) <= e * vnorm v.
Proof. intros H v. unfold vnorm. rewrite vnorm_sq_spec, <- (rsum_list_seq (fun c => c ^ 2)). apply H. Qed.
Lemma opp_of_spec rnd x : representable rnd x -> exact_opp rnd x.
Proof. intros H y Hy. rewrite <- (H y Hy). f_equal. ring. Qed.

Theorem plane_potential_error rnd hyp lg u e grav safe srcs x : 0 <= u < 1 -> 0 <= e < 1 ->
  accurate_rounding u rnd -> accurate_norm e hyp -> accurate_log e lg ->
  length x = 2%nat -> same_dim 2 srcs -> representable rnd x -> evaluable safe x srcs ->
  exists v, potential_sum_r rnd hyp lg 2 grav safe srcs x = Ok v /\
  Rabs (v - direct_potential 2 grav (others x srcs) x) <=
    ((1 + u) ^ (length srcs + 1) * (1 + e) - 1) * rsum (fun s => Rabs (ps_q s) * Rabs (ln (dist (ps_pos s) x))) (others x srcs)
    + (1 + u) ^ (length srcs + 1) * (1 + e) * - ln ((1 - e) * (1 - u)) * abs_charge (others x srcs).
Proof.
  intros U E R N G L SD X EV. rewrite Nat.add_1_r.
  exact (potential_error_plane rnd u U R hyp lg e E (norm_of_spec _ _ N) G grav safe srcs x L SD (opp_of_spec _ _ X) EV).
Qed.
Theorem space_potential_error rnd hyp lg u e grav safe srcs x : 0 <= u < 1 -> 0 <= e < 1 ->
  accurate_rounding u rnd -> accurate_norm e hyp -> accurate_log e lg ->
  length x = 3%nat -> same_dim 3 srcs -> representable rnd x -> evaluable safe x srcs ->
  exists v, potential_sum_r rnd hyp lg 3 grav safe srcs x = Ok v /\
  Rabs (v - direct_potential 3 grav (others x srcs) x) <=
    ((1 + u) ^ (length srcs + 1) / ((1 - e) * (1 - u)) - 1) * rsum (fun s => Rabs (ps_q s) / dist (ps_pos s) x) (others x srcs).
Proof.
  intros U E R N G L SD X EV. rewrite Nat.add_1_r.
  exact (potential_error_space rnd u U R hyp lg e E (norm_of_spec _ _ N) G grav safe srcs x L SD (opp_of_spec _ _ X) EV).
Qed.
Theorem force_error rnd hyp u e d grav safe eps srcs x : 0 <= u < 1 -> 0 <= e < 1 ->
  accurate_rounding u rnd -> accurate_norm e hyp ->
  length x = d -> same_dim d srcs -> representable rnd x -> evaluable safe x srcs -> 0 <= eps ->
  exists f, forcefield_sum_r rnd hyp d grav safe eps srcs x = Ok f /\ length f = d /\
  forall k, (k < d)%nat ->
    Rabs (nth k f 0 - nth k (direct_force d grav eps (others x srcs) x) 0) <=
    ((1 + u) ^ (length srcs + 4) / (if (d =? 2)%nat then (1 - u) ^ 5 else (1 - e) ^ 3 * (1 - u) ^ 6) - 1)
    * rsum (fun s => Rabs (force_on d grav eps s x k)) (others x srcs).
Proof.
  intros U E R N L SD X EV P.
  destruct (forcefield_sum_error rnd u U R hyp e E (norm_of_spec _ _ N) d grav safe eps srcs x L SD (opp_of_spec _ _ X) P EV) as (f & F1 & F2 & F3).
  exists f. split; [exact F1|]. split; [exact F2|]. intros k K. eapply Rle_trans; [exact (F3 k K)|]. right. f_equal. f_equal.
  unfold force_growth, den_lo. rewrite pow_add. unfold Rdiv. ring.
Qed.

(** *** At most a million sources in double precision *)
Lemma growth_bound u n : 0 <= u < 1 -> INR n * u < 1 -> (1 + u) ^ n <= / (1 - INR n * u).
Proof.
  intros U H. assert (B : 1 - INR n * u <= (1 - u) ^ n).
  { clear H. induction n as [|n IH]; [simpl; lra|]. rewrite S_INR. cbn [pow].
    assert (H0 := pow_le_1 (1 - u) n ltac:(lra)).
    assert (I := Rmult_le_compat_l u _ _ (proj1 U) (proj2 H0)). lra. }
  assert (P : 0 < 1 - INR n * u) by lra.
  apply (Rmult_le_reg_r (1 - INR n * u)); [exact P|]. rewrite Rinv_l by lra.
  apply Rle_trans with ((1 + u) ^ n * (1 - u) ^ n); [apply Rmult_le_compat_l; [apply pow_le; lra|exact B]|].
  rewrite <- Rpow_mult_distr. apply pow_le_1. nra.
Qed.
