(** Truncation bounds for the gradients of the expansions of the inverse distance. *)
From Coq Require Import Reals List Arith ZArith Lia Lra.
From Coquelicot Require Import Coquelicot.
From Verif Require Import Outcome Tables CAux TableProofs Tables3D Table3DProofs SolidHarmonics Zonal HarmonicBounds NewtonSeries Kernel3 KernelBounds3
  Exp2Forces Exp2ForceErrors Harmonics3D Gradient3 Exp3Loops Exp3Forces KernelGradient3.
Import ListNotations.
Local Open Scope R_scope.

Lemma pn_move w u t : pn u <= 1 -> 0 <= t -> pn (psub (padd w (pscal t u)) w) <= t.
Proof.
  intros Hu Ht. replace (psub (padd w (pscal t u)) w) with (pscal t u).
  - rewrite pn_scal, Rabs_pos_eq by assumption. pose proof (pn_nonneg u). nra.
  - unfold psub, padd, pscal, c1, c2, c3; cbn [fst snd]. f_equal; [f_equal|]; ring.
Qed.
Lemma padd_0 w u : padd w (pscal 0 u) = w.
Proof. destruct w as [[a b] c]. unfold padd, pscal, c1, c2, c3; cbn [fst snd]. f_equal; [f_equal|]; ring. Qed.
Lemma pn_move_le w u t : pn u <= 1 -> 0 <= t -> pn (padd w (pscal t u)) <= pn w + t.
Proof.
  intros Hu Ht. eapply Rle_trans; [apply pn_add|]. rewrite pn_scal, Rabs_pos_eq by assumption. pose proof (pn_nonneg u). nra.
Qed.
Lemma pn_move_ge w u t : pn u <= 1 -> 0 <= t -> pn w - t <= pn (padd w (pscal t u)).
Proof.
  intros Hu Ht. assert (H := pn_add (padd w (pscal t u)) (pscal (- t) u)).
  replace (padd (padd w (pscal t u)) (pscal (- t) u)) with w in H.
  - rewrite pn_scal, Rabs_Ropp, Rabs_pos_eq in H by assumption. pose proof (pn_nonneg u). nra.
  - destruct w as [[a b] c]. unfold padd, pscal, c1, c2, c3; cbn [fst snd]. f_equal; [f_equal|]; ring.
Qed.
Lemma dp3_line w u t : dp3 (fun s => padd w (pscal s u)) t u.
Proof.
  unfold dp3, padd, pscal, c1, c2, c3; cbn [fst snd].
  split; [|split]; (evar_last; [apply (is_derive_plus (K := R_AbsRing) (V := R_NormedModule)); [apply is_derive_const|apply (is_derive_scal_l (K := R_AbsRing) (V := R_NormedModule) (fun s : R => s)); apply is_derive_id]|]);
  unfold plus, zero, scal, one; cbn; unfold mult; cbn; ring.
Qed.

(** ** Two centers *)
Lemma osum_diff v w w' D Y M p Q : 0 < pn D -> pn v <= Y -> pn w <= M -> pn w' <= M -> M + Y < pn D ->
  Cmod (osum3 v w' D p Q - osum3 v w D p Q)%C <= pn (psub w' w) * gtrunc3_two Y M (pn D) p.
Proof.
  intros Hr Hv Hw Hw' HMY. assert (HM : 0 <= M) by (pose proof (pn_nonneg w); lra). assert (HY : 0 <= Y) by (pose proof (pn_nonneg v); lra).
  eapply Rle_trans; [|apply Rmult_le_compat_l; [apply pn_nonneg|apply (outside_diff (pn D) Y M p Q); assumption]].
  unfold osum3. rewrite <- lsum_minus, <- rsum_scal. eapply Rle_trans; [apply lsum_Cmod|]. apply rsum_le. intros n Hn. apply in_seq in Hn.
  rewrite <- lsum_minus, <- rsum_scal. eapply Rle_trans; [apply lsum_Cmod|].
  assert (D0 : forall j, 0 <= pn (psub w' w) * Dd (pn D) Y M n j) by (intros; apply Rmult_le_pos; [apply pn_nonneg|now apply Dd_nonneg]).
  replace (S Q) with (S (Q - n) + n)%nat by lia. rewrite (seq_app (S (Q - n))), rsum_app.
  match goal with |- ?a <= _ => rewrite <- (Rplus_0_r a) end. apply Rplus_le_compat.
  - apply rsum_le. intros j _. unfold out3. destruct (andb (n <=? p)%nat (j <=? p)%nat).
    + replace (RtoC 0 - RtoC 0)%C with (RtoC 0) by ring. rewrite Cmod_0. lra.
    + now apply kap3_diff.
  - apply rsum_nonneg. intros j _. destruct (andb (n <=? p)%nat (j <=? p)%nat); [lra|apply D0].
Qed.

Lemma gtrunc3_two_cont Y X r p : X + Y < r -> 0 <= Y -> 0 <= X -> continuous (fun t => gtrunc3_two Y (X + t) r p) 0.
Proof.
  intros H HY HX. apply (ex_derive_continuous (K := R_AbsRing) (V := R_NormedModule)). unfold gtrunc3_two.
  auto_derive. rewrite !Rplus_0_r. assert ((r - X - Y) * ((r - X - Y) * 1) <> 0) by nra. repeat split; try lra; try assumption.
Qed.

Theorem grad_two_at v w u D X Y p e : pn v <= Y -> pn w <= X -> pn u <= 1 -> X + Y < pn D ->
  is_derive (fun t => / pn (psub D (padd v (padd w (pscal t u)))) - Re (ksum3 v (padd w (pscal t u)) D p)) 0 e ->
  Rabs e <= gtrunc3_two Y X (pn D) p.
Proof.
  intros Hv Hw Hu HXY HE. set (r := pn D) in *.
  assert (HX : 0 <= X) by (pose proof (pn_nonneg w); lra). assert (HY : 0 <= Y) by (pose proof (pn_nonneg v); lra).
  pose proof (derive_le _ (fun t => gtrunc3_two Y (X + t) r p) e ((r - X - Y) / 2) ltac:(lra) HE) as G.
  cbv beta in G. rewrite Rplus_0_r in G. apply G; [|now apply gtrunc3_two_cont].
  clear G HE e. intros t Ht. apply le_epsilon. intros eps Heps.
  set (w' := padd w (pscal t u)). rewrite padd_0.
  assert (Hw' : pn w' <= X + t) by (unfold w'; pose proof (pn_move_le w u t Hu ltac:(lra)); lra).
  destruct (newton_out v w D p (eps / 2)) as [Q0 H0]; [fold r; lra|lra|].
  destruct (newton_out v w' D p (eps / 2)) as [Q1 H1]; [fold r; lra|lra|].
  set (Q := (Q0 + Q1)%nat). specialize (H0 Q ltac:(unfold Q; lia)). specialize (H1 Q ltac:(unfold Q; lia)).
  assert (HO := osum_diff v w w' D Y (X + t) p Q ltac:(fold r; lra) Hv ltac:(lra) Hw' ltac:(fold r; lra)). fold r in HO.
  assert (Hm : pn (psub w' w) <= t) by (unfold w'; apply pn_move; lra).
  assert (Gp : 0 <= gtrunc3_two Y (X + t) r p).
  { eapply Rle_trans; [|apply (outside_diff r Y (X + t) p 0); lra]. apply rsum_nonneg. intros n _. apply rsum_nonneg. intros j _.
    destruct (andb (n <=? p)%nat (j <=? p)%nat); [lra|]. apply Dd_nonneg; lra. }
  set (F1 := / pn (psub D (padd v w'))) in *. set (F0 := / pn (psub D (padd v w))) in *.
  set (K1 := ksum3 v w' D p) in *. set (K0 := ksum3 v w D p) in *. set (O1 := osum3 v w' D p Q) in *. set (O0 := osum3 v w D p Q) in *.
  replace (F1 - Re K1 - (F0 - Re K0)) with (Re (((RtoC F1 - (K1 + O1)) - (RtoC F0 - (K0 + O0)) + (O1 - O0))%C)) by (unfold Re; simpl; ring).
  eapply Rle_trans; [apply Re_le_Cmod|]. eapply Rle_trans; [apply Cmod_triangle|].
  assert (A : Cmod ((RtoC F1 - (K1 + O1)) - (RtoC F0 - (K0 + O0)))%C <= eps / 2 + eps / 2).
  { unfold Cminus at 1. eapply Rle_trans; [apply Cmod_triangle|]. rewrite Cmod_opp. lra. }
  assert (B : pn (psub w' w) * gtrunc3_two Y (X + t) r p <= t * gtrunc3_two Y (X + t) r p) by (apply Rmult_le_compat_r; assumption). lra.
Qed.

(** ** One center *)
Lemma newton_lim w D eps : pn w < pn D -> 0 < eps ->
  exists Q0, forall Q, (Q0 <= Q)%nat -> Cmod (RtoC (/ pn (psub D w)) - lsum (fun n => Tn w n D) (seq 0 (S Q)))%C <= eps.
Proof.
  intros Hw Heps. set (r := pn D) in *. destruct (polar_of D) as (th & ph & ED). fold r in ED.
  assert (Hr : 0 < r) by (pose proof (pn_nonneg w); lra).
  set (rho := pn w / r).
  assert (Hrho : 0 <= rho < 1).
  { unfold rho. split; [apply Rmult_le_pos; [apply pn_nonneg|left; now apply Rinv_0_lt_compat]|].
    apply Rmult_lt_reg_r with r; [assumption|]. unfold Rdiv. rewrite Rmult_assoc, Rinv_l by lra. lra. }
  destruct (pow_lt_1_zero rho ltac:(rewrite Rabs_pos_eq; lra) (eps * (r - pn w)) ltac:(apply Rmult_lt_0_compat; lra)) as [N HN].
  exists N. intros Q HQ. pose proof (newton_one r th ph w Hr Hw Q) as N1. rewrite <- ED in N1. fold rho in N1.
  eapply Rle_trans; [exact N1|].
  specialize (HN (S Q) ltac:(lia)). rewrite Rabs_pos_eq in HN by (apply pow_le; lra).
  apply Rmult_le_reg_r with (r - pn w); [lra|]. unfold Rdiv. rewrite Rmult_assoc, Rinv_l by lra. lra.
Qed.

Lemma Tn_diff y X u a t n : pn y <= a -> pn u <= 1 -> 0 < t < pn X ->
  Rabs (Re (Tn y n (padd X (pscal t u))) - Re (Tn y n X)) <= t * (INR (n + 1) * a ^ n / (pn X - t) ^ (n + 2)).
Proof.
  intros Hy Hu Ht. set (g := fun s => padd X (pscal s u)). set (r := pn X) in *.
  assert (Hn := pn_nonneg u). assert (Hyn := pn_nonneg y).
  assert (Hg : forall s, 0 <= s <= t -> r - t <= pn (g s)) by (intros s Hs; pose proof (pn_move_ge X u s Hu ltac:(lra)); unfold g, r; lra).
  assert (HD : forall s, 0 <= s <= t -> is_derive (fun s => Re (Tn y n (g s))) s (Re (dTn y u n (g s)))).
  { intros s Hs. apply (Tn_derive y g s u n (dp3_line X u s)). specialize (Hg s Hs). lra. }
  destruct (MVT_gen (fun s => Re (Tn y n (g s))) 0 t (fun s => Re (dTn y u n (g s)))) as (s & Hs & E).
  - intros s Hs. rewrite Rmin_left, Rmax_right in Hs by lra. apply HD. lra.
  - intros s Hs. rewrite Rmin_left, Rmax_right in Hs by lra. apply derivable_continuous_pt. eexists. apply is_derive_Reals. apply HD. lra.
  - rewrite Rmin_left, Rmax_right in Hs by lra. specialize (Hg s Hs). unfold g in E at 2. rewrite padd_0 in E. fold (g t). rewrite E, Rminus_0_r, Rabs_mult, (Rabs_pos_eq t) by lra.
    rewrite Rmult_comm. apply Rmult_le_compat_l; [lra|]. eapply Rle_trans; [apply Re_le_Cmod|]. eapply Rle_trans; [apply dTn_bound; lra|].
    unfold Rdiv. apply Rmult_le_compat.
    + apply Rmult_le_pos; [apply Rmult_le_pos; [apply pos_INR|now apply pow_le]|assumption].
    + left. apply Rinv_0_lt_compat, pow_lt. lra.
    + rewrite <- (Rmult_1_r (INR (n + 1) * a ^ n)). apply Rmult_le_compat; try assumption.
      * apply Rmult_le_pos; [apply pos_INR|now apply pow_le].
      * apply Rmult_le_compat_l; [apply pos_INR|]. apply pow_incr. lra.
    + apply Rinv_le_contravar; [apply pow_lt; lra|]. apply pow_incr. lra.
Qed.

Definition gtrunc3 (a r : R) (p : nat) : R := INR (p + 2) * (a / r) ^ S p / (r - a) ^ 2.
Lemma one_tail a r p k : 0 <= a < r -> rsum (fun n => INR (n + 1) * a ^ n / r ^ (n + 2)) (seq (S p) k) <= gtrunc3 a r p.
Proof.
  intros H. assert (Hp : forall k, 0 < r ^ k) by (intros; apply pow_lt; lra).
  assert (Hu : 0 <= a / r < 1).
  { split; [apply Rmult_le_pos; [lra|left; apply Rinv_0_lt_compat; lra]|].
    apply Rmult_lt_reg_r with r; [lra|]. unfold Rdiv. rewrite Rmult_assoc, Rinv_l by lra. lra. }
  pose proof (tail2 (a / r) (S p) (S p + k) Hu) as T. rewrite seq_app, rsum_app in T. rewrite (rsum_ext _ (fun _ => 0) (seq 0 (S p))) in T
    by (intros n Hn; apply in_seq in Hn; destruct (Nat.ltb_spec n (S p)); [reflexivity|lia]).
  rewrite rsum_zero, Rplus_0_l in T.
  rewrite (rsum_ext _ (fun n => / r ^ 2 * (if (n <? S p)%nat then 0 else INR (n + 1) * (a / r) ^ n))).
  - rewrite rsum_scal. eapply Rle_trans; [apply Rmult_le_compat_l; [left; apply Rinv_0_lt_compat, Hp|exact T]|].
    right. unfold gtrunc3. replace (S p + 1)%nat with (p + 2)%nat by lia. replace (1 - a / r) with ((r - a) / r) by (field; lra). field. lra.
  - intros n Hn. apply in_seq in Hn. destruct (Nat.ltb_spec n (S p)); [lia|]. unfold Rdiv. rewrite Rpow_mult_distr, pow_inv, pow_add.
    field. split; [apply Rgt_not_eq, Hp|lra].
Qed.
Lemma Re_lsum {A} (f : A -> C) l : Re (lsum f l) = rsum (fun a => Re (f a)) l.
Proof. induction l as [|a l IH]; [reflexivity|]. rewrite lsum_cons, rsum_cons, <- IH. reflexivity. Qed.

Theorem grad_one_at y X u a p e : pn y <= a -> a < pn X -> pn u <= 1 ->
  is_derive (fun t => / pn (psub (padd X (pscal t u)) y) - Re (lsum (fun n => Tn y n (padd X (pscal t u))) (seq 0 (S p)))) 0 e ->
  Rabs e <= gtrunc3 a (pn X) p.
Proof.
  intros Hy Ha Hu HE. set (r := pn X) in *. assert (Hyn := pn_nonneg y).
  pose proof (derive_le _ (fun t => gtrunc3 a (r - t) p) e ((r - a) / 2) ltac:(lra) HE) as G.
  cbv beta in G. rewrite Rminus_0_r in G. apply G; clear G HE e.
  2:{ apply (ex_derive_continuous (K := R_AbsRing) (V := R_NormedModule)). unfold gtrunc3. auto_derive. rewrite ?Ropp_0, ?Rplus_0_r, ?Rminus_0_r.
      assert ((r - a) * ((r - a) * 1) <> 0) by nra. repeat split; try lra; try assumption. }
  intros t Ht. apply le_epsilon. intros eps Heps. set (X' := padd X (pscal t u)). rewrite padd_0.
  assert (HX' : r - t <= pn X') by (unfold X', r; apply pn_move_ge; lra).
  destruct (newton_lim y X (eps / 2)) as [Q0 H0]; [fold r; lra|lra|].
  destruct (newton_lim y X' (eps / 2)) as [Q1 H1]; [lra|lra|].
  set (k := (Q0 + Q1)%nat). specialize (H0 (p + k)%nat ltac:(unfold k; lia)). specialize (H1 (p + k)%nat ltac:(unfold k; lia)).
  replace (S (p + k)) with (S p + k)%nat in * by lia. rewrite seq_app, lsum_app in H0, H1. simpl (0 + S p)%nat in *.
  assert (HO : Rabs (Re (lsum (fun n => Tn y n X') (seq (S p) k)) - Re (lsum (fun n => Tn y n X) (seq (S p) k))) <= t * gtrunc3 a (r - t) p).
  { rewrite !Re_lsum, <- rsum_minus. eapply Rle_trans; [apply rsum_abs|].
    eapply Rle_trans; [|apply Rmult_le_compat_l; [lra|apply (one_tail a (r - t) p k); lra]]. rewrite <- rsum_scal. apply rsum_le. intros n _.
    apply Tn_diff; try assumption. fold r. lra. }
  set (F1 := / pn (psub X' y)) in *. set (F0 := / pn (psub X y)) in *.
  set (K1 := lsum (fun n => Tn y n X') (seq 0 (S p))) in *. set (K0 := lsum (fun n => Tn y n X) (seq 0 (S p))) in *.
  set (O1 := lsum (fun n => Tn y n X') (seq (S p) k)) in *. set (O0 := lsum (fun n => Tn y n X) (seq (S p) k)) in *.
  replace (F1 - Re K1 - (F0 - Re K0)) with (Re ((RtoC F1 - (K1 + O1))%C) - Re ((RtoC F0 - (K0 + O0))%C) + (Re O1 - Re O0)) by (unfold Re; simpl; ring).
  eapply Rle_trans; [apply Rabs_triang|]. eapply Rle_trans; [apply Rplus_le_compat_r; unfold Rminus; apply Rabs_triang|]. rewrite Rabs_Ropp.
  pose proof (Re_le_Cmod (RtoC F1 - (K1 + O1))%C). pose proof (Re_le_Cmod (RtoC F0 - (K0 + O0))%C). lra.
Qed.
