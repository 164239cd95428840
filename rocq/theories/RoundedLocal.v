(** Rounding errors of the two-dimensional expansions: local expansions. *)
From Coq Require Import Reals List Arith Lra Lia.
From Coquelicot Require Import Complex.
From Verif Require Import Num Outcome Vec Tables CAux TableProofs Expansion2D Exp2Proofs M2LError Exp2Local Fields FieldSpec
  RoundedExpansion2D RoundedComplexSpec ApproxC RoundedSeries.
Import ListNotations.
Local Open Scope R_scope.
Arguments Cmod x%C.
Arguments Re z%C.
Arguments Im z%C.
Arguments ap w n%nat x'%C x%C X%R.
Arguments re z%C.
Arguments Cpow z%C n%nat.
Arguments peval cs z%C.
Arguments dpeval cs z%C.
Arguments hshift s%C cs.
Arguments sweep s%C cs.

(** ** Real polynomials *)
Fixpoint pevalR (cs : list R) (r : R) : R := match cs with [] => 0 | a :: l => a + r * pevalR l r end.
Fixpoint sweepR (t : R) (cs : list R) : list R :=
  match cs with [] => [] | a :: l => match l with [] => [a] | b :: _ => (a + t * b) :: sweepR t l end end.
Fixpoint hshiftR (t : R) (cs : list R) : list R := match cs with [] => [] | a :: l => sweepR t (a :: hshiftR t l) end.
Lemma pevalR_sweep t r cs : pevalR (sweepR t cs) r = pevalR cs r + t * pevalR (tl cs) r.
Proof.
  induction cs as [|a l IH]; [cbn; ring|]. destruct l as [|b l]; [cbn; ring|]. cbn [sweepR pevalR] in *. rewrite IH. cbn [tl pevalR]. ring.
Qed.
Lemma pevalR_hshift t r cs : pevalR (hshiftR t cs) r = pevalR cs (r + t).
Proof. induction cs as [|a l IH]; [reflexivity|]. cbn [hshiftR]. rewrite pevalR_sweep. cbn [tl pevalR]. rewrite IH. ring. Qed.
Lemma pevalR_add a : forall b r, length a = length b -> pevalR (map2 Rplus a b) r = pevalR a r + pevalR b r.
Proof.
  induction a as [|x a IH]; intros [|y b] r H; cbn in H; try discriminate; cbn; [ring|]. unfold map2 in IH. rewrite IH by congruence. ring.
Qed.
Lemma pevalR_zero n r : pevalR (repeat 0 n) r = 0.
Proof. induction n as [|n IH]; cbn; [reflexivity|]. rewrite IH. ring. Qed.
Lemma pevalR_map_seq f r n : forall j, r ^ j * pevalR (map f (seq j n)) r = rsum (fun k => f k * r ^ k) (seq j n).
Proof.
  induction n as [|n IH]; intros j; cbn [seq map pevalR rsum fold_right]; [ring|]. specialize (IH (S j)). unfold rsum in *. rewrite <- IH. cbn. ring.
Qed.
Lemma pevalR_cons_seq x f r n : pevalR (x :: map f (seq 1 n)) r = x + rsum (fun k => f k * r ^ k) (seq 1 n).
Proof. cbn [pevalR]. rewrite <- pevalR_map_seq. cbn. ring. Qed.

(** Derivatives of real polynomials. *)
Fixpoint dpevalR (cs : list R) (r : R) : R := match cs with [] => 0 | _ :: l => pevalR l r + r * dpevalR l r end.
Lemma dpevalR_sweep t r cs : dpevalR (sweepR t cs) r = dpevalR cs r + t * dpevalR (tl cs) r.
Proof.
  induction cs as [|a l IH]; [cbn; ring|]. destruct l as [|b l]; [cbn; ring|].
  change (sweepR t (a :: b :: l)) with ((a + t * b) :: sweepR t (b :: l)). change (dpevalR ((a + t * b) :: sweepR t (b :: l)) r) with (pevalR (sweepR t (b :: l)) r + r * dpevalR (sweepR t (b :: l)) r).
  rewrite pevalR_sweep, IH. cbn [tl dpevalR pevalR]. ring.
Qed.
Lemma dpevalR_hshift t r cs : dpevalR (hshiftR t cs) r = dpevalR cs (r + t).
Proof. induction cs as [|a l IH]; [reflexivity|]. cbn [hshiftR]. rewrite dpevalR_sweep. cbn [tl dpevalR]. rewrite IH, pevalR_hshift. ring. Qed.
Lemma dpevalR_add a : forall b r, length a = length b -> dpevalR (map2 Rplus a b) r = dpevalR a r + dpevalR b r.
Proof.
  induction a as [|x a IH]; intros [|y b] r H; cbn in H; try discriminate; [cbn; ring|]. change (map2 Rplus (x :: a) (y :: b)) with ((x + y) :: map2 Rplus a b). cbn [dpevalR].
  rewrite IH, pevalR_add by congruence. ring.
Qed.
Lemma dpevalR_zero n r : dpevalR (repeat 0 n) r = 0.
Proof. induction n as [|n IH]; cbn; [reflexivity|]. rewrite IH, pevalR_zero. ring. Qed.
Lemma dpevalR_map_seq f r n : forall j,
  r ^ j * (INR j * pevalR (map f (seq j n)) r + r * dpevalR (map f (seq j n)) r) = rsum (fun k => INR k * f k * r ^ k) (seq j n).
Proof.
  induction n as [|n IH]; intros j; cbn [seq map pevalR dpevalR rsum fold_right]; [ring|]. specialize (IH (S j)). unfold rsum in *. rewrite <- IH. rewrite S_INR. cbn [pow]. ring.
Qed.
Lemma dpevalR_cons_seq x f r n : r * dpevalR (x :: map f (seq 1 n)) r = rsum (fun k => INR k * f k * r ^ k) (seq 1 n).
Proof. cbn [dpevalR]. rewrite <- dpevalR_map_seq. cbn [INR pow]. ring. Qed.

(** Partial sums of the logarithmic series. *)
Lemma geom_bound t n : 0 <= t < 1 -> rsum (fun k => t ^ k / INR k) (seq 1 n) <= t / (1 - t).
Proof.
  intros Ht. apply (Rle_trans _ (t * rsum (fun k => t ^ k) (seq 0 n))).
  - rewrite rsum_seq_shift, <- rsum_const_mul. apply rsum_le. intros k _. assert (1 <= INR (S k)) by (rewrite S_INR; pose proof (pos_INR k); lra).
    assert (0 <= t ^ k) by (apply pow_le; lra). cbn [pow]. assert (/ INR (S k) <= 1) by (rewrite <- Rinv_1; apply Rinv_le_contravar; lra).
    unfold Rdiv. assert (0 <= t * t ^ k) by (apply Rmult_le_pos; lra). nra.
  - pose proof (geom_R t n) as G. assert (0 <= t ^ n) by (apply pow_le; lra).
    assert (rsum (fun k => t ^ k) (seq 0 n) <= / (1 - t)).
    { apply (Rmult_le_reg_l (1 - t)); [lra|]. rewrite G, Rinv_r by lra. lra. }
    unfold Rdiv. apply Rmult_le_compat_l; lra.
Qed.

(** The shift by a general elementary operation. *)
Section Shift.
Variable f : C -> C -> C.
Fixpoint gsweep (cs : list C) : list C :=
  match cs with [] => [] | a :: r => match r with [] => [a] | b :: _ => f a b :: gsweep r end end.
Fixpoint ghshift (cs : list C) : list C := match cs with [] => [] | a :: r => gsweep (a :: ghshift r) end.
Lemma gsweep_length cs : length (gsweep cs) = length cs.
Proof. induction cs as [|a [|b r] IH]; simpl in *; auto. Qed.
Lemma ghshift_length cs : length (ghshift cs) = length cs.
Proof. induction cs as [|a r IH]; cbn [ghshift]; [reflexivity|]. rewrite gsweep_length. simpl. congruence. Qed.
Definition g_step (cs : list C) (k : nat) : outcome (list C) :=
  bind (of_option (nth_error cs k)) (fun a => bind (of_option (nth_error cs (k + 1)%nat)) (fun b => Ok (lset cs k (f a b)))).
Lemma g_step_cons a cs k : g_step (a :: cs) (S k) = omap (cons a) (g_step cs k).
Proof.
  unfold g_step, omap. cbn [nth_error Nat.add].
  destruct (nth_error cs k); cbn [of_option bind]; [|reflexivity].
  destruct (nth_error cs (k + 1)); cbn [of_option bind]; reflexivity.
Qed.
Lemma g_fold_cons a l : forall cs, ofold g_step (map S l) (a :: cs) = omap (cons a) (ofold g_step l cs).
Proof.
  induction l as [|k l IH]; intros cs; cbn [map ofold]; [reflexivity|].
  rewrite g_step_cons. unfold omap at 1 2. destruct (g_step cs k); cbn [bind]; try reflexivity. apply IH.
Qed.
Lemma g_sweep cs : ofold g_step (seq 0 (length cs - 1)) cs = Ok (gsweep cs).
Proof.
  induction cs as [|a r IH]; [reflexivity|]. destruct r as [|b r]; [reflexivity|].
  replace (length (a :: b :: r) - 1)%nat with (S (length (b :: r) - 1)) by (simpl; lia).
  cbn [seq ofold]. unfold g_step at 1. cbn [nth_error Nat.add of_option bind lset].
  rewrite <- seq_shift, g_fold_cons, IH. reflexivity.
Qed.
Lemma g_shift cs : cs <> [] ->
  ofold (fun cs1 j => ofold g_step (seq (length cs - 1 - j - 1) (length cs - 1 - (length cs - 1 - j - 1))) cs1) (seq 0 (length cs - 1)) cs = Ok (ghshift cs).
Proof.
  induction cs as [|a r IH]; [congruence|]. intros _. destruct r as [|b r]; [reflexivity|].
  set (p := (length (b :: r) - 1)%nat).
  replace (length (a :: b :: r) - 1)%nat with (S p) by (subst p; simpl; lia).
  assert (Inner : forall l cs0, (forall j, In j l -> (j < p)%nat) ->
     ofold (fun cs1 j => ofold g_step (seq (S p - j - 1) (S p - (S p - j - 1))) cs1) l (a :: cs0)
     = omap (cons a) (ofold (fun cs1 j => ofold g_step (seq (p - j - 1) (p - (p - j - 1))) cs1) l cs0)).
  { intros l; induction l as [|j l IHl]; intros cs0 Hj; [reflexivity|].
    cbn [ofold]. assert (j < p)%nat by (apply Hj; left; reflexivity).
    replace (seq (S p - j - 1) (S p - (S p - j - 1))) with (map S (seq (p - j - 1) (p - (p - j - 1)))).
    2:{ rewrite seq_shift. f_equal; lia. }
    rewrite g_fold_cons. unfold omap at 1 2.
    destruct (ofold g_step (seq (p - j - 1) (p - (p - j - 1))) cs0); cbn [bind]; try reflexivity.
    apply IHl. intros i Hi. apply Hj. right; exact Hi. }
  rewrite seq_S, ofold_app, Inner by (intros j Hj; apply in_seq in Hj; lia).
  specialize (IH ltac:(discriminate)). fold p in IH. rewrite IH. cbn [omap bind ofold Nat.add].
  replace (S p - p - 1)%nat with 0%nat by lia. rewrite Nat.sub_0_r.
  pose proof (g_sweep (a :: ghshift (b :: r))) as H. cbn [length] in H. rewrite ghshift_length in H.
  replace (S (length (b :: r)) - 1)%nat with (S p) in H by (subst p; simpl; lia).
  rewrite H. reflexivity.
Qed.
End Shift.

Section Local.
Variable w : R.
Hypothesis Hw : 0 <= w <= 1 / 2.
Variable A : carith.
Hypothesis HA : accurate_complex w A.
Variable p : nat.
Hypothesis Hp1 : (1 <= p)%nat.
Notation ap := (ap w).

(** Approximation of lists; of the first coefficient only the real part matters. *)
Fixpoint apl (n : nat) (cs' cs : list C) (Bs : list R) : Prop :=
  match cs', cs, Bs with
  | [], [], [] => True
  | a' :: r', a :: r, X :: L => ap n a' a X /\ apl n r' r L
  | _, _, _ => False
  end.
Definition aplr (n : nat) (cs' cs : list C) (Bs : list R) : Prop :=
  match cs', cs, Bs with
  | a' :: r', a :: r, X :: L => ap n (re a') (re a) X /\ apl n r' r L
  | _, _, _ => False
  end.
Lemma apl_len n cs' : forall cs Bs, apl n cs' cs Bs -> length cs = length cs' /\ length Bs = length cs'.
Proof.
  induction cs' as [|a' r' IH]; intros [|a r] [|X L] H; cbn in H; try contradiction; [split; reflexivity|]. destruct H as [_ H]. apply IH in H. cbn. lia.
Qed.
Lemma aplr_len n cs' cs Bs : aplr n cs' cs Bs -> length cs = length cs' /\ length Bs = length cs'.
Proof. destruct cs' as [|a' r'], cs as [|a r], Bs as [|X L]; cbn; try contradiction. intros [_ H]. apply apl_len in H. lia. Qed.
Lemma apl_le n m cs' : (n <= m)%nat -> forall cs Bs, apl n cs' cs Bs -> apl m cs' cs Bs.
Proof.
  intros L. induction cs' as [|a' r' IH]; intros [|a r] [|X B] H; cbn in H |- *; try contradiction; [exact I|].
  destruct H as [H1 H2]. split; [eapply ap_le; eassumption|apply IH; exact H2].
Qed.
Lemma aplr_le n m cs' cs Bs : (n <= m)%nat -> aplr n cs' cs Bs -> aplr m cs' cs Bs.
Proof.
  intros L. destruct cs' as [|a' r'], cs as [|a r], Bs as [|X B]; cbn; try contradiction. intros [H1 H2].
  split; [eapply ap_le; eassumption|eapply apl_le; eassumption].
Qed.
Lemma apl_nth n cs' : forall cs Bs, length cs = length cs' -> length Bs = length cs' ->
  (forall k, (k < length cs')%nat -> ap n (nthC k cs') (nthC k cs) (nth k Bs 0)) -> apl n cs' cs Bs.
Proof.
  induction cs' as [|a' r' IH]; intros [|a r] [|X L] H H' K; cbn in *; try lia; try exact I.
  split; [apply (K 0%nat); lia|]. apply IH; try lia. intros k Hk. apply (K (S k)). lia.
Qed.
Lemma apl_add n a' : forall a Xs b' b Ys, length b' = length a' -> apl n a' a Xs -> apl n b' b Ys ->
  apl (S n) (map2 (c_add A) a' b') (map2 Cplus a b) (map2 Rplus Xs Ys).
Proof.
  induction a' as [|x' a' IH]; intros [|x a] [|X Xs] [|y' b'] [|y b] [|Y Ys] L H K; cbn in L, H, K |- *; try contradiction; try discriminate; [exact I|].
  destruct H as [H1 H2], K as [K1 K2]. split; [apply (op_add w Hw A HA); assumption|]. apply (IH a Xs b' b Ys); try assumption. lia.
Qed.
Lemma aplr_add n a' a Xs b' b Ys : length b' = length a' -> aplr n a' a Xs -> aplr n b' b Ys ->
  aplr (S n) (map2 (c_add A) a' b') (map2 Cplus a b) (map2 Rplus Xs Ys).
Proof.
  destruct a' as [|x' a'], a as [|x a], Xs as [|X Xs], b' as [|y' b'], b as [|y b], Ys as [|Y Ys]; intros L H K; cbn in L, H, K |- *; try contradiction; try discriminate.
  destruct H as [H1 H2], K as [K1 K2]. split; [apply (op_add_re w Hw A HA); assumption|]. apply (apl_add n a' a Xs b' b Ys); try assumption. lia.
Qed.

(** ** Local expansions *)
Definition le_close (n : nat) (c : C) (bs : list C) (Bs : list R) (e : se2) : Prop :=
  se_ord e = p /\ se_ctr e = c /\ length (se_co e) = S p /\ aplr n (se_co e) bs Bs.
Lemma le_close_le n m c bs Bs e : le_close n c bs Bs e -> (n <= m)%nat -> le_close m c bs Bs e.
Proof. intros (H1 & H2 & H3 & H4) L. do 3 (split; [assumption|]). eapply aplr_le; eassumption. Qed.
Lemma le_close_len n c bs Bs e : le_close n c bs Bs e -> length bs = S p /\ length Bs = S p.
Proof. intros (H1 & H2 & H3 & H4). apply aplr_len in H4. lia. Qed.

Lemma apl_repeat n k : apl n (repeat (RtoC 0) k) (repeat (RtoC 0) k) (repeat 0 k).
Proof. induction k as [|k IH]; cbn; [exact I|]. split; [apply ap_zero; exact Hw|exact IH]. Qed.
Lemma zero_close n center : le_close n (cplx center) (repeat (RtoC 0) (S p)) (repeat 0 (S p)) (se_zero center p).
Proof.
  unfold le_close, se_zero; cbn [se_ord se_ctr se_co]. do 2 (split; [reflexivity|]). split; [apply repeat_length|]. cbn [repeat aplr].
  split; [apply ap_zero; exact Hw|apply apl_repeat].
Qed.
Lemma add_close n c e1 b1 B1 e2 b2 B2 : le_close n c b1 B1 e1 -> le_close n c b2 B2 e2 ->
  exists e, se_add_r A e1 e2 = Ok e /\ le_close (S n) c (map2 Cplus b1 b2) (map2 Rplus B1 B2) e.
Proof.
  intros (H1 & H2 & H3 & H4) (K1 & K2 & K3 & K4). unfold se_add_r. rewrite H3, K3, Nat.eqb_refl. cbn [negb].
  rewrite H2, K2. destruct (Ceq_dec c c) as [_|N]; [|congruence]. eexists. split; [reflexivity|].
  unfold le_close; cbn [se_ord se_ctr se_co]. do 2 (split; [assumption || reflexivity|]). split; [rewrite map2_length; lia|].
  apply aplr_add; [lia|assumption|assumption].
Qed.

(** ** Evaluation *)
Lemma pot_loop z' z r : ap 1 z' z r -> forall cs' cs Bs n m k pw res' res X, apl n cs' cs Bs -> ap k pw (Cpow z m) (r ^ m) -> forall N, (n + k + 2 * length cs' + 1 <= N)%nat ->
  ap N (re res') (re res) X ->
  ap (N + length cs') (re (le2_pot_loop_r A z' pw res' cs')) (re (res + Cpow z m * peval cs z)%C) (X + r ^ m * pevalR Bs r).
Proof.
  intros Z cs'. induction cs' as [|a' cs' IH]; intros [|a cs] [|Y Bs] n m k pw res' res X H P N HN HR; cbn in H; try contradiction.
  - cbn [le2_pot_loop_r peval pevalR length]. rewrite Cmult_0_r, Cplus_0_r, Rmult_0_r, Rplus_0_r, Nat.add_0_r. exact HR.
  - destruct H as [H1 H2]. cbn [le2_pot_loop_r peval pevalR length]. cbn [length] in HN.
    replace (N + S (length cs'))%nat with (S N + length cs')%nat by lia.
    eapply ap_eq; [eapply (IH cs Bs n (S m) (k + 2)%nat _ _ (res + a * Cpow z m)%C (X + Y * r ^ m) H2)|..].
    + eapply ap_eq; [eapply ap_le; [exact Hw|eapply (op_mul w Hw A HA); [exact P|exact Z]|lia]|cbn; ring|cbn; ring].
    + lia.
    + apply (op_add_re w Hw A HA); [exact HR|]. apply ap_re. eapply ap_le; [exact Hw|eapply (op_mul w Hw A HA); [exact H1|exact P]|lia].
    + f_equal. cbn [Cpow]. ring.
    + cbn. ring.
Qed.
Theorem lpot_close n c bs Bs e x r : le_close n c bs Bs e -> Cmod (cplx x - c) <= r ->
  ap (n + 3 * p + 4) (RtoC (le2_pot_r A e x)) (RtoC (Re (peval bs (cplx x - c)))) (pevalR Bs r).
Proof.
  intros (H1 & H2 & H3 & H4) Hr. unfold le2_pot_r. rewrite H2. set (z' := c_sub A (cplx x) c).
  assert (Z : ap 1 z' (cplx x - c) r) by (apply close_ap; [exact Hw|apply (op_diff w Hw A HA)|exact Hr]).
  destruct (se_co e) as [|a' cs']; [discriminate|]. destruct bs as [|a cs]; [contradiction|]. destruct Bs as [|X Bs]; [contradiction|]. cbn in H4. destruct H4 as [H4 H5].
  cbn [length] in H3. cbn [le2_pot_loop_r peval pevalR].
  assert (P1 : ap 2 (c_mul A (RtoC 1) z') (Cpow (cplx x - c) 1) (r ^ 1)).
  { eapply ap_eq; [eapply (op_mul w Hw A HA 0 1); [apply (ap_exact w Hw 0 (RtoC 1) 1); rewrite Cmod_1; lra|exact Z]| |]; cbn; ring. }
  assert (B := pot_loop z' (cplx x - c)%C r Z cs' cs Bs n 1 2 _ (c_add A (RtoC 0) (c_mul A a' (RtoC 1))) (RtoC 0 + a * RtoC 1)%C (0 + X) H5 P1 (n + 2 * p + 3)%nat ltac:(lia)).
  assert (R0 : ap (n + 2 * p + 3) (re (c_add A (RtoC 0) (c_mul A a' (RtoC 1)))) (re (RtoC 0 + a * RtoC 1)%C) (0 + X)).
  { eapply ap_le; [exact Hw|apply (op_add_re w Hw A HA (S n)); [apply ap_zero; exact Hw|apply (op_mul_one_re w Hw A HA); exact H4]|lia]. }
  specialize (B R0). eapply ap_eq; [eapply ap_le; [exact Hw|exact B|lia]|..].
  - unfold re. f_equal. f_equal. cbn [Cpow]. ring.
  - cbn. ring.
Qed.

Lemma force_loop z' z r : ap 1 z' z r -> forall cs' cs Bs n m k j pw res' res X, apl n cs' cs Bs -> ap k pw (Cpow z m) (r ^ m) -> forall N, (n + k + 2 * length cs' + 2 <= N)%nat ->
  ap N res' res X ->
  ap (N + length cs') (le2_force_loop_r A z' pw res' j cs') (res + Cpow z m * (RtoC (INR j) * peval cs z + z * dpeval cs z))%C
    (X + r ^ m * (INR j * pevalR Bs r + r * dpevalR Bs r)).
Proof.
  intros Z cs'. induction cs' as [|a' cs' IH]; intros [|a cs] [|Y Bs] n m k j pw res' res X H P N HN HR; cbn in H; try contradiction.
  - cbn [le2_force_loop_r peval dpeval pevalR dpevalR length]. rewrite Nat.add_0_r. eapply ap_eq; [exact HR|ring|ring].
  - destruct H as [H1 H2]. cbn [le2_force_loop_r peval dpeval pevalR dpevalR length]. cbn [length] in HN.
    replace (N + S (length cs'))%nat with (S N + length cs')%nat by lia.
    eapply ap_eq; [eapply (IH cs Bs n (S m) (k + 2)%nat (S j) _ _ (res + RtoC (INR j) * a * Cpow z m)%C (X + INR j * Y * r ^ m) H2)|..].
    + eapply ap_eq; [eapply ap_le; [exact Hw|eapply (op_mul w Hw A HA); [exact P|exact Z]|lia]|cbn; ring|cbn; ring].
    + lia.
    + apply (op_add w Hw A HA); [exact HR|]. eapply ap_eq; [eapply ap_le; [exact Hw|eapply (op_mul w Hw A HA); [eapply (op_scale w Hw A HA); exact H1|exact P]|lia]|reflexivity|].
      rewrite Rabs_pos_eq by apply pos_INR. reflexivity.
    + rewrite S_INR, RtoC_plus. cbn [Cpow]. ring.
    + rewrite S_INR. cbn [pow]. ring.
Qed.
Theorem lforce_close n c bs Bs e x r : le_close n c bs Bs e -> Cmod (cplx x - c) <= r ->
  exists v, le2_force_r A e x = [- Re v; Im v] /\ ap (n + 3 * p + 2) v (dpeval bs (cplx x - c)) (dpevalR Bs r).
Proof.
  intros (H1 & H2 & H3 & H4) Hr. unfold le2_force_r. rewrite H2. set (z' := c_sub A (cplx x) c).
  assert (Z : ap 1 z' (cplx x - c) r) by (apply close_ap; [exact Hw|apply (op_diff w Hw A HA)|exact Hr]).
  destruct (se_co e) as [|a' cs']; [discriminate|]. destruct bs as [|a cs]; [contradiction|]. destruct Bs as [|X Bs]; [contradiction|]. cbn in H4. destruct H4 as [H4 H5].
  cbn [length] in H3. cbn [tl dpeval dpevalR]. eexists. split; [reflexivity|].
  assert (P1 : ap 0 (RtoC 1) (Cpow (cplx x - c) 0) (r ^ 0)) by (apply (ap_exact w Hw); cbn [Cpow pow]; rewrite Cmod_1; lra).
  assert (B := force_loop z' (cplx x - c)%C r Z cs' cs Bs n 0 0 1 _ (RtoC 0) (RtoC 0) 0 H5 P1 (n + 2 * p + 2)%nat ltac:(lia) (ap_zero w Hw _)).
  eapply ap_eq; [eapply ap_le; [exact Hw|exact B|lia]|..]; cbn [Cpow pow INR]; ring.
Qed.

(** ** Shift *)
Lemma sweep_ap s' s t : ap 1 s' s t -> forall cs' cs Bs n, apl n cs' cs Bs ->
  apl (n + 3) (gsweep (fun a b => c_sub A a (c_mul A s' b)) cs') (sweep s cs) (sweepR t Bs).
Proof.
  intros HS cs'. induction cs' as [|a' cs' IH]; intros [|a cs] [|X Bs] n H; cbn in H; try contradiction; [exact I|]. destruct H as [H1 H2].
  specialize (IH cs Bs n H2). destruct cs' as [|b' cs'], cs as [|b cs], Bs as [|Y Bs]; cbn in H2; try contradiction.
  - cbn. split; [eapply ap_le; [exact Hw|exact H1|lia]|exact I].
  - destruct H2 as [H2 H3]. cbn [gsweep sweep sweepR]. split; [|exact IH].
    eapply ap_le; [exact Hw|eapply (op_sub w Hw A HA (n + 2)); [eapply ap_le; [exact Hw|exact H1|lia]|]|lia].
    eapply ap_le; [exact Hw|eapply (op_mul w Hw A HA); [exact HS|exact H2]|lia].
Qed.
Lemma hshift_ap s' s t : ap 1 s' s t -> forall cs' cs Bs n, apl n cs' cs Bs ->
  apl (n + 3 * length cs') (ghshift (fun a b => c_sub A a (c_mul A s' b)) cs') (hshift s cs) (hshiftR t Bs).
Proof.
  intros HS cs'. induction cs' as [|a' cs' IH]; intros [|a cs] [|X Bs] n H; cbn in H; try contradiction; [exact I|]. destruct H as [H1 H2].
  cbn [ghshift hshift hshiftR length]. replace (n + 3 * S (length cs'))%nat with (n + 3 * length cs' + 3)%nat by lia.
  apply (sweep_ap s' s t HS). split; [eapply ap_le; [exact Hw|exact H1|lia]|]. apply IH. exact H2.
Qed.
Theorem l2l_close tb n c center bs Bs e t : (p <= bt_max tb)%nat -> le_close n c bs Bs e -> Cmod (c - cplx center) <= t ->
  exists e', le2_l2l_r A tb center e = Ok (e', tb) /\ le_close (n + 3 * p + 3) (cplx center) (hshift (c - cplx center) bs) (hshiftR t Bs) e'.
Proof.
  intros HT (H1 & H2 & H3 & H4) Ht. unfold le2_l2l_r. rewrite H1, H2, se_table_id by exact HT. destruct (Nat.eqb_spec p 0); [lia|].
  set (s' := c_sub A c (cplx center)).
  assert (HS : ap 1 s' (c - cplx center) t) by (apply close_ap; [exact Hw|apply (op_diff w Hw A HA)|exact Ht]).
  assert (E : le2_shift_r A e s' = Ok (ghshift (fun a b => c_sub A a (c_mul A s' b)) (se_co e))).
  { rewrite <- g_shift by (destruct (se_co e); discriminate). unfold le2_shift_r. rewrite H1, H3. replace (S p - 1)%nat with p by lia. reflexivity. }
  rewrite E. cbn [bind]. eexists. split; [reflexivity|]. unfold le_close; cbn [se_ord se_ctr se_co]. do 2 (split; [reflexivity|]).
  split; [rewrite ghshift_length; exact H3|].
  destruct (se_co e) as [|a' cs']; [discriminate|]. destruct bs as [|a cs]; [contradiction|]. destruct Bs as [|X Bs]; [contradiction|]. cbn in H4. destruct H4 as [H4 H5].
  cbn [length] in H3. assert (K := hshift_ap s' _ t HS _ _ _ _ H5). cbn [ghshift hshift hshiftR].
  set (h' := ghshift _ cs') in *. set (hh := hshift _ cs) in *. set (H := hshiftR t Bs) in *.
  replace (length cs') with p in K by lia.
  assert (K' := sweep_ap s' _ t HS _ _ _ _ K).
  destruct h' as [|b' h'], hh as [|b hh], H as [|Y H]; cbn in K; try contradiction.
  - cbn. split; [eapply ap_le; [exact Hw|exact H4|lia]|exact I].
  - destruct K as [K1 K2]. cbn [gsweep sweep sweepR aplr]. split; [|exact K'].
    eapply ap_le; [exact Hw|eapply (op_sub_re w Hw A HA (n + 3 * p + 2)); [eapply ap_le; [exact Hw|exact H4|lia]|]|lia].
    apply ap_re. eapply ap_le; [exact Hw|eapply (op_mul w Hw A HA); [exact HS|exact K1]|lia].
Qed.
End Local.
