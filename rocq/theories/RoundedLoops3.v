(** The loops of the three-dimensional expansions in rounded arithmetic. *)
From Coq Require Import Reals List Arith ZArith Lia Lra Psatz.
From Coquelicot Require Import Coquelicot.
From Verif Require Import Num Outcome Vec VecProofs Tables CAux TableProofs Tables3D Table3DProofs SolidHarmonics Zonal HarmonicBounds Kernel3 Spherical SphericalProofs Harmonics3D Fields
  Expansion3D Exp3Loops Exp3Proofs Exp3Errors HarmonicNorms ShiftGroup CoefNorms CoefBounds RoundedExpansion2D RoundedExpansion3D RoundedComplexSpec ApproxC RoundedHarmonicSpec RoundedHarmonics.
Import ListNotations.
Local Open Scope R_scope.
Arguments Cmod x%C.
Arguments close_norm w z'%C z%C.
Arguments ap w n%nat x'%C x%C X%R.

Lemma rsum_snoc {I} (f : I -> R) l a : rsum f (l ++ [a]) = rsum f l + f a.
Proof. rewrite rsum_app. cbn. ring. Qed.

Section Loops.
Variable w : R.
Hypothesis Hw : 0 <= w <= 1 / 2.
Variable ky : nat.
Variable A : harith.
Hypothesis HA : accurate_harmonics w ky A.
Notation ap := (ap w).
Notation rap := (rap w).
Notation B := (h_c A).
Let HB : accurate_complex w B := ah_c _ _ _ HA.
Notation rnd := (h_rnd A).
Variable p : Z.
Hypothesis Hp : (0 <= p)%Z.
Let P := Z.to_nat p.
Notation kk := (ky * (2 * Z.to_nat p + 1))%nat.

(** The computed vector [v'] stands for [V]. *)
Definition near (v' : list R) (V : P3) : Prop :=
  (1 - w) * (1 - w) * pn V <= h_norm A v' <= (1 + w) * (1 + w) * pn V /\
  exists d, pn d = 1 /\ V = pscal (pn V) d /\ forall l m, (Z.abs m <= l <= 2 * p)%Z -> ap (kk + 8 * Z.to_nat l) (h_ylm A v' l m) (Yr d l m) 1.
Lemma near_dif a b : length a = 3%nat -> length b = 3%nat -> near (vdif_r A a b) (p3 (vsub a b)).
Proof. intros Ha Hb. split; [apply (norm_range w Hw ky A HA); assumption|].
  destruct (dir_ap w Hw ky A HA a b Ha Hb) as (d & D1 & D2 & D3). exists d. split; [exact D1|]. split; [exact D2|]. intros l m Hl.
  eapply ap_weaken; [exact Hw|apply D3; lia| |apply Rle_refl]. apply Nat.add_le_mono_r, Nat.mul_le_mono_l. lia.
Qed.
Lemma near_rap v' V : near v' V -> rap 2 (h_norm A v') (pn V) (pn V).
Proof.
  intros [[L U] _]. assert (Pv := pn_nonneg V). split; [rewrite Cmod_R, Rabs_pos_eq; lra|]. rewrite <- RtoC_minus, Cmod_R. apply Rabs_le. cbn. nra.
Qed.
Lemma near_inv v' V : near v' V -> 0 < pn V -> exists ri, rquot_r A 1 (h_norm A v') = Ok ri /\ rap 5 ri (/ pn V) (/ pn V) /\
  forall n y x X, rap n y x X -> exists y', rquot_r A y (h_norm A v') = Ok y' /\ rap (n + 5) y' (x * / pn V) (X * / pn V).
Proof.
  intros [LU _] Hv. destruct (inv_rap w Hw _ _ Hv LU) as [NZ I].
  assert (G : forall n y x X, rap n y x X -> exists y', rquot_r A y (h_norm A v') = Ok y' /\ rap (n + 5) y' (x * / pn V) (X * / pn V)).
  { intros n y x X H. exists (rnd (y / h_norm A v')). split; [unfold rquot_r; destruct (Req_EM_T (h_norm A v') 0); [contradiction|reflexivity]|].
    replace (n + 5)%nat with (S (n + 4)) by lia. eapply rap_close; [exact Hw| |apply (ah_rnd _ _ _ HA)]. apply rap_mul; assumption. }
  destruct (G 0%nat 1 1 1 (rap_one w Hw)) as (ri & E & R). exists ri. split; [exact E|]. rewrite !Rmult_1_l in R. split; [exact R|exact G].
Qed.
(** Tables of powers. *)
Lemma gpow_rap c x' x n : 0 <= x -> rap c x' x x -> rap ((c + 1) * n) (gpow 1 (fun a b => rnd (a * b)) x' n) (x ^ n) (x ^ n).
Proof.
  intros Hx H. induction n as [|n IH]; [rewrite Nat.mul_0_r; apply (rap_one w Hw)|].
  cbn [gpow]. replace ((c + 1) * S n)%nat with (S ((c + 1) * n + c)) by lia. eapply rap_close; [exact Hw| |apply (ah_rnd _ _ _ HA)].
  replace (x ^ S n) with (x ^ n * x) by (cbn; ring). apply rap_mul; assumption.
Qed.
Lemma ptable x n m : (n <= m)%nat -> pow_get (pow_table 1 (fun a b => rnd (a * b)) x m) n = Ok (gpow 1 (fun a b => rnd (a * b)) x n).
Proof. apply pow_table_get. Qed.
(** Iterated quotients. *)
Lemma quot_iter v' V : near v' V -> 0 < pn V -> exists Rf, rquot_r A 1 (h_norm A v') = Ok (Rf 0%nat) /\
  (forall n, rquot_r A (Rf n) (h_norm A v') = Ok (Rf (S n))) /\ forall n, rap (5 * (n + 1)) (Rf n) (/ pn V * (/ pn V) ^ n) (/ pn V * (/ pn V) ^ n).
Proof.
  intros Hn Hv. destruct (near_inv _ _ Hn Hv) as (ri & E & R & G). assert (NZ : h_norm A v' <> 0) by (destruct Hn as [LU _]; apply (inv_rap w Hw _ _ Hv LU)).
  exists (fun n => Nat.iter n (fun y => rnd (y / h_norm A v')) ri).
  assert (Q : forall y, rquot_r A y (h_norm A v') = Ok (rnd (y / h_norm A v'))) by (intros y; unfold rquot_r; destruct (Req_EM_T (h_norm A v') 0); [contradiction|reflexivity]).
  split; [exact E|]. split; [intros n; apply Q|]. induction n as [|n IH].
  - cbn [Nat.iter pow]. rewrite Rmult_1_r. exact R.
  - destruct (G _ _ _ _ IH) as (y & Ey & Hy). rewrite Q in Ey. injection Ey as <-. cbn [Nat.iter].
    replace (5 * (S n + 1))%nat with (5 * (n + 1) + 5)%nat by lia. replace (/ pn V * (/ pn V) ^ S n) with (/ pn V * (/ pn V) ^ n * / pn V) by (cbn; ring). exact Hy.
Qed.

(** ** Sources *)
Lemma acc_source_r_ok q v r0 next (Rf : nat -> R) f : Rf 0%nat = r0 -> (forall n, next (Rf n) = Ok (Rf (S n))) ->
  acc_source_r A p q v r0 next (co_of p f) = Ok (co_of p (fun n m => c_add B (f n m) (c_scale B (rnd (q * Rf (Z.to_nat n))) (h_ylm A v n (- m)%Z)))).
Proof.
  intros H0 HN. unfold acc_source_r.
  set (g := fun n m => c_add B (f n m) (c_scale B (rnd (q * Rf (Z.to_nat n))) (h_ylm A v n (- m)%Z))).
  assert (Hlen : Z.of_nat (length (co_of p f)) = ((p + 1) * (p + 1))%Z) by (rewrite co_of_length; nia).
  match goal with |- omap fst (ofold ?F _ ?s0) = _ =>
    destruct (loop F 0 p (fun i st => length (fst st) = length (co_of p f) /\ snd st = Rf (Z.to_nat i) /\
      forall n m, (Z.abs m <= n)%Z -> (n <= p)%Z -> zget (fst st) (sh_index n m) = Ok (if (n <? i)%Z then g n m else f n m)) s0) as [st [E [L [_ H]]]] end.
  - lia.
  - cbn [fst snd]. split; [reflexivity|]. split; [symmetry; exact H0|]. intros n m Hm Hn. destruct (Z.ltb_spec n 0); [lia|]. now apply co_of_get.
  - intros n [t rp] Hn [L [Er Ht]]. cbn [fst snd] in *.
    match goal with |- exists s, bind (ofold ?F _ _) _ = _ /\ _ =>
      destruct (loop F (- n) n (fun i t' => length t' = length (co_of p f) /\
        forall n' m', (Z.abs m' <= n')%Z -> (n' <= p)%Z -> zget t' (sh_index n' m') = Ok (if orb (n' <? n)%Z (andb (n' =? n)%Z (m' <? i)%Z) then g n' m' else f n' m')) t) as [t2 [E2 [L2 H2]]] end.
    + lia.
    + split; [assumption|]. intros n' m' Hm' Hn'. rewrite Ht by assumption. f_equal.
      destruct (Z.ltb_spec n' n); [reflexivity|]. destruct (Z.eqb_spec n' n); [|reflexivity]. destruct (Z.ltb_spec m' (- n)); [lia|reflexivity].
    + intros m t1 Hm [L1 H1]. pose proof (sh_index_bound n m p ltac:(lia) ltac:(lia)) as Bd.
      rewrite H1 by lia. cbn [bind].
      rewrite zset_ok by (rewrite L1, Hlen; lia). eexists. split; [reflexivity|]. rewrite lset_length. split; [assumption|].
      intros n' m' Hm' Hn'. pose proof (sh_index_bound n' m' p ltac:(lia) ltac:(lia)) as B'.
      destruct (Z.eq_dec (sh_index n' m') (sh_index n m)) as [Ei|Ni].
      * rewrite Ei. rewrite zget_same by (rewrite L1, Hlen; lia). apply sh_index_inj in Ei; [|lia|lia]. destruct Ei as [-> ->].
        f_equal. destruct (Z.ltb_spec n n); [lia|]. rewrite Z.eqb_refl. destruct (Z.ltb_spec m m); [lia|]. destruct (Z.ltb_spec m (m + 1)); [|lia].
        cbn [orb andb]. unfold g. rewrite Er. reflexivity.
      * rewrite zget_other by lia. rewrite H1 by assumption. f_equal.
        destruct (Z.ltb_spec n' n); [reflexivity|]. destruct (Z.eqb_spec n' n) as [->|]; [|reflexivity].
        assert (m' <> m) by (intros ->; now apply Ni).
        destruct (Z.ltb_spec m' m); destruct (Z.ltb_spec m' (m + 1)); try lia; reflexivity.
    + rewrite E2. cbn [bind]. rewrite Er, HN. cbn [bind]. eexists. split; [reflexivity|]. cbn [fst snd]. split; [assumption|]. split.
      * replace (Z.to_nat (n + 1)) with (S (Z.to_nat n)) by lia. reflexivity.
      * intros n' m' Hm' Hn'. rewrite H2 by assumption. f_equal.
        destruct (Z.ltb_spec n' n); destruct (Z.ltb_spec n' (n + 1)); try lia; try reflexivity.
        -- assert (n' = n) as -> by lia. rewrite Z.eqb_refl. destruct (Z.ltb_spec m' (n + 1)); [reflexivity|lia].
        -- destruct (Z.eqb_spec n' n); [lia|reflexivity].
  - rewrite E. unfold omap. cbn [bind]. f_equal. apply co_unique; [assumption|rewrite L; now apply co_of_length|].
    intros n m Hm Hn. rewrite H by assumption. destruct (Z.ltb_spec n (p + 1)); [reflexivity|lia].
Qed.

(** The number of operations behind one coefficient. *)
Definition Nop : nat := (kk + 40 * Z.to_nat p + 40)%nat.

Lemma scaled_ap v' V x' x c n m : near v' V -> (Z.abs m <= n <= 2 * p)%Z -> rap c x' x (Rabs x) ->
  exists d, pn d = 1 /\ V = pscal (pn V) d /\ ap (c + kk + 8 * Z.to_nat n + 1) (c_scale B x' (h_ylm A v' n m)) (RtoC x * Yr d n m) (Rabs x).
Proof.
  intros (_ & d & D1 & D2 & D3) Hm H. exists d. split; [exact D1|]. split; [exact D2|]. eapply ap_weaken; [exact Hw|apply (op_scale_ap w Hw B HB); [exact H|apply D3; exact Hm]|lia|lra].
Qed.

Lemma me3_sources_r_ok c srcs : length c = 3%nat -> (forall s, In s srcs -> length (ps_pos s) = 3%nat) ->
  exists f, me3_sources_r A c p srcs = Ok (s3_of p c f) /\
    forall n m, (0 <= n <= p)%Z -> (Z.abs m <= n)%Z -> ap (Nop + length srcs) (f n m) (me_coef c srcs n m) (rsum (fun s => Rabs (ps_q s) * pn (rel s c) ^ Z.to_nat n) srcs).
Proof.
  intros Hc Hs. unfold me3_sources_r. rewrite zero_co by assumption. cbn [s3_co s3_of].
  match goal with |- exists f, bind (ofold ?F _ _) _ = _ /\ _ =>
    destruct (ofold_inv F (fun done co => exists f, co = co_of p f /\ forall n m, (0 <= n <= p)%Z -> (Z.abs m <= n)%Z ->
      ap (Nop + length done) (f n m) (me_coef c done n m) (rsum (fun s => Rabs (ps_q s) * pn (rel s c) ^ Z.to_nat n) done)) srcs (co_of p (fun _ _ => RtoC 0))) as [co [E [f [Ef H]]]] end.
  - exists (fun _ _ => RtoC 0). split; [reflexivity|]. intros n m _ _. apply ap_exact; [exact Hw|]. unfold me_coef, le_coef. rewrite lsum_nil, Cmod_0. apply Rle_refl.
  - intros done s co Hin [f [-> H]].
    assert (N := near_dif (ps_pos s) c (Hs s Hin) Hc). fold (rel s c) in N. set (v' := vdif_r A (ps_pos s) c) in *.
    rewrite (acc_source_r_ok _ _ _ _ (gpow 1 (fun a b => rnd (a * b)) (h_norm A v'))); [|reflexivity|reflexivity].
    eexists. split; [reflexivity|]. eexists. split; [reflexivity|]. cbv beta. intros n m Hn Hm. specialize (H n m Hn Hm).
    unfold me_coef. rewrite lsum_snoc, rsum_snoc, app_length. cbn [length]. replace (Nop + (length done + 1))%nat with (S (Nop + length done)) by lia.
    assert (Pr := pn_nonneg (rel s c)). assert (G := gpow_rap 2 _ _ (Z.to_nat n) Pr (near_rap _ _ N)). set (r := pn (rel s c)) in *.
    assert (Q : rap (3 * Z.to_nat n + 1) (rnd (ps_q s * gpow 1 (fun a b => rnd (a * b)) (h_norm A v') (Z.to_nat n))) (ps_q s * r ^ Z.to_nat n) (Rabs (ps_q s * r ^ Z.to_nat n))).
    { replace (3 * Z.to_nat n + 1)%nat with (S (0 + (2 + 1) * Z.to_nat n)) by lia. eapply rap_close; [exact Hw| |apply (ah_rnd _ _ _ HA)].
      rewrite Rabs_mult, (Rabs_pos_eq (r ^ Z.to_nat n)) by (apply pow_le; exact Pr). apply rap_mul; [apply (rap_exact w Hw); apply Rle_refl|exact G]. }
    destruct (scaled_ap v' (rel s c) _ _ _ n (- m)%Z N ltac:(lia) Q) as (d & D1 & D2 & D3).
    apply (op_add w Hw B HB); [exact H|]. eapply ap_weaken; [exact Hw| | |].
    + replace (RtoC (ps_q s) * Yr (rel s c) n (- m)%Z)%C with (RtoC (ps_q s * r ^ Z.to_nat n) * Yr d n (- m)%Z)%C; [exact D3|].
      rewrite D2, Yr_scal by lia. fold r. rewrite RtoC_mult. ring.
    + unfold Nop. lia.
    + rewrite Rabs_mult, (Rabs_pos_eq (r ^ Z.to_nat n)) by (apply pow_le; exact Pr). apply Rle_refl.
  - rewrite E. cbn [bind]. subst co. exists f. split; [reflexivity|exact H].
Qed.

Lemma le3_sources_r_ok c srcs : length c = 3%nat -> (forall s, In s srcs -> length (ps_pos s) = 3%nat /\ 0 < pn (rel s c)) ->
  exists f, le3_sources_r A c p srcs = Ok (s3_of p c f) /\
    forall n m, (0 <= n <= p)%Z -> (Z.abs m <= n)%Z -> ap (Nop + length srcs) (f n m) (le_coef c srcs n m) (rsum (fun s => Rabs (ps_q s) * (/ pn (rel s c) * (/ pn (rel s c)) ^ Z.to_nat n)) srcs).
Proof.
  intros Hc Hs. unfold le3_sources_r. rewrite zero_co by assumption. cbn [s3_co s3_of].
  match goal with |- exists f, bind (ofold ?F _ _) _ = _ /\ _ =>
    destruct (ofold_inv F (fun done co => exists f, co = co_of p f /\ forall n m, (0 <= n <= p)%Z -> (Z.abs m <= n)%Z ->
      ap (Nop + length done) (f n m) (le_coef c done n m) (rsum (fun s => Rabs (ps_q s) * (/ pn (rel s c) * (/ pn (rel s c)) ^ Z.to_nat n)) done)) srcs (co_of p (fun _ _ => RtoC 0))) as [co [E [f [Ef H]]]] end.
  - exists (fun _ _ => RtoC 0). split; [reflexivity|]. intros n m _ _. apply ap_exact; [exact Hw|]. unfold me_coef, le_coef. rewrite lsum_nil, Cmod_0. apply Rle_refl.
  - intros done s co Hin [f [-> H]]. destruct (Hs s Hin) as [Hl Hr].
    assert (N := near_dif (ps_pos s) c Hl Hc). fold (rel s c) in N. set (v' := vdif_r A (ps_pos s) c) in *.
    destruct (quot_iter _ _ N Hr) as (Rf & E0 & EN & G). rewrite E0. cbn [bind].
    rewrite (acc_source_r_ok _ _ _ _ Rf); [|reflexivity|exact EN].
    eexists. split; [reflexivity|]. eexists. split; [reflexivity|]. cbv beta. intros n m Hn Hm. specialize (H n m Hn Hm).
    unfold le_coef. rewrite lsum_snoc, rsum_snoc, app_length. cbn [length]. replace (Nop + (length done + 1))%nat with (S (Nop + length done)) by lia.
    specialize (G (Z.to_nat n)). set (r := pn (rel s c)) in *. set (gr := / r * (/ r) ^ Z.to_nat n) in *.
    assert (PI : 0 < / r) by (apply Rinv_0_lt_compat; exact Hr). assert (Pg : 0 <= gr) by (apply Rmult_le_pos; [lra|apply pow_le; lra]).
    assert (Q : rap (5 * (Z.to_nat n + 1) + 1) (rnd (ps_q s * Rf (Z.to_nat n))) (ps_q s * gr) (Rabs (ps_q s * gr))).
    { replace (5 * (Z.to_nat n + 1) + 1)%nat with (S (0 + 5 * (Z.to_nat n + 1))) by lia. eapply rap_close; [exact Hw| |apply (ah_rnd _ _ _ HA)].
      rewrite Rabs_mult, (Rabs_pos_eq gr) by exact Pg. apply rap_mul; [apply (rap_exact w Hw); apply Rle_refl|exact G]. }
    destruct (scaled_ap v' (rel s c) _ _ _ n (- m)%Z N ltac:(lia) Q) as (d & D1 & D2 & D3).
    apply (op_add w Hw B HB); [exact H|]. eapply ap_weaken; [exact Hw| | |].
    + match goal with |- ap _ _ ?t _ => replace t with (RtoC (ps_q s * gr) * Yr d n (- m)%Z)%C; [exact D3|] end.
      rewrite D2, Yr_scal by lia. fold r. unfold gr. rewrite pow_even_split by lra. rewrite !RtoC_mult. ring.
    + unfold Nop. lia.
    + rewrite Rabs_mult, (Rabs_pos_eq gr) by exact Pg. apply Rle_refl.
  - rewrite E. cbn [bind]. subst co. exists f. split; [reflexivity|exact H].
Qed.

(** ** Evaluation *)
Lemma zlen a b n : (b - a + 1 <= Z.of_nat n)%Z -> (length (zrange a b) <= n)%nat.
Proof. intros H. unfold zrange. rewrite map_length, seq_length. lia. Qed.
Lemma eval_sum_r_ok c f v' V (next : R -> outcome R) (Rf g : nat -> R) cc : near v' V -> (forall n, next (Rf n) = Ok (Rf (S n))) -> (forall n, 0 <= g n) ->
  (forall n, (n <= Z.to_nat p)%nat -> rap cc (Rf n) (g n) (g n)) -> (cc <= 6 * Z.to_nat p + 6)%nat ->
  exists y d, pn d = 1 /\ V = pscal (pn V) d /\ eval_sum_r A (s3_of p c f) v' (Rf 0%nat) next = Ok y /\
    ap (Nop + Z.to_nat ((p + 1) * (p + 1))) y (lsum2 (fun n m => f n m * (RtoC (g (Z.to_nat n)) * Yr d n m))%C p)
      (rsum (fun n => rsum (fun m => Cmod (f n m) * g (Z.to_nat n)) (zrange (- n) n)) (zrange 0 p)).
Proof.
  intros (_ & d & D1 & D2 & D3) HN Hg HR Hc. unfold eval_sum_r. cbn [s3_ord s3_of].
  set (h := fun n m => (f n m * (RtoC (g (Z.to_nat n)) * Yr d n m))%C). set (HS := fun n => rsum (fun m => Cmod (f n m) * g (Z.to_nat n)) (zrange (- n) n)).
  match goal with |- exists y d, _ /\ _ /\ omap fst (ofold ?F _ ?s0) = _ /\ _ =>
    destruct (loop F 0 p (fun i st => snd st = Rf (Z.to_nat i) /\ ap (Nop + Z.to_nat (i * i)) (fst st) (lsum2 h (i - 1)) (rsum HS (zrange 0 (i - 1)))) s0) as [st [E [_ H]]] end.
  - lia.
  - split; [reflexivity|]. cbn [fst]. apply ap_exact; [exact Hw|]. replace (lsum2 h (0 - 1)) with (RtoC 0) by reflexivity. rewrite Cmod_0. apply Rle_refl.
  - intros n [pot rp] Hn [Er Ep]. cbn [fst snd] in *.
    match goal with |- exists s, bind (ofold ?F ?L pot) _ = _ /\ _ =>
      destruct (loop_ap w Hw ky A HA F (h n) (fun m => Cmod (f n m) * g (Z.to_nat n)) Nop L (Nop + Z.to_nat (n * n)) pot _ _ Ep ltac:(lia)) as (y & Ey & Hy) end.
    + intros m acc Hm. apply in_zrange in Hm. fold (s3_of p c f). rewrite s3_of_get by lia. cbn [bind]. eexists. split; [reflexivity|].
      specialize (HR (Z.to_nat n) ltac:(lia)). rewrite Er. eapply ap_weaken; [exact Hw| | |].
      * unfold h. rewrite Cmult_assoc. apply (op_mul w Hw B HB); [|apply D3; lia]. rewrite (Cmult_comm (f n m)).
        apply (op_scale_ap w Hw B HB 0); [exact HR|]. apply ap_exact; [exact Hw|apply Rle_refl].
      * unfold Nop. lia.
      * rewrite Rmult_1_r, Rmult_comm. apply Rle_refl.
    + rewrite Ey. cbn [bind]. rewrite Er, HN. cbn [bind]. eexists. split; [reflexivity|]. cbn [fst snd]. split.
      * replace (Z.to_nat (n + 1)) with (S (Z.to_nat n)) by lia. reflexivity.
      * unfold lsum2. replace (n + 1 - 1)%Z with ((n - 1) + 1)%Z by lia. rewrite zrange_snoc by lia. rewrite lsum_snoc, rsum_snoc.
        replace (n - 1 + 1)%Z with n by lia. eapply ap_weaken; [exact Hw|exact Hy| |apply Rle_refl].
        assert (L := zlen (- n) n (Z.to_nat (2 * n + 1)) ltac:(lia)). nia.
  - exists (fst st), d. split; [exact D1|]. split; [exact D2|]. rewrite E. unfold omap. cbn [bind]. split; [reflexivity|].
    replace (p + 1 - 1)%Z with p in H by lia. exact H.
Qed.
Lemma re_close y x X n : ap n y x X -> Rabs (- fst y - - Re x) <= ((1 + w) ^ n - 1) * X.
Proof.
  intros [_ H]. eapply Rle_trans; [|exact H]. eapply Rle_trans; [|apply Re_le_Cmod]. rewrite <- Rabs_Ropp. right. f_equal. unfold Re. cbn. ring.
Qed.
Lemma le3_pot_r_ok c f x : length c = 3%nat -> length x = 3%nat -> let X := p3 (vsub x c) in
  exists y, le3_pot_r A (s3_of p c f) x = Ok y /\
    Rabs (y - - Re (lval3 p f X)) <= ((1 + w) ^ (Nop + Z.to_nat ((p + 1) * (p + 1))) - 1) *
      rsum (fun n => rsum (fun m => Cmod (f n m) * pn X ^ Z.to_nat n) (zrange (- n) n)) (zrange 0 p).
Proof.
  intros Hc Hx X. unfold le3_pot_r. cbn [s3_ctr s3_of]. assert (N := near_dif x c Hx Hc). fold X in N. set (v' := vdif_r A x c) in *.
  assert (PX := pn_nonneg X). assert (R := near_rap _ _ N).
  destruct (eval_sum_r_ok c f v' X (fun y => Ok (rnd (y * h_norm A v'))) (gpow 1 (fun a b => rnd (a * b)) (h_norm A v')) (fun n => pn X ^ n) (3 * Z.to_nat p) N) as (y & d & D1 & D2 & Ey & Hy).
  - reflexivity.
  - intros n. apply pow_le. exact PX.
  - intros n Hn. eapply (rap_weaken w Hw); [apply gpow_rap; [exact PX|exact R]|lia|apply Rle_refl].
  - lia.
  - cbn [gpow] in Ey. unfold s3_of in *. rewrite Ey. cbn [bind]. eexists. split; [reflexivity|].
    replace (lval3 p f X) with (lsum2 (fun n m => f n m * (RtoC (pn X ^ Z.to_nat n) * Yr d n m))%C p); [apply re_close; exact Hy|].
    unfold lval3. apply lsum2_ext. intros n m Hm Hn. rewrite D2 at 2. rewrite Yr_scal by lia. reflexivity.
Qed.
Lemma me3_pot_r_ok c f x : length c = 3%nat -> length x = 3%nat -> let X := p3 (vsub x c) in 0 < pn X ->
  exists y, me3_pot_r A (s3_of p c f) x = Ok y /\
    Rabs (y - - Re (mval3 p f X)) <= ((1 + w) ^ (Nop + Z.to_nat ((p + 1) * (p + 1))) - 1) *
      rsum (fun n => rsum (fun m => Cmod (f n m) * (/ pn X * (/ pn X) ^ Z.to_nat n)) (zrange (- n) n)) (zrange 0 p).
Proof.
  intros Hc Hx X HX. unfold me3_pot_r. cbn [s3_ctr s3_of]. assert (N := near_dif x c Hx Hc). fold X in N. set (v' := vdif_r A x c) in *.
  assert (PI : 0 < / pn X) by (apply Rinv_0_lt_compat; exact HX).
  destruct (quot_iter _ _ N HX) as (Rf & E0 & EN & G). rewrite E0. cbn [bind].
  destruct (eval_sum_r_ok c f v' X (fun y => rquot_r A y (h_norm A v')) Rf (fun n => / pn X * (/ pn X) ^ n) (5 * (Z.to_nat p + 1)) N) as (y & d & D1 & D2 & Ey & Hy).
  - exact EN.
  - intros n. apply Rmult_le_pos; [lra|apply pow_le; lra].
  - intros n Hn. eapply (rap_weaken w Hw); [apply G|lia|apply Rle_refl].
  - lia.
  - unfold s3_of in *. rewrite Ey. cbn [bind]. eexists. split; [reflexivity|].
    replace (mval3 p f X) with (lsum2 (fun n m => f n m * (RtoC (/ pn X * (/ pn X) ^ Z.to_nat n) * Yr d n m))%C p); [apply re_close; exact Hy|].
    unfold mval3. apply lsum2_ext. intros n m Hm Hn. rewrite D2 at 4. rewrite Yr_scal by lia. rewrite pow_even_split by lra. rewrite !RtoC_mult. ring.
Qed.

(** ** Translations *)
Lemma alm_rap tb n m : tb3_for tb p -> (Z.abs m <= n)%Z -> (n <= 2 * p)%Z -> exists a, alm_get_r A tb n m = Ok a /\ close w a (A_val n m).
Proof.
  intros Ht Hm Hn. unfold alm_get_r. rewrite (tb3_alm tb p) by assumption. cbn [bind]. eexists. split; [reflexivity|]. apply (ah_alm _ _ _ HA).
Qed.
Lemma close_nz a x : close w a x -> x <> 0 -> a <> 0.
Proof. intros H NZ ->. unfold close in H. rewrite Rminus_0_l, Rabs_Ropp in H. assert (0 < Rabs x) by (apply Rabs_pos_lt; exact NZ). nra. Qed.
Lemma quot_rap n x' x X a' a : rap n x' x X -> close w a' a -> a <> 0 -> exists y, rquot_r A x' a' = Ok y /\ rap (n + 3) y (x / a) (X / Rabs a).
Proof.
  intros H C NZ. assert (NZ' := close_nz _ _ C NZ). exists (rnd (x' / a')). split; [unfold rquot_r; destruct (Req_EM_T a' 0); [contradiction|reflexivity]|].
  unfold RoundedHarmonics.rap. rewrite RtoC_div by exact NZ. apply (ap_div w Hw n (RtoC x') (RtoC x) X (RtoC a') (RtoC a)); [exact H| | |].
  - unfold close_norm. rewrite <- RtoC_minus, !Cmod_R. exact C.
  - rewrite Cmod_R. split; [apply Rabs_pos_lt; exact NZ|apply Rle_refl].
  - unfold close_norm. rewrite <- RtoC_div by exact NZ'. rewrite <- RtoC_minus, !Cmod_R. apply (ah_rnd _ _ _ HA).
Qed.
Lemma sign_rap s z : RtoC s = ipow z -> rap 0 s s 1.
Proof. intros E. apply (rap_exact w Hw). rewrite <- Cmod_R, E, Cmod_ipow. apply Rle_refl. Qed.
Lemma rnd_rap n x' x X : rap n x' x X -> rap (S n) (rnd x') x X.
Proof. intros H. eapply rap_close; [exact Hw|exact H|apply (ah_rnd _ _ _ HA)]. Qed.
Lemma close_rap a x : close w a x -> rap 1 a x (Rabs x).
Proof. apply rap_close0. Qed.
Lemma coef_ap d Y' l m (z : C) : (forall l m, (Z.abs m <= l <= 2 * p)%Z -> ap (kk + 8 * Z.to_nat l) (Y' l m) (Yr d l m) 1) -> (Z.abs m <= l <= 2 * p)%Z ->
  ap (kk + 8 * Z.to_nat l + 1) (c_mul B z (Y' l m)) (z * Yr d l m) (Cmod z).
Proof.
  intros D Hm. eapply ap_weaken; [exact Hw|apply (op_mul w Hw B HB 0); [apply ap_exact; [exact Hw|apply Rle_refl]|apply D; exact Hm]|lia|lra].
Qed.
Lemma zero_ap n : ap n (RtoC 0) (RtoC 0) 0.
Proof. apply ap_exact; [exact Hw|]. rewrite Cmod_0. apply Rle_refl. Qed.

Definition m2m_size (f : Z -> Z -> C) (r : R) (j k : Z) : R :=
  rsum (fun n => m2m_abs (fun n m => Cmod (f n m)) (fun n m => r ^ Z.to_nat n) j n k) (zrange 0 j).
Lemma me3_shift_r_ok tb c f v' S : tb3_for tb p -> near v' S ->
  exists g, me3_shift_r A tb (s3_of p c f) v' = Ok (co_of p g) /\
    forall j k, (0 <= j <= p)%Z -> (Z.abs k <= j)%Z -> ap Nop (g j k) (m2m_coef f S j k) (m2m_size f (pn S) j k).
Proof.
  intros Htb Hv. assert (Rr := near_rap _ _ Hv). destruct Hv as (_ & d & D1 & D2 & D3). assert (PS := pn_nonneg S). set (r := pn S) in *.
  unfold me3_shift_r. cbn [s3_ord s3_of]. apply (omapM_co p _ (fun j k b => ap Nop b (m2m_coef f S j k) (m2m_size f r j k))); [exact Hp|]. intros j k Hj Hk.
  set (t := fun n m => (ipow (exp1 k m) * RtoC (A_val n m * A_val (j - n) (k - m)) * (f (j - n)%Z (k - m)%Z * Yr d n (- m)))%C).
  set (T := fun n m => Rabs (A_val n m) * Rabs (A_val (j - n) (k - m)) * Cmod (f (j - n)%Z (k - m)%Z)).
  set (U := fun n => (RtoC (r ^ Z.to_nat n) * lsum (t n) (zrange (Z.max (- n) (n + k - j)) (Z.min n (j + k - n))))%C).
  set (V := fun n => r ^ Z.to_nat n * rsum (T n) (zrange (Z.max (- n) (n + k - j)) (Z.min n (j + k - n)))).
  match goal with |- exists b, bind (ofold ?F ?L _) _ = _ /\ _ =>
      destruct (loop_ap w Hw ky A HA F U V (kk + 13 * Z.to_nat p + 8) L (kk + 13 * Z.to_nat p + 8) (RtoC 0) _ _ (zero_ap _) ltac:(lia)) as (y & Ey & Hy) end.
  { intros n acc Hn. apply in_zrange in Hn.
    match goal with |- exists t, bind (ofold ?F ?L _) _ = _ /\ _ => assert (INN : exists z, ofold F L (RtoC 0) = Ok z /\ ap (kk + 10 * Z.to_nat n + 7) z (lsum (t n) L) (rsum (T n) L));
      [destruct (loop_ap w Hw ky A HA F (t n) (T n) (kk + 8 * Z.to_nat n + 6) L (kk + 8 * Z.to_nat n + 6) (RtoC 0) _ _ (zero_ap _) ltac:(lia)) as (z & Ez & Hz)|] end.
    - intros m acc' Hm. apply in_zrange in Hm.
      destruct (tb3_sign tb p k m Htb ltac:(lia) ltac:(lia)) as [s1 [s2 [s3 [F1 [_ [_ [G1 _]]]]]]].
      rewrite F1. cbn [bind]. destruct (alm_rap tb n m Htb ltac:(lia) ltac:(lia)) as (a1 & E1 & C1). destruct (alm_rap tb (j - n) (k - m) Htb ltac:(lia) ltac:(lia)) as (a2 & E2 & C2).
      rewrite E1. cbn [bind]. rewrite E2. cbn [bind]. rewrite s3_of_get by lia. cbn [bind]. eexists. split; [reflexivity|].
      assert (Q := rnd_rap _ _ _ _ (rap_mul w _ _ _ _ _ _ _ _ (rnd_rap _ _ _ _ (rap_mul w _ _ _ _ _ _ _ _ (sign_rap _ _ G1) (close_rap _ _ C1))) (close_rap _ _ C2))).
      eapply ap_weaken; [exact Hw| | |].
      + unfold t. rewrite <- G1, <- RtoC_mult. replace (s1 * (A_val n m * A_val (j - n) (k - m))) with (s1 * A_val n m * A_val (j - n) (k - m)) by ring.
        apply (op_scale_ap w Hw B HB); [exact Q|]. apply (coef_ap d (h_ylm A v') n (- m)%Z); [exact D3|lia].
      + lia.
      + unfold T. right. ring.
    - exists z. split; [exact Ez|]. rewrite Cplus_0_l, Rplus_0_l in Hz. eapply ap_weaken; [exact Hw|exact Hz| |apply Rle_refl].
      assert (LL := zlen (Z.max (- n) (n + k - j)) (Z.min n (j + k - n)) (Z.to_nat (2 * n + 1)) ltac:(lia)). lia.
    - destruct INN as (z & Ez & Hz). rewrite Ez. cbn [bind].
      rewrite ptable by lia. cbn [bind]. eexists. split; [reflexivity|]. eapply ap_weaken; [exact Hw| | |].
      + unfold U. apply (op_scale_ap w Hw B HB); [apply gpow_rap; [exact PS|exact Rr]|exact Hz].
      + lia.
      + apply Rle_refl. }
  rewrite Ey. cbn [bind]. destruct (alm_rap tb j k Htb ltac:(lia) ltac:(lia)) as (a & Ea & Ca). rewrite Ea. cbn [bind].
  assert (NZ := A_val_nz j k). assert (NZ' := close_nz _ _ Ca NZ). destruct (Req_EM_T a 0) as [|_]; [contradiction|]. eexists. split; [reflexivity|].
  rewrite Cplus_0_l, Rplus_0_l in Hy.
  assert (Q : ap (kk + 13 * Z.to_nat p + 8 + length (zrange 0 j) + 3) (c_divr B y a) (lsum U (zrange 0 j) / RtoC (A_val j k)) (rsum V (zrange 0 j) / Rabs (A_val j k))).
  { apply (ap_div w Hw _ y _ _ (RtoC a) (RtoC (A_val j k))); [exact Hy| | |].
    - unfold close_norm. rewrite <- RtoC_minus, !Cmod_R. exact Ca.
    - rewrite Cmod_R. split; [apply Rabs_pos_lt; exact NZ|apply Rle_refl].
    - apply comps_norm; [lra|]. apply (ac_divr _ _ HB). exact NZ'. }
  eapply ap_weaken; [exact Hw| | |].
  - match goal with |- ap _ _ ?z _ => replace z with (lsum U (zrange 0 j) / RtoC (A_val j k))%C; [exact Q|] end.
    unfold m2m_coef. f_equal. apply lsum_ext. intros n Hn. apply in_zrange in Hn. unfold U. rewrite <- lsum_scal. apply lsum_ext. intros m _. unfold t.
    rewrite D2, Yr_scal by lia. fold r. ring.
  - assert (LL := zlen 0 j (Z.to_nat (p + 1)) ltac:(lia)). unfold Nop. lia.
  - unfold m2m_size, Rdiv. rewrite Rmult_comm, <- rsum_scal. apply Req_le. apply rsum_ext. intros n _. unfold V, m2m_abs. rewrite <- m2m_range.
    rewrite <- Rmult_assoc, <- rsum_scal. apply rsum_ext. intros m _. rewrite <- m2m_weight. unfold T.
    rewrite Cmod_div by (apply RtoC_nz, A_val_nz). rewrite Cmod_mult, Cmod_ipow, !Cmod_R, Rabs_mult. field. apply Rabs_no_R0. exact NZ.
Qed.

Lemma psign_rap b : rap 0 (if (b : bool) then -1 else 1) (if b then -1 else 1) 1.
Proof. apply (rap_exact w Hw). destruct b; [rewrite Rabs_m1|rewrite Rabs_R1]; apply Rle_refl. Qed.
Definition l2l_size (f : Z -> Z -> C) (r : R) (j k : Z) : R :=
  rsum (fun n => l2l_abs (fun n m => Cmod (f n m)) (fun n m => r ^ Z.to_nat n) j n k) (zrange j p).
Lemma le3_shift_r_ok tb c f v' S : tb3_for tb p -> near v' S ->
  exists g, le3_shift_r A tb (s3_of p c f) v' = Ok (co_of p g) /\
    forall j k, (0 <= j <= p)%Z -> (Z.abs k <= j)%Z -> ap Nop (g j k) (l2l_coef p f S j k) (l2l_size f (pn S) j k).
Proof.
  intros Htb Hv. assert (Rr := near_rap _ _ Hv). destruct Hv as (_ & d & D1 & D2 & D3). assert (PS := pn_nonneg S). set (r := pn S) in *.
  unfold le3_shift_r. cbn [s3_ord s3_of]. apply (omapM_co p _ (fun j k b => ap Nop b (l2l_coef p f S j k) (l2l_size f r j k))); [exact Hp|]. intros j k Hj Hk.
  set (t := fun n m => (ipow (exp3 k m) * RtoC (A_val (n - j) (m - k) / A_val n m) * (f n m * Yr d (n - j) (m - k)))%C).
  set (T := fun n m => Rabs (A_val (n - j) (m - k)) / Rabs (A_val n m) * Cmod (f n m)).
  set (U := fun n => (RtoC ((if Z.odd (n + j) then -1 else 1) * r ^ Z.to_nat (n - j)) * lsum (t n) (zrange (Z.max (- n) (k + j - n)) (Z.min n (k + n - j))))%C).
  set (V := fun n => r ^ Z.to_nat (n - j) * rsum (T n) (zrange (Z.max (- n) (k + j - n)) (Z.min n (k + n - j)))).
  match goal with |- exists b, bind (ofold ?F ?L _) _ = _ /\ _ =>
      destruct (loop_ap w Hw ky A HA F U V (kk + 13 * Z.to_nat p + 10) L (kk + 13 * Z.to_nat p + 10) (RtoC 0) _ _ (zero_ap _) ltac:(lia)) as (y & Ey & Hy) end.
  { intros n acc Hn. apply in_zrange in Hn.
    match goal with |- exists t, bind (ofold ?F ?L _) _ = _ /\ _ => assert (INN : exists z, ofold F L (RtoC 0) = Ok z /\ ap (kk + 10 * Z.to_nat p + 8) z (lsum (t n) L) (rsum (T n) L));
      [destruct (loop_ap w Hw ky A HA F (t n) (T n) (kk + 8 * Z.to_nat p + 7) L (kk + 8 * Z.to_nat p + 7) (RtoC 0) _ _ (zero_ap _) ltac:(lia)) as (z & Ez & Hz)|] end.
    - intros m acc' Hm. apply in_zrange in Hm.
      destruct (tb3_sign tb p k m Htb ltac:(lia) ltac:(lia)) as [s1 [s2 [s3 [_ [_ [F1 [_ [_ G1]]]]]]]].
      rewrite F1. cbn [bind]. destruct (alm_rap tb (n - j) (m - k) Htb ltac:(lia) ltac:(lia)) as (a1 & E1 & C1). destruct (alm_rap tb n m Htb ltac:(lia) ltac:(lia)) as (a2 & E2 & C2).
      rewrite E1. cbn [bind]. rewrite E2. cbn [bind]. rewrite s3_of_get by lia. cbn [bind].
      destruct (quot_rap _ _ _ _ _ _ (rnd_rap _ _ _ _ (rap_mul w _ _ _ _ _ _ _ _ (sign_rap _ _ G1) (close_rap _ _ C1))) C2 (A_val_nz n m)) as (q & Eq & Q).
      rewrite Eq. cbn [bind]. eexists. split; [reflexivity|].
      eapply ap_weaken; [exact Hw| | |].
      + unfold t. rewrite <- G1, <- RtoC_mult. replace (s3 * (A_val (n - j) (m - k) / A_val n m)) with (s3 * A_val (n - j) (m - k) / A_val n m) by (unfold Rdiv; ring).
        apply (op_scale_ap w Hw B HB); [exact Q|]. apply (coef_ap d (h_ylm A v') (n - j) (m - k)%Z); [exact D3|lia].
      + lia.
      + unfold T, Rdiv. right. ring.
    - exists z. split; [exact Ez|]. rewrite Cplus_0_l, Rplus_0_l in Hz. eapply ap_weaken; [exact Hw|exact Hz| |apply Rle_refl].
      assert (LL := zlen (Z.max (- n) (k + j - n)) (Z.min n (k + n - j)) (Z.to_nat (2 * p + 1)) ltac:(lia)). lia.
    - destruct INN as (z & Ez & Hz). rewrite Ez. cbn [bind].
      rewrite ptable by lia. cbn [bind]. eexists. split; [reflexivity|]. eapply ap_weaken; [exact Hw| | |].
      + unfold U. apply (op_scale_ap w Hw B HB); [apply rnd_rap, (rap_mul w); [apply psign_rap|apply gpow_rap; [exact PS|exact Rr]]|exact Hz].
      + lia.
      + unfold V. right. ring. }
  rewrite Ey. cbn [bind]. destruct (alm_rap tb j k Htb ltac:(lia) ltac:(lia)) as (a & Ea & Ca). rewrite Ea. cbn [bind].
  eexists. split; [reflexivity|]. rewrite Cplus_0_l, Rplus_0_l in Hy.
  assert (Q := op_scale_ap w Hw B HB _ _ _ _ _ _ _ _ (close_rap _ _ Ca) Hy).
  eapply ap_weaken; [exact Hw| | |].
  - match goal with |- ap _ _ ?z _ => replace z with (RtoC (A_val j k) * lsum U (zrange j p))%C; [exact Q|] end.
    unfold l2l_coef. f_equal. apply lsum_ext. intros n Hn. apply in_zrange in Hn. unfold U. rewrite <- lsum_scal. apply lsum_ext. intros m _. unfold t, sg.
    rewrite D2, Yr_scal by lia. fold r. rewrite !RtoC_mult. ring.
  - assert (LL := zlen j p (Z.to_nat (p + 1)) ltac:(lia)). unfold Nop. lia.
  - unfold l2l_size. rewrite <- rsum_scal. apply Req_le. apply rsum_ext. intros n _. unfold V, l2l_abs. rewrite <- l2l_range.
    rewrite <- Rmult_assoc, <- rsum_scal. apply rsum_ext. intros m _. rewrite <- l2l_weight. unfold T, Rdiv. rewrite Rabs_mult, Rabs_inv. ring.
Qed.

Definition m2l_size (f : Z -> Z -> C) (r : R) (j k : Z) : R :=
  rsum (fun n => m2l_abs (fun n m => Cmod (f n m)) (fun l m => / r * (/ r) ^ Z.to_nat l) j n k) (zrange 0 p).
Lemma le3_convert_r_ok tb c c' f : tb3_for tb p -> length c = 3%nat -> length c' = 3%nat -> let D := p3 (vsub c' c) in 0 < pn D ->
  exists g, le3_convert_r A tb c (s3_of p c' f) = Ok (s3_of p c g) /\
    forall j k, (0 <= j <= p)%Z -> (Z.abs k <= j)%Z -> ap Nop (g j k) (m2l_coef p f D j k) (m2l_size f (pn D) j k).
Proof.
  intros Htb Hc Hc' D HD. assert (Hv := near_dif c' c Hc' Hc). fold D in Hv. unfold le3_convert_r. cbn [s3_ord s3_ctr s3_of]. set (v' := vdif_r A c' c) in *.
  destruct (near_inv _ _ Hv HD) as (ri & Ei & Rr & _). rewrite Ei. cbn [bind]. destruct Hv as (_ & d & D1 & D2 & D3).
  assert (PS : 0 < / pn D) by (apply Rinv_0_lt_compat; exact HD). set (r := pn D) in *.
  match goal with |- exists g, bind (omapM ?F _) _ = _ /\ _ =>
    destruct (omapM_co p F (fun j k b => ap Nop b (m2l_coef p f D j k) (m2l_size f r j k)) Hp) as (g & Eg & Hg) end.
  2: { rewrite Eg. cbn [bind]. exists g. split; [reflexivity|exact Hg]. }
  intros j k Hj Hk.
  set (t := fun n m => (ipow (exp2 k m) * RtoC (A_val n m / A_val (j + n) (m - k)) * (f n m * Yr d (j + n) (m - k)))%C).
  set (T := fun n m => Rabs (A_val n m) / Rabs (A_val (j + n) (m - k)) * Cmod (f n m)).
  set (U := fun n => (RtoC ((if Z.odd n then -1 else 1) * (/ r) ^ Z.to_nat (j + n + 1)) * lsum (t n) (zrange (- n) n))%C).
  set (V := fun n => (/ r) ^ Z.to_nat (j + n + 1) * rsum (T n) (zrange (- n) n)).
  match goal with |- exists b, bind (ofold ?F ?L _) _ = _ /\ _ =>
      destruct (loop_ap w Hw ky A HA F U V (kk + 30 * Z.to_nat p + 16) L (kk + 30 * Z.to_nat p + 16) (RtoC 0) _ _ (zero_ap _) ltac:(lia)) as (y & Ey & Hy) end.
  { intros n acc Hn. apply in_zrange in Hn.
    match goal with |- exists t, bind (ofold ?F ?L _) _ = _ /\ _ => assert (INN : exists z, ofold F L (RtoC 0) = Ok z /\ ap (kk + 18 * Z.to_nat p + 8) z (lsum (t n) L) (rsum (T n) L));
      [destruct (loop_ap w Hw ky A HA F (t n) (T n) (kk + 16 * Z.to_nat p + 7) L (kk + 16 * Z.to_nat p + 7) (RtoC 0) _ _ (zero_ap _) ltac:(lia)) as (z & Ez & Hz)|] end.
    - intros m acc' Hm. apply in_zrange in Hm.
      destruct (tb3_sign tb p k m Htb ltac:(lia) ltac:(lia)) as [s1 [s2 [s3 [_ [F1 [_ [_ [G1 _]]]]]]]].
      rewrite F1. cbn [bind]. destruct (alm_rap tb n m Htb ltac:(lia) ltac:(lia)) as (a1 & E1 & C1). destruct (alm_rap tb (j + n) (m - k) Htb ltac:(lia) ltac:(lia)) as (a2 & E2 & C2).
      rewrite E1. cbn [bind]. rewrite E2. cbn [bind]. fold (s3_of p c' f). rewrite s3_of_get by lia. cbn [bind].
      destruct (quot_rap _ _ _ _ _ _ (rnd_rap _ _ _ _ (rap_mul w _ _ _ _ _ _ _ _ (sign_rap _ _ G1) (close_rap _ _ C1))) C2 (A_val_nz (j + n) (m - k))) as (q & Eq & Q).
      rewrite Eq. cbn [bind]. eexists. split; [reflexivity|].
      eapply ap_weaken; [exact Hw| | |].
      + unfold t. rewrite <- G1, <- RtoC_mult. replace (s2 * (A_val n m / A_val (j + n) (m - k))) with (s2 * A_val n m / A_val (j + n) (m - k)) by (unfold Rdiv; ring).
        apply (op_scale_ap w Hw B HB); [exact Q|]. apply (coef_ap d (h_ylm A v') (j + n) (m - k)%Z); [exact D3|lia].
      + lia.
      + unfold T, Rdiv. right. ring.
    - exists z. split; [exact Ez|]. rewrite Cplus_0_l, Rplus_0_l in Hz. eapply ap_weaken; [exact Hw|exact Hz| |apply Rle_refl].
      assert (LL := zlen (- n) n (Z.to_nat (2 * p + 1)) ltac:(lia)). lia.
    - destruct INN as (z & Ez & Hz). rewrite Ez. cbn [bind].
      rewrite ptable by lia. cbn [bind]. eexists. split; [reflexivity|]. eapply ap_weaken; [exact Hw| | |].
      + unfold U. apply (op_scale_ap w Hw B HB); [apply rnd_rap, (rap_mul w); [apply psign_rap|apply gpow_rap; [apply Rlt_le; exact PS|exact Rr]]|exact Hz].
      + lia.
      + unfold V. right. ring. }
  rewrite Ey. cbn [bind]. destruct (alm_rap tb j k Htb ltac:(lia) ltac:(lia)) as (a & Ea & Ca). rewrite Ea. cbn [bind].
  eexists. split; [reflexivity|]. rewrite Cplus_0_l, Rplus_0_l in Hy.
  assert (Q := op_scale_ap w Hw B HB _ _ _ _ _ _ _ _ (close_rap _ _ Ca) Hy).
  eapply ap_weaken; [exact Hw| | |].
  - match goal with |- ap _ _ ?z _ => replace z with (RtoC (A_val j k) * lsum U (zrange 0 p))%C; [exact Q|] end.
    unfold m2l_coef. rewrite Cmult_comm. f_equal. apply lsum_ext. intros n Hn. apply in_zrange in Hn. unfold U. rewrite <- lsum_scal. apply lsum_ext. intros m _. unfold t, sg.
    fold r. rewrite D2, Yr_scal by lia. fold r. replace (Z.to_nat (j + n + 1)) with (Datatypes.S (Z.to_nat (j + n))) by lia.
    change ((/ r) ^ Datatypes.S (Z.to_nat (j + n))) with (/ r * (/ r) ^ Z.to_nat (j + n)). rewrite pow_even_split by (apply Rgt_not_eq; exact HD). rewrite !RtoC_mult. ring.
  - assert (LL := zlen 0 p (Z.to_nat (p + 1)) ltac:(lia)). unfold Nop. lia.
  - unfold m2l_size. rewrite <- rsum_scal. apply Req_le. apply rsum_ext. intros n Hn. apply in_zrange in Hn. unfold V, m2l_abs.
    replace (Z.to_nat (j + n + 1)) with (Datatypes.S (Z.to_nat (j + n))) by lia.
    rewrite <- Rmult_assoc, <- rsum_scal. apply rsum_ext. intros m _. rewrite <- m2l_weight. unfold T, Rdiv. rewrite Rabs_mult, Rabs_inv. cbn [pow]. ring.
Qed.
End Loops.
