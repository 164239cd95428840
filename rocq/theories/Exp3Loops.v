(** What the loops of the three-dimensional expansions compute, in closed form. *)
From Coq Require Import Reals List Arith ZArith Lia Lra.
From Coquelicot Require Import Coquelicot.
From Verif Require Import Num Outcome Vec VecProofs Fields Tables CAux TableProofs Tables3D Expansion3D Table3DProofs SolidHarmonics Zonal HarmonicBounds Kernel3
  Spherical SphericalProofs Harmonics3D.
Import ListNotations.
Local Open Scope R_scope.
Local Open Scope C_scope.

(** ** Coefficient vectors *)
Lemma jk_snoc p : (0 <= p)%Z -> jk_pairs (p + 1) = jk_pairs p ++ map (fun k => (p + 1, k)%Z) (zrange (- (p + 1)) (p + 1)).
Proof.
  intros Hp. unfold jk_pairs. rewrite zrange_snoc by lia. rewrite flat_map_app. simpl. now rewrite app_nil_r.
Qed.
Lemma jk_index p : (0 <= p)%Z ->
  map (fun jk => sh_index (fst jk) (snd jk)) (jk_pairs p) = map Z.of_nat (seq 0 (Z.to_nat ((p + 1) * (p + 1)))).
Proof.
  intros Hp. pattern p. apply natlike_ind; [reflexivity| |assumption]. clear p Hp. intros p Hp IH.
  unfold Z.succ. rewrite jk_snoc, map_app, IH by assumption.
  replace (Z.to_nat ((p + 1 + 1) * (p + 1 + 1))) with (Z.to_nat ((p + 1) * (p + 1)) + Z.to_nat (2 * p + 3))%nat by nia.
  rewrite seq_app, map_app. f_equal. rewrite map_map. unfold zrange. rewrite map_map.
  replace (Z.to_nat (p + 1 - - (p + 1) + 1)) with (Z.to_nat (2 * p + 3)) by lia.
  cbn [fst snd]. simpl (0 + Z.to_nat ((p + 1) * (p + 1)))%nat.
  generalize (Z.to_nat (2 * p + 3)) as n. intros n.
  assert (G : forall n a b, (forall i, sh_index (p + 1) (- (p + 1) + Z.of_nat (a + i)) = Z.of_nat (b + i)) ->
    map (fun x => sh_index (p + 1) (- (p + 1) + Z.of_nat x)) (seq a n) = map Z.of_nat (seq b n)).
  { clear n. induction n as [|n IHn]; intros a b H; [reflexivity|]. simpl. f_equal.
    - specialize (H 0%nat). now rewrite !Nat.add_0_r in H.
    - apply IHn. intros i. specialize (H (S i)). rewrite !Nat.add_succ_r in H. rewrite !Nat.add_succ_l. exact H. }
  apply G. intros i. unfold sh_index. nia.
Qed.
Lemma jk_length p : (0 <= p)%Z -> length (jk_pairs p) = Z.to_nat ((p + 1) * (p + 1)).
Proof.
  intros Hp. pose proof (f_equal (@length Z) (jk_index p Hp)) as E. rewrite !map_length, seq_length in E. exact E.
Qed.
Lemma in_jk p j k : In (j, k) (jk_pairs p) <-> (0 <= j <= p)%Z /\ (Z.abs k <= j)%Z.
Proof.
  unfold jk_pairs. rewrite in_flat_map. split.
  - intros [j' [Hj Hk]]. apply in_zrange in Hj. apply in_map_iff in Hk. destruct Hk as [k' [E Hk]]. injection E as <- <-.
    apply in_zrange in Hk. lia.
  - intros [Hj Hk]. exists j. split; [apply in_zrange; lia|]. apply in_map_iff. exists k. split; [reflexivity|]. apply in_zrange. lia.
Qed.
Lemma jk_nth p n m : (Z.abs m <= n)%Z -> (n <= p)%Z -> nth_error (jk_pairs p) (Z.to_nat (sh_index n m)) = Some (n, m).
Proof.
  intros Hm Hn. pose proof (sh_index_bound n m p Hm Hn) as B.
  assert (Hi : (Z.to_nat (sh_index n m) < length (jk_pairs p))%nat) by (rewrite jk_length by lia; lia).
  destruct (nth_error (jk_pairs p) (Z.to_nat (sh_index n m))) as [[n' m']|] eqn:E.
  - pose proof (nth_error_In _ _ E) as Hin. apply in_jk in Hin.
    pose proof (map_nth_error (fun jk => sh_index (fst jk) (snd jk)) _ _ E) as E2. rewrite jk_index in E2 by lia.
    rewrite nth_error_map in E2. destruct (nth_error (seq 0 (Z.to_nat ((p + 1) * (p + 1)))) (Z.to_nat (sh_index n m))) as [i|] eqn:E3; [|discriminate].
    assert (E4 : i = Z.to_nat (sh_index n m)).
    { apply nth_error_nth with (d := 0%nat) in E3. rewrite seq_nth in E3 by lia. lia. }
    simpl in E2. injection E2 as E2. subst i. rewrite Z2Nat.id in E2 by lia. apply sh_index_inj in E2; [|lia|lia]. destruct E2; congruence.
  - apply nth_error_None in E. lia.
Qed.

(** The expansion of order [p] whose coefficient (n, m) is [f n m]. *)
Definition co_of (p : Z) (f : Z -> Z -> C) : list C := map (fun jk => f (fst jk) (snd jk)) (jk_pairs p).
Definition s3_of (p : Z) (c : list R) (f : Z -> Z -> C) : se3 := mks3 p c (co_of p f).

Lemma co_of_length p f : (0 <= p)%Z -> length (co_of p f) = Z.to_nat ((p + 1) * (p + 1)).
Proof. intros. unfold co_of. rewrite map_length. now apply jk_length. Qed.
Lemma co_of_get p f n m : (Z.abs m <= n)%Z -> (n <= p)%Z -> zget (co_of p f) (sh_index n m) = Ok (f n m).
Proof.
  intros Hm Hn. unfold zget. pose proof (sh_index_bound n m p Hm Hn) as B. destruct (Z.ltb_spec (sh_index n m) 0); [lia|].
  unfold co_of. rewrite nth_error_map, jk_nth by assumption. reflexivity.
Qed.
Lemma s3_of_get p c f n m : (Z.abs m <= n)%Z -> (n <= p)%Z -> s3_get (s3_of p c f) n m = Ok (f n m).
Proof. apply co_of_get. Qed.
Lemma co_of_ext p f g : (forall n m, (Z.abs m <= n)%Z -> (n <= p)%Z -> f n m = g n m) -> co_of p f = co_of p g.
Proof. intros H. apply map_ext_in. intros [n m] Hin. apply in_jk in Hin. apply H; simpl; lia. Qed.
Lemma co_unique p l f : (0 <= p)%Z -> length l = Z.to_nat ((p + 1) * (p + 1)) ->
  (forall n m, (Z.abs m <= n)%Z -> (n <= p)%Z -> zget l (sh_index n m) = Ok (f n m)) -> l = co_of p f.
Proof.
  intros Hp Hl H.
  assert (E1 : l = map (fun z => nth (Z.to_nat z) l (RtoC 0)) (map Z.of_nat (seq 0 (Z.to_nat ((p + 1) * (p + 1)))))).
  { rewrite <- Hl, map_map. rewrite (map_ext _ (fun i => nth i l (RtoC 0))) by (intros; now rewrite Nat2Z.id).
    clear. induction l as [|a l IH]; [reflexivity|]. simpl. f_equal. rewrite <- seq_shift, map_map. exact IH. }
  rewrite E1, <- jk_index, map_map by assumption. unfold co_of. apply map_ext_in. intros [n m] Hin. apply in_jk in Hin. cbn [fst snd].
  specialize (H n m ltac:(lia) ltac:(lia)). pose proof (sh_index_bound n m p ltac:(lia) ltac:(lia)) as B.
  rewrite (zget_nth l (sh_index n m) (RtoC 0)) in H by (rewrite Hl; lia). now injection H.
Qed.
Lemma zero_co c p : (0 <= p)%Z -> s3_zero c p = s3_of p c (fun _ _ => RtoC 0).
Proof.
  intros Hp. unfold s3_zero, s3_of. f_equal. apply co_unique; [assumption|rewrite repeat_length; f_equal; lia|].
  intros n m Hm Hn. pose proof (sh_index_bound n m p Hm Hn) as B.
  rewrite (zget_nth _ _ (RtoC 0)) by (rewrite repeat_length; lia). f_equal. apply nth_repeat.
Qed.
Lemma co_of_plus p f g : map2 Cplus (co_of p f) (co_of p g) = co_of p (fun n m => f n m + g n m).
Proof.
  unfold co_of, map2. generalize (jk_pairs p). induction l as [|a l IH]; [reflexivity|]. simpl. f_equal. exact IH.
Qed.
Lemma s3_add_of p c f g : s3_add (s3_of p c f) (s3_of p c g) = Ok (s3_of p c (fun n m => f n m + g n m)).
Proof.
  unfold s3_add, s3_of. cbn [s3_co s3_ctr s3_ord]. unfold co_of at 1 2. rewrite !map_length, Nat.eqb_refl. simpl.
  destruct (pt_eq_dec c c) as [_|N]; [|contradiction]. now rewrite co_of_plus.
Qed.

(** ** Accumulating a source *)
Lemma acc_source_ok p q tab (Y : Z -> Z -> C) r0 rn f :
  (0 <= p)%Z -> (forall n m, (Z.abs m <= n)%Z -> (n <= p)%Z -> ylm_get tab n m = Ok (Y n m)) ->
  acc_source p q tab r0 rn (co_of p f) = Ok (co_of p (fun n m => f n m + RtoC (q * (r0 * rn ^ Z.to_nat n)) * Y n (- m)%Z)).
Proof.
  intros Hp HY. unfold acc_source.
  set (g := fun n m => f n m + RtoC (q * (r0 * rn ^ Z.to_nat n)) * Y n (- m)%Z).
  assert (Hlen : Z.of_nat (length (co_of p f)) = ((p + 1) * (p + 1))%Z) by (rewrite co_of_length; nia).
  match goal with |- omap fst (ofold ?F _ ?s0) = _ =>
    destruct (loop F 0 p (fun i st => length (fst st) = length (co_of p f) /\ snd st = (r0 * rn ^ Z.to_nat i)%R /\
      forall n m, (Z.abs m <= n)%Z -> (n <= p)%Z -> zget (fst st) (sh_index n m) = Ok (if (n <? i)%Z then g n m else f n m)) s0) as [st [E [L [_ H]]]] end.
  - lia.
  - cbn [fst snd]. split; [reflexivity|]. split; [simpl; ring|]. intros n m Hm Hn. destruct (Z.ltb_spec n 0); [lia|]. now apply co_of_get.
  - intros n [t rp] Hn [L [Er Ht]]. cbn [fst snd] in *.
    match goal with |- exists s, bind (ofold ?F _ _) _ = _ /\ _ =>
      destruct (loop F (- n) n (fun i t' => length t' = length (co_of p f) /\
        forall n' m', (Z.abs m' <= n')%Z -> (n' <= p)%Z -> zget t' (sh_index n' m') = Ok (if orb (n' <? n)%Z (andb (n' =? n)%Z (m' <? i)%Z) then g n' m' else f n' m')) t) as [t2 [E2 [L2 H2]]] end.
    + lia.
    + split; [assumption|]. intros n' m' Hm' Hn'. rewrite Ht by assumption. f_equal.
      destruct (Z.ltb_spec n' n); [reflexivity|]. destruct (Z.eqb_spec n' n); [|reflexivity]. destruct (Z.ltb_spec m' (- n)); [lia|reflexivity].
    + intros m t1 Hm [L1 H1]. pose proof (sh_index_bound n m p ltac:(lia) ltac:(lia)) as B.
      rewrite HY by lia. cbn [bind]. rewrite H1 by lia. cbn [bind].
      rewrite zset_ok by (rewrite L1, Hlen; lia). eexists. split; [reflexivity|]. rewrite lset_length. split; [assumption|].
      intros n' m' Hm' Hn'. pose proof (sh_index_bound n' m' p ltac:(lia) ltac:(lia)) as B'.
      destruct (Z.eq_dec (sh_index n' m') (sh_index n m)) as [Ei|Ni].
      * rewrite Ei. rewrite zget_same by (rewrite L1, Hlen; lia). apply sh_index_inj in Ei; [|lia|lia]. destruct Ei as [-> ->].
        f_equal. destruct (Z.ltb_spec n n); [lia|]. rewrite Z.eqb_refl. destruct (Z.ltb_spec m m); [lia|]. destruct (Z.ltb_spec m (m + 1)); [|lia].
        simpl. unfold g. rewrite Er. reflexivity.
      * rewrite zget_other by lia. rewrite H1 by assumption. f_equal.
        destruct (Z.ltb_spec n' n); [reflexivity|]. destruct (Z.eqb_spec n' n) as [->|]; [|reflexivity].
        assert (m' <> m) by (intros ->; now apply Ni).
        destruct (Z.ltb_spec m' m); destruct (Z.ltb_spec m' (m + 1)); try lia; reflexivity.
    + rewrite E2. cbn [bind]. eexists. split; [reflexivity|]. cbn [fst snd]. split; [assumption|]. split.
      * rewrite Er. replace (Z.to_nat (n + 1)) with (S (Z.to_nat n)) by lia. simpl. ring.
      * intros n' m' Hm' Hn'. rewrite H2 by assumption. f_equal.
        destruct (Z.ltb_spec n' n); destruct (Z.ltb_spec n' (n + 1)); try lia; try reflexivity.
        -- assert (n' = n) as -> by lia. rewrite Z.eqb_refl. destruct (Z.ltb_spec m' (n + 1)); [reflexivity|lia].
        -- destruct (Z.eqb_spec n' n); [lia|reflexivity].
  - rewrite E. unfold omap. cbn [bind]. f_equal. apply co_unique; [assumption|rewrite L; now apply co_of_length|].
    intros n m Hm Hn. rewrite H by assumption. destruct (Z.ltb_spec n (p + 1)); [reflexivity|lia].
Qed.

Definition rel (s : psrc R) (c : list R) : P3 := p3 (vsub (ps_pos s) c).
(** Coefficients of the multipole expansion of a set of sources. *)
Definition me_coef (c : list R) (srcs : list (psrc R)) (n m : Z) : C :=
  lsum (fun s => RtoC (ps_q s) * Yr (rel s c) n (- m)) srcs.
(** Coefficients of the local expansion of a set of sources. *)
Definition le_coef (c : list R) (srcs : list (psrc R)) (n m : Z) : C :=
  lsum (fun s => RtoC (ps_q s * / pn (rel s c) ^ (2 * Z.to_nat n + 1)) * Yr (rel s c) n (- m)) srcs.

Lemma len3_vsub (a b : list R) : length a = 3%nat -> length b = 3%nat -> length (vsub a b) = 3%nat.
Proof. intros Ha Hb. rewrite len_vsub. lia. Qed.
Lemma lsum_snoc {A} (f : A -> C) l a : lsum f (l ++ [a]) = lsum f l + f a.
Proof. rewrite lsum_app, lsum_cons, lsum_nil. ring. Qed.

Lemma ofold_inv {A S} (f : S -> A -> outcome S) (P : list A -> S -> Prop) L s0 :
  P [] s0 -> (forall done a s, In a L -> P done s -> exists s', f s a = Ok s' /\ P (done ++ [a]) s') ->
  exists s, ofold f L s0 = Ok s /\ P L s.
Proof.
  intros H0 Hs.
  assert (G : forall todo done s, (forall a, In a todo -> In a L) -> P done s -> exists s', ofold f todo s = Ok s' /\ P (done ++ todo) s').
  { induction todo as [|a todo IH]; intros done s Hin Hd.
    - exists s. rewrite app_nil_r. split; [reflexivity|assumption].
    - destruct (Hs done a s (Hin a (or_introl eq_refl)) Hd) as [s1 [E1 H1]].
      destruct (IH (done ++ [a]) s1) as [s2 [E2 H2]]; [intros; apply Hin; now right|assumption|].
      exists s2. simpl. rewrite E1. simpl. rewrite <- app_assoc in H2. split; assumption. }
  destruct (G L [] s0) as [s [E H]]; [auto|assumption|]. exists s. split; assumption.
Qed.

(** The table of a direction as a function. *)
Lemma direction_fun v p : length v = 3%nat -> (0 <= p)%Z ->
  exists r th ph tab (Y : Z -> Z -> C), to_spherical 3 v = Ok [r; th; ph] /\ ylm_table p th ph = Ok tab /\ r = pn (p3 v) /\ (0 <= r)%R /\
    (forall l m, (Z.abs m <= l)%Z -> (l <= p)%Z -> ylm_get tab l m = Ok (Y l m)) /\
    (forall l m, (0 <= l)%Z -> RtoC (r ^ Z.to_nat l) * Y l m = Yr (p3 v) l m) /\ p3 v = polar r th ph /\ (0 <= sin th)%R.
Proof.
  intros Hv Hp. destruct (spherical_ok v Hv) as [r [th [ph [E [Ep [Er [Hr Hs]]]]]]].
  destruct (ylm_table_ok p th ph Hs Hp) as [tab [Et Ht]].
  exists r, th, ph, tab, (Yr (polar 1 th ph)). do 5 (split; [assumption|]). split; [|split; assumption].
  intros l m Hl. rewrite Ep, (polar_scal r), Yr_scal by lia. reflexivity.
Qed.

Theorem me3_sources_ok c p srcs : (0 <= p)%Z -> length c = 3%nat -> (forall s, In s srcs -> length (ps_pos s) = 3%nat) ->
  me3_sources c p srcs = Ok (s3_of p c (me_coef c srcs)).
Proof.
  intros Hp Hc Hs. unfold me3_sources. rewrite zero_co by assumption. cbn [s3_co s3_of].
  match goal with |- bind (ofold ?f _ _) _ = _ =>
    destruct (ofold_inv f (fun done co => co = co_of p (me_coef c done)) srcs (co_of p (fun _ _ => RtoC 0))) as [co [E H]] end.
  - reflexivity.
  - intros done s co Hin ->.
    destruct (direction_fun (vsub (ps_pos s) c) p) as [r [th [ph [tab [Y [Es [Et [Er [Hr [HY [HYr _]]]]]]]]]]]; [apply len3_vsub; auto|assumption|].
    rewrite Es. cbn [bind vget nth]. rewrite Et. cbn [bind]. rewrite (acc_source_ok p _ tab Y) by assumption.
    eexists. split; [reflexivity|]. apply co_of_ext. intros n m Hm Hn. unfold me_coef. rewrite lsum_snoc. f_equal.
    unfold rel. rewrite <- HYr by lia. rewrite Rmult_1_l, RtoC_mult. ring.
  - rewrite E. cbn [bind]. now rewrite H.
Qed.

Lemma rinv_ok r : r <> 0%R -> rinv r = Ok (/ r)%R.
Proof. intros H. unfold rinv. destruct (Req_EM_T r 0); [contradiction|reflexivity]. Qed.
Lemma pow_even_split r n : r <> 0%R -> (/ r * (/ r) ^ n = / r ^ (2 * n + 1) * r ^ n)%R.
Proof.
  intros H. rewrite pow_inv. replace (2 * n + 1)%nat with (S (n + n)) by lia. simpl. rewrite pow_add.
  assert (r ^ n <> 0)%R by now apply pow_nonzero. field. split; assumption.
Qed.

Theorem le3_sources_ok c p srcs : (0 <= p)%Z -> length c = 3%nat -> (forall s, In s srcs -> length (ps_pos s) = 3%nat /\ pn (rel s c) <> 0%R) ->
  le3_sources c p srcs = Ok (s3_of p c (le_coef c srcs)).
Proof.
  intros Hp Hc Hs. unfold le3_sources. rewrite zero_co by assumption. cbn [s3_co s3_of].
  match goal with |- bind (ofold ?f _ _) _ = _ =>
    destruct (ofold_inv f (fun done co => co = co_of p (le_coef c done)) srcs (co_of p (fun _ _ => RtoC 0))) as [co [E H]] end.
  - reflexivity.
  - intros done s co Hin ->. destruct (Hs s Hin) as [Hl Hnz].
    destruct (direction_fun (vsub (ps_pos s) c) p) as [r [th [ph [tab [Y [Es [Et [Er [Hr [HY [HYr _]]]]]]]]]]]; [apply len3_vsub; auto|assumption|].
    fold (rel s c) in Er, HYr. rewrite <- Er in Hnz.
    rewrite Es. cbn [bind vget nth]. rewrite Et. cbn [bind]. rewrite rinv_ok by assumption. cbn [bind]. rewrite (acc_source_ok p _ tab Y) by assumption.
    eexists. split; [reflexivity|]. apply co_of_ext. intros n m Hm Hn. unfold le_coef. rewrite lsum_snoc. f_equal.
    rewrite <- HYr, <- Er by lia. rewrite pow_even_split by assumption. rewrite !RtoC_mult. ring.
  - rewrite E. cbn [bind]. now rewrite H.
Qed.

(** ** Evaluation *)
Definition lsum2 (f : Z -> Z -> C) (p : Z) : C := lsum (fun n => lsum (f n) (zrange (- n) n)) (zrange 0 p).

Lemma eval_sum_ok p c f tab (Y : Z -> Z -> C) r0 rn : (0 <= p)%Z ->
  (forall n m, (Z.abs m <= n)%Z -> (n <= p)%Z -> ylm_get tab n m = Ok (Y n m)) ->
  eval_sum (s3_of p c f) tab r0 rn = Ok (lsum2 (fun n m => f n m * RtoC (r0 * rn ^ Z.to_nat n) * Y n m) p).
Proof.
  intros Hp HY. unfold eval_sum. cbn [s3_ord s3_of].
  match goal with |- omap fst (ofold ?F _ ?s0) = _ =>
    destruct (loop F 0 p (fun i st => snd st = (r0 * rn ^ Z.to_nat i)%R /\ fst st = lsum2 (fun n m => f n m * RtoC (r0 * rn ^ Z.to_nat n) * Y n m) (i - 1)) s0) as [st [E [_ H]]] end.
  - lia.
  - split; [simpl; ring|]. reflexivity.
  - intros n [pot rp] Hn [Er Ep]. cbn [fst snd] in *.
    rewrite (loop_sum _ (fun m => f n m * RtoC (r0 * rn ^ Z.to_nat n) * Y n m)).
    + cbn [bind]. eexists. split; [reflexivity|]. cbn [fst snd]. split.
      * rewrite Er. replace (Z.to_nat (n + 1)) with (S (Z.to_nat n)) by lia. simpl. ring.
      * rewrite Ep. unfold lsum2. replace (n + 1 - 1)%Z with ((n - 1) + 1)%Z by lia. rewrite zrange_snoc by lia. rewrite lsum_snoc.
        replace (n - 1 + 1)%Z with n by lia. reflexivity.
    + intros acc m Hm. apply in_zrange in Hm. rewrite s3_of_get by lia. cbn [bind]. rewrite HY by lia. cbn [bind]. now rewrite Er.
  - rewrite E. unfold omap. cbn [bind]. f_equal. rewrite H. f_equal. lia.
Qed.

(** The value of a local expansion with coefficients [f] at the offset [X], and of a multipole expansion. *)
Definition lval3 (p : Z) (f : Z -> Z -> C) (X : P3) : C := lsum2 (fun n m => f n m * Yr X n m) p.
Definition mval3 (p : Z) (f : Z -> Z -> C) (X : P3) : C :=
  lsum2 (fun n m => RtoC (/ pn X ^ (2 * Z.to_nat n + 1)) * (f n m * Yr X n m)) p.

Lemma lsum2_ext f g p : (forall n m, (Z.abs m <= n)%Z -> (n <= p)%Z -> f n m = g n m) -> lsum2 f p = lsum2 g p.
Proof.
  intros H. apply lsum_ext. intros n Hn. apply in_zrange in Hn. apply lsum_ext. intros m Hm. apply in_zrange in Hm. apply H; lia.
Qed.

Theorem le3_pot_ok p c f x : (0 <= p)%Z -> length c = 3%nat -> length x = 3%nat ->
  le3_pot (s3_of p c f) x = Ok (- Re (lval3 p f (p3 (vsub x c))))%R.
Proof.
  intros Hp Hc Hx. unfold le3_pot. cbn [s3_ctr s3_ord s3_of].
  destruct (direction_fun (vsub x c) p) as [r [th [ph [tab [Y [Es [Et [Er [Hr [HY [HYr _]]]]]]]]]]]; [apply len3_vsub; auto|assumption|].
  rewrite Es. cbn [bind vget nth]. rewrite Et. cbn [bind]. fold (s3_of p c f). rewrite (eval_sum_ok p c f tab Y) by assumption. cbn [bind].
  do 2 f_equal. unfold Re. f_equal. unfold lval3. apply lsum2_ext. intros n m Hm Hn. rewrite <- HYr by lia. rewrite Rmult_1_l. ring.
Qed.
Theorem me3_pot_ok p c f x : (0 <= p)%Z -> length c = 3%nat -> length x = 3%nat -> pn (p3 (vsub x c)) <> 0%R ->
  me3_pot (s3_of p c f) x = Ok (- Re (mval3 p f (p3 (vsub x c))))%R.
Proof.
  intros Hp Hc Hx Hnz. unfold me3_pot. cbn [s3_ctr s3_ord s3_of].
  destruct (direction_fun (vsub x c) p) as [r [th [ph [tab [Y [Es [Et [Er [Hr [HY [HYr _]]]]]]]]]]]; [apply len3_vsub; auto|assumption|].
  rewrite <- Er in Hnz.
  rewrite Es. cbn [bind vget nth]. rewrite Et. cbn [bind]. rewrite rinv_ok by assumption. cbn [bind].
  fold (s3_of p c f). rewrite (eval_sum_ok p c f tab Y) by assumption. cbn [bind].
  do 2 f_equal. unfold Re. f_equal. unfold mval3. apply lsum2_ext. intros n m Hm Hn. rewrite <- HYr, <- Er by lia.
  rewrite pow_even_split by assumption. rewrite RtoC_mult. ring.
Qed.

(** ** Translations *)
(** The tables are filled up to order [p]. *)
Definition tb3_for (tb : tb3) (p : Z) : Prop := tb3_ok tb /\ (0 < at_max (t_alm tb))%Z /\ (p <= at_max (t_alm tb))%Z.

Lemma tb3_alm tb p n m : tb3_for tb p -> (Z.abs m <= n)%Z -> (n <= 2 * p)%Z -> alm_get (t_alm tb) n m = Ok (A_val n m).
Proof. intros [[Ha _] [H0 Hp]] Hm Hn. destruct Ha as [_ [_ H]]. apply H; lia. Qed.
Lemma tb3_sign tb p k m : tb3_for tb p -> (Z.abs k <= p)%Z -> (Z.abs m <= p)%Z ->
  exists s1 s2 s3, st_get (t_s1 tb) k m = Ok s1 /\ st_get (t_s2 tb) k m = Ok s2 /\ st_get (t_s3 tb) k m = Ok s3 /\
    RtoC s1 = ipow (exp1 k m) /\ RtoC s2 = ipow (exp2 k m) /\ RtoC s3 = ipow (exp3 k m).
Proof.
  intros [(_ & H1 & H2 & H3 & E1 & E2 & E3) [H0 Hp]] Hk Hm.
  destruct (sign_ok (exp1 k m) (exp1_even k m)) as [s1 [F1 G1]].
  destruct (sign_ok (exp2 k m) (exp2_even k m)) as [s2 [F2 G2]].
  destruct (sign_ok (exp3 k m) (exp3_even k m)) as [s3 [F3 G3]].
  exists s1, s2, s3.
  split; [destruct H1 as [_ [_ H1]]; rewrite (proj2 (H1 ltac:(lia))) by lia; exact F1|].
  split; [destruct H2 as [_ [_ H2]]; rewrite (proj2 (H2 ltac:(lia))) by lia; exact F2|].
  split; [destruct H3 as [_ [_ H3]]; rewrite (proj2 (H3 ltac:(lia))) by lia; exact F3|].
  repeat split; assumption.
Qed.
Lemma pow_table_R x nmax n : (n <= nmax)%nat -> pow_get (pow_table 1%R Rmult x nmax) n = Ok (x ^ n)%R.
Proof.
  intros H. rewrite pow_table_get by assumption. now rewrite gpow_R.
Qed.

(** Coefficients after [shift] of a multipole expansion by [S]. *)
Definition m2m_coef (f : Z -> Z -> C) (S : P3) (j k : Z) : C :=
  lsum (fun n => lsum (fun m => ipow (exp1 k m) * RtoC (A_val n m * A_val (j - n) (k - m)) * (f (j - n)%Z (k - m)%Z * Yr S n (- m)))
    (zrange (Z.max (- n) (n + k - j)) (Z.min n (j + k - n)))) (zrange 0 j) / RtoC (A_val j k).

Theorem me3_shift_ok tb p c f sv : tb3_for tb p -> (0 <= p)%Z -> length sv = 3%nat ->
  me3_shift tb (s3_of p c f) sv = Ok (co_of p (m2m_coef f (p3 sv))).
Proof.
  intros Htb Hp Hv. unfold me3_shift. cbn [s3_ord s3_of].
  destruct (direction_fun sv p) as [r [th [ph [tab [Y [Es [Et [Er [Hr [HY [HYr _]]]]]]]]]]]; [assumption|assumption|].
  rewrite Es. cbn [bind vget nth]. rewrite Et. cbn [bind].
  apply omapM_ok. intros [j k] Hin. apply in_jk in Hin. destruct Hin as [Hj Hk]. cbn [fst snd].
  rewrite (loop_sum _ (fun n => lsum (fun m => ipow (exp1 k m) * RtoC (A_val n m * A_val (j - n) (k - m)) * (f (j - n)%Z (k - m)%Z * Yr (p3 sv) n (- m)))
    (zrange (Z.max (- n) (n + k - j)) (Z.min n (j + k - n))))).
  - cbn [bind]. rewrite (tb3_alm tb p) by (try assumption; lia). cbn [bind]. unfold m2m_coef. f_equal. f_equal. ring.
  - intros acc n Hn. apply in_zrange in Hn.
    rewrite (loop_sum _ (fun m => ipow (exp1 k m) * RtoC (A_val n m * A_val (j - n) (k - m)) * (f (j - n)%Z (k - m)%Z * Y n (- m)%Z))).
    + cbn [bind]. rewrite pow_table_R by lia. cbn [bind]. f_equal. f_equal. rewrite Cplus_0_l, <- lsum_scal_r. apply lsum_ext. intros m Hm. apply in_zrange in Hm.
      rewrite <- HYr by lia. ring.
    + intros acc' m Hm. apply in_zrange in Hm.
      destruct (tb3_sign tb p k m Htb ltac:(lia) ltac:(lia)) as [s1 [s2 [s3 [F1 [_ [_ [G1 _]]]]]]].
      rewrite F1. cbn [bind]. rewrite !(tb3_alm tb p) by (try assumption; lia). cbn [bind].
      fold (s3_of p c f). rewrite s3_of_get by lia. cbn [bind]. rewrite HY by lia. cbn [bind]. f_equal. f_equal.
      rewrite <- G1. rewrite !RtoC_mult. ring.
Qed.

(** Coefficients after conversion of a multipole expansion whose center is at offset [D]. *)
Definition m2l_coef (p : Z) (f : Z -> Z -> C) (D : P3) (j k : Z) : C :=
  lsum (fun n => lsum (fun m => sg n * ipow (exp2 k m) * RtoC (A_val n m / A_val (j + n) (m - k) * / pn D ^ (2 * Z.to_nat (j + n) + 1)) *
      (f n m * Yr D (j + n) (m - k))) (zrange (- n) n)) (zrange 0 p) * RtoC (A_val j k).

Theorem le3_convert_ok tb p c c' f : tb3_for tb p -> (0 <= p)%Z -> length c = 3%nat -> length c' = 3%nat -> pn (p3 (vsub c' c)) <> 0%R ->
  le3_convert tb c (s3_of p c' f) = Ok (s3_of p c (m2l_coef p f (p3 (vsub c' c)))).
Proof.
  intros Htb Hp Hc Hc' Hnz. unfold le3_convert. cbn [s3_ctr s3_ord s3_of].
  destruct (direction_fun (vsub c' c) (2 * p)) as [r [th [ph [tab [Y [Es [Et [Er [Hr [HY [HYr _]]]]]]]]]]]; [apply len3_vsub; assumption|lia|].
  rewrite <- Er in Hnz.
  rewrite Es. cbn [bind vget nth]. rewrite Et. cbn [bind]. rewrite rinv_ok by assumption. cbn [bind].
  rewrite (omapM_ok _ (fun jk => m2l_coef p f (p3 (vsub c' c)) (fst jk) (snd jk))); [reflexivity|].
  intros [j k] Hin. apply in_jk in Hin. destruct Hin as [Hj Hk]. cbn [fst snd].
  rewrite (loop_sum _ (fun n => lsum (fun m => sg n * ipow (exp2 k m) * RtoC (A_val n m / A_val (j + n) (m - k) * / r ^ (2 * Z.to_nat (j + n) + 1)) *
      (f n m * Yr (p3 (vsub c' c)) (j + n) (m - k))) (zrange (- n) n))).
  - cbn [bind]. rewrite (tb3_alm tb p) by (try assumption; lia). cbn [bind]. unfold m2l_coef. rewrite <- Er. f_equal. f_equal. ring.
  - intros acc n Hn. apply in_zrange in Hn.
    rewrite (loop_sum _ (fun m => ipow (exp2 k m) * RtoC (A_val n m / A_val (j + n) (m - k)) * (f n m * Y (j + n)%Z (m - k)%Z))).
    + cbn [bind]. rewrite pow_table_R by lia. cbn [bind]. f_equal. f_equal. rewrite Cplus_0_l, <- lsum_scal. apply lsum_ext. intros m Hm. apply in_zrange in Hm.
      rewrite <- HYr by lia. unfold sg. replace (Z.to_nat (j + n + 1)) with (S (Z.to_nat (j + n))) by lia.
      simpl pow at 1. rewrite pow_even_split by assumption. rewrite !RtoC_mult. ring.
    + intros acc' m Hm. apply in_zrange in Hm.
      destruct (tb3_sign tb p k m Htb ltac:(lia) ltac:(lia)) as [s1 [s2 [s3 [_ [F2 [_ [_ [G2 _]]]]]]]].
      rewrite F2. cbn [bind]. rewrite !(tb3_alm tb p) by (try assumption; lia). cbn [bind].
      fold (s3_of p c' f). rewrite s3_of_get by lia. cbn [bind]. rewrite HY by lia. cbn [bind]. f_equal. f_equal.
      rewrite <- G2. unfold Rdiv. rewrite !RtoC_mult. ring.
Qed.

(** Coefficients after [shift] of a local expansion by [S]. *)
Definition l2l_coef (p : Z) (f : Z -> Z -> C) (S : P3) (j k : Z) : C :=
  RtoC (A_val j k) * lsum (fun n => lsum (fun m => sg (n + j) * ipow (exp3 k m) * RtoC (A_val (n - j) (m - k) / A_val n m) * (f n m * Yr S (n - j) (m - k)))
    (zrange (Z.max (- n) (k + j - n)) (Z.min n (k + n - j)))) (zrange j p).

Theorem le3_shift_ok tb p c f sv : tb3_for tb p -> (0 <= p)%Z -> length sv = 3%nat ->
  le3_shift tb (s3_of p c f) sv = Ok (co_of p (l2l_coef p f (p3 sv))).
Proof.
  intros Htb Hp Hv. unfold le3_shift. cbn [s3_ord s3_of].
  destruct (direction_fun sv (2 * p)) as [r [th [ph [tab [Y [Es [Et [Er [Hr [HY [HYr _]]]]]]]]]]]; [assumption|lia|].
  rewrite Es. cbn [bind vget nth]. rewrite Et. cbn [bind].
  apply omapM_ok. intros [j k] Hin. apply in_jk in Hin. destruct Hin as [Hj Hk]. cbn [fst snd].
  rewrite (loop_sum _ (fun n => lsum (fun m => sg (n + j) * ipow (exp3 k m) * RtoC (A_val (n - j) (m - k) / A_val n m) * (f n m * Yr (p3 sv) (n - j) (m - k)))
    (zrange (Z.max (- n) (k + j - n)) (Z.min n (k + n - j))))).
  - cbn [bind]. rewrite (tb3_alm tb p) by (try assumption; lia). cbn [bind]. unfold l2l_coef. f_equal. f_equal. ring.
  - intros acc n Hn. apply in_zrange in Hn.
    rewrite (loop_sum _ (fun m => ipow (exp3 k m) * RtoC (A_val (n - j) (m - k) / A_val n m) * (f n m * Y (n - j)%Z (m - k)%Z))).
    + cbn [bind]. rewrite pow_table_R by lia. cbn [bind]. f_equal. f_equal. rewrite Cplus_0_l, <- lsum_scal. apply lsum_ext. intros m Hm. apply in_zrange in Hm.
      rewrite <- HYr by lia. unfold sg. rewrite !RtoC_mult. ring.
    + intros acc' m Hm. apply in_zrange in Hm.
      destruct (tb3_sign tb p k m Htb ltac:(lia) ltac:(lia)) as [s1 [s2 [s3 [_ [_ [F3 [_ [_ G3]]]]]]]].
      rewrite F3. cbn [bind]. rewrite !(tb3_alm tb p) by (try assumption; lia). cbn [bind].
      fold (s3_of p c f). rewrite s3_of_get by lia. cbn [bind]. rewrite HY by lia. cbn [bind]. f_equal. f_equal.
      rewrite <- G3. unfold Rdiv. rewrite !RtoC_mult. ring.
Qed.
