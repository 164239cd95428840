(** Loops over integer ranges and contents of the tables of the three-dimensional expansions. *)
From Coq Require Import Reals List Arith ZArith Lia Lra.
From Coquelicot Require Import Coquelicot.
From Verif Require Import Outcome Tables CAux TableProofs Tables3D.
Import ListNotations.
Local Open Scope Z_scope.

(** ** Loops *)
Lemma in_zrange a b i : In i (zrange a b) <-> a <= i <= b.
Proof.
  unfold zrange. rewrite in_map_iff. split.
  - intros [k [<- Hk]]. apply in_seq in Hk. lia.
  - intros H. exists (Z.to_nat (i - a)). split; [lia|]. apply in_seq. lia.
Qed.
Lemma zrange_nil a b : b < a -> zrange a b = [].
Proof. intros H. unfold zrange. replace (Z.to_nat (b - a + 1)) with O by lia. reflexivity. Qed.
Lemma zrange_snoc a b : a <= b + 1 -> zrange a (b + 1) = zrange a b ++ [b + 1].
Proof.
  intros H. unfold zrange. replace (Z.to_nat (b + 1 - a + 1)) with (S (Z.to_nat (b - a + 1))) by lia.
  rewrite seq_S, map_app. simpl. do 2 f_equal. lia.
Qed.
Lemma zrange_cons a b : a <= b -> zrange a b = a :: zrange (a + 1) b.
Proof.
  intros H. unfold zrange. replace (Z.to_nat (b - a + 1)) with (S (Z.to_nat (b - (a + 1) + 1))) by lia.
  simpl. f_equal; [lia|]. rewrite <- seq_shift, map_map. apply map_ext. intros i. lia.
Qed.
Lemma zrange_nodup a b : NoDup (zrange a b).
Proof.
  unfold zrange. apply FinFun.Injective_map_NoDup; [|apply seq_NoDup]. intros x y. lia.
Qed.

(** The loop rule: an invariant kept by every iteration holds after the loop. *)
Lemma ofold_range {S} (f : S -> Z -> outcome S) b (P : Z -> S -> Prop) :
  forall n a s, n = Z.to_nat (b - a + 1) -> a <= b + 1 -> P a s ->
  (forall i s', a <= i <= b -> P i s' -> exists s'', f s' i = Ok s'' /\ P (i + 1) s'') ->
  exists s', ofold f (zrange a b) s = Ok s' /\ P (b + 1) s'.
Proof.
  induction n as [|n IH]; intros a s En Hab H0 Hstep.
  - rewrite zrange_nil by lia. exists s. split; [reflexivity|]. replace (b + 1) with a by lia. assumption.
  - rewrite zrange_cons by lia. destruct (Hstep a s) as [s1 [E1 H1]]; [lia|assumption|].
    simpl. rewrite E1. simpl. apply (IH (a + 1)); [lia|lia|assumption|].
    intros i s' Hi. apply Hstep. lia.
Qed.
Lemma loop {S} (f : S -> Z -> outcome S) a b (P : Z -> S -> Prop) s :
  a <= b + 1 -> P a s ->
  (forall i s', a <= i <= b -> P i s' -> exists s'', f s' i = Ok s'' /\ P (i + 1) s'') ->
  exists s', ofold f (zrange a b) s = Ok s' /\ P (b + 1) s'.
Proof. intros. eapply ofold_range; eauto. Qed.

(** A loop that adds a term per iteration computes a sum. *)
Lemma loop_sum {A} (f : C -> A -> outcome C) (g : A -> C) L z :
  (forall acc a, In a L -> f acc a = Ok (acc + g a)%C) -> ofold f L z = Ok (z + lsum g L)%C.
Proof.
  revert z. induction L as [|a L IH]; intros z H; simpl.
  - f_equal. ring.
  - rewrite H by (left; reflexivity). simpl. rewrite IH by (intros; apply H; right; assumption).
    f_equal. change (lsum g (a :: L)) with (g a + lsum g L)%C. ring.
Qed.
Lemma omapM_ok {A B} (f : A -> outcome B) (g : A -> B) L :
  (forall a, In a L -> f a = Ok (g a)) -> omapM f L = Ok (map g L).
Proof.
  induction L as [|a L IH]; intros H; simpl; [reflexivity|].
  rewrite H by (left; reflexivity). simpl. rewrite IH by (intros; apply H; right; assumption). reflexivity.
Qed.
Lemma ofold_ext_in {A S} (f g : S -> A -> outcome S) L : forall s,
  (forall s a, In a L -> f s a = g s a) -> ofold f L s = ofold g L s.
Proof.
  induction L as [|a L IH]; intros s H; simpl; [reflexivity|].
  rewrite H by (left; reflexivity). destruct (g s a); simpl; try reflexivity. apply IH.
  intros; apply H; right; assumption.
Qed.

(** ** Vectors *)
Lemma zset_ok {A} (tab : list A) k x : 0 <= k < Z.of_nat (length tab) -> zset tab k x = Ok (lset tab (Z.to_nat k) x).
Proof.
  intros H. unfold zset. destruct (Z.leb_spec 0 k); [|lia]. destruct (Z.ltb_spec k (Z.of_nat (length tab))); [|lia].
  reflexivity.
Qed.
Lemma zget_same {A} (tab : list A) k x : 0 <= k < Z.of_nat (length tab) -> zget (lset tab (Z.to_nat k) x) k = Ok x.
Proof.
  intros H. unfold zget. destruct (Z.ltb_spec k 0); [lia|]. rewrite lset_same by lia. reflexivity.
Qed.
Lemma zget_other {A} (tab : list A) k i x : 0 <= k -> 0 <= i -> i <> k -> zget (lset tab (Z.to_nat k) x) i = zget tab i.
Proof.
  intros Hk Hi H. unfold zget. destruct (Z.ltb_spec i 0); [reflexivity|]. rewrite lset_other by lia. reflexivity.
Qed.
Lemma zget_nth {A} (tab : list A) k d : 0 <= k < Z.of_nat (length tab) -> zget tab k = Ok (nth (Z.to_nat k) tab d).
Proof.
  intros H. unfold zget. destruct (Z.ltb_spec k 0); [lia|]. rewrite (nth_error_nth' tab d) by lia. reflexivity.
Qed.
Lemma zget_nil {A} k : zget (@nil A) k = UB.
Proof. unfold zget. destruct (k <? 0); [reflexivity|]. destruct (Z.to_nat k); reflexivity. Qed.
Lemma zget_out {A} (tab : list A) k : k < 0 \/ Z.of_nat (length tab) <= k -> zget tab k = UB.
Proof.
  intros H. unfold zget. destruct (Z.ltb_spec k 0); [reflexivity|].
  replace (nth_error tab (Z.to_nat k)) with (@None A); [reflexivity|]. symmetry. apply nth_error_None. lia.
Qed.

(** ** Index of (l, m) *)
Lemma sh_index_inj l m l' m' : Z.abs m <= l -> Z.abs m' <= l' -> sh_index l m = sh_index l' m' -> l = l' /\ m = m'.
Proof.
  unfold sh_index. intros H H' E. assert (l = l'); [|subst; split; [reflexivity|lia]].
  destruct (Z.lt_trichotomy l l') as [Hl|[Hl|Hl]]; [nia|assumption|nia].
Qed.
Lemma sh_index_bound l m p : Z.abs m <= l -> l <= p -> 0 <= sh_index l m < (p + 1) * (p + 1).
Proof. unfold sh_index. intros H Hp. nia. Qed.

(** ** A_n^m *)
Definition a_val (n m : Z) : R := sqrt (INR (fact (Z.to_nat (n - m))) * INR (fact (Z.to_nat (n + m)))).
Definition A_val (n m : Z) : R := ((if Z.odd n then -1 else 1) / a_val n m)%R.

Lemma gsl_fact_ok n : 0 <= n <= 170 -> gsl_fact n = Ok (INR (fact (Z.to_nat n))).
Proof.
  intros H. unfold gsl_fact. destruct (Z.leb_spec 0 n); [|lia]. destruct (Z.leb_spec n 170); [|lia]. reflexivity.
Qed.
Lemma A_coeff_ok n m : Z.abs m <= n -> 2 * n <= 170 -> A_coeff n m = Ok (A_val n m).
Proof.
  intros H Hn. unfold A_coeff. destruct (Z.ltb_spec n 0); [lia|].
  rewrite !gsl_fact_ok by lia. reflexivity.
Qed.
Lemma INR_fact_pos n : (0 < INR (fact n))%R.
Proof. apply lt_0_INR. apply lt_O_fact. Qed.
Lemma a_val_pos n m : (0 < a_val n m)%R.
Proof. unfold a_val. apply sqrt_lt_R0. apply Rmult_lt_0_compat; apply INR_fact_pos. Qed.
Lemma a_val_opp n m : a_val n (- m) = a_val n m.
Proof. unfold a_val. rewrite Rmult_comm. do 5 f_equal; lia. Qed.
Lemma A_val_nz n m : A_val n m <> 0%R.
Proof.
  unfold A_val, Rdiv. pose proof (a_val_pos n m) as H. apply Rmult_integral_contrapositive. split.
  - destruct (Z.odd n); lra.
  - apply Rinv_neq_0_compat. lra.
Qed.

(** What a filled table of A_n^m contains. *)
Definition alm_ok (t : atab) : Prop :=
  0 <= at_max t /\
  (at_max t = 0 -> at_tab t = []) /\
  (0 < at_max t -> length (at_tab t) = Z.to_nat ((2 * at_max t + 1) * (2 * at_max t + 1)) /\
    forall l m, Z.abs m <= l -> l <= 2 * at_max t -> alm_get t l m = Ok (A_val l m)).

Lemma alm_fill order tab : 0 < order <= 42 -> length tab = Z.to_nat ((2 * order + 1) * (2 * order + 1)) ->
  exists tab', ofold (fun tab l =>
      ofold (fun tab' m => bind (A_coeff l m) (fun a => zset tab' (sh_index l m) a)) (zrange (- l) l) tab)
    (zrange 0 (2 * order)) tab = Ok tab' /\ length tab' = length tab /\
    forall l m, Z.abs m <= l -> l <= 2 * order -> zget tab' (sh_index l m) = Ok (A_val l m).
Proof.
  intros Ho Hlen.
  destruct (loop (fun tab l =>
      ofold (fun tab' m => bind (A_coeff l m) (fun a => zset tab' (sh_index l m) a)) (zrange (- l) l) tab) 0 (2 * order)
    (fun i t => length t = length tab /\ forall l m, Z.abs m <= l -> l < i -> zget t (sh_index l m) = Ok (A_val l m)) tab)
    as [t' [E [Hl H]]].
  - lia.
  - split; [reflexivity|]. intros l m. lia.
  - intros l t Hl [Ht Hold].
    destruct (loop (fun tab' m => bind (A_coeff l m) (fun a => zset tab' (sh_index l m) a)) (- l) l
      (fun i t => length t = length tab /\
         (forall l' m', Z.abs m' <= l' -> l' < l -> zget t (sh_index l' m') = Ok (A_val l' m')) /\
         (forall m', - l <= m' < i -> zget t (sh_index l m') = Ok (A_val l m'))) t) as [t2 [E2 [L2 [O2 N2]]]].
    + lia.
    + split; [assumption|]. split; [assumption|]. intros; lia.
    + intros m t1 Hm [L1 [O1 N1]].
      rewrite A_coeff_ok by lia. simpl.
      pose proof (sh_index_bound l m (2 * order)) as Hb.
      assert (Hr : 0 <= sh_index l m < Z.of_nat (length t1)) by (rewrite L1, Hlen; nia).
      rewrite zset_ok by assumption. eexists. split; [reflexivity|].
      rewrite lset_length. split; [assumption|]. split.
      * intros l' m' Hm' Hl'. rewrite zget_other; [now apply O1|lia| |].
        -- pose proof (sh_index_bound l' m' l'). lia.
        -- intros E'. apply sh_index_inj in E'; lia.
      * intros m' Hm'. destruct (Z.eq_dec m' m) as [->|Hne].
        -- now apply zget_same.
        -- rewrite zget_other; [apply N1; lia|lia| |].
           ++ pose proof (sh_index_bound l m' l). lia.
           ++ intros E'. apply sh_index_inj in E'; lia.
    + exists t2. split; [assumption|]. split; [assumption|].
      intros l' m' Hm' Hl'. destruct (Z.eq_dec l' l) as [->|Hne]; [apply N2; lia|apply O2; lia].
  - exists t'. split; [assumption|]. split; [assumption|]. intros l m Hm Hl'. apply H; lia.
Qed.

Lemma alm_refresh_ok t order : alm_ok t -> 0 <= order <= 42 ->
  exists t', alm_refresh t order = Ok t' /\ alm_ok t' /\ at_max t' = Z.max (at_max t) order.
Proof.
  intros [H0 [He Hn]] Ho. unfold alm_refresh. destruct (Z.leb_spec order (at_max t)) as [Hle|Hgt].
  - exists t. split; [reflexivity|]. split; [repeat split; auto; now apply Hn|lia].
  - set (tab0 := resize 0%R (at_tab t) (Z.to_nat ((2 * order + 1) * (2 * order + 1)))).
    assert (Hlen : length tab0 = Z.to_nat ((2 * order + 1) * (2 * order + 1))).
    { apply resize_length. destruct (Z.eq_dec (at_max t) 0) as [Hz|Hz].
      - rewrite (He Hz). simpl. lia.
      - destruct (Hn ltac:(lia)) as [-> _]. apply Z2Nat.inj_le; nia. }
    destruct (alm_fill order tab0) as [tab' [E [L H]]]; [lia|assumption|].
    cbv beta in E. rewrite E. simpl. eexists. split; [reflexivity|]. split; [|simpl; lia].
    split; [simpl; lia|]. split; [simpl; lia|]. intros _. split; [cbn [at_tab at_max st_tab st_max]; congruence|exact H].
Qed.

(** ** Sign functions *)
(** i^e for an integer e. *)
Definition ipow (e : Z) : C :=
  match e mod 4 with 0 => RtoC 1 | 1 => Ci | 2 => RtoC (-1) | _ => (- Ci)%C end.

Lemma ipow_0 : ipow 0 = RtoC 1.
Proof. reflexivity. Qed.
Lemma ipow_succ e : ipow (e + 1) = (Ci * ipow e)%C.
Proof.
  unfold ipow. rewrite Z.add_mod by lia. change (1 mod 4) with 1.
  pose proof (Z.mod_pos_bound e 4 ltac:(lia)) as Hb.
  assert (Hc : e mod 4 = 0 \/ e mod 4 = 1 \/ e mod 4 = 2 \/ e mod 4 = 3) by lia.
  destruct Hc as [E|[E|[E|E]]]; rewrite E; simpl; apply injective_projections; simpl; ring.
Qed.
Lemma ipow_add a b : ipow (a + b) = (ipow a * ipow b)%C.
Proof.
  assert (G : forall n : nat, forall b, ipow (Z.of_nat n + b) = (ipow (Z.of_nat n) * ipow b)%C).
  { induction n as [|n IH]; intros c.
    - simpl. rewrite ipow_0. ring.
    - replace (Z.of_nat (S n) + c) with ((Z.of_nat n + c) + 1) by lia.
      replace (Z.of_nat (S n)) with (Z.of_nat n + 1) by lia. rewrite !ipow_succ, IH. ring. }
  assert (P : forall e k, ipow (e + 4 * k) = ipow e).
  { intros e k. unfold ipow. replace (e + 4 * k) with (e + k * 4) by ring. rewrite Z.mod_add by lia. reflexivity. }
  rewrite <- (P a (Z.abs a)), <- (P (a + b) (Z.abs a)).
  replace (a + b + 4 * Z.abs a) with (Z.of_nat (Z.to_nat (a + 4 * Z.abs a)) + b) by lia.
  rewrite G. do 2 f_equal. lia.
Qed.
Lemma ipow_even k : ipow (2 * k) = RtoC (if Z.odd k then -1 else 1).
Proof.
  unfold ipow. replace 4 with (2 * 2) by reflexivity. rewrite Z.mul_mod_distr_l by lia.
  rewrite Zmod_odd. destruct (Z.odd k); reflexivity.
Qed.
Lemma sign_switch_ok k : sign_switch (2 * k) = Ok (if Z.odd k then -1 else 1)%R.
Proof.
  unfold sign_switch. rewrite Z.abs_mul. change (Z.abs 2) with 2. replace 4 with (2 * 2) by reflexivity.
  rewrite Z.mul_mod_distr_l by lia. rewrite Zmod_odd.
  replace (Z.odd (Z.abs k)) with (Z.odd k); [destruct (Z.odd k); reflexivity|].
  destruct (Z.abs_spec k) as [[_ ->]|[_ ->]]; [reflexivity|]. now rewrite Z.odd_opp.
Qed.
Lemma parity_half e : Z.even e = true -> exists k, e = 2 * k.
Proof. intros H. apply Z.even_spec in H. exact H. Qed.
Lemma even_abs k : Z.even (Z.abs k) = Z.even k.
Proof. destruct (Z.abs_spec k) as [[_ ->]|[_ ->]]; [reflexivity|]. now rewrite Z.even_opp. Qed.

(** The exponents of the three sign functions. *)
Definition exp1 (k m : Z) : Z := Z.abs k - Z.abs m - Z.abs (k - m).
Definition exp2 (k m : Z) : Z := Z.abs (k - m) - Z.abs k - Z.abs m.
Definition exp3 (k m : Z) : Z := Z.abs m - Z.abs (m - k) - Z.abs k.
Lemma exp1_even k m : exists h, exp1 k m = 2 * h.
Proof.
  apply parity_half. unfold exp1. rewrite !Z.even_sub, !even_abs, Z.even_sub.
  destruct (Z.even k), (Z.even m); reflexivity.
Qed.
Lemma exp2_even k m : exists h, exp2 k m = 2 * h.
Proof.
  apply parity_half. unfold exp2. rewrite !Z.even_sub, !even_abs, Z.even_sub.
  destruct (Z.even k), (Z.even m); reflexivity.
Qed.
Lemma exp3_even k m : exists h, exp3 k m = 2 * h.
Proof.
  apply parity_half. unfold exp3. rewrite !Z.even_sub, !even_abs, Z.even_sub.
  destruct (Z.even k), (Z.even m); reflexivity.
Qed.
Lemma sign_ok (e : Z) : (exists h, e = 2 * h) -> exists s, sign_switch e = Ok s /\ RtoC s = ipow e.
Proof. intros [h ->]. rewrite sign_switch_ok, ipow_even. eexists; split; reflexivity. Qed.

(** What a filled sign table contains. *)
Definition st_ok (fn : Z -> Z -> outcome R) (t : stab) : Prop :=
  0 <= st_max t /\
  (st_max t = 0 -> st_tab t = []) /\
  (0 < st_max t -> length (st_tab t) = Z.to_nat ((2 * st_max t + 1) * (2 * st_max t + 1)) /\
    forall k m, Z.abs k <= st_max t -> Z.abs m <= st_max t -> st_get t k m = fn k m).

Lemma st_index_bound p k m : Z.abs k <= p -> Z.abs m <= p ->
  0 <= st_index p (2 * p * (p + 1)) k m < (2 * p + 1) * (2 * p + 1).
Proof. unfold st_index. nia. Qed.
Lemma st_index_inj p off k m k' m' : Z.abs m <= p -> Z.abs m' <= p -> 
  st_index p off k m = st_index p off k' m' -> k = k' /\ m = m'.
Proof.
  unfold st_index. intros Hm Hm' E. assert (k = k'); [|subst; split; [reflexivity|lia]].
  destruct (Z.lt_trichotomy k k') as [Hl|[Hl|Hl]]; [nia|assumption|nia].
Qed.

Lemma st_fill (fn : Z -> Z -> outcome R) order tab : (forall k m, exists s, fn k m = Ok s) -> 0 < order ->
  length tab = Z.to_nat ((2 * order + 1) * (2 * order + 1)) ->
  exists tab', ofold (fun tab l =>
      ofold (fun tab' m => bind (fn l m) (fun s => zset tab' (st_index order (2 * order * (order + 1)) l m) s))
        (zrange (- order) order) tab) (zrange (- order) order) tab = Ok tab' /\ length tab' = length tab /\
    forall k m, Z.abs k <= order -> Z.abs m <= order ->
      zget tab' (st_index order (2 * order * (order + 1)) k m) = fn k m.
Proof.
  intros Hfn Ho Hlen. set (ix := st_index order (2 * order * (order + 1))).
  destruct (loop (fun tab l =>
      ofold (fun tab' m => bind (fn l m) (fun s => zset tab' (ix l m) s)) (zrange (- order) order) tab) (- order) order
    (fun i t => length t = length tab /\ forall l m, - order <= l < i -> Z.abs m <= order -> zget t (ix l m) = fn l m) tab)
    as [t' [E [Hl H]]].
  - lia.
  - split; [reflexivity|]. intros l m. lia.
  - intros l t Hl [Ht Hold].
    destruct (loop (fun tab' m => bind (fn l m) (fun s => zset tab' (ix l m) s)) (- order) order
      (fun i t => length t = length tab /\
         (forall l' m', - order <= l' < l -> Z.abs m' <= order -> zget t (ix l' m') = fn l' m') /\
         (forall m', - order <= m' < i -> zget t (ix l m') = fn l m')) t) as [t2 [E2 [L2 [O2 N2]]]].
    + lia.
    + split; [assumption|]. split; [assumption|]. intros; lia.
    + intros m t1 Hm [L1 [O1 N1]]. destruct (Hfn l m) as [s Es]. rewrite Es. simpl.
      pose proof (st_index_bound order l m) as Hb. fold ix in Hb.
      assert (Hr : 0 <= ix l m < Z.of_nat (length t1)) by (rewrite L1, Hlen; nia).
      rewrite zset_ok by assumption. eexists. split; [reflexivity|].
      rewrite lset_length. split; [assumption|]. split.
      * intros l' m' Hl' Hm'. rewrite zget_other; [now apply O1|lia| |].
        -- pose proof (st_index_bound order l' m') as Hb'. fold ix in Hb'. lia.
        -- intros E'. apply st_index_inj in E'; lia.
      * intros m' Hm'. destruct (Z.eq_dec m' m) as [->|Hne].
        -- rewrite Es. now apply zget_same.
        -- rewrite zget_other; [apply N1; lia|lia| |].
           ++ pose proof (st_index_bound order l m') as Hb'. fold ix in Hb'. lia.
           ++ intros E'. apply st_index_inj in E'; lia.
    + exists t2. split; [assumption|]. split; [assumption|].
      intros l' m' Hl' Hm'. destruct (Z.eq_dec l' l) as [->|Hne]; [apply N2; lia|apply O2; lia].
  - exists t'. split; [assumption|]. split; [assumption|]. intros l m Hl' Hm. apply H; lia.
Qed.

Lemma st_refresh_ok fn t order : (forall k m, exists s, fn k m = Ok s) -> st_ok fn t -> 0 <= order ->
  exists t', st_refresh fn t order = Ok t' /\ st_ok fn t' /\ st_max t' = Z.max (st_max t) order.
Proof.
  intros Hfn [H0 [He Hn]] Ho. unfold st_refresh. destruct (Z.leb_spec order (st_max t)) as [Hle|Hgt].
  - exists t. split; [reflexivity|]. split; [repeat split; auto; now apply Hn|lia].
  - cbv zeta. set (tab0 := resize 0%R (st_tab t) (Z.to_nat ((2 * order + 1) * (2 * order + 1)))).
    assert (Hlen : length tab0 = Z.to_nat ((2 * order + 1) * (2 * order + 1))).
    { apply resize_length. destruct (Z.eq_dec (st_max t) 0) as [Hz|Hz].
      - rewrite (He Hz). simpl. lia.
      - destruct (Hn ltac:(lia)) as [-> _]. apply Z2Nat.inj_le; nia. }
    destruct (st_fill fn order tab0) as [tab' [E [L H]]]; [assumption|lia|assumption|].
    cbv beta in E. rewrite E. simpl. eexists. split; [reflexivity|]. split; [|simpl; lia].
    split; [simpl; lia|]. split; [simpl; lia|]. intros _. split; [cbn [at_tab at_max st_tab st_max]; congruence|exact H].
Qed.

(** ** The static tables *)
Definition tb3_ok (tb : tb3) : Prop :=
  alm_ok (t_alm tb) /\ st_ok sign_fun1 (t_s1 tb) /\ st_ok sign_fun2 (t_s2 tb) /\ st_ok sign_fun3 (t_s3 tb) /\
  st_max (t_s1 tb) = at_max (t_alm tb) /\ st_max (t_s2 tb) = at_max (t_alm tb) /\ st_max (t_s3 tb) = at_max (t_alm tb).

Lemma sign1_total k m : exists s, sign_fun1 k m = Ok s.
Proof. destruct (sign_ok (exp1 k m) (exp1_even k m)) as [s [E _]]. exists s. exact E. Qed.
Lemma sign2_total k m : exists s, sign_fun2 k m = Ok s.
Proof. destruct (sign_ok (exp2 k m) (exp2_even k m)) as [s [E _]]. exists s. exact E. Qed.
Lemma sign3_total k m : exists s, sign_fun3 k m = Ok s.
Proof. destruct (sign_ok (exp3 k m) (exp3_even k m)) as [s [E _]]. exists s. exact E. Qed.

Lemma tb3_init_ok : tb3_ok tb3_init.
Proof.
  unfold tb3_ok, tb3_init, alm_ok, st_ok; simpl. repeat split; intros; try lia; reflexivity.
Qed.
Lemma tb3_refresh_ok tb order : tb3_ok tb -> 0 <= order <= 42 ->
  exists tb', tb3_refresh tb order = Ok tb' /\ tb3_ok tb' /\ at_max (t_alm tb') = Z.max (at_max (t_alm tb)) order.
Proof.
  intros (Ha & H1 & H2 & H3 & E1 & E2 & E3) Ho. unfold tb3_refresh.
  destruct (Z.ltb_spec (at_max (t_alm tb)) order) as [Hlt|Hge].
  - destruct (alm_refresh_ok _ order Ha Ho) as [a' [Ea [Oa Ma]]]. rewrite Ea. simpl.
    destruct (st_refresh_ok _ _ order sign1_total H1 ltac:(lia)) as [s1 [Es1 [Os1 Ms1]]]. rewrite Es1. simpl.
    destruct (st_refresh_ok _ _ order sign2_total H2 ltac:(lia)) as [s2 [Es2 [Os2 Ms2]]]. rewrite Es2. simpl.
    destruct (st_refresh_ok _ _ order sign3_total H3 ltac:(lia)) as [s3 [Es3 [Os3 Ms3]]]. rewrite Es3. simpl.
    eexists. split; [reflexivity|]. split; [|exact Ma].
    unfold tb3_ok; simpl. repeat split; try apply Oa; try apply Os1; try apply Os2; try apply Os3; congruence.
  - exists tb. split; [reflexivity|]. split; [|lia]. repeat split; try apply Ha; try apply H1; try apply H2; try apply H3; assumption.
Qed.

(** Tables of an order that needs a factorial GSL does not provide. *)
Lemma gsl_fact_abort n : 170 < n -> gsl_fact n = Abort.
Proof.
  intros H. unfold gsl_fact. destruct (Z.leb_spec n 170); [lia|]. rewrite Bool.andb_false_r. reflexivity.
Qed.
Lemma A_coeff_abort l : 85 < l -> A_coeff l (- l) = Abort.
Proof.
  intros H. unfold A_coeff. destruct (Z.ltb_spec l 0); [lia|]. rewrite gsl_fact_abort by lia. reflexivity.
Qed.
Lemma loop_abort {S} (f : S -> Z -> outcome S) a b c (P : Z -> S -> Prop) s :
  a <= c -> c <= b -> P a s ->
  (forall i s', a <= i < c -> P i s' -> exists s'', f s' i = Ok s'' /\ P (i + 1) s'') ->
  (forall s', P c s' -> f s' c = Abort) ->
  ofold f (zrange a b) s = Abort.
Proof.
  intros Hac Hcb H0 Hs Hc.
  destruct (loop f a (c - 1) P s) as [s' [E HP]]; [lia|assumption|intros; apply Hs; [lia|assumption]|].
  replace (c - 1 + 1) with c in HP by lia.
  assert (Hsplit : zrange a b = zrange a (c - 1) ++ zrange c b).
  { clear - Hac Hcb. unfold zrange. replace (Z.to_nat (b - a + 1)) with (Z.to_nat (c - 1 - a + 1) + Z.to_nat (b - c + 1))%nat by lia.
    rewrite seq_app, map_app. f_equal. rewrite Nat.add_0_l.
    rewrite <- (Nat.add_0_r (Z.to_nat (c - 1 - a + 1))) at 1.
    assert (G : forall n k st, map (fun i => a + Z.of_nat i) (seq (k + st) n) = map (fun i => a + Z.of_nat k + Z.of_nat i) (seq st n)).
    { induction n as [|n IH]; intros k st; simpl; [reflexivity|]. f_equal; [lia|]. rewrite <- IH. f_equal. f_equal. lia. }
    rewrite G. apply map_ext. intros i. lia. }
  rewrite Hsplit, ofold_app, E. simpl. rewrite zrange_cons by lia. simpl. rewrite (Hc s' HP). reflexivity.
Qed.
Lemma alm_refresh_abort t order : alm_ok t -> 42 < order -> at_max t < order -> alm_refresh t order = Abort.
Proof.
  intros [H0 [He Hn]] Ho Hm. unfold alm_refresh. destruct (Z.leb_spec order (at_max t)); [lia|].
  set (tab0 := resize 0%R (at_tab t) (Z.to_nat ((2 * order + 1) * (2 * order + 1)))).
  assert (Hlen : length tab0 = Z.to_nat ((2 * order + 1) * (2 * order + 1))).
  { apply resize_length. destruct (Z.eq_dec (at_max t) 0) as [Hz|Hz].
    - rewrite (He Hz). simpl. lia.
    - destruct (Hn ltac:(lia)) as [-> _]. apply Z2Nat.inj_le; nia. }
  replace (ofold _ (zrange 0 (2 * order)) tab0) with (@Abort (list R)); [reflexivity|]. symmetry.
  apply (loop_abort _ 0 (2 * order) 86 (fun _ t => length t = length tab0)); [lia|lia|reflexivity| |].
  - intros l t' Hl Ht.
    destruct (loop (fun tab' m => bind (A_coeff l m) (fun a => zset tab' (sh_index l m) a)) (- l) l
      (fun i t => length t = length tab0) t') as [t2 [E2 L2]].
    + lia.
    + assumption.
    + intros m t1 Hm1 L1. rewrite A_coeff_ok by lia. simpl.
      pose proof (sh_index_bound l m (2 * order)) as Hb.
      rewrite zset_ok by (rewrite L1, Hlen; nia). eexists. split; [reflexivity|]. rewrite lset_length. assumption.
    + exists t2. split; assumption.
  - intros t' Ht. rewrite zrange_cons by lia. simpl. reflexivity.
Qed.
Lemma tb3_refresh_abort tb order : tb3_ok tb -> 42 < order -> at_max (t_alm tb) < order -> tb3_refresh tb order = Abort.
Proof.
  intros (Ha & _) Ho Hm. unfold tb3_refresh. destruct (Z.ltb_spec (at_max (t_alm tb)) order); [|lia].
  rewrite alm_refresh_abort by assumption. reflexivity.
Qed.
Lemma tb3_max_le tb : tb3_ok tb -> exists n, at_max (t_alm tb) = n /\ 0 <= n.
Proof. intros (Ha & _). exists (at_max (t_alm tb)). split; [reflexivity|apply Ha]. Qed.
