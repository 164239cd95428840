(** Rounding errors of the parallel all-pairs functions, for every schedule. *)
From Coq Require Import Reals List Arith Bool Lra Lia Permutation.
From Verif Require Import Num Outcome Vec VecProofs Tables CAux TableProofs Schedule Fields FieldSpec FieldProofs FieldSchedules FieldTheorems
  RoundedFields RoundedSpec RoundedProofs RoundedPairs.
Import ListNotations.
Local Open Scope R_scope.

(** ** Which additions reach an entry *)
Definition hit_list (k : nat) (run : list (nat * R)) : list R := map snd (filter (fun u => (fst u =? k)%nat) run).
Lemma hit_list_app k r1 r2 : hit_list k (r1 ++ r2) = hit_list k r1 ++ hit_list k r2.
Proof. unfold hit_list. rewrite filter_app, map_app. reflexivity. Qed.
Lemma hit_list_perm k r1 r2 : Permutation r1 r2 -> Permutation (hit_list k r1) (hit_list k r2).
Proof.
  intros H. unfold hit_list. apply Permutation_map. induction H as [|x l l' H IH|x y l|l1 l2 l3 H1 IH1 H2 IH2]; simpl.
  - constructor.
  - destruct (_ =? _)%nat; [constructor|]; exact IH.
  - destruct (fst x =? k)%nat, (fst y =? k)%nat; try reflexivity. apply perm_swap.
  - etransitivity; eassumption.
Qed.
Lemma hit_list_seq k (h : nat -> R) a n : hit_list k (map (fun j => (j, h j)) (seq a n)) = if ((a <=? k)%nat && (k <? a + n)%nat)%bool then [h k] else [].
Proof.
  revert a; induction n as [|n IH]; intros a.
  - simpl. destruct (Nat.leb_spec a k), (Nat.ltb_spec k (a + 0)); try reflexivity. lia.
  - cbn [seq map]. unfold hit_list. cbn [filter fst]. fold (hit_list k (map (fun j => (j, h j)) (seq (S a) n))).
    destruct (Nat.eqb_spec a k) as [->|N].
    + cbn [map snd]. fold (hit_list k (map (fun j => (j, h j)) (seq (S k) n))). rewrite IH.
      destruct (Nat.leb_spec (S k) k); [lia|]. destruct (Nat.leb_spec k k); [|lia]. destruct (Nat.ltb_spec k (k + S n)); [reflexivity|lia].
    + fold (hit_list k (map (fun j => (j, h j)) (seq (S a) n))). rewrite IH.
      destruct (Nat.leb_spec (S a) k), (Nat.leb_spec a k), (Nat.ltb_spec k (S a + n)), (Nat.ltb_spec k (a + S n)); try reflexivity; lia.
Qed.

Section Proofs.
Variable rnd : R -> R.
Variable u : R.
Hypothesis Hu : 0 <= u < 1.
Hypothesis Hrnd : forall x, Rabs (rnd x - x) <= u * Rabs x.

Lemma add_at_r_length v w : length (add_at_r rnd v w) = length v.
Proof. apply lset_length. Qed.
Lemma add_all_r_length run v : length (fold_left (add_at_r rnd) run v) = length v.
Proof. revert v; induction run as [|w run IH]; intros v; cbn [fold_left]; [reflexivity|]. rewrite IH. apply add_at_r_length. Qed.
Lemma add_all_r_nth run v i : (i < length v)%nat -> nth i (fold_left (add_at_r rnd) run v) 0 = fold_left (fun a b => rnd (a + b)) (hit_list i run) (nth i v 0).
Proof.
  revert v; induction run as [|w run IH]; intros v Hi; cbn [fold_left]; [reflexivity|].
  rewrite IH by (rewrite add_at_r_length; exact Hi). unfold hit_list. cbn [filter]. destruct (Nat.eqb_spec (fst w) i) as [<-|N].
  - cbn [map fold_left]. unfold add_at_r. rewrite nth_lset_same by exact Hi. reflexivity.
  - unfold add_at_r. rewrite nth_lset_other by congruence. reflexivity.
Qed.

(** ** One column of the all-pairs loop: the pair values [g i j] (j < i), added to entry [i] and, with sign [sg], to entry [j] *)
Section Column.
Variables (n : nat) (sg : R) (g e B : nat -> nat -> R).
Hypothesis Hsg : Rabs sg = 1.
Hypothesis Hg : forall i j, (i < n)%nat -> (j < i)%nat -> Rabs (g i j - e i j) <= B i j - Rabs (e i j).
Hypothesis He : forall i j, (i < n)%nat -> (j < i)%nat -> sg * e i j = e j i.
Hypothesis HB : forall i j, (i < n)%nat -> (j < i)%nat -> B i j = B j i.

Definition acc (i : nat) : R := fold_left (fun s j => rnd (s + g i j)) (seq 0 i) 0.
Definition col_it (i : nat) : list (nat * R) := map (fun j => (j, sg * g i j)) (seq 0 i) ++ [(i, acc i)].

Lemma hit_it k i : hit_list k (col_it i) = if (k <? i)%nat then [sg * g i k] else if (i =? k)%nat then [acc i] else [].
Proof.
  unfold col_it. rewrite hit_list_app, (hit_list_seq k (fun j => sg * g i j)). cbn [Nat.leb andb Nat.add]. unfold hit_list. cbn [filter fst].
  destruct (Nat.ltb_spec k i).
  - destruct (Nat.eqb_spec i k); [lia|reflexivity].
  - destruct (Nat.eqb_spec i k); reflexivity.
Qed.
Lemma hit_concat k l : hit_list k (concat (map col_it l)) = concat (map (fun i => hit_list k (col_it i)) l).
Proof. induction l as [|i l IH]; [reflexivity|]. cbn [map concat]. rewrite hit_list_app, IH. reflexivity. Qed.
Lemma hit_all k : (k < n)%nat ->
  hit_list k (concat (map col_it (seq 0 n))) = acc k :: map (fun i => sg * g i k) (seq (S k) (n - S k)).
Proof.
  intros Hk. rewrite hit_concat. replace n with (k + (1 + (n - S k)))%nat at 1 by lia. rewrite !seq_app, !map_app, !concat_app. cbn [seq map concat Nat.add].
  rewrite app_nil_r, (hit_it k k), Nat.ltb_irrefl, Nat.eqb_refl.
  assert (Z : concat (map (fun i => hit_list k (col_it i)) (seq 0 k)) = []).
  { assert (Q : forall l, (forall i, In i l -> (i < k)%nat) -> concat (map (fun i => hit_list k (col_it i)) l) = []).
    { induction l as [|i l IH]; intros H; [reflexivity|]. cbn [map concat]. rewrite hit_it.
      assert (i < k)%nat by (apply H; left; reflexivity). destruct (Nat.ltb_spec k i); [lia|]. destruct (Nat.eqb_spec i k); [lia|].
      apply IH. intros; apply H; right; assumption. }
    apply Q. intros i Hi. apply in_seq in Hi. lia. }
  rewrite Z. cbn [app]. f_equal. replace (k + 1)%nat with (S k) by lia.
  assert (Q : forall l, (forall i, In i l -> (k < i)%nat) -> concat (map (fun i => hit_list k (col_it i)) l) = map (fun i => sg * g i k) l).
  { induction l as [|i l IH]; intros H; [reflexivity|]. cbn [map concat]. rewrite hit_it.
    assert (k < i)%nat by (apply H; left; reflexivity). destruct (Nat.ltb_spec k i); [|lia]. cbn [app]. f_equal. apply IH.
    intros; apply H; right; assumption. }
  apply Q. intros i Hi. apply in_seq in Hi. lia.
Qed.

Definition without (k : nat) (f : nat -> R) : R := rsum (fun j => if (j =? k)%nat then 0 else f j) (seq 0 n).
Lemma without_split k f : (k < n)%nat -> without k f = rsum f (seq 0 k) + rsum f (seq (S k) (n - S k)).
Proof.
  intros Hk. unfold without. replace n with (k + (1 + (n - S k)))%nat at 1 by lia. rewrite !seq_app, !rsum_app. cbn [seq Nat.add].
  rewrite !rsum_cons, Nat.eqb_refl. cbn [rsum fold_right]. replace (k + 1)%nat with (S k) by lia.
  rewrite (rsum_ext (fun j => if (j =? k)%nat then 0 else f j) f (seq 0 k)).
  2:{ intros i Hi. apply in_seq in Hi. destruct (Nat.eqb_spec i k); [lia|reflexivity]. }
  rewrite (rsum_ext (fun j => if (j =? k)%nat then 0 else f j) f (seq (S k) (n - S k))).
  2:{ intros i Hi. apply in_seq in Hi. destruct (Nat.eqb_spec i k); [lia|reflexivity]. }
  ring.
Qed.

Theorem column_error run k : (k < n)%nat -> Permutation (concat (map col_it (seq 0 n))) run ->
  Rabs (nth k (fold_left (add_at_r rnd) run (repeat 0 n)) 0 - without k (e k)) <= (1 + u) ^ n * without k (B k) - without k (fun j => Rabs (e k j)).
Proof.
  intros Hk HP. rewrite add_all_r_nth by (rewrite repeat_length; exact Hk). rewrite nth_repeat.
  set (L := hit_list k run). assert (PL : Permutation L (acc k :: map (fun i => sg * g i k) (seq (S k) (n - S k)))).
  { rewrite <- hit_all by exact Hk. apply hit_list_perm. symmetry. exact HP. }
  assert (SE := sum_error rnd u Hu Hrnd L 0). rewrite Rabs_R0, !Rplus_0_l in SE.
  rewrite (rsum_perm _ _ _ PL), (rsum_perm _ _ _ PL), (Permutation_length PL) in SE. cbn [length] in SE. rewrite map_length, seq_length in SE.
  rewrite !rsum_cons, !rsum_map in SE. rewrite !without_split by exact Hk.
  set (F := fold_left _ L 0) in *. set (hi := seq (S k) (n - S k)) in *. set (lo := seq 0 k) in *.
  assert (AE : Rabs (acc k - rsum (e k) lo) <= (1 + u) ^ k * rsum (B k) lo - rsum (fun j => Rabs (e k j)) lo).
  { unfold acc. eapply Rle_trans; [apply (terms_error rnd u Hu Hrnd (g k) (e k) (B k))|].
    - intros j Hj. apply in_seq in Hj. apply Hg; lia.
    - unfold lo. rewrite seq_length. apply Rle_refl. }
  assert (GE : forall i, In i hi -> Rabs (sg * g i k - e k i) <= B k i - Rabs (e k i)).
  { intros i Hi. apply in_seq in Hi. rewrite <- (He i k), <- (HB i k) by lia. replace (sg * g i k - sg * e i k) with (sg * (g i k - e i k)) by ring.
    rewrite !Rabs_mult, Hsg, !Rmult_1_l. apply Hg; lia. }
  assert (S1 : Rabs (rsum (fun i => sg * g i k) hi - rsum (e k) hi) <= rsum (B k) hi - rsum (fun j => Rabs (e k j)) hi).
  { rewrite <- !rsum_minus. eapply Rle_trans; [apply rsum_abs|]. apply rsum_le. exact GE. }
  assert (S2 : rsum (fun i => Rabs (sg * g i k)) hi <= rsum (B k) hi).
  { apply rsum_le. intros i Hi. assert (Q := GE i Hi). assert (T := Rabs_triang (sg * g i k - e k i) (e k i)).
    replace (sg * g i k - e k i + e k i) with (sg * g i k) in T by ring. lra. }
  assert (S3 : Rabs (acc k) <= (1 + u) ^ k * rsum (B k) lo).
  { assert (T := Rabs_triang (acc k - rsum (e k) lo) (rsum (e k) lo)). replace (acc k - rsum (e k) lo + rsum (e k) lo) with (acc k) in T by ring.
    assert (T2 := rsum_abs (e k) lo). lra. }
  assert (P1 : 1 <= (1 + u) ^ S (n - S k)) by (apply pow_R1_Rle; lra).
  assert (P2 : 1 <= (1 + u) ^ k) by (apply pow_R1_Rle; lra).
  assert (PN : (1 + u) ^ n = (1 + u) ^ k * (1 + u) ^ S (n - S k)) by (rewrite <- pow_add; f_equal; lia).
  set (Q := (1 + u) ^ S (n - S k)) in *. set (P := (1 + u) ^ k) in *. rewrite PN.
  set (ba := rsum (B k) lo) in *. set (bd := rsum (B k) hi) in *.
  assert (bd0 : 0 <= bd) by (eapply Rle_trans; [|exact S2]; apply rsum_nonneg; intros; apply Rabs_pos).
  replace (F - (rsum (e k) lo + rsum (e k) hi)) with ((F - (acc k + rsum (fun i => sg * g i k) hi)) + ((acc k - rsum (e k) lo) + (rsum (fun i => sg * g i k) hi - rsum (e k) hi))) by ring.
  eapply Rle_trans; [apply Rabs_triang|]. eapply Rle_trans; [apply Rplus_le_compat_l, Rabs_triang|].
  assert (X : (Q - 1) * (Rabs (acc k) + rsum (fun i => Rabs (sg * g i k)) hi) <= (Q - 1) * (P * ba + bd)) by (apply Rmult_le_compat_l; lra).
  assert (Y : Q * bd <= P * Q * bd).
  { apply Rmult_le_compat_r; [exact bd0|]. rewrite <- (Rmult_1_l Q) at 1. apply Rmult_le_compat_r; lra. }
  lra.
Qed.
End Column.

(** ** particlePotentialEnergies *)
Variable hyp : list R -> R.
Variable lg : R -> R.
Variable er : R.
Hypothesis Her : 0 <= er < 1.
Hypothesis Hhyp : forall v, Rabs (hyp v - vnorm v) <= er * vnorm v.
Hypothesis Hlg : accurate_log er lg.
Variables (d : nat) (grav : bool) (srcs : list (psrc R)).
Hypothesis Hdim : same_dim d srcs.
Hypothesis Hdist : forall i j si sj, nth_error srcs i = Some si -> nth_error srcs j = Some sj -> i <> j -> ps_pos si <> ps_pos sj.
Hypothesis Hrep : forall s, In s srcs -> exact_opp rnd (ps_pos s).
Notation sr := (sr srcs).
Notation n := (length srcs).

Definition pot_r (i j : nat) : R := match potential_r rnd hyp lg d grav false (sr j) (ps_pos (sr i)) with Ok v => v | _ => 0 end.
Definition energy_r (i j : nat) : R := rnd (ps_q (sr i) * pot_r i j).
Definition energy_bound (i j : nat) : R := (1 + u) * (Rabs (ps_q (sr i)) * term_bound u er d (ps_q (sr j)) (dist (ps_pos (sr j)) (ps_pos (sr i)))).

Lemma pot_r_eq i j : (i < n)%nat -> (j < n)%nat -> i <> j ->
  potential_r rnd hyp lg d grav false (sr j) (ps_pos (sr i)) = Ok (pot_r i j) /\
  let t := field_sign grav * kernel d (ps_q (sr j)) (dist (ps_pos (sr j)) (ps_pos (sr i))) in
  Rabs (pot_r i j - t) <= term_bound u er d (ps_q (sr j)) (dist (ps_pos (sr j)) (ps_pos (sr i))) - Rabs t.
Proof.
  intros Hi Hj N.
  destruct (potential_r_away rnd u Hu Hrnd hyp lg er Her Hhyp Hlg d grav false (sr j) (ps_pos (sr i))) as (v & V & E).
  - rewrite (Hdim _ (sr_in _ i Hi)), (Hdim _ (sr_in _ j Hj)). reflexivity.
  - apply Hrep, sr_in. exact Hi.
  - apply (Hdist j i); [apply sr_error; exact Hj|apply sr_error; exact Hi|congruence].
  - unfold pot_r. rewrite V. split; [reflexivity|exact E].
Qed.
Lemma energy_error i j : (i < n)%nat -> (j < n)%nat -> i <> j ->
  Rabs (energy_r i j - pair_energy d grav srcs i j) <= energy_bound i j - Rabs (pair_energy d grav srcs i j).
Proof.
  intros Hi Hj N. destruct (pot_r_eq i j Hi Hj N) as [_ E]. cbv zeta in E. unfold energy_r, energy_bound, pair_energy.
  set (t := field_sign grav * _) in *. set (b := term_bound _ _ _ _ _) in *. set (q := ps_q (sr i)). set (v := pot_r i j) in *.
  assert (R1 := Hrnd (q * v)). assert (T := Rabs_triang (v - t) t). replace (v - t + t) with v in T by ring.
  assert (Q0 := Rabs_pos q). rewrite Rabs_mult in R1.
  assert (V : Rabs q * Rabs v <= Rabs q * b) by (apply Rmult_le_compat_l; lra).
  replace (rnd (q * v) - q * t) with ((rnd (q * v) - q * v) + q * (v - t)) by ring. eapply Rle_trans; [apply Rabs_triang|]. rewrite !Rabs_mult.
  assert (W : Rabs q * Rabs (v - t) <= Rabs q * (b - Rabs t)) by (apply Rmult_le_compat_l; lra).
  assert (X : u * (Rabs q * Rabs v) <= u * (Rabs q * b)) by (apply Rmult_le_compat_l; lra). lra.
Qed.
Lemma energy_bound_sym i j : (i < n)%nat -> (j < n)%nat -> energy_bound i j = energy_bound j i.
Proof.
  intros Hi Hj. unfold energy_bound. rewrite (dist_sym (ps_pos (sr j)) (ps_pos (sr i))).
  - unfold term_bound. destruct (d =? 2)%nat; unfold Rdiv; ring.
  - rewrite (Hdim _ (sr_in _ i Hi)), (Hdim _ (sr_in _ j Hj)). reflexivity.
Qed.

Lemma ppe_iteration_r_eq i : (i < n)%nat -> ppe_iteration_r rnd hyp lg d grav srcs i = Ok (col_it 1 energy_r i).
Proof.
  intros Hi. unfold ppe_iteration_r. rewrite (sr_error _ i Hi). cbn [of_option bind].
  assert (H : forall l a ups, (forall j, In j l -> (j < i)%nat) ->
    ofold (fun (st : R * list (nat * R)) j =>
      bind (of_option (nth_error srcs j)) (fun sj =>
      bind (potential_r rnd hyp lg d grav false sj (ps_pos (sr i))) (fun p =>
      Ok (rnd (fst st + rnd (ps_q (sr i) * p)), snd st ++ [(j, rnd (ps_q (sr i) * p))])))) l (a, ups)
    = Ok (fold_left (fun s j => rnd (s + energy_r i j)) l a, ups ++ map (fun j => (j, 1 * energy_r i j)) l)).
  { induction l as [|j l IH]; intros a ups Hl; cbn [ofold map fold_left].
    - rewrite app_nil_r. reflexivity.
    - assert (j < i)%nat by (apply Hl; left; reflexivity). rewrite (sr_error _ j) by lia. cbn [of_option bind].
      destruct (pot_r_eq i j Hi ltac:(lia) ltac:(lia)) as [-> _]. cbn [bind fst snd]. fold (energy_r i j).
      rewrite IH by (intros; apply Hl; right; assumption). rewrite <- app_assoc, Rmult_1_l. reflexivity. }
  rewrite H by (intros j Hj; apply in_seq in Hj; lia). reflexivity.
Qed.
Lemma omapM_seq {A} (f : nat -> outcome A) (g : nat -> A) m : (forall i, (i < m)%nat -> f i = Ok (g i)) -> omapM f (seq 0 m) = Ok (map g (seq 0 m)).
Proof.
  intros H. assert (Q : forall l, (forall i, In i l -> (i < m)%nat) -> omapM f l = Ok (map g l)).
  { induction l as [|i l IH]; intros Hl; cbn [omapM map]; [reflexivity|]. rewrite H by (apply Hl; left; reflexivity). cbn [bind].
    rewrite IH by (intros; apply Hl; right; assumption). reflexivity. }
  apply Q. intros i Hi. apply in_seq in Hi. lia.
Qed.
Lemma ppe_iterations_r_eq : ppe_iterations_r rnd hyp lg d grav srcs = Ok (map (col_it 1 energy_r) (seq 0 n)).
Proof. apply omapM_seq. exact ppe_iteration_r_eq. Qed.

Theorem ppe_error run k : (k < n)%nat -> interleaving (map (col_it 1 energy_r) (seq 0 n)) run ->
  Rabs (nth k (ppe_result_r rnd n run) 0 - without n k (pair_energy d grav srcs k))
  <= (1 + u) ^ n * without n k (energy_bound k) - without n k (fun j => Rabs (pair_energy d grav srcs k j)).
Proof.
  intros Hk Hrun. apply (column_error n 1 energy_r); [apply Rabs_R1| | | |exact Hk|apply interleaving_perm; exact Hrun].
  - intros i j Hi Hj. apply energy_error; lia.
  - intros i j Hi Hj. rewrite Rmult_1_l. apply pair_energy_sym; [exact Hdim|lia|lia].
  - intros i j Hi Hj. apply energy_bound_sym; lia.
Qed.

(** ** particleForces *)
Variable eps : R.
Hypothesis Heps : 0 <= eps.
Definition frc_r (i j : nat) : list R := match forcefield_r rnd hyp d grav false eps (sr j) (ps_pos (sr i)) with Ok v => v | _ => [] end.
Definition force_r (c i j : nat) : R := rnd (nth c (frc_r i j) 0 * ps_q (sr i)).
Definition force_bound (c i j : nat) : R := (1 + u) * force_growth u er d * Rabs (pair_force d grav eps srcs c i j).

Lemma frc_r_eq i j : (i < n)%nat -> (j < n)%nat -> i <> j ->
  forcefield_r rnd hyp d grav false eps (sr j) (ps_pos (sr i)) = Ok (frc_r i j) /\ length (frc_r i j) = d /\
  forall c, (c < d)%nat -> rel (force_shrink u er d) (force_growth u er d) (nth c (frc_r i j) 0) (force_on d grav eps (sr j) (ps_pos (sr i)) c).
Proof.
  intros Hi Hj N. assert (NE : ps_pos (sr j) <> ps_pos (sr i)) by (apply (Hdist j i); [apply sr_error; exact Hj|apply sr_error; exact Hi|congruence]).
  destruct (forcefield_r_term rnd u Hu Hrnd hyp er Her Hhyp d grav false eps (sr j) (ps_pos (sr i))) as (f & F & L & Rf).
  - apply Hdim, sr_in. exact Hi.
  - apply Hdim, sr_in. exact Hj.
  - apply Hrep, sr_in. exact Hi.
  - exact Heps.
  - right. exact NE.
  - unfold frc_r. rewrite F. split; [reflexivity|]. split; [exact L|]. intros c Hc.
    assert (At : is_at (ps_pos (sr i)) (sr j) = false) by (apply is_at_false; exact NE). specialize (Rf c Hc). rewrite At in Rf. exact Rf.
Qed.
Lemma force_r_error c i j : (c < d)%nat -> (i < n)%nat -> (j < n)%nat -> i <> j ->
  Rabs (force_r c i j - pair_force d grav eps srcs c i j) <= force_bound c i j - Rabs (pair_force d grav eps srcs c i j).
Proof.
  intros Hc Hi Hj N. destruct (frc_r_eq i j Hi Hj N) as (_ & _ & Rf). specialize (Rf c Hc). destruct (shrink_growth u Hu er Her d) as [S0 S1].
  unfold force_bound. apply (rel_err ((1 - u) * force_shrink u er d)).
  - apply Rmult_le_pos; [lra|exact S0].
  - (* (1 - u)(1 + u) shrink growth *) 
    assert (G0 : (1 - u) ^ 5 / den_hi u er d * ((1 + u) ^ 5 / den_lo u er d) = (1 - u) * force_shrink u er d * ((1 + u) * force_growth u er d)).
    { unfold force_shrink, force_growth. unfold Rdiv. ring. }
    rewrite <- G0. assert (D1 := den_lo_pos u Hu er Her d). assert (D2 := den_hi_1 u Hu er Her d).
    replace ((1 - u) ^ 5 / den_hi u er d * ((1 + u) ^ 5 / den_lo u er d)) with ((1 - u * u) ^ 5 / (den_hi u er d * den_lo u er d)) by (field; lra).
    apply (Rmult_le_reg_r (den_hi u er d * den_lo u er d)); [apply Rmult_lt_0_compat; lra|].
    unfold Rdiv. rewrite (Rmult_assoc ((1 - u * u) ^ 5)), Rinv_l by (apply Rgt_not_eq, Rmult_lt_0_compat; lra). rewrite Rmult_1_l, Rmult_1_r.
    unfold den_hi, den_lo. destruct (d =? 2)%nat.
    + right. rewrite <- Rpow_mult_distr. f_equal. ring.
    + replace ((1 + er) ^ 3 * (1 + u) ^ 6 * ((1 - er) ^ 3 * (1 - u) ^ 6)) with ((1 - er * er) ^ 3 * (1 - u * u) ^ 1 * (1 - u * u) ^ 5) by ring.
      assert (A1 := pow_le_1 (1 - er * er) 3 ltac:(nra)). assert (A2 := pow_le_1 (1 - u * u) 1 ltac:(nra)). assert (A3 := pow_le_1 (1 - u * u) 5 ltac:(nra)).
      rewrite <- (Rmult_1_l ((1 - u * u) ^ 5)) at 2. apply Rmult_le_compat_r; [lra|]. rewrite <- (Rmult_1_l 1). apply Rmult_le_compat; lra.
  - unfold force_r, pair_force. apply (rnd_of rnd u Hu Hrnd); [exact S0|]. destruct Rf as (t & T & Et). exists t. split; [exact T|]. rewrite Et. ring.
Qed.
Lemma force_bound_sym c i j : (i < n)%nat -> (j < n)%nat -> force_bound c i j = force_bound c j i.
Proof. intros Hi Hj. unfold force_bound. rewrite (pair_force_anti d grav eps srcs Hdim c i j Hi Hj), Rabs_Ropp. reflexivity. Qed.

Definition acc_r (c i : nat) : R := acc (force_r c) i.
Definition pf_it_r (i : nat) : list (nat * (nat * R)) :=
  flat_map (fun j => map (fun k => (j, (k, - force_r k i j))) (seq 0 d)) (seq 0 i) ++ map (fun k => (i, (k, acc_r k i))) (seq 0 d).

Lemma vadd_r_map (f g : nat -> R) m : vadd_r rnd (map f (seq 0 m)) (map g (seq 0 m)) = map (fun k => rnd (f k + g k)) (seq 0 m).
Proof. unfold vadd_r, map2. generalize (seq 0 m). induction l as [|k l IH]; [reflexivity|]. cbn [map combine]. rewrite IH. reflexivity. Qed.
Lemma list_as_map (v : list R) m : length v = m -> v = map (fun k => nth k v 0) (seq 0 m).
Proof. intros <-. induction v as [|x v IH]; [reflexivity|]. cbn [length seq map nth]. f_equal. rewrite <- seq_shift, map_map. exact IH. Qed.
Lemma scale_frc i j : (i < n)%nat -> (j < n)%nat -> i <> j -> vscale_r rnd (frc_r i j) (ps_q (sr i)) = map (fun k => force_r k i j) (seq 0 d).
Proof.
  intros Hi Hj N. destruct (frc_r_eq i j Hi Hj N) as (_ & L & _).
  rewrite (list_as_map (vscale_r rnd (frc_r i j) (ps_q (sr i))) d) by (rewrite len_scale; exact L).
  apply map_ext_in. intros k Hk. apply in_seq in Hk. rewrite nth_scale by lia. reflexivity.
Qed.

Lemma pf_iteration_r_eq i : (i < n)%nat -> pf_iteration_r rnd hyp d grav eps srcs i = Ok (pf_it_r i).
Proof.
  intros Hi. unfold pf_iteration_r, pf_it_r. rewrite (sr_error _ i Hi). cbn [of_option bind].
  assert (H : forall l z ups, (forall j, In j l -> (j < i)%nat) ->
    ofold (fun (st : list R * list (nat * (nat * R))) j =>
      bind (of_option (nth_error srcs j)) (fun sj =>
      bind (forcefield_r rnd hyp d grav false eps sj (ps_pos (sr i))) (fun f =>
      Ok (vadd_r rnd (fst st) (vscale_r rnd f (ps_q (sr i))), snd st ++ map (fun k => (j, (k, - vget (vscale_r rnd f (ps_q (sr i))) k))) (seq 0 d)))))
      l (map z (seq 0 d), ups)
    = Ok (map (fun k => fold_left (fun s j => rnd (s + force_r k i j)) l (z k)) (seq 0 d),
          ups ++ flat_map (fun j => map (fun k => (j, (k, - force_r k i j))) (seq 0 d)) l)).
  { induction l as [|j l IH]; intros z ups Hl; cbn [ofold flat_map fold_left].
    - rewrite app_nil_r. reflexivity.
    - assert (j < i)%nat by (apply Hl; left; reflexivity). rewrite (sr_error _ j) by lia. cbn [of_option bind].
      destruct (frc_r_eq i j Hi ltac:(lia) ltac:(lia)) as [-> _]. cbn [bind fst snd]. rewrite scale_frc by lia. rewrite vadd_r_map.
      rewrite (IH (fun k => rnd (z k + force_r k i j))) by (intros; apply Hl; right; assumption).
      rewrite <- app_assoc. do 2 f_equal. f_equal. f_equal. apply map_ext_in. intros k Hk. apply in_seq in Hk. rewrite vget_map_seq by lia. reflexivity. }
  rewrite vzero_map, H by (intros j Hj; apply in_seq in Hj; lia). cbn [bind fst snd app]. f_equal. f_equal.
  apply map_ext_in. intros k Hk. apply in_seq in Hk. rewrite vget_map_seq by lia. reflexivity.
Qed.
Lemma pf_iterations_r_eq : pf_iterations_r rnd hyp d grav eps srcs = Ok (map pf_it_r (seq 0 n)).
Proof. apply omapM_seq. exact pf_iteration_r_eq. Qed.

Lemma pf_run_in_r run w : interleaving (map pf_it_r (seq 0 n)) run -> In w run -> (fst w < n)%nat.
Proof.
  intros Hrun Hw. apply (Permutation_in _ (Permutation_sym (interleaving_perm _ _ Hrun))) in Hw.
  apply in_concat in Hw. destruct Hw as [it [Hit Hw]]. apply in_map_iff in Hit. destruct Hit as [i [<- Hi]]. apply in_seq in Hi.
  unfold pf_it_r in Hw. apply in_app_or in Hw. destruct Hw as [Hw|Hw].
  - apply in_flat_map in Hw. destruct Hw as [j [Hj Hw]]. apply in_map_iff in Hw. destruct Hw as [k [<- _]]. apply in_seq in Hj. cbn [fst]. lia.
  - apply in_map_iff in Hw. destruct Hw as [k [<- _]]. cbn [fst]. lia.
Qed.
Lemma col_run_it_r c i : (c < d)%nat -> col_run c (pf_it_r i) = col_it (-1) (force_r c) i.
Proof.
  intros Hc. unfold pf_it_r, col_it. rewrite col_run_app. rewrite (col_run_pick d c (fun k => acc_r k i)) by exact Hc.
  f_equal. induction (seq 0 i) as [|j l IH]; [reflexivity|]. cbn [flat_map map]. rewrite col_run_app, IH.
  rewrite (col_run_pick d c (fun k => - force_r k i j)) by exact Hc. cbn [app]. do 2 f_equal. ring.
Qed.
Lemma col_add_r c v w : (c < d)%nat -> (forall f, In f v -> length f = d) -> (fst w < length v)%nat ->
  col c (add_vec_at_r rnd v w) = fold_left (add_at_r rnd) (col_run c [w]) (col c v)
  /\ (forall f, In f (add_vec_at_r rnd v w) -> length f = d) /\ length (add_vec_at_r rnd v w) = length v.
Proof.
  intros Hc Hv Hw. destruct w as [j [c' x]]. cbn [fst] in Hw.
  assert (Hlen : length (nth j v []) = d) by (apply Hv; apply nth_In; exact Hw).
  split; [|split].
  - unfold col_run. cbn [flat_map fst snd]. unfold col, add_vec_at_r. rewrite map_lset. cbn [fst snd].
    destruct (Nat.eqb_spec c' c) as [->|N]; cbn [app fold_left].
    + unfold add_at_r at 1. cbn [fst snd]. rewrite nth_lset_same by lia. unfold add_at_r. cbn [fst snd].
      fold (col c v). rewrite nth_col. reflexivity.
    + unfold add_at_r. cbn [fst snd]. rewrite nth_lset_other by congruence.
      rewrite <- nth_col. fold (col c v). apply lset_same_val.
  - intros f Hf. unfold add_vec_at_r in Hf. cbn [fst snd] in Hf.
    assert (G : forall (l : list (list R)) k y, In f (lset l k y) -> In f l \/ f = y).
    { induction l as [|a l IH]; intros [|k] y Hin; simpl in Hin; try tauto; destruct Hin as [->|Hin]; auto.
      - left; right; exact Hin.
      - left; left; reflexivity.
      - destruct (IH _ _ Hin); [left; right; assumption|right; assumption]. }
    destruct (G _ _ _ Hf) as [Hin| ->]; [apply Hv; exact Hin|]. rewrite add_at_r_length. exact Hlen.
  - apply lset_length.
Qed.
Lemma col_fold_r c run : (c < d)%nat -> forall v, (forall f, In f v -> length f = d) -> (forall w, In w run -> (fst w < length v)%nat) ->
  col c (fold_left (add_vec_at_r rnd) run v) = fold_left (add_at_r rnd) (col_run c run) (col c v)
  /\ length (fold_left (add_vec_at_r rnd) run v) = length v /\ (forall f, In f (fold_left (add_vec_at_r rnd) run v) -> length f = d).
Proof.
  intros Hc. induction run as [|w run IH]; intros v Hv Hw; [split; [reflexivity|split; [reflexivity|exact Hv]]|].
  destruct (col_add_r c v w Hc Hv (Hw w (or_introl eq_refl))) as [E [Hv' Hl]].
  cbn [fold_left]. destruct (IH _ Hv') as (I1 & I2 & I3).
  - intros z Hz. rewrite Hl. apply Hw. right; exact Hz.
  - split; [|split; [congruence|exact I3]]. rewrite I1, E. change (w :: run) with ([w] ++ run). rewrite col_run_app, fold_left_app. reflexivity.
Qed.

Theorem pf_error run k c : (k < n)%nat -> (c < d)%nat -> interleaving (map pf_it_r (seq 0 n)) run ->
  length (pf_result_r rnd d n run) = n /\ (forall f, In f (pf_result_r rnd d n run) -> length f = d) /\
  Rabs (nth c (nth k (pf_result_r rnd d n run) []) 0 - without n k (pair_force d grav eps srcs c k))
  <= ((1 + u) ^ S n * force_growth u er d - 1) * without n k (fun j => Rabs (pair_force d grav eps srcs c k j)).
Proof.
  intros Hk Hc Hrun. unfold pf_result_r. destruct (col_fold_r c run Hc (repeat (vzero d) n)) as (E & L & D).
  - intros f Hf. apply repeat_spec in Hf. subst f. apply repeat_length.
  - intros w Hw. rewrite repeat_length. apply (pf_run_in_r run); assumption.
  - rewrite repeat_length in L. split; [exact L|]. split; [exact D|]. rewrite <- nth_col, E.
    replace (col c (repeat (vzero d) n)) with (repeat 0 n).
    2:{ unfold col, vzero. generalize n. intros nn. induction nn as [|m IH]; [reflexivity|]. cbn [repeat map]. rewrite IH, nth_repeat. reflexivity. }
    assert (P : Permutation (concat (map (col_it (-1) (force_r c)) (seq 0 n))) (col_run c run)).
    { rewrite <- (map_ext_in _ _ _ (fun i _ => col_run_it_r c i Hc)), <- (map_map pf_it_r (col_run c)), <- col_run_concat. apply col_run_perm, interleaving_perm. exact Hrun. }
    eapply Rle_trans; [apply (column_error n (-1) (force_r c) (pair_force d grav eps srcs c) (force_bound c)); [| | | |exact Hk|exact P]|].
    + rewrite Rabs_left by lra. lra.
    + intros i j Hi Hj. apply force_r_error; (lia || exact Hc).
    + intros i j Hi Hj. rewrite (pair_force_anti d grav eps srcs Hdim c i j) by lia. ring.
    + intros i j Hi Hj. apply force_bound_sym; lia.
    + unfold force_bound. unfold without at 1.
      rewrite (rsum_ext (fun j => if (j =? k)%nat then 0 else (1 + u) * force_growth u er d * Rabs (pair_force d grav eps srcs c k j))
        (fun j => (1 + u) * force_growth u er d * (if (j =? k)%nat then 0 else Rabs (pair_force d grav eps srcs c k j)))) by (intros j _; destruct (j =? k)%nat; ring).
      rewrite rsum_scal. fold (without n k (fun j => Rabs (pair_force d grav eps srcs c k j))). cbn [pow]. right. ring.
Qed.
End Proofs.

(** ** In the vocabulary of [RoundedSpec] *)
Lemma distinct_positions (srcs : list (psrc R)) : NoDup (map ps_pos srcs) ->
  forall i j si sj, nth_error srcs i = Some si -> nth_error srcs j = Some sj -> i <> j -> ps_pos si <> ps_pos sj.
Proof.
  intros Hnd i j si sj Hi Hj Hij E. apply Hij. rewrite NoDup_nth_error in Hnd. apply Hnd.
  - rewrite map_length. apply nth_error_Some. congruence.
  - rewrite !nth_error_map, Hi, Hj. cbn. congruence.
Qed.
Lemma rsum_sr (f : psrc R -> R) (srcs : list (psrc R)) : rsum f srcs = rsum (fun j => f (sr srcs j)) (seq 0 (length srcs)).
Proof. induction srcs as [|s srcs IH]; [reflexivity|]. cbn [length seq]. rewrite !rsum_cons, rsum_seq_shift. rewrite IH. reflexivity. Qed.
Lemma without_others (srcs : list (psrc R)) k F : NoDup (map ps_pos srcs) -> (k < length srcs)%nat ->
  without (length srcs) k (fun j => F (sr srcs j)) = rsum F (others (ps_pos (sr srcs k)) srcs).
Proof.
  intros Hnd Hk. unfold others, without. rewrite rsum_filter, rsum_sr. apply rsum_ext. intros j Hj. apply in_seq in Hj.
  destruct (Nat.eqb_spec j k) as [->|N].
  - rewrite (proj2 (is_at_true _ _) eq_refl). reflexivity.
  - rewrite (proj2 (is_at_false _ _)); [reflexivity|]. apply (distinct_positions srcs Hnd j k); [apply sr_error; lia|apply sr_error; exact Hk|exact N].
Qed.

Section Vocabulary.
Variables (rnd : R -> R) (hyp : list R -> R) (lg : R -> R) (u e : R).
Hypothesis U : 0 <= u < 1.
Hypothesis E : 0 <= e < 1.
Hypothesis A : accurate_rounding u rnd.
Hypothesis N : accurate_norm e hyp.
Hypothesis G : accurate_log e lg.
Variables (d : nat) (grav : bool) (srcs : list (psrc R)).
Hypothesis SD : same_dim d srcs.
Hypothesis ND : NoDup (map ps_pos srcs).
Hypothesis RP : forall s, In s srcs -> representable rnd (ps_pos s).

Lemma energies_error :
  exists its, ppe_iterations_r rnd hyp lg d grav srcs = Ok its /\
  (exists run, interleaving its run) /\
  forall run, interleaving its run ->
    length (ppe_result_r rnd (length srcs) run) = length srcs /\
    forall k sk, nth_error srcs k = Some sk ->
      Rabs (nth k (ppe_result_r rnd (length srcs) run) 0 - ps_q sk * direct_potential d grav (others (ps_pos sk) srcs) (ps_pos sk))
      <= (1 + u) ^ S (length srcs) * (Rabs (ps_q sk) * rsum (fun s => term_bound u e d (ps_q s) (dist (ps_pos s) (ps_pos sk))) (others (ps_pos sk) srcs))
         - Rabs (ps_q sk) * rsum (fun s => Rabs (kernel d (ps_q s) (dist (ps_pos s) (ps_pos sk)))) (others (ps_pos sk) srcs).
Proof.
  assert (DP := distinct_positions srcs ND). assert (XP : forall s, In s srcs -> exact_opp rnd (ps_pos s)) by (intros; apply opp_of_spec, RP; assumption).
  eexists. split; [exact (ppe_iterations_r_eq rnd u U A hyp lg e E (norm_of_spec _ _ N) G d grav srcs SD DP XP)|].
  split; [eexists; apply interleaving_seq|]. intros run Hrun.
  split; [unfold ppe_result_r; rewrite add_all_r_length; apply repeat_length|].
  intros k sk Hk. assert (Hlt : (k < length srcs)%nat) by (apply nth_error_Some; congruence).
  rewrite (sr_error srcs k Hlt) in Hk. injection Hk as <-.
  assert (B := ppe_error rnd u U A hyp lg e E (norm_of_spec _ _ N) G d grav srcs SD DP XP run k Hlt Hrun).
  unfold pair_energy, energy_bound in B.
  rewrite (without_others srcs k (fun s => ps_q (sr srcs k) * (field_sign grav * kernel d (ps_q s) (dist (ps_pos s) (ps_pos (sr srcs k))))) ND Hlt) in B.
  rewrite (without_others srcs k (fun s => Rabs (ps_q (sr srcs k) * (field_sign grav * kernel d (ps_q s) (dist (ps_pos s) (ps_pos (sr srcs k)))))) ND Hlt) in B.
  rewrite (without_others srcs k (fun s => (1 + u) * (Rabs (ps_q (sr srcs k)) * term_bound u e d (ps_q s) (dist (ps_pos s) (ps_pos (sr srcs k))))) ND Hlt) in B.
  rewrite !rsum_scal in B. fold (direct_potential d grav (others (ps_pos (sr srcs k)) srcs) (ps_pos (sr srcs k))) in B.
  eapply Rle_trans; [|eapply Rle_trans; [exact B|]].
  - right. f_equal. f_equal. unfold direct_potential. rewrite rsum_scal. reflexivity.
  - right. rewrite (rsum_ext (fun s => Rabs (ps_q (sr srcs k) * (field_sign grav * kernel d (ps_q s) (dist (ps_pos s) (ps_pos (sr srcs k))))))
      (fun s => Rabs (ps_q (sr srcs k)) * Rabs (kernel d (ps_q s) (dist (ps_pos s) (ps_pos (sr srcs k)))))).
    2:{ intros s _. rewrite !Rabs_mult. unfold field_sign. destruct grav; rewrite ?Rabs_R1, ?(Rabs_left (-1)) by lra; ring. }
    rewrite rsum_scal. cbn [pow]. ring.
Qed.

Theorem forces_error eps : 0 <= eps ->
  exists its, pf_iterations_r rnd hyp d grav eps srcs = Ok its /\
  (exists run, interleaving its run) /\
  forall run, interleaving its run ->
    forall k sk c, nth_error srcs k = Some sk -> (c < d)%nat ->
      length (pf_result_r rnd d (length srcs) run) = length srcs /\
      length (nth k (pf_result_r rnd d (length srcs) run) []) = d /\
      Rabs (nth c (nth k (pf_result_r rnd d (length srcs) run) []) 0 - ps_q sk * nth c (direct_force d grav eps (others (ps_pos sk) srcs) (ps_pos sk)) 0)
      <= ((1 + u) ^ (length srcs + 5) / (if (d =? 2)%nat then (1 - u) ^ 5 else (1 - e) ^ 3 * (1 - u) ^ 6) - 1)
         * (Rabs (ps_q sk) * rsum (fun s => Rabs (force_on d grav eps s (ps_pos sk) c)) (others (ps_pos sk) srcs)).
Proof.
  intros P. assert (DP := distinct_positions srcs ND). assert (XP : forall s, In s srcs -> exact_opp rnd (ps_pos s)) by (intros; apply opp_of_spec, RP; assumption).
  eexists. split; [exact (pf_iterations_r_eq rnd u U A hyp e E (norm_of_spec _ _ N) d grav srcs SD DP XP eps P)|].
  split; [eexists; apply interleaving_seq|]. intros run Hrun k sk c Hk Hc.
  assert (Hlt : (k < length srcs)%nat) by (apply nth_error_Some; congruence).
  rewrite (sr_error srcs k Hlt) in Hk. injection Hk as <-.
  destruct (pf_error rnd u U A hyp e E (norm_of_spec _ _ N) d grav srcs SD DP XP eps P run k c Hlt Hc Hrun) as (L & D & B).
  split; [exact L|]. split; [apply D, nth_In; rewrite L; exact Hlt|].
  unfold pair_force in B.
  rewrite (without_others srcs k (fun s => force_on d grav eps s (ps_pos (sr srcs k)) c * ps_q (sr srcs k)) ND Hlt) in B.
  rewrite (without_others srcs k (fun s => Rabs (force_on d grav eps s (ps_pos (sr srcs k)) c * ps_q (sr srcs k))) ND Hlt) in B.
  rewrite (rsum_ext (fun s => Rabs (force_on d grav eps s (ps_pos (sr srcs k)) c * ps_q (sr srcs k)))
    (fun s => Rabs (force_on d grav eps s (ps_pos (sr srcs k)) c) * Rabs (ps_q (sr srcs k)))) in B by (intros; apply Rabs_mult).
  rewrite !rsum_scal_r in B. unfold direct_force. rewrite nth_map_seq by exact Hc. rewrite (Rmult_comm (ps_q _)).
  eapply Rle_trans; [exact B|]. right. unfold force_growth, den_lo. rewrite (Rmult_comm (Rabs (ps_q (sr srcs k)))). f_equal. f_equal.
  rewrite pow_add. cbn [pow]. unfold Rdiv. ring.
Qed.
End Vocabulary.

Theorem space_energies_error rnd hyp lg u e grav (srcs : list (psrc R)) : 0 <= u < 1 -> 0 <= e < 1 ->
  accurate_rounding u rnd -> accurate_norm e hyp -> accurate_log e lg ->
  same_dim 3 srcs -> NoDup (map ps_pos srcs) -> (forall s, In s srcs -> representable rnd (ps_pos s)) ->
  exists its, ppe_iterations_r rnd hyp lg 3 grav srcs = Ok its /\
  (exists run, interleaving its run) /\
  forall run, interleaving its run ->
    length (ppe_result_r rnd (length srcs) run) = length srcs /\
    forall k sk, nth_error srcs k = Some sk ->
      Rabs (nth k (ppe_result_r rnd (length srcs) run) 0 - ps_q sk * direct_potential 3 grav (others (ps_pos sk) srcs) (ps_pos sk))
      <= ((1 + u) ^ (length srcs + 2) / ((1 - e) * (1 - u)) - 1)
         * (Rabs (ps_q sk) * rsum (fun s => Rabs (ps_q s) / dist (ps_pos s) (ps_pos sk)) (others (ps_pos sk) srcs)).
Proof.
  intros U E A N G SD ND RP. destruct (energies_error rnd hyp lg u e U E A N G 3 grav srcs SD ND RP) as (its & I1 & I2 & I3).
  exists its. split; [exact I1|]. split; [exact I2|]. intros run Hrun. destruct (I3 run Hrun) as [L B]. split; [exact L|].
  intros k sk Hk. eapply Rle_trans; [exact (B k sk Hk)|]. right. unfold term_bound, kernel. cbn [Nat.eqb]. rewrite rsum_scal.
  rewrite (rsum_ext (fun s => Rabs (- ps_q s / dist (ps_pos s) (ps_pos sk))) (fun s => Rabs (ps_q s) / dist (ps_pos s) (ps_pos sk))).
  - rewrite pow_add. cbn [pow]. unfold Rdiv. ring.
  - intros s Hs. apply filter_In in Hs. destruct Hs as [Hs At]. apply negb_true_iff, is_at_false in At.
    unfold Rdiv. rewrite Rabs_mult, Rabs_Ropp. f_equal. apply Rabs_pos_eq. left. apply Rinv_0_lt_compat. apply dist_pos; [|exact At].
    rewrite (SD s Hs), (SD sk (nth_error_In _ _ Hk)). reflexivity.
Qed.
Theorem plane_energies_error rnd hyp lg u e grav (srcs : list (psrc R)) : 0 <= u < 1 -> 0 <= e < 1 ->
  accurate_rounding u rnd -> accurate_norm e hyp -> accurate_log e lg ->
  same_dim 2 srcs -> NoDup (map ps_pos srcs) -> (forall s, In s srcs -> representable rnd (ps_pos s)) ->
  exists its, ppe_iterations_r rnd hyp lg 2 grav srcs = Ok its /\
  (exists run, interleaving its run) /\
  forall run, interleaving its run ->
    length (ppe_result_r rnd (length srcs) run) = length srcs /\
    forall k sk, nth_error srcs k = Some sk ->
      Rabs (nth k (ppe_result_r rnd (length srcs) run) 0 - ps_q sk * direct_potential 2 grav (others (ps_pos sk) srcs) (ps_pos sk))
      <= ((1 + u) ^ (length srcs + 2) * (1 + e) - 1)
         * (Rabs (ps_q sk) * rsum (fun s => Rabs (ps_q s) * Rabs (ln (dist (ps_pos s) (ps_pos sk)))) (others (ps_pos sk) srcs))
         + (1 + u) ^ (length srcs + 2) * (1 + e) * - ln ((1 - e) * (1 - u)) * (Rabs (ps_q sk) * abs_charge (others (ps_pos sk) srcs)).
Proof.
  intros U E A N G SD ND RP. destruct (energies_error rnd hyp lg u e U E A N G 2 grav srcs SD ND RP) as (its & I1 & I2 & I3).
  exists its. split; [exact I1|]. split; [exact I2|]. intros run Hrun. destruct (I3 run Hrun) as [L B]. split; [exact L|].
  intros k sk Hk. eapply Rle_trans; [exact (B k sk Hk)|]. right. unfold term_bound, kernel, abs_charge. cbn [Nat.eqb]. rewrite rsum_scal.
  rewrite (rsum_ext (fun s => Rabs (ps_q s * ln (dist (ps_pos s) (ps_pos sk)))) (fun s => Rabs (ps_q s) * Rabs (ln (dist (ps_pos s) (ps_pos sk)))))
    by (intros; apply Rabs_mult).
  rewrite (rsum_ext (fun s => Rabs (ps_q s) * (Rabs (ln (dist (ps_pos s) (ps_pos sk))) + log_slack u e))
    (fun s => Rabs (ps_q s) * Rabs (ln (dist (ps_pos s) (ps_pos sk))) + log_slack u e * Rabs (ps_q s))) by (intros; ring).
  rewrite rsum_plus, rsum_scal, pow_add. unfold log_slack. cbn [pow]. ring.
Qed.

(** ** Two runs of the loop *)
Theorem space_energies_agree rnd hyp lg u e grav (srcs : list (psrc R)) : 0 <= u < 1 -> 0 <= e < 1 ->
  accurate_rounding u rnd -> accurate_norm e hyp -> accurate_log e lg ->
  same_dim 3 srcs -> NoDup (map ps_pos srcs) -> (forall s, In s srcs -> representable rnd (ps_pos s)) ->
  exists its, ppe_iterations_r rnd hyp lg 3 grav srcs = Ok its /\
  forall run1 run2, interleaving its run1 -> interleaving its run2 ->
    forall k sk, nth_error srcs k = Some sk ->
      Rabs (nth k (ppe_result_r rnd (length srcs) run1) 0 - nth k (ppe_result_r rnd (length srcs) run2) 0)
      <= 2 * ((1 + u) ^ (length srcs + 2) / ((1 - e) * (1 - u)) - 1)
         * (Rabs (ps_q sk) * rsum (fun s => Rabs (ps_q s) / dist (ps_pos s) (ps_pos sk)) (others (ps_pos sk) srcs)).
Proof.
  intros U E A N G SD ND RP. destruct (space_energies_error rnd hyp lg u e grav srcs U E A N G SD ND RP) as (its & I1 & _ & I3).
  exists its. split; [exact I1|]. intros r1 r2 H1 H2 k sk Hk.
  assert (B1 := proj2 (I3 r1 H1) k sk Hk). assert (B2 := proj2 (I3 r2 H2) k sk Hk).
  set (x := ps_q sk * direct_potential 3 grav (others (ps_pos sk) srcs) (ps_pos sk)) in *. set (b := _ * (Rabs _ * _)) in B1, B2.
  rewrite Rmult_assoc. fold b. set (v1 := nth k _ 0) in *. set (v2 := nth k (ppe_result_r rnd (length srcs) r2) 0) in *.
  replace (v1 - v2) with ((v1 - x) - (v2 - x)) by ring. eapply Rle_trans; [apply Rabs_triang|]. rewrite Rabs_Ropp. lra.
Qed.

(** ** Charges of one sign *)
Theorem one_sign_error rnd hyp lg u e grav safe srcs x : 0 <= u < 1 -> 0 <= e < 1 ->
  accurate_rounding u rnd -> accurate_norm e hyp -> accurate_log e lg ->
  length x = 3%nat -> same_dim 3 srcs -> representable rnd x -> evaluable safe x srcs ->
  (forall s, In s srcs -> 0 <= ps_q s) \/ (forall s, In s srcs -> ps_q s <= 0) ->
  exists v, potential_sum_r rnd hyp lg 3 grav safe srcs x = Ok v /\
  Rabs (v - direct_potential 3 grav (others x srcs) x) <=
    ((1 + u) ^ (length srcs + 1) / ((1 - e) * (1 - u)) - 1) * Rabs (direct_potential 3 grav (others x srcs) x).
Proof.
  intros U E A N G L SD X EV Q. destruct (space_potential_error rnd hyp lg u e grav safe srcs x U E A N G L SD X EV) as (v & V & B).
  exists v. split; [exact V|]. eapply Rle_trans; [exact B|]. right. f_equal.
  assert (W : rsum (fun s => Rabs (ps_q s) / dist (ps_pos s) x) (others x srcs) = Rabs (rsum (fun s => ps_q s / dist (ps_pos s) x) (others x srcs))).
  { assert (P : forall s, In s (others x srcs) -> 0 < / dist (ps_pos s) x).
    { intros s Hs. apply filter_In in Hs. destruct Hs as [Hs At]. apply negb_true_iff, is_at_false in At.
      apply Rinv_0_lt_compat, dist_pos; [rewrite L; apply SD; exact Hs|exact At]. }
    assert (I : forall s, In s (others x srcs) -> In s srcs) by (intros s Hs; apply filter_In in Hs; tauto).
    destruct Q as [Q|Q].
    - rewrite Rabs_pos_eq.
      + apply rsum_ext. intros s Hs. rewrite Rabs_pos_eq by (apply Q, I; exact Hs). reflexivity.
      + apply rsum_nonneg. intros s Hs. apply Rmult_le_pos; [apply Q, I; exact Hs|left; apply P; exact Hs].
    - rewrite <- Rabs_Ropp, Rabs_pos_eq.
      + rewrite <- rsum_opp. apply rsum_ext. intros s Hs. rewrite Rabs_left1 by (apply Q, I; exact Hs). unfold Rdiv. ring.
      + rewrite <- rsum_opp. apply rsum_nonneg. intros s Hs. unfold Rdiv. rewrite Ropp_mult_distr_l.
        assert (q := Q s (I s Hs)). apply Rmult_le_pos; [lra|left; apply P; exact Hs]. }
  rewrite W. unfold direct_potential, kernel. cbn [Nat.eqb].
  rewrite (rsum_ext (fun s => field_sign grav * (- ps_q s / dist (ps_pos s) x)) (fun s => (- field_sign grav) * (ps_q s / dist (ps_pos s) x)))
    by (intros; unfold Rdiv; ring).
  rewrite rsum_scal, Rabs_mult, Rabs_Ropp. unfold field_sign. destruct grav; rewrite ?Rabs_R1, ?(Rabs_left (-1)) by lra; ring.
Qed.
