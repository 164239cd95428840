(** Schedule dependence and cancellation in double precision. *)
From Coq Require Import Reals List Arith ZArith Lia Lra Permutation.
From Flocq Require Import Core Relative.
From Verif Require Import Num Outcome Vec CAux Schedule Fields FieldSpec FieldProofs FieldSchedules RoundedFields RoundedSpec RoundedProofs RoundedCases
  RoundedPairs RoundedPairProofs.
Import ListNotations.
Local Open Scope R_scope.

(** The order in which the iterations are listed is irrelevant. *)
Lemma interleaving_permute {A} (its its' : list (list A)) run : interleaving its run -> Permutation its its' -> interleaving its' run.
Proof.
  intros H; revert its'; induction H as [its D|b a it af run H IH]; intros its' P.
  - apply il_done. intros it Hit. apply D. apply (Permutation_in _ (Permutation_sym P)). exact Hit.
  - destruct (in_split (a :: it) its') as (b' & af' & ->).
    { apply (Permutation_in _ P). apply in_or_app. right. left. reflexivity. }
    apply il_step. apply IH. etransitivity; [symmetry; apply Permutation_middle|]. etransitivity; [|apply Permutation_middle].
    apply perm_skip. apply Permutation_app_inv with (a := a :: it). exact P.
Qed.

Lemma round_exact x : generic_format radix2 (FLX_exp 53) x -> double_round x = x.
Proof. intros H. apply round_generic; [apply valid_rnd_N|exact H]. Qed.
Lemma round_int_pow m e : (Z.abs m <= 2 ^ 53)%Z -> double_round (IZR m * bpow radix2 e) = IZR m * bpow radix2 e.
Proof.
  intros H. apply round_exact. apply generic_format_FLX. destruct (Z.eq_dec (Z.abs m) (2 ^ 53)) as [E|E].
  - exists (Float radix2 (Z.sgn m) (e + 53)).
    + unfold F2R. cbn [Fnum Fexp]. rewrite bpow_plus. assert (IZR m = IZR (Z.sgn m) * bpow radix2 53).
      { change (bpow radix2 53) with (IZR (2 ^ 53)). rewrite <- mult_IZR. f_equal. rewrite <- E. rewrite Z.mul_comm. symmetry. apply Z.abs_sgn. }
      rewrite H0. ring.
    + cbn [Fnum]. change (2 ^ 53)%Z with 9007199254740992%Z in *. change (radix2 ^ 53)%Z with 9007199254740992%Z. destruct m; simpl; lia.
  - exists (Float radix2 m e); [reflexivity|]. cbn [Fnum]. change (radix2 ^ 53)%Z with (2 ^ 53)%Z. lia.
Qed.
(** Between 1 and 2 the machine numbers are the multiples of 2^-52. *)
Lemma round_near x n : 1 <= x < 2 -> Rabs (x * bpow radix2 52 - IZR n) < / 2 -> double_round x = IZR n * bpow radix2 (-52).
Proof.
  intros X H. unfold double_round, round. assert (M : mag radix2 x = 1%Z :> Z).
  { apply mag_unique. rewrite Rabs_pos_eq by lra. simpl. lra. }
  unfold scaled_mantissa, cexp. rewrite M. unfold FLX_exp. change (- (1 - 53))%Z with 52%Z. change (1 - 53)%Z with (-52)%Z.
  rewrite (Znearest_imp _ _ n) by exact H. reflexivity.
Qed.

(** Two unit charges and two charges of 3 * 2^-55 at distance 1 of the first. *)
Definition tiny : R := 3 * bpow radix2 (-55).
Definition corner : list (psrc R) := [PSrc [0; 0; 0] 1; PSrc [1; 0; 0] 1; PSrc [0; 1; 0] tiny; PSrc [0; 0; 1] tiny].

Lemma corner_dim : same_dim 3 corner.
Proof. intros s [<-|[<-|[<-|[<-|[]]]]]; reflexivity. Qed.
Lemma corner_distinct : NoDup (map ps_pos corner).
Proof.
  cbn. repeat constructor; cbn; intros H; repeat destruct H as [H|H]; try exact H; injection H; intros; lra.
Qed.
Lemma round_0 : double_round 0 = 0. Proof. replace 0 with (IZR 0 * bpow radix2 0) by ring. apply round_int_pow. simpl; lia. Qed.
Lemma round_1 : double_round 1 = 1. Proof. replace 1 with (IZR 1 * bpow radix2 0) by (simpl; ring). apply round_int_pow. simpl; lia. Qed.
Lemma round_opp_1 : double_round (-1) = -1. Proof. replace (-1) with (IZR (-1) * bpow radix2 0) by (simpl; ring). apply round_int_pow. simpl; lia. Qed.
Lemma round_tiny : double_round tiny = tiny. Proof. apply (round_int_pow 3 (-55)). simpl; lia. Qed.
Lemma corner_representable : forall s, In s corner -> representable double_round (ps_pos s).
Proof.
  assert (Z : double_round (- 0) = - 0) by (rewrite Ropp_0; apply round_0).
  intros s [<-|[<-|[<-|[<-|[]]]]] y [<-|[<-|[<-|[]]]]; (exact Z || exact round_opp_1).
Qed.
Lemma corner_charges : forall s, In s corner -> double_round (ps_q s) = ps_q s.
Proof. intros s [<-|[<-|[<-|[<-|[]]]]]; cbn [ps_q]; (exact round_1 || exact round_tiny). Qed.

Notation en := (energy_r double_round double_norm double_log 3 false corner).
Lemma unit_norm a b c : rsum (fun c => c ^ 2) [a; b; c] = 1 -> double_norm [a; b; c] = 1.
Proof. intros H. unfold double_norm. rewrite H, sqrt_1. apply round_1. Qed.
Lemma round_neg_0 : double_round (0 * -1) = 0. Proof. rewrite Rmult_0_l. apply round_0. Qed.
Lemma round_neg_1 : double_round (1 * -1) = -1. Proof. rewrite Rmult_1_l. apply round_opp_1. Qed.
Lemma pot_unit i : (i = 1 \/ i = 2 \/ i = 3)%nat -> pot_r double_round double_norm double_log 3 false corner i 0 = 1.
Proof.
  intros H. unfold pot_r. assert (E : potential_r double_round double_norm double_log 3 false false (sr corner 0) (ps_pos (sr corner i)) = Ok 1); [|rewrite E; reflexivity].
  unfold potential_r. assert (D : double_norm (vsub_r double_round (ps_pos (sr corner 0)) (ps_pos (sr corner i))) = 1).
  { destruct H as [->|[->| ->]]; cbn [sr nth corner ps_pos]; unfold vsub_r, vadd_r, vneg_r, vscale_r, map2; cbn [map combine fst snd];
      rewrite ?round_neg_0, ?round_neg_1, ?Rplus_0_l, ?round_0, ?round_opp_1; apply unit_norm; cbn; ring. }
  rewrite D. cbn [andb Nat.eqb]. unfold rdiv_r. destruct (Req_EM_T 1 0) as [H1|_]; [lra|]. cbn [bind sr nth corner ps_q].
  replace (- (1) / 1) with (-1) by field. rewrite round_opp_1. f_equal. lra.
Qed.
Lemma en_1 : en 1 0 = 1.
Proof. unfold energy_r. rewrite pot_unit by auto. cbn [sr nth corner ps_q]. rewrite Rmult_1_r. apply round_1. Qed.
Lemma en_2 : en 2 0 = tiny.
Proof. unfold energy_r. rewrite pot_unit by auto. cbn [sr nth corner ps_q]. rewrite Rmult_1_r. apply round_tiny. Qed.
Lemma en_3 : en 3 0 = tiny.
Proof. unfold energy_r. rewrite pot_unit by auto. cbn [sr nth corner ps_q]. rewrite Rmult_1_r. apply round_tiny. Qed.

Lemma pow52 : bpow radix2 52 = 4503599627370496. Proof. simpl. lra. Qed.
Lemma tiny_val : tiny = 3 / 36028797018963968. Proof. unfold tiny. simpl. lra. Qed.
Lemma absorb : double_round (1 + tiny) = 1.
Proof.
  rewrite (round_near (1 + tiny) 4503599627370496).
  - simpl. lra.
  - rewrite tiny_val. lra.
  - rewrite pow52, tiny_val. apply Rabs_def1; lra.
Qed.
Lemma tiny_twice : double_round (tiny + tiny) = 2 * tiny.
Proof. replace (tiny + tiny) with (IZR 6 * bpow radix2 (-55)) by (unfold tiny; lra). rewrite round_int_pow by (simpl; lia). unfold tiny. lra. Qed.
Lemma round_up : double_round (2 * tiny + 1) = 1 + / 4503599627370496.
Proof.
  rewrite (round_near _ 4503599627370497).
  - simpl. lra.
  - rewrite tiny_val. lra.
  - rewrite pow52, tiny_val. apply Rabs_def1; lra.
Qed.

Theorem energies_depend_on_schedule :
  same_dim 3 corner /\ NoDup (map ps_pos corner) /\ (forall s, In s corner -> representable double_round (ps_pos s) /\ double_round (ps_q s) = ps_q s) /\
  exists its run1 run2, ppe_iterations_r double_round double_norm double_log 3 false corner = Ok its /\
    interleaving its run1 /\ interleaving its run2 /\
    nth 0 (ppe_result_r double_round 4 run1) 0 = 1 /\
    nth 0 (ppe_result_r double_round 4 run2) 0 = 1 + / 4503599627370496.
Proof.
  split; [exact corner_dim|]. split; [exact corner_distinct|]. split; [intros s Hs; split; [apply corner_representable|apply corner_charges]; exact Hs|].
  assert (U : 0 <= / 9007199254740992 < 1) by lra. assert (E : 0 <= / 4503599627370496 < 1) by lra.
  assert (XP : forall s, In s corner -> exact_opp double_round (ps_pos s)) by (intros; apply opp_of_spec, corner_representable; assumption).
  assert (I := ppe_iterations_r_eq double_round _ U double_accurate double_norm double_log _ E (norm_of_spec _ _ double_norm_accurate) double_log_accurate
    3 false corner corner_dim (distinct_positions _ corner_distinct) XP).
  set (its := map (col_it double_round 1 en) (seq 0 (length corner))) in I. set (it := col_it double_round 1 en) in *.
  exists its, (concat [it 0%nat; it 1%nat; it 2%nat; it 3%nat]), (concat [it 2%nat; it 3%nat; it 1%nat; it 0%nat]).
  split; [exact I|]. split; [apply interleaving_seq|]. split.
  { apply interleaving_permute with (its := [it 2%nat; it 3%nat; it 1%nat; it 0%nat]); [apply interleaving_seq|].
    change its with [it 0%nat; it 1%nat; it 2%nat; it 3%nat].
    change (Permutation ([it 2%nat; it 3%nat] ++ [it 1%nat; it 0%nat]) ([it 0%nat; it 1%nat] ++ [it 2%nat; it 3%nat])).
    etransitivity; [apply Permutation_app_comm|]. apply Permutation_app; [apply perm_swap|reflexivity]. }
  assert (H0 : hit_list 0 (it 0%nat) = [0]) by (unfold it; rewrite hit_it; reflexivity).
  assert (H1 : hit_list 0 (it 1%nat) = [1]) by (unfold it; rewrite hit_it; cbn [Nat.ltb Nat.leb]; rewrite en_1; f_equal; ring).
  assert (H2 : hit_list 0 (it 2%nat) = [tiny]) by (unfold it; rewrite hit_it; cbn [Nat.ltb Nat.leb]; rewrite en_2; f_equal; ring).
  assert (H3 : hit_list 0 (it 3%nat) = [tiny]) by (unfold it; rewrite hit_it; cbn [Nat.ltb Nat.leb]; rewrite en_3; f_equal; ring).
  split; unfold ppe_result_r; rewrite add_all_r_nth by (cbn; lia); cbn [concat]; rewrite !hit_list_app, H0, H1, H2, H3; cbn [app hit_list filter map repeat nth fold_left].
  - rewrite Rplus_0_l, round_0, Rplus_0_l, round_1, !absorb. reflexivity.
  - rewrite Rplus_0_l, round_tiny, tiny_twice, round_up, Rplus_0_r.
    replace (1 + / 4503599627370496) with (IZR 4503599627370497 * bpow radix2 (-52)) by (simpl; lra). apply round_int_pow. cbn. lia.
Qed.

(** Charges 1, 2^-60 and -1 at distance 1 of the origin. *)
Definition cancelling : list (psrc R) := [PSrc [1; 0; 0] 1; PSrc [0; 1; 0] (bpow radix2 (-60)); PSrc [0; 0; 1] (-1)].
Theorem cancellation :
  same_dim 3 cancelling /\ representable double_round [0; 0; 0] /\
  (forall s, In s cancelling -> double_round (ps_q s) = ps_q s /\ forall y, In y (ps_pos s) -> double_round y = y) /\
  potential_sum_r double_round double_norm double_log 3 false false cancelling [0; 0; 0] = Ok 0 /\
  direct_potential 3 false cancelling [0; 0; 0] = bpow radix2 (-60).
Proof.
  assert (T : double_round (bpow radix2 (-60)) = bpow radix2 (-60)).
  { replace (bpow radix2 (-60)) with (IZR 1 * bpow radix2 (-60)) by ring. apply round_int_pow. simpl; lia. }
  split; [intros s [<-|[<-|[<-|[]]]]; reflexivity|]. split; [intros y [<-|[<-|[<-|[]]]]; rewrite Ropp_0; apply round_0|]. split; [|split].
  - intros s [<-|[<-|[<-|[]]]]; cbn [ps_q ps_pos]; (split; [first [exact round_1|exact T|exact round_opp_1]|]);
      intros y [<-|[<-|[<-|[]]]]; (exact round_1 || exact round_0).
  - assert (P : forall s q, ps_q s = q -> double_norm (vsub_r double_round (ps_pos s) [0; 0; 0]) = 1 -> double_round (- q) = - q ->
      potential_r double_round double_norm double_log 3 false false s [0; 0; 0] = Ok q).
    { intros s q Q D RQ. unfold potential_r. rewrite D. cbn [andb Nat.eqb]. unfold rdiv_r. destruct (Req_EM_T 1 0); [lra|]. cbn [bind].
      rewrite Q. replace (- q / 1) with (- q) by field. rewrite RQ. f_equal. ring. }
    assert (D : forall a b c, double_round a = a -> double_round b = b -> double_round c = c -> a ^ 2 + (b ^ 2 + (c ^ 2 + 0)) = 1 ->
      double_norm (vsub_r double_round [a; b; c] [0; 0; 0]) = 1).
    { intros a b c A B C H. unfold vsub_r, vadd_r, vneg_r, vscale_r, map2. cbn [map combine fst snd]. rewrite !round_neg_0, !Rplus_0_r, A, B, C.
      apply unit_norm. exact H. }
    assert (NT : double_round (- bpow radix2 (-60)) = - bpow radix2 (-60)).
    { replace (- bpow radix2 (-60)) with (IZR (-1) * bpow radix2 (-60)) by ring. apply round_int_pow. simpl; lia. }
    unfold potential_sum_r, cancelling. cbn [ofold].
    rewrite (P (PSrc [1; 0; 0] 1) 1 eq_refl (D 1 0 0 round_1 round_0 round_0 ltac:(ring)) round_opp_1). cbn [bind].
    rewrite (P (PSrc [0; 1; 0] (bpow radix2 (-60))) _ eq_refl (D 0 1 0 round_0 round_1 round_0 ltac:(ring)) NT). cbn [bind].
    rewrite (P (PSrc [0; 0; 1] (-1)) _ eq_refl (D 0 0 1 round_0 round_0 round_1 ltac:(ring))) by (cbn [ps_q]; replace (- (-1)) with 1 by ring; exact round_1). cbn [bind ps_q]. f_equal.
    rewrite Rplus_0_l, round_1. rewrite (round_near (1 + bpow radix2 (-60)) 4503599627370496).
    + replace (IZR 4503599627370496 * bpow radix2 (-52) + -1) with 0 by (simpl; lra). apply round_0.
    + simpl. lra.
    + rewrite pow52. simpl. apply Rabs_def1; lra.
  - unfold direct_potential, cancelling. assert (D : forall a b c, a ^ 2 + (b ^ 2 + (c ^ 2 + 0)) = 1 -> dist [a; b; c] [0; 0; 0] = 1).
    { intros a b c H. unfold dist. match goal with |- sqrt ?t = 1 => replace t with 1; [apply sqrt_1|] end. rewrite <- H. cbn. ring. }
    rewrite !rsum_cons. cbn [rsum fold_right ps_pos ps_q]. rewrite !D by ring. unfold kernel, field_sign. cbn [Nat.eqb]. field.
Qed.

Theorem cancellation_refuted :
  exists srcs x, length x = 3%nat /\ same_dim 3 srcs /\ representable double_round x /\ evaluable false x srcs /\
  (forall s, In s srcs -> double_round (ps_q s) = ps_q s /\ forall y, In y (ps_pos s) -> double_round y = y) /\
  potential_sum_r double_round double_norm double_log 3 false false srcs x = Ok 0 /\ direct_potential 3 false srcs x > 0.
Proof.
  exists cancelling, [0; 0; 0]. destruct cancellation as (C1 & C2 & C3 & C4 & C5).
  split; [reflexivity|]. split; [exact C1|]. split; [exact C2|]. split.
  { right. intros s [<-|[<-|[<-|[]]]] H; injection H; intros; lra. }
  split; [exact C3|]. split; [exact C4|]. rewrite C5. apply bpow_gt_0.
Qed.
Lemma one_sign_case : length [0; 0; 0] = 3%nat /\ same_dim 3 (tl corner) /\ representable double_round [0; 0; 0] /\ evaluable true [0; 0; 0] (tl corner) /\
  (forall s, In s (tl corner) -> 0 <= ps_q s).
Proof.
  split; [reflexivity|]. split; [intros s Hs; apply corner_dim; right; exact Hs|]. split; [exact (corner_representable (PSrc [0; 0; 0] 1) (or_introl eq_refl))|].
  split; [left; reflexivity|]. assert (T : 0 <= tiny) by (rewrite tiny_val; lra).
  intros s [<-|[<-|[<-|[]]]]; cbn [ps_q]; lra.
Qed.
