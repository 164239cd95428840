(** Proofs about the example program. *)
From Coq Require Import List Bool ZArith Arith Lia Reals Lra.
From Coquelicot Require Import Coquelicot.
From Verif Require Import Num Outcome Vec Orthtree AdaptiveTree TreeSpec Tables Expansion2D TableProofs CAux FieldSpec Fields FieldProofs Exp2Theorems FmmPasses FmmTree2D FmmApi FmmApiProofs
  PassTree AccuracyRule BuildProofs TreeTheorems TreeTheorems3 Minimal.
Import ListNotations.
Local Open Scope R_scope.

Section Run.
Variables (rmax : Z) (rand : nat -> Z) (N : nat).
Hypothesis RM : (0 < rmax)%Z.
Hypothesis RB : forall k, (0 <= rand k <= rmax)%Z.
Notation srcs := (minimal_sources rmax rand N).
(** The sum of the values of [rand] used for the charges. *)
Definition charge_total : Z := fold_right Z.add 0%Z (map (fun i => rand (3 * i + 2)) (seq 0 N)).

Lemma minimal_dim : same_dim 2 srcs.
Proof. intros s H. apply in_map_iff in H. destruct H as (i & <- & _). reflexivity. Qed.
Lemma rmax_pos : 0 < IZR rmax. Proof. apply IZR_lt, RM. Qed.
Lemma unit_range k : 0 <= unit_rand rmax rand k <= 1.
Proof.
  assert (P := rmax_pos). destruct (RB k) as [A B]. apply IZR_le in A, B. unfold unit_rand. split.
  - apply Rmult_le_pos; [exact A|left; apply Rinv_0_lt_compat, P].
  - apply Rmult_le_reg_r with (IZR rmax); [exact P|]. unfold Rdiv. rewrite Rmult_assoc, Rinv_l by lra. lra.
Qed.
Lemma minimal_in_square s j : In s srcs -> (j < 2)%nat -> -16 <= nth j (ps_pos s) 0 <= 16.
Proof.
  intros H Hj. apply in_map_iff in H. destruct H as (i & <- & _). unfold minimal_source; cbn [ps_pos].
  assert (A := unit_range (3 * i + 0)). assert (B := unit_range (3 * i + 1)). unfold extent.
  destruct j as [|[|j]]; cbn [seq map nth]; [lra|lra|lia].
Qed.
Lemma minimal_abs_charge : abs_charge srcs = IZR charge_total / IZR rmax.
Proof.
  assert (P := rmax_pos). unfold abs_charge, minimal_sources, charge_total. induction (seq 0 N) as [|i L IH].
  - cbn. unfold Rdiv. ring.
  - cbn [map fold_right]. rewrite rsum_cons, IH, plus_IZR. unfold minimal_source; cbn [ps_q]. assert (U := unit_range (3 * i + 2)).
    rewrite Rabs_mult, (Rabs_right (unit_rand _ _ _)) by lra.
    replace (Rabs (if Nat.odd i then 1 else -1)) with 1 by (destruct (Nat.odd i); [rewrite Rabs_R1|rewrite Rabs_left by lra]; lra).
    unfold unit_rand, Rdiv. ring.
Qed.
Hypothesis N64 : (Z.of_nat N <= 2 ^ 64)%Z.
Lemma charge_total_le : (0 <= charge_total <= Z.of_nat N * rmax)%Z.
Proof.
  unfold charge_total. rewrite <- (seq_length N 0) at 3. induction (seq 0 N) as [|i L IH]; [cbn; lia|].
  cbn [map fold_right length]. assert (X := RB (3 * i + 2)). rewrite Nat2Z.inj_succ, Z.mul_succ_l. lia.
Qed.

(** [n] sources at most have the same pair of coordinates. *)
Definition same_place (k : nat) : nat -> bool := fun i => ((rand (3 * i) =? rand (3 * k))%Z && (rand (3 * i + 1) =? rand (3 * k + 1))%Z)%bool.
Lemma pos_inj i k : ps_pos (minimal_source rmax rand i) = ps_pos (minimal_source rmax rand k) -> same_place k i = true.
Proof.
  assert (P := rmax_pos). unfold minimal_source; cbn [ps_pos seq map]. intros H. assert (H1 := f_equal (fun l => nth 0 l 0) H). assert (H2 := f_equal (fun l => nth 1 l 0) H). cbn [nth] in H1, H2. clear H. unfold unit_rand, extent in *.
  assert (E : forall a b : Z, 32 * (IZR a / IZR rmax) - 32 / 2 = 32 * (IZR b / IZR rmax) - 32 / 2 -> a = b).
  { intros a b H. apply eq_IZR. assert (H' : IZR a / IZR rmax = IZR b / IZR rmax) by lra. apply (f_equal (fun x => x * IZR rmax)) in H'.
    unfold Rdiv in H'. rewrite !Rmult_assoc, Rinv_l in H' by lra. lra. }
  apply E in H1, H2. rewrite !Nat.add_0_r in H1. unfold same_place. rewrite H1, H2, !Z.eqb_refl. reflexivity.
Qed.
Lemma count_places : (forall k, (k < N)%nat -> (length (filter (same_place k) (seq 0 N)) <= 50)%nat) ->
  forall x, (count_occ list_R_eq_dec (map (@ps_pos R) srcs) x <= 50)%nat.
Proof.
  intros H x. destruct (in_dec list_R_eq_dec x (map (@ps_pos R) srcs)) as [I|I]; [|rewrite (proj1 (count_occ_not_In _ _ _) I); lia].
  apply in_map_iff in I. destruct I as (s & <- & I). apply in_map_iff in I. destruct I as (k & <- & I). apply in_seq in I.
  eapply Nat.le_trans; [|apply (H k); lia]. unfold minimal_sources. rewrite map_map. clear H I.
  induction (seq 0 N) as [|i L IH]; [cbn; lia|]. cbn [map count_occ filter].
  destruct (list_R_eq_dec _ _) as [E|E].
  - rewrite (pos_inj _ _ E). cbn [length]. lia.
  - destruct (same_place k i); cbn [length]; lia.
Qed.

Hypothesis ST : forall j, (j < 2)%nat -> (exists i, (i < N)%nat /\ (2 * rand (3 * i + j)%nat <= rmax)%Z) /\ (exists i, (i < N)%nat /\ (rmax <= 2 * rand (3 * i + j)%nat)%Z).
Lemma minimal_straddles : forall j, (j < 2)%nat -> (exists s, In s srcs /\ nth j (ps_pos s) 0 <= 0) /\ (exists s, In s srcs /\ 0 <= nth j (ps_pos s) 0).
Proof.
  assert (P := rmax_pos).
  assert (E : forall i j, (j < 2)%nat -> nth j (ps_pos (minimal_source rmax rand i)) 0 = 16 * (2 * IZR (rand (3 * i + j)) - IZR rmax) / IZR rmax).
  { intros i j Hj. unfold minimal_source, unit_rand, extent; cbn [ps_pos]. destruct j as [|[|j]]; [| |lia]; cbn [seq map nth]; field; lra. }
  assert (M : forall i, (i < N)%nat -> In (minimal_source rmax rand i) srcs) by (intros i Hi; apply in_map, in_seq; lia).
  intros j Hj. destruct (ST j Hj) as [(i & Hi & L) (k & Hk & U)]. apply IZR_le in L, U. rewrite mult_IZR in L, U.
  assert (Q := Rinv_0_lt_compat _ P).
  split; [exists (minimal_source rmax rand i)|exists (minimal_source rmax rand k)]; (split; [apply M; assumption|]); rewrite E by exact Hj; unfold Rdiv.
  - rewrite <- Ropp_0. rewrite <- (Ropp_involutive (16 * _ * _)). apply Ropp_le_contravar. rewrite Ropp_mult_distr_l. apply Rmult_le_pos; lra.
  - apply Rmult_le_pos; lra.
Qed.

Theorem minimal_prints : (10 * rmax < charge_total)%Z -> (forall k, (k < N)%nat -> (length (filter (same_place k) (seq 0 N)) <= 50)%nat) ->
  exists fuel x v w, (forall r, minimal_main rmax rand N fuel r <-> r = Ok (x, v, w)) /\
    nth_error srcs 0 = Some (PSrc x (- unit_rand rmax rand 2)) /\
    w = direct_potential 2 true (filter (fun s => negb (is_at x s)) srcs) x /\
    (v - w) ^ 2 <= 15 * (IZR charge_total / IZR rmax).
Proof.
  intros HC HP. assert (P := rmax_pos). assert (CL := charge_total_le).
  assert (AC := minimal_abs_charge). set (A := IZR charge_total / IZR rmax) in *.
  assert (A10 : 10 < A).
  { unfold A. apply IZR_lt in HC. rewrite mult_IZR in HC. apply Rmult_lt_reg_r with (IZR rmax); [exact P|]. unfold Rdiv. rewrite Rmult_assoc, Rinv_l by lra. lra. }
  assert (AN : A <= 2 ^ 64).
  { unfold A. apply Rmult_le_reg_r with (IZR rmax); [exact P|]. unfold Rdiv. rewrite Rmult_assoc, Rinv_l by lra. rewrite Rmult_1_r.
    replace (2 ^ 64) with (IZR (2 ^ 64)) by (rewrite (pow_IZR 2 64); reflexivity). rewrite <- mult_IZR. apply IZR_le. nia. }
  assert (N0 : (0 < N)%nat).
  { destruct (Nat.eq_dec N 0) as [e|e]; [|lia]. unfold charge_total in HC. rewrite e in HC. cbn [seq map fold_right] in HC. lia. }
  destruct (plane_rule [] 50 10 srcs (sqrt (15 * A)) minimal_dim minimal_straddles (count_places HP)) as (fuel & o & U & V).
  - apply sqrt_lt_R0. lra.
  - rewrite AC. lra.
  - rewrite AC. apply Rle_trans with (1 := AN). apply Rle_trans with (2 ^ 1000); [apply Rle_pow; [lra|lia]|]. assert (0 < 2 ^ 1000) by (apply pow_lt; lra). lra.
  - rewrite AC. replace (sqrt (15 * A) ^ 2) with (15 * A); [lra|]. simpl. rewrite Rmult_1_r, sqrt_sqrt; lra.
  - assert (F : nth_error srcs 0 = Some (minimal_source rmax rand 0)).
    { unfold minimal_sources. destruct N; [lia|]. reflexivity. }
    destruct (V true (ps_pos (minimal_source rmax rand 0)) eq_refl) as (v & Hv & B).
    exists fuel, (ps_pos (minimal_source rmax rand 0)), v, (direct_potential 2 true (filter (fun s => negb (is_at (ps_pos (minimal_source rmax rand 0)) s)) srcs) (ps_pos (minimal_source rmax rand 0))).
    assert (W := potential_sum_safe 2 true srcs (ps_pos (minimal_source rmax rand 0)) minimal_dim).
    split; [|split; [|split; [reflexivity|]]].
    + intros r. split.
      * intros H. inversion H as [r0 H0]; subst. apply U in H0. subst r0. cbn [bind]. rewrite F. cbn [of_option bind]. rewrite Hv. cbn [bind]. rewrite W. reflexivity.
      * intros ->. assert (X := minimal_run rmax rand N fuel (Ok o) (proj2 (U _) eq_refl)). cbn [bind] in X. rewrite F in X. cbn [of_option bind] in X.
        rewrite Hv in X. cbn [bind] in X. rewrite W in X. exact X.
    + rewrite F. unfold minimal_source. cbn [ps_pos Nat.odd Nat.even]. cbn. do 2 f_equal. ring.
    + set (w := direct_potential _ _ _ _) in *. rewrite <- (pow2_abs (v - w)). rewrite <- (sqrt_sqrt (15 * A)) by lra. replace (sqrt (15 * A) * sqrt (15 * A)) with (sqrt (15 * A) ^ 2) by ring.
      apply pow_incr. split; [apply Rabs_pos|exact B].
Qed.
End Run.

(** Small charges: the order is negative or zero, and the program does not get as far as printing. *)
Theorem minimal_small_charges rmax (rand : nat -> Z) N fuel : (0 < rmax)%Z -> (forall k, (0 <= rand k <= rmax)%Z) -> (50 < N)%nat ->
  (charge_total rand N <= 10 * rmax)%Z -> forall v, ~ minimal_main rmax rand N fuel (Ok v).
Proof.
  intros RM RB HN HC v H. assert (P := rmax_pos rmax RM). assert (AC := minimal_abs_charge rmax rand N RM RB).
  inversion H as [r H0 E]. destruct r as [o| | | | |]; try discriminate E. clear E H.
  assert (A10 : abs_charge (minimal_sources rmax rand N) <= 10).
  { rewrite AC. apply IZR_le in HC. rewrite mult_IZR in HC. apply Rmult_le_reg_r with (IZR rmax); [exact P|]. unfold Rdiv. rewrite Rmult_assoc, Rinv_l by lra. lra. }
  assert (O : order_of eps (minimal_sources rmax rand N) = UB \/ order_of eps (minimal_sources rmax rand N) = Ok 0%nat).
  { destruct (Rle_dec (abs_charge (minimal_sources rmax rand N)) 5) as [L|L].
    - left. apply order_undefined; unfold eps; lra.
    - right. apply order_spec. unfold eps. repeat split; try lra; try lia. }
  destruct O as [O|O].
  - inversion H0 as [r0 X1 X2 X3|p r0 X1 X2 X3]; [|congruence]. subst r0. rewrite O in X3. discriminate.
  - apply (fmm2_order_zero items_per_leaf fuel eps (minimal_sources rmax rand N) bt_init (minimal_dim rmax rand N) O) with (o := o); [|exact H0].
    unfold minimal_sources, items_per_leaf. rewrite map_length, seq_length. exact HN.
Qed.
(** More than fifty sources at one place: the program does not end. *)
Theorem minimal_runs_on rmax (rand : nat -> Z) N k fuel : (0 < rmax)%Z -> (forall k, (0 <= rand k <= rmax)%Z) -> 
  (forall j, (j < 2)%nat -> (exists i, (i < N)%nat /\ (2 * rand (3 * i + j)%nat <= rmax)%Z) /\ (exists i, (i < N)%nat /\ (rmax <= 2 * rand (3 * i + j)%nat)%Z)) ->
  (k < N)%nat -> (50 < length (filter (same_place rand k) (seq 0 N)))%nat -> forall v, ~ minimal_main rmax rand N fuel (Ok v).
Proof.
  intros RM RB ST Hk HP v H. inversion H as [r H0 E]. destruct r as [o| | | | |]; try discriminate E. clear E H.
  inversion H0 as [r0 X1 X2 X3|p r0 X1 X2 X3]. { destruct r0; discriminate. }
  destruct r0 as [f| | | | |]; try discriminate X3. clear X3.
  assert (B : exists fuel t, build_adaptive 2 (@ps_pos R) 50 fuel (minimal_sources rmax rand N) = Ok t).
  { inversion X2 as [r0 Y1 Y2 E|t0 r0 Y1 Y2 Y3 E|t0 ls0 Y1 Y2 Y3|t0 ls0 Y1 Y2 Y3 Y4|t ls r0 Y1 Y2 Y3 Y4 Y5 Y6 E]; try (exists fuel; eexists; exact Y1).
    destruct r0; try discriminate. exfalso. eapply Y2. reflexivity. }
  assert (NE : minimal_sources rmax rand N <> []) by (unfold minimal_sources; destruct N; [lia|discriminate]).
  assert (B' := proj1 (adaptive_builds 2 (@ps_pos R) 50 _ ltac:(lia) NE (minimal_dim rmax rand N) (minimal_straddles rmax rand N RM ST)) B). clear B. rename B' into B.
  specialize (B (ps_pos (minimal_source rmax rand k))). apply (Nat.lt_irrefl 50). eapply Nat.lt_le_trans; [exact HP|]. eapply Nat.le_trans; [|exact B].
  unfold minimal_sources. rewrite map_map. clear.
  assert (Q : forall i, same_place rand k i = true -> ps_pos (minimal_source rmax rand i) = ps_pos (minimal_source rmax rand k)).
  { intros i E. apply andb_true_iff in E. destruct E as [E1 E2]. apply Z.eqb_eq in E1, E2. unfold minimal_source, unit_rand; cbn [ps_pos seq map]. rewrite !Nat.add_0_r, E1, E2. reflexivity. }
  induction (seq 0 N) as [|i L IH]; [cbn; lia|]. cbn [map count_occ filter]. destruct (same_place rand k i) eqn:E.
  - rewrite (Q _ E). destruct (list_R_eq_dec _ _); [cbn [length]; lia|contradiction].
  - destruct (list_R_eq_dec _ _); lia.
Qed.

(** A case: a hundred sources, alternately in two opposite corners of the square. *)
Definition corners (k : nat) : Z := if (k mod 3 =? 2)%nat then 1%Z else Z.of_nat ((k / 3) mod 2).
Lemma corners_case : (forall k, (0 <= corners k <= 1)%Z) /\
  (forall j, (j < 2)%nat -> (exists i, (i < 100)%nat /\ (2 * corners (3 * i + j) <= 1)%Z) /\ (exists i, (i < 100)%nat /\ (1 <= 2 * corners (3 * i + j))%Z)) /\
  (10 * 1 < charge_total corners 100)%Z /\ (forall k, (k < 100)%nat -> (length (filter (same_place corners k) (seq 0 100)) <= 50)%nat).
Proof.
  repeat split.
  - unfold corners. destruct (_ =? _)%nat; lia.
  - unfold corners. destruct (_ =? _)%nat; [lia|]. assert (X := Nat.mod_upper_bound (k / 3) 2 ltac:(lia)). lia.
  - exists 0%nat. split; [lia|]. destruct j as [|[|j]]; [vm_compute; discriminate|vm_compute; discriminate|lia].
  - exists 1%nat. split; [lia|]. destruct j as [|[|j]]; [vm_compute; discriminate|vm_compute; discriminate|lia].
  - intros k Hk. assert (F : forallb (fun k => (length (filter (same_place corners k) (seq 0 100)) <=? 50)%nat) (seq 0 100) = true) by (vm_compute; reflexivity).
    rewrite forallb_forall in F. apply Nat.leb_le, F, in_seq. lia.
Qed.
(** With the constant 0 for the charges the program does not print; with all sources in one corner it does not end. *)
Lemma zero_charges_case : (charge_total (fun k => if (k mod 3 =? 2)%nat then 0 else corners k)%Z 100 <= 10 * 1)%Z /\
  (50 < length (filter (same_place (fun k => if (k <? 153)%nat then 1 else corners k)%Z 0) (seq 0 100)))%nat.
Proof. split; [vm_compute; discriminate|]. apply Nat.ltb_lt. vm_compute. reflexivity. Qed.
