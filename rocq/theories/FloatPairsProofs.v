(** The parallel all-pairs functions in IEEE doubles are those of the model with rounded operations. *)
From Coq Require Import Reals List Bool ZArith Arith Lia Lra Permutation.
From Flocq Require Import Core BinarySingleNaN PrimFloat.
From Verif Require Import Num Outcome Vec CAux Tables TableProofs Schedule Fields FieldSpec FieldProofs FieldSchedules RoundedFields RoundedSpec RoundedProofs RoundedPairs RoundedPairProofs RoundedCases RoundedTree FloatCases FloatFit FloatGeometry FloatSpec FloatBridge
  FloatFields FloatFieldsSpec FloatFieldsProofs FloatFieldsTheorems FloatPairs.
From Coq Require Import Floats.
Import ListNotations.
Local Open Scope R_scope.
Local Open Scope outcome_scope.

Lemma interleaving_map {A B} (f : A -> B) its run : interleaving its run -> interleaving (map (map f) its) (map f run).
Proof.
  induction 1 as [its H|before a it after run H IH].
  - constructor. intros it Hit. apply in_map_iff in Hit. destruct Hit as (x & <- & Hx). rewrite (H x Hx). reflexivity.
  - rewrite map_app in *. cbn [map] in *. apply il_step. exact IH.
Qed.

(** Multiples of [2^e] of size at most [k 2^E]. *)
Section Sized.
Variables (e E : Z).
Hypothesis He : (-1022 <= e)%Z.
Hypothesis HE : (E <= 966)%Z.
Definition sized (k : Z) (x : float) : Prop := fin x /\ multiple e (real_of x) /\ Rabs (real_of x) <= IZR k * pw E.
Lemma sized_add k m x y : (0 <= k)%Z -> (0 <= m)%Z -> (k + m <= 9007199254740992)%Z -> sized k x -> sized m y ->
  sized (k + m) (x + y)%float /\ real_of (x + y)%float = double_round (real_of x + real_of y).
Proof.
  intros K0 M0 K (FX & MX & BX) (FY & MY & BY). assert (M := multiple_add e _ _ MX MY).
  assert (B : Rabs (real_of x + real_of y) <= IZR (k + m) * pw E).
  { eapply Rle_trans; [apply Rabs_triang|]. rewrite plus_IZR. lra. }
  assert (U : IZR (k + m) * pw E <= pw 1020).
  { apply Rle_trans with (pw 53 * pw E); [apply Rmult_le_compat_r; [apply bpow_ge_0|]; rewrite pw53; apply IZR_le; lia|]. rewrite <- bpow_plus. apply bpow_le. lia. }
  destruct (add_real x y FX FY) as [F R].
  - destruct (multiple_big e _ M) as [Z|G]; [left; exact Z|right]. eapply Rle_trans; [|exact G]. apply bpow_le. exact He.
  - lra.
  - split; [|exact R]. split; [exact F|]. rewrite R. split; [apply round_multiple, M|].
    unfold double_round. apply abs_round_le_generic; [apply FLX_exp_valid; reflexivity|typeclasses eauto| |exact B].
    rewrite <- (whole_multiple (k + m) E) by lia. apply generic_format_round; [apply FLX_exp_valid; reflexivity|typeclasses eauto].
Qed.
Lemma sized_weaken k m x : (k <= m)%Z -> sized k x -> sized m x.
Proof. intros L (F & M & B). split; [exact F|]. split; [exact M|]. eapply Rle_trans; [exact B|]. apply Rmult_le_compat_r; [apply bpow_ge_0|apply IZR_le, L]. Qed.
Lemma sized_fits x : fits e E x -> sized 1 x.
Proof. intros (F & M & B). split; [exact F|]. split; [exact M|]. lra. Qed.
Lemma sized_zero : sized 0 0%float.
Proof. destruct zero_real as [F Z]. split; [exact F|]. rewrite Z. split; [exists 0%Z; ring|rewrite Rabs_R0; lra]. Qed.
Lemma sized_opp k x : sized k x -> sized k (- x)%float /\ real_of (- x)%float = - real_of x.
Proof.
  intros (F & (z & M) & B). destruct (opp_real x F) as [F' R]. split; [|exact R]. split; [exact F'|]. rewrite R. split; [exists (- z)%Z; rewrite opp_IZR, M; ring|rewrite Rabs_Ropp; exact B].
Qed.

Definition real_up (u : nat * float) : nat * R := (fst u, real_of (snd u)).
Definition real_up2 (u : nat * (nat * float)) : nat * (nat * R) := (fst u, real_up (snd u)).
Lemma Forall_lset {A} (P : A -> Prop) v i x : Forall P v -> P x -> Forall P (lset v i x).
Proof. intros H Hx. revert i. induction H as [|a v Ha H IH]; intros [|i]; cbn [lset]; constructor; auto. Qed.
Lemma nth_Forall {A} (P : A -> Prop) v i z : Forall P v -> P z -> P (nth i v z).
Proof. intros H Hz. revert i. induction H as [|a v Ha H IH]; intros [|i]; cbn [nth]; auto. Qed.
Lemma lset_map {A B} (f : A -> B) v i x : map f (lset v i x) = lset (map f v) i (f x).
Proof. revert i. induction v as [|a v IH]; intros [|i]; cbn [lset map]; [reflexivity|reflexivity|reflexivity|f_equal; apply IH]. Qed.

(** Updates with their sizes. *)
Definition weight {A} (W : list (Z * A)) : Z := fold_right (fun p s => (fst p + s)%Z) 0%Z W.
Lemma weight_app {A} (W W' : list (Z * A)) : weight (W ++ W') = (weight W + weight W')%Z.
Proof. induction W as [|p W IH]; [reflexivity|]. unfold weight in *. cbn [app fold_right]. rewrite IH. lia. Qed.
Lemma weight_perm {A} (W W' : list (Z * A)) : Permutation W W' -> weight W = weight W'.
Proof. unfold weight. induction 1; cbn [fold_right]; lia. Qed.

Lemma add_at_sized k m v u : (0 <= k)%Z -> (0 <= m)%Z -> (k + m <= 9007199254740992)%Z -> Forall (sized k) v -> sized m (snd u) ->
  Forall (sized (k + m)) (add_atF v u) /\ map real_of (add_atF v u) = add_at_r double_round (map real_of v) (real_up u).
Proof.
  intros K0 M0 K V Y. destruct (sized_add k m (nth (fst u) v 0%float) (snd u) K0 M0 K) as [S R].
  - apply nth_Forall; [exact V|]. apply (sized_weaken 0); [exact K0|apply sized_zero].
  - exact Y.
  - unfold add_atF, add_at_r. cbn [real_up fst snd]. split.
    + apply Forall_lset; [|exact S]. eapply Forall_impl; [|exact V]. intros y. apply sized_weaken. lia.
    + rewrite lset_map, R. do 2 f_equal. f_equal. rewrite <- (proj2 zero_real). apply eq_sym, map_nth.
Qed.
Theorem run_sized W : forall k v, (0 <= k)%Z -> (k + weight W <= 9007199254740992)%Z -> Forall (fun p => (0 <= fst p)%Z /\ sized (fst p) (snd (snd p))) W -> Forall (sized k) v ->
  let r := fold_left add_atF (map snd W) v in
  Forall (sized (k + weight W)) r /\ map real_of r = fold_left (add_at_r double_round) (map real_up (map snd W)) (map real_of v).
Proof.
  induction W as [|[m u] W IH]; intros k v K0 K HW V; cbn [map fold_left].
  - unfold weight. cbn [fold_right]. rewrite Z.add_0_r. auto.
  - inversion HW as [|? ? [M0 MU] HW']; subst. cbn [fst snd] in M0, MU. unfold weight in *. cbn [fold_right fst] in K |- *. fold (weight W) in *.
    assert (P0 : (0 <= weight W)%Z). { clear - HW'. induction HW' as [|p W [A _] _ IH]; unfold weight in *; cbn [fold_right]; lia. }
    cbn [map fold_left snd]. destruct (add_at_sized k m v u K0 M0 ltac:(lia) V MU) as [V' R'].
    destruct (IH (k + m)%Z (add_atF v u) ltac:(lia) ltac:(lia) HW' V') as [G1 G2]. rewrite R' in G2. split; [|exact G2]. rewrite Z.add_assoc. exact G1.
Qed.
Lemma add_vec_at_sized k m v u : (0 <= k)%Z -> (0 <= m)%Z -> (k + m <= 9007199254740992)%Z -> Forall (Forall (sized k)) v -> sized m (snd (snd u)) ->
  Forall (Forall (sized (k + m))) (add_vec_atF v u) /\ map (map real_of) (add_vec_atF v u) = add_vec_at_r double_round (map (map real_of) v) (real_up2 u).
Proof.
  intros K0 M0 K V Y. destruct (add_at_sized k m (nth (fst u) v []) (snd u) K0 M0 K) as [S R].
  - apply nth_Forall; [exact V|constructor].
  - exact Y.
  - unfold add_vec_atF, add_vec_at_r. cbn [real_up2 fst snd]. split.
    + apply Forall_lset; [|exact S]. eapply Forall_impl; [|exact V]. intros f Hf. eapply Forall_impl; [|exact Hf]. intros y. apply sized_weaken. lia.
    + rewrite lset_map, R. f_equal. f_equal. apply eq_sym. exact (map_nth (map real_of) v [] (fst u)).
Qed.
Theorem run_sized2 W : forall k v, (0 <= k)%Z -> (k + weight W <= 9007199254740992)%Z -> Forall (fun p => (0 <= fst p)%Z /\ sized (fst p) (snd (snd (snd p)))) W -> Forall (Forall (sized k)) v ->
  let r := fold_left add_vec_atF (map snd W) v in
  Forall (Forall (sized (k + weight W))) r /\ map (map real_of) r = fold_left (add_vec_at_r double_round) (map real_up2 (map snd W)) (map (map real_of) v).
Proof.
  induction W as [|[m u] W IH]; intros k v K0 K HW V; cbn [map fold_left].
  - unfold weight. cbn [fold_right]. rewrite Z.add_0_r. auto.
  - inversion HW as [|? ? [M0 MU] HW']; subst. cbn [fst snd] in M0, MU. unfold weight in *. cbn [fold_right fst] in K |- *. fold (weight W) in *.
    assert (P0 : (0 <= weight W)%Z). { clear - HW'. induction HW' as [|p W [A _] _ IH]; unfold weight in *; cbn [fold_right]; lia. }
    cbn [map fold_left snd]. destruct (add_vec_at_sized k m v u K0 M0 ltac:(lia) V MU) as [V' R'].
    destruct (IH (k + m)%Z (add_vec_atF v u) ltac:(lia) ltac:(lia) HW' V') as [G1 G2]. rewrite R' in G2. split; [|exact G2]. rewrite Z.add_assoc. exact G1.
Qed.
(** A run of iterations with sized updates. *)
Lemma run_weights {A} (Ws : list (list (Z * A))) run : interleaving (map (map snd) Ws) run -> exists W, run = map snd W /\ Permutation (concat Ws) W.
Proof. intros H. apply interleaving_perm in H. rewrite <- concat_map in H. apply Permutation_sym, Permutation_map_inv in H. exact H. Qed.
End Sized.

(** All iterations. *)
Lemma omapM_sized {A B} (val : A -> float) (up : A -> B) (e E m : Z) (f : nat -> outcome (list A)) (g : nat -> outcome (list B)) l :
  (forall i, In i l -> exists W, f i = Ok (map snd W) /\ g i = Ok (map up (map snd W)) /\ (weight W <= m)%Z /\ Forall (fun p => (0 <= fst p)%Z /\ sized e E (fst p) (val (snd p))) W) ->
  exists Ws, omapM f l = Ok (map (map snd) Ws) /\ omapM g l = Ok (map (map up) (map (map snd) Ws)) /\ (weight (concat Ws) <= m * Z.of_nat (length l))%Z /\
    Forall (fun p => (0 <= fst p)%Z /\ sized e E (fst p) (val (snd p))) (concat Ws).
Proof.
  induction l as [|i l IH]; intros H.
  - exists []. cbn. repeat split; try lia. constructor.
  - destruct (H i (or_introl eq_refl)) as (W & W1 & W2 & W3 & W4). destruct (IH (fun j Hj => H j (or_intror Hj))) as (Ws & I1 & I2 & I3 & I4).
    exists (W :: Ws). cbn [omapM]. rewrite W1, W2. cbn [bind]. rewrite I1, I2. cbn [bind map concat]. split; [reflexivity|]. split; [reflexivity|].
    rewrite weight_app. cbn [length]. split; [lia|apply Forall_app; auto].
Qed.

Lemma real_nth srcs i s : nth_error srcs i = Some s -> nth_error (map real_src srcs) i = Some (real_src s).
Proof. intros H. rewrite nth_error_map, H. reflexivity. Qed.

Section Energies.
Variables (d : nat) (hypF : list float -> float) (hyp : list R -> R) (lgF : float -> float) (lg : R -> R) (grav : bool).
Hypothesis D3 : (d <= 3)%nat.
Hypothesis HN : norm_of d hypF hyp.
Hypothesis HA : accurate_norm (/ 1000) hyp.
Hypothesis HL : d = 2%nat -> log_of lgF lg.
Variable srcs : list (psrc float).
Hypothesis MS : moderate_sources d srcs.
Hypothesis ND : NoDup (map ps_pos (map real_src srcs)).
Hypothesis SM : (Z.of_nat (length srcs) <= 33554432)%Z.

Lemma charge_fits s : In s srcs -> fits (-202) 150 (ps_q s).
Proof. intros S. apply (within_fits (-150)), (MS s S). Qed.
Lemma positions_differ i j si sj : nth_error srcs i = Some si -> nth_error srcs j = Some sj -> i <> j -> ps_pos (real_src sj) <> rv (ps_pos si).
Proof. intros Hi Hj N. apply (distinct_positions _ ND j i (real_src sj) (real_src si)); [apply real_nth, Hj|apply real_nth, Hi|congruence]. Qed.
Lemma energy_term i j si sj : nth_error srcs i = Some si -> nth_error srcs j = Some sj -> i <> j ->
  let t := (ps_q si * potentialF hypF lgF d grav false sj (ps_pos si))%float in
  fits (-557) 503 t /\ exists p, potential_r double_round hyp lg d grav false (real_src sj) (ps_pos (real_src si)) = Ok p /\ real_of t = double_round (ps_q (real_src si) * p).
Proof.
  intros Hi Hj N t. destruct (MS si (nth_error_In _ _ Hi)) as [P1 Q1]. destruct (MS sj (nth_error_In _ _ Hj)) as [P2 Q2].
  destruct (potential_real d hypF hyp lgF lg grav false D3 HN HA HL (ps_pos si) P1 sj P2 Q2 (or_intror (positions_differ i j si sj Hi Hj N))) as [F V].
  destruct (fits_mul_r (-202) 150 (-355) 353 (ps_q si) _ ltac:(lia) ltac:(lia) (charge_fits si (nth_error_In _ _ Hi)) F) as [G R].
  split; [exact G|]. eexists. split; [exact V|exact R].
Qed.
Notation sz := (sized (-557) 503).
Notation okW := (Forall (fun p : Z * (nat * float) => (0 <= fst p)%Z /\ sz (fst p) (snd (snd p)))).
Lemma energy_fold i si l : nth_error srcs i = Some si -> forall k a ups, (forall j, In j l -> (j < i)%nat) -> (0 <= k)%Z -> (k + Z.of_nat (length l) <= 9007199254740992)%Z -> sz k a ->
  exists a' W,
    ofold (fun (st : float * list (nat * float)) j => do sj <- of_option (nth_error srcs j) ;;
      let t := (ps_q si * potentialF hypF lgF d grav false sj (ps_pos si))%float in Ok (fst st + t, snd st ++ [(j, t)])%float) l (a, ups) = Ok (a', ups ++ map snd W) /\
    ofold (fun (st : R * list (nat * R)) j => do sj <- of_option (nth_error (map real_src srcs) j) ;;
      do p <- potential_r double_round hyp lg d grav false sj (ps_pos (real_src si)) ;;
      let t := double_round (ps_q (real_src si) * p) in Ok (double_round (fst st + t), snd st ++ [(j, t)])) l (real_of a, map real_up ups)
      = Ok (real_of a', map real_up (ups ++ map snd W)) /\
    sz (k + Z.of_nat (length l)) a' /\ weight W = Z.of_nat (length l) /\ okW W.
Proof.
  intros Hi. induction l as [|j l IH]; intros k a ups HL' K0 K SA; cbn [ofold length] in *.
  - exists a, []. cbn [map app]. rewrite app_nil_r, Z.add_0_r. split; [reflexivity|]. split; [reflexivity|]. split; [exact SA|]. split; [reflexivity|constructor].
  - assert (J := HL' j (or_introl eq_refl)). assert (LI : (i < length srcs)%nat) by (apply nth_error_Some; congruence).
    destruct (nth_error srcs j) as [sj|] eqn:Hj. 2:{ apply nth_error_None in Hj. lia. }
    destruct (energy_term i j si sj Hi Hj ltac:(lia)) as (F & p & V & R). set (t := (ps_q si * _)%float) in *.
    rewrite (real_nth _ _ _ Hj). cbn [of_option bind]. rewrite V. cbn [bind fst snd].
    destruct (sized_add (-557) 503 ltac:(lia) ltac:(lia) k 1 a t K0 ltac:(lia) ltac:(lia) SA (sized_fits _ _ _ F)) as [SA' RA].
    destruct (IH (k + 1)%Z (a + t)%float (ups ++ [(j, t)]) (fun j' Hj' => HL' j' (or_intror Hj')) ltac:(lia) ltac:(lia) SA') as (a' & W & E1 & E2 & E3 & E4 & E5).
    exists a', ((1%Z, (j, t)) :: W). split; [fold t; rewrite E1, <- app_assoc; reflexivity|]. split; [|split; [|split]].
    + rewrite <- R. rewrite RA, map_app in E2. cbn [map] in E2. change (real_up (j, t)) with (j, real_of t) in E2. cbv zeta. rewrite E2. rewrite <- app_assoc. reflexivity.
    + replace (k + Z.of_nat (S (length l)))%Z with (k + 1 + Z.of_nat (length l))%Z by lia. exact E3.
    + unfold weight in *. cbn [fold_right fst]. lia.
    + constructor; [|exact E5]. cbn [fst snd]. split; [lia|apply sized_fits, F].
Qed.
Lemma energy_iteration i : (i < length srcs)%nat -> exists W, ppe_iterationF hypF lgF d grav srcs i = Ok (map snd W) /\
  ppe_iteration_r double_round hyp lg d grav (map real_src srcs) i = Ok (map real_up (map snd W)) /\ (weight W <= 2 * Z.of_nat (length srcs))%Z /\ okW W.
Proof.
  intros LI. destruct (nth_error srcs i) as [si|] eqn:Hi. 2:{ apply nth_error_None in Hi. lia. }
  destruct (energy_fold i si (seq 0 i) Hi 0%Z 0%float [] ltac:(intros j Hj; apply in_seq in Hj; lia) ltac:(lia) ltac:(rewrite seq_length; lia) (sized_zero _ _)) as (a' & W & E1 & E2 & E3 & E4 & E5).
  rewrite seq_length in E3, E4. exists (W ++ [(Z.of_nat i, (i, a'))]). unfold ppe_iterationF, ppe_iteration_r. rewrite Hi, (real_nth _ _ _ Hi). cbn [of_option bind].
  cbv zeta in E1, E2. rewrite E1. cbn [bind fst snd app]. rewrite (proj2 zero_real) in E2. cbn [map] in E2. rewrite E2. cbn [bind fst snd app]. rewrite !map_app. cbn [map snd].
  split; [reflexivity|]. split; [reflexivity|]. split.
  - rewrite weight_app, E4. unfold weight. cbn [fold_right fst]. lia.
  - apply Forall_app. split; [exact E5|]. constructor; [|constructor]. cbn [fst snd]. split; [lia|exact E3].
Qed.
Theorem energies_real : exists its, ppe_iterationsF hypF lgF d grav srcs = Ok its /\
  ppe_iterations_r double_round hyp lg d grav (map real_src srcs) = Ok (map (map real_up) its) /\
  forall run, interleaving its run -> let v := ppe_resultF (length srcs) run in
    (forall y, In y v -> fin y) /\ map real_of v = ppe_result_r double_round (length srcs) (map real_up run).
Proof.
  destruct (omapM_sized (A := nat * float) snd real_up (-557) 503 (2 * Z.of_nat (length srcs)) (ppe_iterationF hypF lgF d grav srcs) (ppe_iteration_r double_round hyp lg d grav (map real_src srcs)) (seq 0 (length srcs)))
    as (Ws & E1 & E2 & E3 & E4).
  { intros i Hi. apply in_seq in Hi. apply energy_iteration. lia. }
  exists (map (map snd) Ws). split; [exact E1|]. split; [unfold ppe_iterations_r; rewrite map_length; exact E2|]. intros run Hr v. rewrite seq_length in E3.
  destruct (run_weights Ws run Hr) as (W & -> & PW).
  destruct (run_sized (-557) 503 ltac:(lia) ltac:(lia) W 0%Z (repeat 0%float (length srcs)) ltac:(lia)) as [V1 V2].
  - rewrite <- (weight_perm _ _ PW). nia.
  - eapply Permutation_Forall; [exact PW|exact E4].
  - apply Forall_forall. intros y Y. apply repeat_spec in Y. subst y. apply sized_zero.
  - split.
    + intros y Y. rewrite Forall_forall in V1. apply (V1 y Y).
    + unfold v, ppe_resultF, ppe_result_r. rewrite V2, map_repeat, (proj2 zero_real). reflexivity.
Qed.
End Energies.

Lemma real_of_nth v k : nth k (map real_of v) 0 = real_of (nth k v 0%float).
Proof. rewrite <- (proj2 zero_real). apply map_nth. Qed.

(** *** Forces *)
Section Forces.
Variables (d : nat) (hypF : list float -> float) (hyp : list R -> R) (grav : bool) (eps : float).
Hypothesis D3 : (d <= 3)%nat.
Hypothesis HN : norm_of d hypF hyp.
Hypothesis HA : accurate_norm (/ 1000) hyp.
Hypothesis HE : magnitude 150 eps.
Hypothesis HE0 : 0 <= real_of eps.
Variable srcs : list (psrc float).
Hypothesis MS : moderate_sources d srcs.
Hypothesis CH : forall s, In s srcs -> magnitude 75 (ps_q s).
Hypothesis ND : NoDup (map ps_pos (map real_src srcs)).
Hypothesis SM : (Z.of_nat (length srcs) <= 33554432)%Z.
Notation sz := (sized (-920) 966).
Notation okW := (Forall (fun p : Z * (nat * (nat * float)) => (0 <= fst p)%Z /\ sz (fst p) (snd (snd (snd p))))).

Lemma force_term i j si sj : nth_error srcs i = Some si -> nth_error srcs j = Some sj -> i <> j ->
  let t := vscale (N := NumF) (forcefieldF hypF d grav false eps sj (ps_pos si)) (ps_q si) in
  Forall (sz 1) t /\ length t = d /\ exists f, forcefield_r double_round hyp d grav false (real_of eps) (real_src sj) (ps_pos (real_src si)) = Ok f /\ rv t = vscale_r double_round f (ps_q (real_src si)).
Proof.
  intros Hi Hj N t. destruct (MS si (nth_error_In _ _ Hi)) as [P1 Q1]. destruct (MS sj (nth_error_In _ _ Hj)) as [P2 Q2].
  destruct (force_real_charge d hypF hyp grav false eps D3 HN HA (ps_pos si) P1 HE HE0 75 sj ltac:(lia) P2 (CH sj (nth_error_In _ _ Hj)) (or_intror (positions_differ srcs ND i j si sj Hi Hj N))) as (F & L & V).
  destruct (vscale_real (-789) 887 (-127) 75 _ (ps_q si) ltac:(lia) ltac:(lia) F (within_fits (-75) 75 _ (CH si (nth_error_In _ _ Hi)))) as [G R].
  split; [|split].
  - eapply Forall_impl; [|exact G]. intros y Y. apply sized_fits, (fits_weaken (-916) 962); [lia|lia|exact Y].
  - unfold t, vscale. rewrite map_length. exact L.
  - eexists. split; [exact V|]. rewrite scale_r_eq in R. exact R.
Qed.
Lemma vadd_sized k m a : (0 <= k)%Z -> (0 <= m)%Z -> (k + m <= 9007199254740992)%Z -> Forall (sz k) a -> forall b, Forall (sz m) b ->
  Forall (sz (k + m)) (vadd (N := NumF) a b) /\ rv (vadd (N := NumF) a b) = vadd_r double_round (rv a) (rv b).
Proof.
  intros K0 M0 K HA'. induction HA' as [|y a Y _ IH]; intros b HB; [split; [constructor|reflexivity]|].
  destruct HB as [|z b Z HB]; [split; [constructor|reflexivity]|]. destruct (IH b HB) as [IB IR].
  destruct (sized_add (-920) 966 ltac:(lia) ltac:(lia) k m y z K0 M0 K Y Z) as [G1 G2].
  split; [constructor; assumption|]. unfold vadd, vadd_r, map2 in *. cbn [map combine]. f_equal; [exact G2|exact IR].
Qed.
(** The updates of one vector. *)
Definition vec_ups (g : float -> float) (m : Z) (j : nat) (t : list float) : list (Z * (nat * (nat * float))) := map (fun k => (m, (j, (k, g (nth k t 0%float))))) (seq 0 d).
Lemma vec_ups_weight g m j t : weight (vec_ups g m j t) = (m * Z.of_nat d)%Z.
Proof.
  unfold vec_ups, weight. rewrite <- (seq_length d 0) at 2. induction (seq 0 d) as [|k l IH]; cbn [map fold_right fst length]; lia.
Qed.
Lemma vec_ups_ok g m j t : (0 <= m)%Z -> (forall x, sz m x -> sz m (g x)) -> Forall (sz m) t -> okW (vec_ups g m j t).
Proof.
  intros M0 Hg Ht. unfold vec_ups. apply Forall_forall. intros p Hp. apply in_map_iff in Hp. destruct Hp as (k & <- & _). cbn [fst snd]. split; [exact M0|].
  apply Hg, nth_Forall; [exact Ht|]. apply (sized_weaken _ _ 0); [exact M0|apply sized_zero].
Qed.
Lemma vec_ups_real g gr m j t : (0 <= m)%Z -> (forall x, sz m x -> real_of (g x) = gr (real_of x)) -> Forall (sz m) t ->
  map real_up2 (map snd (vec_ups g m j t)) = map (fun k => (j, (k, gr (nth k (rv t) 0)))) (seq 0 d).
Proof.
  intros M0 Hg Ht. unfold vec_ups. rewrite !map_map. apply map_ext. intros k. unfold real_up2, real_up. cbn [fst snd]. rewrite Hg.
  - rewrite real_of_nth. reflexivity.
  - apply nth_Forall; [exact Ht|]. apply (sized_weaken _ _ 0); [exact M0|apply sized_zero].
Qed.
Lemma force_fold i si l : nth_error srcs i = Some si -> forall k a ups, (forall j, In j l -> (j < i)%nat) -> (0 <= k)%Z -> (k + Z.of_nat (length l) <= 9007199254740992)%Z -> Forall (sz k) a ->
  exists a' W,
    ofold (fun (st : list float * list (nat * (nat * float))) j => do sj <- of_option (nth_error srcs j) ;;
      let t := vscale (N := NumF) (forcefieldF hypF d grav false eps sj (ps_pos si)) (ps_q si) in
      Ok (vadd (N := NumF) (fst st) t, snd st ++ map (fun k => (j, (k, - nth k t 0)%float)) (seq 0 d))) l (a, ups) = Ok (a', ups ++ map snd W) /\
    ofold (fun (st : list R * list (nat * (nat * R))) j => do sj <- of_option (nth_error (map real_src srcs) j) ;;
      do f <- forcefield_r double_round hyp d grav false (real_of eps) sj (ps_pos (real_src si)) ;;
      let t := vscale_r double_round f (ps_q (real_src si)) in
      Ok (vadd_r double_round (fst st) t, snd st ++ map (fun k => (j, (k, - vget t k))) (seq 0 d))) l (rv a, map real_up2 ups)
      = Ok (rv a', map real_up2 (ups ++ map snd W)) /\
    Forall (sz (k + Z.of_nat (length l))) a' /\ weight W = (Z.of_nat d * Z.of_nat (length l))%Z /\ okW W.
Proof.
  intros Hi. induction l as [|j l IH]; intros k a ups HL' K0 K SA; cbn [ofold length] in *.
  - exists a, []. cbn [map app]. rewrite app_nil_r, Z.add_0_r. split; [reflexivity|]. split; [reflexivity|]. split; [exact SA|]. split; [unfold weight; cbn; lia|constructor].
  - assert (J := HL' j (or_introl eq_refl)). assert (LI : (i < length srcs)%nat) by (apply nth_error_Some; congruence).
    destruct (nth_error srcs j) as [sj|] eqn:Hj. 2:{ apply nth_error_None in Hj. lia. }
    destruct (force_term i j si sj Hi Hj ltac:(lia)) as (F & LT & f & V & R). set (t := vscale (forcefieldF hypF d grav false eps sj (ps_pos si)) (ps_q si)) in *.
    rewrite (real_nth _ _ _ Hj). cbn [of_option bind]. rewrite V. cbn [bind fst snd].
    destruct (vadd_sized k 1 a K0 ltac:(lia) ltac:(lia) SA t F) as [SA' RA].
    set (U := vec_ups PrimFloat.opp 1 j t).
    assert (U1 : map snd U = map (fun k => (j, (k, - nth k t 0)%float)) (seq 0 d)) by (unfold U, vec_ups; rewrite map_map; reflexivity).
    assert (U2 : map real_up2 (map snd U) = map (fun k => (j, (k, - vget (vscale_r double_round f (ps_q (real_src si))) k))) (seq 0 d)).
    { unfold U. rewrite (vec_ups_real PrimFloat.opp Ropp 1 j t ltac:(lia)).
      - rewrite R. reflexivity.
      - intros x X. apply (sized_opp _ _ _ _ X).
      - exact F. }
    destruct (IH (k + 1)%Z (vadd (N := NumF) a t) (ups ++ map snd U) (fun j' Hj' => HL' j' (or_intror Hj')) ltac:(lia) ltac:(lia) SA') as (a' & W & E1 & E2 & E3 & E4 & E5).
    exists a', (U ++ W). rewrite map_app, app_assoc. split; [|split; [|split; [|split]]].
    + fold t. rewrite <- U1. exact E1.
    + cbv zeta. cbv zeta in E2. rewrite <- U2, <- R, <- RA, <- map_app. exact E2.
    + replace (k + Z.of_nat (S (length l)))%Z with (k + 1 + Z.of_nat (length l))%Z by lia. exact E3.
    + rewrite weight_app, E4. unfold U. rewrite vec_ups_weight. lia.
    + apply Forall_app. split; [|exact E5]. apply vec_ups_ok; [lia| |exact F]. intros x X. apply (sized_opp _ _ _ _ X).
Qed.
Lemma force_iteration i : (i < length srcs)%nat -> exists W, pf_iterationF hypF d grav eps srcs i = Ok (map snd W) /\
  pf_iteration_r double_round hyp d grav (real_of eps) (map real_src srcs) i = Ok (map real_up2 (map snd W)) /\ (weight W <= 6 * Z.of_nat (length srcs))%Z /\ okW W.
Proof.
  intros LI. destruct (nth_error srcs i) as [si|] eqn:Hi. 2:{ apply nth_error_None in Hi. lia. }
  destruct (force_fold i si (seq 0 i) Hi 0%Z (repeat 0%float d) [] ltac:(intros j Hj; apply in_seq in Hj; lia) ltac:(lia) ltac:(rewrite seq_length; lia)) as (a' & W & E1 & E2 & E3 & E4 & E5).
  { apply Forall_forall. intros y Y. apply repeat_spec in Y. subst y. apply sized_zero. }
  rewrite seq_length in E3, E4. exists (W ++ vec_ups (fun x => x) (Z.of_nat i) i a'). unfold pf_iterationF, pf_iteration_r. rewrite Hi, (real_nth _ _ _ Hi). cbn [of_option bind].
  cbv zeta in E1, E2. rewrite E1. cbn [bind fst snd app]. rewrite map_repeat, (proj2 zero_real) in E2. cbn [map] in E2. change (repeat 0 d) with (vzero d) in E2. rewrite E2. cbn [bind fst snd app].
  rewrite !map_app. split; [|split; [|split]].
  - unfold vec_ups. rewrite map_map. reflexivity.
  - rewrite (vec_ups_real (fun x => x) (fun x => x)); [reflexivity|lia|reflexivity|exact E3].
  - rewrite weight_app, E4, vec_ups_weight. nia.
  - apply Forall_app. split; [exact E5|]. apply vec_ups_ok; [lia|auto|exact E3].
Qed.
Theorem forces_real : exists its, pf_iterationsF hypF d grav eps srcs = Ok its /\
  pf_iterations_r double_round hyp d grav (real_of eps) (map real_src srcs) = Ok (map (map real_up2) its) /\
  forall run, interleaving its run -> let v := pf_resultF d (length srcs) run in
    (forall f y, In f v -> In y f -> fin y) /\ map (map real_of) v = pf_result_r double_round d (length srcs) (map real_up2 run).
Proof.
  destruct (omapM_sized (A := nat * (nat * float)) (fun u => snd (snd u)) real_up2 (-920) 966 (6 * Z.of_nat (length srcs)) (pf_iterationF hypF d grav eps srcs)
    (pf_iteration_r double_round hyp d grav (real_of eps) (map real_src srcs)) (seq 0 (length srcs))) as (Ws & E1 & E2 & E3 & E4).
  { intros i Hi. apply in_seq in Hi. apply force_iteration. lia. }
  exists (map (map snd) Ws). split; [exact E1|]. split; [unfold pf_iterations_r; rewrite map_length; exact E2|]. intros run Hr v. rewrite seq_length in E3.
  destruct (run_weights Ws run Hr) as (W & -> & PW).
  destruct (run_sized2 (-920) 966 ltac:(lia) ltac:(lia) W 0%Z (repeat (repeat 0%float d) (length srcs)) ltac:(lia)) as [V1 V2].
  - rewrite <- (weight_perm _ _ PW). nia.
  - eapply Permutation_Forall; [exact PW|exact E4].
  - apply Forall_forall. intros f F. apply repeat_spec in F. subst f. apply Forall_forall. intros y Y. apply repeat_spec in Y. subst y. apply sized_zero.
  - split.
    + intros f y F Y. rewrite Forall_forall in V1. specialize (V1 f F). rewrite Forall_forall in V1. apply (V1 y Y).
    + unfold v, pf_resultF, pf_result_r. rewrite V2, !map_repeat, (proj2 zero_real). reflexivity.
Qed.
End Forces.

(** *** Error bounds *)
Lemma sources_representable d srcs : moderate_sources d srcs -> forall s, In s (map real_src srcs) -> representable double_round (ps_pos s).
Proof. intros H s S. apply in_map_iff in S. destruct S as (s' & <- & S). apply (moderate_representable d), (H s' S). Qed.
Theorem space_energies_doubles hypF hyp lgF e grav srcs : 0 <= e <= / 1000 -> norm_of 3 hypF hyp -> accurate_norm e hyp ->
  moderate_sources 3 srcs -> NoDup (map (fun s => map real_of (ps_pos s)) srcs) -> (Z.of_nat (length srcs) <= 33554432)%Z ->
  exists its, ppe_iterationsF hypF lgF 3 grav srcs = Ok its /\ (exists run, interleaving its run) /\
  forall run, interleaving its run -> let v := ppe_resultF (length srcs) run in
    length v = length srcs /\ (forall y, In y v -> PrimFloat.is_finite y = true) /\
    forall k sk, nth_error srcs k = Some sk ->
      let x := map real_of (ps_pos sk) in let q := real_of (ps_q sk) in let away := others x (map real_src srcs) in
      Rabs (real_of (nth k v 0%float) - q * direct_potential 3 grav away x)
      <= ((1 + u53) ^ (length srcs + 2) / ((1 - e) * (1 - u53)) - 1) * (Rabs q * rsum (fun s => Rabs (ps_q s) / dist (ps_pos s) x) away).
Proof.
  intros He HN HA MS ND SM. assert (ND' : NoDup (map ps_pos (map real_src srcs))) by (rewrite map_map; exact ND).
  destruct (energies_real 3 hypF hyp lgF ln grav ltac:(lia) HN (norm_weaken _ _ _ (proj2 He) HA) ltac:(discriminate) srcs MS ND' SM) as (its & E1 & E2 & E3).
  exists its. split; [exact E1|]. split; [eexists; apply interleaving_seq|]. intros run Hr v. destruct (E3 run Hr) as [F R].
  destruct (space_energies_error double_round hyp ln u53 e grav (map real_src srcs) ltac:(lra) ltac:(lra) double_accurate HA (ln_accurate e (proj1 He)) (real_sources_dim 3 srcs MS) ND' (sources_representable 3 srcs MS))
    as (its' & I1 & _ & I3). rewrite E2 in I1. injection I1 as <-. destruct (I3 _ (interleaving_map real_up _ _ Hr)) as [L B]. rewrite map_length in L, B.
  rewrite <- R in L, B. rewrite map_length in L. split; [exact L|]. split; [exact F|]. intros k sk Hk. specialize (B k (real_src sk) (real_nth _ _ _ Hk)).
  rewrite real_of_nth in B. exact B.
Qed.
Theorem plane_energies_doubles hypF hyp lgF lg e grav srcs : 0 <= e <= / 1000 -> norm_of 2 hypF hyp -> accurate_norm e hyp -> log_of lgF lg -> accurate_log e lg ->
  moderate_sources 2 srcs -> NoDup (map (fun s => map real_of (ps_pos s)) srcs) -> (Z.of_nat (length srcs) <= 33554432)%Z ->
  exists its, ppe_iterationsF hypF lgF 2 grav srcs = Ok its /\ (exists run, interleaving its run) /\
  forall run, interleaving its run -> let v := ppe_resultF (length srcs) run in
    length v = length srcs /\ (forall y, In y v -> PrimFloat.is_finite y = true) /\
    forall k sk, nth_error srcs k = Some sk ->
      let x := map real_of (ps_pos sk) in let q := real_of (ps_q sk) in let away := others x (map real_src srcs) in
      Rabs (real_of (nth k v 0%float) - q * direct_potential 2 grav away x)
      <= ((1 + u53) ^ (length srcs + 2) * (1 + e) - 1) * (Rabs q * rsum (fun s => Rabs (ps_q s) * Rabs (ln (dist (ps_pos s) x))) away)
         + (1 + u53) ^ (length srcs + 2) * (1 + e) * - ln ((1 - e) * (1 - u53)) * (Rabs q * abs_charge away).
Proof.
  intros He HN HA HL HG MS ND SM. assert (ND' : NoDup (map ps_pos (map real_src srcs))) by (rewrite map_map; exact ND).
  destruct (energies_real 2 hypF hyp lgF lg grav ltac:(lia) HN (norm_weaken _ _ _ (proj2 He) HA) (fun _ => HL) srcs MS ND' SM) as (its & E1 & E2 & E3).
  exists its. split; [exact E1|]. split; [eexists; apply interleaving_seq|]. intros run Hr v. destruct (E3 run Hr) as [F R].
  destruct (plane_energies_error double_round hyp lg u53 e grav (map real_src srcs) ltac:(lra) ltac:(lra) double_accurate HA HG (real_sources_dim 2 srcs MS) ND' (sources_representable 2 srcs MS))
    as (its' & I1 & _ & I3). rewrite E2 in I1. injection I1 as <-. destruct (I3 _ (interleaving_map real_up _ _ Hr)) as [L B]. rewrite map_length in L, B.
  rewrite <- R in L, B. rewrite map_length in L. split; [exact L|]. split; [exact F|]. intros k sk Hk. specialize (B k (real_src sk) (real_nth _ _ _ Hk)).
  rewrite real_of_nth in B. exact B.
Qed.
Theorem forces_doubles d hypF hyp e grav eps srcs : (d <= 3)%nat -> 0 <= e <= / 1000 -> norm_of d hypF hyp -> accurate_norm e hyp -> magnitude 150 eps -> 0 <= real_of eps ->
  moderate_sources d srcs -> (forall s, In s srcs -> magnitude 75 (ps_q s)) -> NoDup (map (fun s => map real_of (ps_pos s)) srcs) -> (Z.of_nat (length srcs) <= 33554432)%Z ->
  exists its, pf_iterationsF hypF d grav eps srcs = Ok its /\ (exists run, interleaving its run) /\
  forall run, interleaving its run -> let v := pf_resultF d (length srcs) run in
    (forall f y, In f v -> In y f -> PrimFloat.is_finite y = true) /\
    forall k sk c, nth_error srcs k = Some sk -> (c < d)%nat ->
      let x := map real_of (ps_pos sk) in let q := real_of (ps_q sk) in let away := others x (map real_src srcs) in
      length v = length srcs /\ length (nth k v []) = d /\
      Rabs (real_of (nth c (nth k v []) 0%float) - q * nth c (direct_force d grav (real_of eps) away x) 0)
      <= ((1 + u53) ^ (length srcs + 5) / (if (d =? 2)%nat then (1 - u53) ^ 5 else (1 - e) ^ 3 * (1 - u53) ^ 6) - 1)
         * (Rabs q * rsum (fun s => Rabs (force_on d grav (real_of eps) s x c)) away).
Proof.
  intros D3 He HN HA HE HE0 MS CH ND SM. assert (ND' : NoDup (map ps_pos (map real_src srcs))) by (rewrite map_map; exact ND).
  destruct (forces_real d hypF hyp grav eps D3 HN (norm_weaken _ _ _ (proj2 He) HA) HE HE0 srcs MS CH ND' SM) as (its & E1 & E2 & E3).
  exists its. split; [exact E1|]. split; [eexists; apply interleaving_seq|]. intros run Hr v. destruct (E3 run Hr) as [F R]. split; [exact F|].
  destruct (forces_error double_round hyp u53 e ltac:(lra) ltac:(lra) double_accurate HA d grav (map real_src srcs) (real_sources_dim d srcs MS) ND' (sources_representable d srcs MS) (real_of eps) HE0)
    as (its' & I1 & _ & I3). rewrite E2 in I1. injection I1 as <-. intros k sk c Hk Hc.
  destruct (I3 _ (interleaving_map real_up2 _ _ Hr) k (real_src sk) c (real_nth _ _ _ Hk) Hc) as (L1 & L2 & B). rewrite map_length in L1, L2, B.
  rewrite <- R in L1, L2, B. rewrite map_length in L1. rewrite (map_nth rv _ [] k : nth k (map rv _) [] = _) in L2, B. rewrite map_length in L2.
  split; [exact L1|]. split; [exact L2|]. rewrite real_of_nth in B. exact B.
Qed.

(** *** Two cases *)
Lemma small_whole z : (Z.abs z <= 9007199254740992)%Z -> magnitude 75 (float_of_Z z).
Proof.
  intros H. destruct (of_Z_real z H) as [F R]. split; [exact F|]. rewrite R. destruct (Z.eq_dec z 0) as [->|N]; [left; reflexivity|right].
  rewrite <- abs_IZR. split.
  - apply Rle_trans with 1; [change 1 with (pw 0); apply bpow_le; lia|apply IZR_le; lia].
  - apply Rle_trans with (pw 53); [rewrite pw53; apply IZR_le; exact H|apply bpow_le; lia].
Qed.
Lemma pairF_case : NoDup (map (fun s => map real_of (ps_pos s)) pairF) /\ (forall s, In s pairF -> magnitude 75 (ps_q s)) /\ (Z.of_nat (length pairF) <= 33554432)%Z.
Proof.
  split; [|split; [|cbn; lia]].
  - change (NoDup [map real_of (map float_of_Z [3; 1; 2]%Z); map real_of (map float_of_Z [0; 0; -5]%Z)]). rewrite !whole_rv by small. cbn [map]. constructor; [|repeat constructor; intros []].
    intros [E|[]]. apply (f_equal (fun l => nth 0 l 0)) in E. cbn [nth] in E. lra.
  - intros s [<-|[<-|[]]]; apply small_whole; cbn; lia.
Qed.
Lemma pair2F_case : NoDup (map (fun s => map real_of (ps_pos s)) pair2F) /\ (forall s, In s pair2F -> magnitude 75 (ps_q s)) /\ (Z.of_nat (length pair2F) <= 33554432)%Z.
Proof.
  split; [|split; [|cbn; lia]].
  - change (NoDup [map real_of (map float_of_Z [3; 1]%Z); map real_of (map float_of_Z [1; 4]%Z)]). rewrite !whole_rv by small. cbn [map]. constructor; [|repeat constructor; intros []].
    intros [E|[]]. apply (f_equal (fun l => nth 0 l 0)) in E. cbn [nth] in E. lra.
  - intros s [<-|[<-|[]]]; apply small_whole; cbn; lia.
Qed.
