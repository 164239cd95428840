(** Proofs about numbers in files and text on the console. *)
From Coq Require Import String Ascii Decimal DecimalString DecimalNat List Bool ZArith Arith Lia Reals Lra.
From Flocq Require Import Core Relative.
From Verif Require Import Num Outcome Vec Orthtree AdaptiveTree Fields FieldSpec Interfaces RoundedSpec RoundedCases BuildProofs TreeTheorems TreeTheorems3 Text.
Import ListNotations.
Local Open Scope R_scope.

(** ** Numbers *)
Definition stored (x : R) : R := read_number (decimal16 x).
Lemma decimal16_error x : Rabs (decimal16 x - x) <= 5 / 10 ^ 16 * Rabs x.
Proof.
  unfold decimal16. eapply Rle_trans; [apply (relative_error_N_FLX radix10 16 ltac:(lia))|].
  apply Rmult_le_compat_r; [apply Rabs_pos|]. cbn -[IZR pow]. change (Z.pow_pos 10 15) with (1000000000000000%Z). lra.
Qed.
Lemma stored_error x : Rabs (stored x - x) <= 62 / 10 ^ 17 * Rabs x.
Proof.
  unfold stored, read_number. assert (D := decimal16_error x). assert (A := double_accurate).
  assert (E : Rabs (double_round (decimal16 x) - decimal16 x) <= / 9007199254740992 * Rabs (decimal16 x)) by apply A.
  assert (F : Rabs (decimal16 x) <= (1 + 5 / 10 ^ 16) * Rabs x).
  { replace (decimal16 x) with ((decimal16 x - x) + x) by ring. eapply Rle_trans; [apply Rabs_triang|]. lra. }
  replace (double_round (decimal16 x) - x) with ((double_round (decimal16 x) - decimal16 x) + (decimal16 x - x)) by ring.
  eapply Rle_trans; [apply Rabs_triang|]. assert (P := Rabs_pos x).
  assert (E2 : / 9007199254740992 * Rabs (decimal16 x) <= / 9007199254740992 * ((1 + 5 / 10 ^ 16) * Rabs x)) by (apply Rmult_le_compat_l; [lra|exact F]).
  nra.
Qed.
Lemma stored_mono x y : x <= y -> stored x <= stored y.
Proof.
  intros H. unfold stored, read_number, double_round, decimal16.
  apply round_le; [apply FLX_exp_valid; reflexivity|apply valid_rnd_N|]. apply round_le; [apply FLX_exp_valid; reflexivity|apply valid_rnd_N|exact H].
Qed.
(** A number with at most sixteen decimal digits that is a double. *)
Lemma stored_exact m e x : x = IZR m * bpow radix10 e -> (Z.abs m < 10 ^ 16)%Z -> double_round x = x -> stored x = x.
Proof.
  intros E M D. unfold stored, read_number. replace (decimal16 x) with x; [exact D|]. symmetry. apply round_generic; [apply valid_rnd_N|].
  apply generic_format_FLX. exists (Float radix10 m e); [rewrite E; reflexivity|exact M].
Qed.

Lemma from_iterable xs : doublesFromFile (iterableToFile xs) = map stored xs.
Proof. unfold doublesFromFile, vectorFromFile, iterableToFile. induction xs as [|x xs IH]; [reflexivity|]. cbn [map concat app leading_numbers]. rewrite IH. reflexivity. Qed.
Lemma leading_app a b : leading_numbers (map TNum a ++ b) = (a ++ leading_numbers b)%list.
Proof. induction a as [|x a IH]; [reflexivity|]. cbn [map app leading_numbers]. rewrite IH. reflexivity. Qed.
Lemma from_locations srcs : doublesFromFile (locationsToFile srcs) = map stored (concat (map (@ps_pos R) srcs)).
Proof.
  unfold doublesFromFile, vectorFromFile, locationsToFile. induction srcs as [|s srcs IH]; [reflexivity|]. cbn [map concat].
  rewrite <- map_map with (f := decimal16) (g := TNum). rewrite leading_app, !map_app, IH, map_map. reflexivity.
Qed.
Lemma vec_prefix vec len : (len <= List.length vec)%nat -> vecToFile vec len = Ok (iterableToFile (firstn len vec)).
Proof.
  intros H. unfold vecToFile, iterableToFile. 
  assert (G : forall k pre post, (k <= List.length post)%nat -> vec = (pre ++ post)%list ->
    omapM (fun i => omap (fun x => [TNum (decimal16 x)]) (of_option (nth_error vec i))) (seq (List.length pre) k) = Ok (map (fun x => [TNum (decimal16 x)]) (firstn k post))).
  { induction k as [|k IH]; intros pre post Hk E; [reflexivity|]. destruct post as [|y post]; [simpl in Hk; lia|]. cbn [seq omapM firstn map].
    rewrite E at 1. rewrite nth_error_app2, Nat.sub_diag by lia. cbn [nth_error of_option omap bind].
    specialize (IH (pre ++ [y])%list post). rewrite app_length, Nat.add_1_r in IH. rewrite IH; [reflexivity|simpl in Hk; lia|rewrite <- app_assoc; exact E]. }
  apply (G len [] vec H eq_refl).
Qed.
Lemma omapM_fails {A B} (f : A -> outcome B) l a : In a l -> (forall b, In b l -> (exists y, f b = Ok y) \/ f b = UB) -> f a = UB -> omapM f l = UB.
Proof.
  intros I T E. induction l as [|b l IH]; [destruct I|]. cbn [omapM]. destruct (T b (or_introl eq_refl)) as [[y Y]|Y]; rewrite Y; [|reflexivity].
  cbn [bind]. destruct I as [->|I]; [congruence|]. rewrite IH; [reflexivity|exact I|]. intros c Hc. apply T. right. exact Hc.
Qed.
Lemma vec_beyond vec len : (List.length vec < len)%nat -> vecToFile vec len = UB.
Proof.
  intros H. apply (omapM_fails _ _ (List.length vec)).
  - apply in_seq. lia.
  - intros b _. destruct (nth_error vec b); [left; eexists; reflexivity|right; reflexivity].
  - rewrite (proj2 (nth_error_None vec _) (le_n _)). reflexivity.
Qed.

Theorem file_round_trip xs : let ys := doublesFromFile (iterableToFile xs) in
  List.length ys = List.length xs /\ 
  (forall i, Rabs (nth i ys 0 - nth i xs 0) <= 62 / 10 ^ 17 * Rabs (nth i xs 0)) /\
  (forall i j, (i < List.length xs)%nat -> (j < List.length xs)%nat -> nth i xs 0 <= nth j xs 0 -> nth i ys 0 <= nth j ys 0).
Proof.
  cbv zeta. rewrite from_iterable. split; [apply map_length|]. assert (Z : stored 0 = 0).
  { unfold stored, read_number, double_round, decimal16. rewrite !round_0; try apply valid_rnd_N. reflexivity. }
  assert (N : forall i, nth i (map stored xs) 0 = stored (nth i xs 0)) by (intros i; rewrite <- Z at 1; apply map_nth).
  split; [intros i; rewrite N; apply stored_error|intros i j _ _ H; rewrite !N; apply stored_mono, H].
Qed.
Theorem file_exact xs : (forall x, In x xs -> double_round x = x /\ exists m e, x = IZR m * bpow radix10 e /\ (Z.abs m < 10 ^ 16)%Z) ->
  doublesFromFile (iterableToFile xs) = xs.
Proof.
  intros H. rewrite from_iterable. rewrite <- (map_id xs) at 2. apply map_ext_in. intros x Hx. destruct (H x Hx) as (D & m & e & E & M). exact (stored_exact m e x E M D).
Qed.

(** The number after 1. *)
Definition next_one : R := 1 + bpow radix2 (-52).
Lemma double_one : double_round 1 = 1.
Proof.
  apply round_generic; [apply valid_rnd_N|]. apply generic_format_FLX. exists (Float radix2 1 0); [unfold F2R; cbn; lra|reflexivity].
Qed.
Lemma double_next_one : double_round next_one = next_one.
Proof.
  apply round_generic; [apply valid_rnd_N|]. apply generic_format_FLX. exists (Float radix2 4503599627370497 (-52)); [|reflexivity].
  unfold next_one, F2R. cbn [Fnum Fexp]. cbn -[IZR]. change (Z.pow_pos 2 52) with 4503599627370496%Z. lra.
Qed.
Lemma stored_one : stored 1 = 1.
Proof. apply (stored_exact 1 0); [cbn; lra|reflexivity|exact double_one]. Qed.
Lemma stored_next_one : stored next_one = 1.
Proof.
  unfold stored, read_number. replace (decimal16 next_one) with 1; [exact double_one|]. symmetry.
  unfold decimal16, round, scaled_mantissa, cexp. 
  assert (B : 1 <= next_one < 1 + / 10 ^ 15 / 2).
  { unfold next_one. cbn -[IZR pow]. change (Z.pow_pos 2 52) with 4503599627370496%Z. split; lra. }
  rewrite (mag_unique_pos radix10 next_one 1) by (cbn; lra). unfold FLX_exp. change (1 - 16)%Z with (-15)%Z. change (- (-15))%Z with 15%Z.
  assert (P : bpow radix10 15 = 1000000000000000) by (cbn -[IZR]; reflexivity).
  assert (Q : bpow radix10 (-15) = / 1000000000000000) by (cbn -[IZR]; reflexivity).
  rewrite (Znearest_imp _ _ 1000000000000000%Z); [unfold F2R; cbn [Fnum Fexp]; rewrite Q; lra|]. rewrite P.
  apply Rabs_lt. lra.
Qed.
Theorem file_not_exact : double_round 1 = 1 /\ double_round next_one = next_one /\ next_one <> 1 /\
  doublesFromFile (iterableToFile [1; next_one]) = [1; 1].
Proof.
  split; [exact double_one|]. split; [exact double_next_one|]. split.
  - unfold next_one. assert (X := bpow_gt_0 radix2 (-52)). lra.
  - rewrite from_iterable. cbn [map]. rewrite stored_one, stored_next_one. reflexivity.
Qed.

(** ** Three sources before and after storing *)
Definition regroup2 (xs : list R) : list (list R) := match xs with [a; b; c; d; e; f] => [[a; b]; [c; d]; [e; f]] | _ => [] end.
Definition three_sources : list (psrc R) := [PSrc [1; 1] 1; PSrc [next_one; 1] 1; PSrc [-1; -1] 1].
Lemma stored_minus_one : stored (-1) = -1.
Proof.
  apply (stored_exact (-1) 0); [cbn; lra|reflexivity|]. replace (-1) with (- (1)) by ring. unfold double_round. rewrite round_NE_opp. f_equal. exact double_one.
Qed.
Lemma next_one_gt : 1 < next_one. Proof. unfold next_one. assert (X := bpow_gt_0 radix2 (-52)). lra. Qed.
Theorem stored_sources_diverge : NoDup (map (@ps_pos R) three_sources) /\
  (exists fuel t, build_adaptive 2 (@ps_pos R) 1 fuel three_sources = Ok t) /\
  regroup2 (doublesFromFile (locationsToFile three_sources)) = [[1; 1]; [1; 1]; [-1; -1]] /\
  forall fuel t, build_adaptive 2 (fun x => x) 1 fuel [[1; 1]; [1; 1]; [-1; -1]] <> Ok t.
Proof.
  assert (G := next_one_gt).
  assert (ND : NoDup (map (@ps_pos R) three_sources)).
  { cbn [map three_sources ps_pos]. constructor; [intros [H|[H|[]]]; injection H; intros; lra|]. constructor; [intros [H|[]]; injection H; intros; lra|]. constructor; [intros []|constructor]. }
  split; [exact ND|]. split; [|split].
  - apply adaptive_builds; [lia|discriminate| | |].
    + intros s [<-|[<-|[<-|[]]]]; reflexivity.
    + intros j Hj. split; [exists (PSrc [-1; -1] 1)|exists (PSrc [1; 1] 1)]; (split; [cbn; tauto|]); destruct j as [|[|j]]; cbn; lra || lia.
    + intros x. apply NoDup_count_occ, ND.
  - rewrite from_locations. cbn [three_sources map concat ps_pos app]. rewrite stored_one, stored_next_one, stored_minus_one. reflexivity.
  - intros fuel t H. assert (E : exists fuel t, build_adaptive 2 (fun x : list R => x) 1 fuel [[1; 1]; [1; 1]; [-1; -1]] = Ok t) by (exists fuel, t; exact H).
    assert (L : forall s, In s [[1; 1]; [1; 1]; [-1; -1]] -> List.length s = 2%nat) by (intros s [<-|[<-|[<-|[]]]]; reflexivity).
    assert (S : forall j, (j < 2)%nat -> (exists s, In s [[1; 1]; [1; 1]; [-1; -1]] /\ nth j s 0 <= 0) /\ (exists s, In s [[1; 1]; [1; 1]; [-1; -1]] /\ 0 <= nth j s 0)).
    { intros j Hj; split; [exists [-1; -1]|exists [1; 1]]; (split; [cbn; tauto|]); destruct j as [|[|j]]; cbn; lra || lia. }
    assert (NE : [[1; 1]; [1; 1]; [-1; -1]] <> []) by discriminate.
    apply (proj1 (adaptive_builds 2 (fun x : list R => x) 1 _ ltac:(lia) NE L S)) with (x := [1; 1]) in E.
    cbn [map count_occ] in E. destruct (list_R_eq_dec [1; 1] [1; 1]); [lia|contradiction].
Qed.

(** ** Text *)
Local Open Scope string_scope.
Lemma sapp_assoc (a b c : string) : (a ++ b) ++ c = a ++ (b ++ c).
Proof. induction a as [|x a IH]; [reflexivity|]. cbn. rewrite IH. reflexivity. Qed.
Section Print.
Context {A : Type}.
Variable show : A -> string.
Lemma print_prefix (vec : list A) len sep : (len <= List.length vec)%nat -> printVec show vec len sep = Ok (printIterable show (firstn len vec) sep).
Proof.
  intros H. unfold printVec, printIterable.
  assert (G : forall k pre post, (k <= List.length post)%nat -> vec = (pre ++ post)%list ->
    omapM (fun i => omap (fun x => show x ++ sep ++ " ") (of_option (nth_error vec i))) (seq (List.length pre) k) = Ok (map (fun x => show x ++ sep ++ " ") (firstn k post))).
  { induction k as [|k IH]; intros pre post Hk E; [reflexivity|]. destruct post as [|y post]; [simpl in Hk; lia|]. cbn [seq omapM firstn map].
    rewrite E at 1. rewrite nth_error_app2, Nat.sub_diag by lia. cbn [nth_error of_option omap bind].
    specialize (IH (pre ++ [y])%list post). rewrite app_length, Nat.add_1_r in IH. rewrite IH; [reflexivity|simpl in Hk; lia|rewrite <- app_assoc; exact E]. }
  assert (G0 := G len [] vec H eq_refl). cbn [List.length] in G0. rewrite G0. cbn [omap bind]. do 2 f_equal. generalize (firstn len vec) as l. induction l as [|x l IH]; [reflexivity|].
  cbn [map fold_right]. rewrite IH. rewrite !sapp_assoc. reflexivity.
Qed.
Lemma print_beyond (vec : list A) len sep : (List.length vec < len)%nat -> printVec show vec len sep = UB.
Proof.
  intros H. unfold printVec. rewrite (omapM_fails _ _ (List.length vec)); [reflexivity| | |].
  - apply in_seq. lia.
  - intros b _. destruct (nth_error vec b); [left; eexists; reflexivity|right; reflexivity].
  - rewrite (proj2 (nth_error_None vec _) (le_n _)). reflexivity.
Qed.
End Print.

(** Reading a number back. *)
Definition number (s : string) : option nat := option_map Nat.of_uint (NilEmpty.uint_of_string s).
Lemma number_digits n : number (digits n) = Some n.
Proof. unfold number, digits. rewrite NilEmpty.usu. cbn. f_equal. apply Unsigned.of_to. Qed.
Lemma number_zero s n : number s = Some n -> number (String "0" s) = Some n.
Proof. unfold number. cbn. destruct (NilEmpty.uint_of_string s) as [u|]; [|discriminate]. cbn. intros H. exact H. Qed.
Lemma number_padded w n : number (padded w n) = Some n.
Proof. unfold padded. induction (w - String.length (digits n))%nat as [|k IH]; [apply number_digits|]. cbn [zeros String.append]. apply number_zero, IH. Qed.
Lemma padded_length w n : String.length (padded w n) = Nat.max w (String.length (digits n)).
Proof.
  unfold padded. assert (L : forall k s, String.length (zeros k ++ s) = (k + String.length s)%nat).
  { induction k as [|k IH]; intros s; [reflexivity|]. cbn. rewrite IH. reflexivity. }
  rewrite L. lia.
Qed.
Fixpoint no_bracket (s : string) : Prop := match s with EmptyString => True | String a s' => a <> "]"%char /\ no_bracket s' end.
Lemma no_bracket_app a b : no_bracket a -> no_bracket b -> no_bracket (a ++ b).
Proof. induction a as [|x a IH]; cbn; [auto|]. intros [X Y] Z. auto. Qed.
Lemma no_bracket_digits n : no_bracket (digits n).
Proof. unfold digits. induction (Nat.to_uint n); cbn; try (split; [discriminate|assumption]). exact I. Qed.
Lemma no_bracket_padded w n : no_bracket (padded w n).
Proof. apply no_bracket_app; [|apply no_bracket_digits]. induction (w - _)%nat; cbn; [exact I|]. split; [discriminate|assumption]. Qed.
Lemma split_bracket a b x y : no_bracket a -> no_bracket b -> a ++ String "]" x = b ++ String "]" y -> a = b /\ x = y.
Proof.
  revert b. induction a as [|c a IH]; intros [|e b] A B H; cbn in *.
  - injection H as H. auto.
  - injection H as H1 H2. destruct B as [B _]. exfalso. apply B. auto.
  - injection H as H1 H2. destruct A as [A _]. exfalso. apply A. auto.
  - injection H as H1 H2. destruct (IH b (proj2 A) (proj2 B) H2) as [-> ->]. subst. auto.
Qed.
Theorem stamps_differ i p i' p' : time_proc_stamp i p = time_proc_stamp i' p' -> i = i' /\ p = p'.
Proof.
  unfold time_proc_stamp. intros H. cbn [String.append] in H. injection H as H.
  apply split_bracket in H; [|apply no_bracket_padded|apply no_bracket_padded]. destruct H as [H1 H2]. injection H2 as H2.
  apply split_bracket in H2; [|apply no_bracket_digits|apply no_bracket_digits]. destruct H2 as [H2 _].
  split.
  - assert (X := number_padded 4 i). rewrite H1, number_padded in X. injection X as X. auto.
  - assert (X := number_digits p). rewrite H2, number_digits in X. injection X as X. auto.
Qed.

(** Durations. *)
Local Open Scope R_scope.
Theorem duration_error num den : (0 <= num)%Z -> (0 < den)%Z ->
  IZR num / IZR den - / IZR (10 ^ 9) < chrono_duration num den <= IZR num / IZR den.
Proof.
  intros N D. unfold chrono_duration. rewrite Z.quot_div_nonneg by lia. set (T := (10 ^ 9)%Z). assert (T0 : 0 < IZR T) by (apply IZR_lt; reflexivity).
  assert (D0 : 0 < IZR den) by (apply IZR_lt, D). assert (E := Z.div_mod (num * T) den ltac:(lia)). assert (M := Z.mod_pos_bound (num * T) den D).
  set (q := (num * T / den)%Z) in *. set (r := ((num * T) mod den)%Z) in *. apply (f_equal IZR) in E. rewrite plus_IZR, !mult_IZR in E.
  destruct M as [M1 M2]. apply IZR_le in M1. apply IZR_lt in M2.
  assert (X : IZR num / IZR den = IZR q / IZR T + IZR r / (IZR den * IZR T)) by (apply Rmult_eq_reg_r with (IZR den * IZR T); [|apply Rmult_integral_contrapositive; lra]; field_simplify; lra).
  rewrite X. assert (P : 0 < / (IZR den * IZR T)) by (apply Rinv_0_lt_compat, Rmult_lt_0_compat; assumption).
  assert (B : 0 <= IZR r / (IZR den * IZR T) < / IZR T).
  { split; [apply Rmult_le_pos; lra|]. replace (/ IZR T) with (IZR den * / (IZR den * IZR T)) by (field; lra). apply Rmult_lt_compat_r; assumption. }
  lra.
Qed.
Lemma stored_case : (double_round 1 = 1 /\ exists m e, 1 = IZR m * bpow radix10 e /\ (Z.abs m < 10 ^ 16)%Z) /\
  exists srcs, same_dim 2 srcs /\ concat (map (@ps_pos R) srcs) = [1; 1; next_one; 1; -1; -1].
Proof.
  split; [split; [exact double_one|exists 1%Z, 0%Z; split; [cbn; lra|reflexivity]]|].
  exists three_sources. split; [intros s [<-|[<-|[<-|[]]]]; reflexivity|reflexivity].
Qed.
(** Numbers below ten thousand have at most four digits. *)
Lemma digits_short n : (n < 100 * 100)%nat -> (String.length (digits n) <= 4)%nat.
Proof.
  intros H. assert (L : forall u, String.length (NilEmpty.string_of_uint u) = nb_digits u) by (induction u; cbn; auto).
  unfold digits. rewrite L.
  assert (F : forallb (fun n => (nb_digits (Nat.to_uint n) <=? 4)%nat) (seq 0 (100 * 100)) = true) by (vm_compute; reflexivity).
  rewrite forallb_forall in F. apply Nat.leb_le, F, in_seq. lia.
Qed.
Theorem stamp_columns i p : (i < 100 * 100)%nat -> exists n, String.length n = 4%nat /\ number n = Some i /\
  time_proc_stamp i p = ("[" ++ n ++ "][p" ++ digits p ++ "]: ")%string.
Proof. intros H. exists (padded 4 i). split; [rewrite padded_length; assert (X := digits_short i H); lia|]. split; [apply number_padded|reflexivity]. Qed.
