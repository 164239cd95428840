(** Double arithmetic: after 2100 levels the boxes no longer change, so construction either ends by then or never ends. *)
From Coq Require Import Reals List Bool ZArith Arith Lia Lra Permutation.
From Flocq Require Import Core IEEE754.BinarySingleNaN IEEE754.PrimFloat.
From Coq Require Import Floats.
From Verif Require Import Num Outcome Vec Orthtree AdaptiveTree TreeSpec VecProofs GeometryProofs AdaptiveProofs BuildProofs
  AnyTree AnyLists AnyTheorems FloatProofs FloatCases.
Import ListNotations.

(** *** Any arithmetic: if the boxes of every source stop changing at depth [K], no tree is higher than [K + 1] *)
Section Settled.
Context {T Src : Type} {NT : Num T}.
Variable d : nat.
Variable pos : Src -> list T.

Lemma filter_le {A} (f g : A -> bool) xs : (forall x, In x xs -> f x = true -> g x = true) -> length (filter f xs) <= length (filter g xs).
Proof.
  induction xs as [|x xs IH]; intros H; [reflexivity|]. cbn [filter]. assert (I := IH (fun y Hy => H y (or_intror Hy))).
  assert (Hx := H x (or_introl eq_refl)). destruct (f x); [rewrite (Hx eq_refl); cbn; lia|]. destruct (g x); cbn; lia.
Qed.

Lemma path_settled c l x n k : step d x (walk d x (c, l) n) = walk d x (c, l) n -> n <= k ->
  path d c l x (S k) = get_orthant d (fst (walk d x (c, l) n)) x :: path d c l x k.
Proof.
  intros HF HK. cbn [path]. f_equal. assert (E := path_walk d c l x k). rewrite (walk_fixed d x (c, l) n HF k HK) in E.
  rewrite <- E. reflexivity.
Qed.

Lemma settled_height K cap fuel srcs t c l : root_box d (map pos srcs) = Some (c, l) ->
  (forall s, In s srcs -> step d (pos s) (walk d (pos s) (c, l) K) = walk d (pos s) (c, l) K) ->
  build_adaptive d pos cap fuel srcs = Ok t -> at_height t <= S K.
Proof.
  intros RB HF H. destruct (any_inv _ _ _ _ _ _ H) as (c' & l' & h & RB' & Hh & ->). rewrite RB in RB'. injection RB' as <- <-.
  cbn [at_height spec_tree]. destruct (le_lt_dec h (S K)) as [L|L]; [exact L|exfalso]. destruct Hh as [HE HN].
  specialize (HN (S K) L).
  destruct (filter (refined d pos c l cap srcs (rr cap srcs)) (level d pos c l cap srcs (rr cap srcs) (S K))) as [|p ps] eqn:E; [contradiction|].
  assert (IP : In p (p :: ps)) by (left; reflexivity). rewrite <- E in IP. apply filter_In in IP. destruct IP as [IP RP].
  apply in_level in IP. destruct IP as [LP PP].
  assert (CP : cap < length (sub d pos c l srcs p)).
  { destruct p as [|i p]; [discriminate|]. unfold refined in RP. apply Nat.ltb_lt in RP. exact RP. }
  destruct (sub d pos c l srcs p) as [|s0 ss] eqn:ES; [simpl in CP; lia|].
  assert (I0 : In s0 (sub d pos c l srcs p)) by (rewrite ES; left; reflexivity). rewrite <- ES in CP. clear ES ss.
  apply sub_path in I0. rewrite LP in I0. destruct I0 as [I0 P0].
  assert (SAME : forall s, In s srcs -> path d c l (pos s) (S K) = p -> forall j, path d c l (pos s) (S K + j) = path d c l (pos s0) (S K + j)).
  { intros s Hs Ps.
    assert (W : walk d (pos s) (c, l) K = walk d (pos s0) (c, l) K /\
      get_orthant d (fst (walk d (pos s) (c, l) K)) (pos s) = get_orthant d (fst (walk d (pos s0) (c, l) K)) (pos s0)).
    { rewrite <- P0 in Ps. rewrite (path_settled c l (pos s) K K (HF s Hs) (le_n K)), (path_settled c l (pos s0) K K (HF s0 I0) (le_n K)) in Ps.
      injection Ps as A B. split; [|exact A]. rewrite <- !path_walk. rewrite B. reflexivity. }
    destruct W as [W G]. induction j as [|j IH].
    - rewrite Nat.add_0_r. congruence.
    - rewrite Nat.add_succ_r. rewrite (path_settled c l (pos s) K (S K + j) (HF s Hs)), (path_settled c l (pos s0) K (S K + j) (HF s0 I0)) by lia.
      rewrite IH, G. reflexivity. }
  assert (BIG : forall k, S K <= k -> refined d pos c l cap srcs (rr cap srcs) (path d c l (pos s0) k) = true).
  { intros k Hk. replace k with (S K + (k - S K)) by lia. generalize (k - S K). intros j. clear k Hk.
    assert (X : cap < length (sub d pos c l srcs (path d c l (pos s0) (S K + j)))).
    { eapply Nat.lt_le_trans; [exact CP|]. rewrite (sub_filter _ _ _ _ _ p), (sub_filter _ _ _ _ _ (path d c l (pos s0) (S K + j))).
      apply filter_le. intros s Hs E1. apply addr_eqb_eq in E1. rewrite LP in E1. apply addr_eqb_eq. rewrite path_length. apply SAME; assumption. }
    change (S K + j) with (S (K + j)) in *. cbn [path] in *. unfold refined. apply Nat.ltb_lt. exact X. }
  assert (LOW : forall k, k < S K -> refined d pos c l cap srcs (rr cap srcs) (path d c l (pos s0) k) = true).
  { rewrite <- P0 in PP. revert PP. generalize (S K). intros n. induction n as [|n IH]; intros PP k Hk; [lia|].
    cbn [path present] in PP. destruct PP as (_ & PP & R). destruct (Nat.eq_dec k n) as [->|N]; [exact R|]. apply IH; [exact PP|lia]. }
  assert (ALL : forall k, refined d pos c l cap srcs (rr cap srcs) (path d c l (pos s0) k) = true).
  { intros k. destruct (le_lt_dec (S K) k); [apply BIG; assumption|apply LOW; assumption]. }
  assert (X : In (path d c l (pos s0) h) (filter (refined d pos c l cap srcs (rr cap srcs)) (level d pos c l cap srcs (rr cap srcs) h))).
  { apply filter_In. split; [|apply ALL]. apply in_level. split; [apply path_length|]. apply present_path. intros; apply ALL. }
  rewrite HE in X. destruct X.
Qed.

Lemma enough_fuel cap fuel srcs t n : build_adaptive d pos cap fuel srcs = Ok t -> at_height t <= n -> 
  build_adaptive d pos cap n srcs = Ok t.
Proof.
  intros H HN. assert (H' := H). destruct (any_inv _ _ _ _ _ _ H) as (c & l & h & RB & Hh & ET).
  assert (X : exists t', build_adaptive d pos cap n srcs = Ok t').
  { unfold build_adaptive. rewrite RB. unfold build_in_box. destruct (Nat.leb (length srcs) cap) eqn:E; [eauto|].
    assert (1 <= h).
    { destruct h; [|lia]. exfalso. destruct Hh as [Hh _]. cbn in Hh. unfold rr in Hh. rewrite E in Hh. cbn in Hh. discriminate. }
    assert (B := build_from_root_complete d pos c l cap srcs true n h eq_refl).
    rewrite ET in HN. cbn in HN. specialize (B ltac:(lia)).
    assert (B' : filter (refined d pos c l cap srcs true) (level d pos c l cap srcs true h) = []) by (destruct Hh as [Hh _]; unfold rr in Hh; rewrite E in Hh; exact Hh).
    specialize (B B'). destruct (build_loop d pos cap n 0 _ _ _) as [t'|] eqn:B2; [eauto|]. contradiction. }
  destruct X as [t' X]. rewrite X. f_equal.
  destruct (any_inv _ _ _ _ _ _ X) as (c2 & l2 & h2 & RB2 & Hh2 & ET2). rewrite RB in RB2. injection RB2 as <- <-.
  rewrite ET, ET2. f_equal. exact (height_ok_unique _ _ _ _ _ _ _ _ _ Hh2 Hh).
Qed.
End Settled.

(** *** The walk, one coordinate at a time *)
Section Component.
Context {T : Type} {NT : Num T}.
Variable d : nat.

(** The next centre coordinate of the box of side [l] with centre coordinate [c] that holds the coordinate [x]. *)
Definition comp (x l c : T) : T := nadd c (nmul (if nleb c x then n1 else nneg1) (nhalf (nhalf l))).
Fixpoint cwalk (x l c : T) (k : nat) : T := match k with O => c | S k' => comp x (halves l k') (cwalk x l c k') end.

Lemma any_orthant_bit (c x : list T) j : j < d -> Nat.testbit (get_orthant d c x) (d - j - 1) = nleb (vget c j) (vget x j).
Proof.
  intros. assert (E : get_orthant d c x = horner (fun i => ngeb (vget x i) (vget c i)) d) by reflexivity.
  rewrite E. replace (d - j - 1) with (d - 1 - j) by lia. rewrite horner_bit by lia.
  replace (d - 1 - (d - 1 - j)) with j by lia. reflexivity.
Qed.

Lemma len_map2 {A B C} (f : A -> B -> C) a b : length (map2 f a b) = Nat.min (length a) (length b).
Proof. unfold map2. rewrite map_length, combine_length. reflexivity. Qed.
Lemma nth_map2 {A B C} (f : A -> B -> C) a b j da db dc : j < length a -> j < length b -> nth j (map2 f a b) dc = f (nth j a da) (nth j b db).
Proof.
  intros. unfold map2. rewrite (nth_indep _ dc (f (fst (da, db)) (snd (da, db)))) by (rewrite map_length, combine_length; lia).
  rewrite (map_nth (fun xy => f (fst xy) (snd xy)) (combine a b) (da, db)). 
  assert (G : nth j (combine a b) (da, db) = (nth j a da, nth j b db)).
  { revert b j H H0; induction a as [|x a IH]; intros [|y b] [|j] H H0; simpl in *; try lia; [reflexivity|]. apply IH; lia. }
  rewrite G. reflexivity.
Qed.

Lemma len_step x st : length (fst (step d x st)) = Nat.min d (length (fst st)).
Proof. unfold step, child_center, vadd, vscale, child_dir; cbn [fst]. rewrite len_map2, !map_length, seq_length. lia. Qed.
Lemma nth_step x st j : j < d -> j < length (fst st) -> nth j (fst (step d x st)) n0 = comp (nth j x n0) (snd st) (nth j (fst st) n0).
Proof.
  intros. unfold step, child_center, vadd, vscale; cbn [fst].
  rewrite (nth_map2 _ _ _ j n0 n0 n0) by (rewrite ?map_length; unfold child_dir; rewrite ?map_length, ?seq_length; lia).
  unfold comp. f_equal. rewrite (nth_indep _ n0 (nmul n1 (nhalf (nhalf (snd st))))) by (unfold child_dir; rewrite !map_length, seq_length; lia).
  rewrite (map_nth (fun e => nmul e (nhalf (nhalf (snd st))))). f_equal. unfold child_dir.
  rewrite (nth_indep _ n1 ((fun i => if Nat.testbit (get_orthant d (fst st) x) (d - i - 1) then n1 else nneg1) 0)) by (rewrite map_length, seq_length; lia).
  rewrite (map_nth (fun i => if Nat.testbit (get_orthant d (fst st) x) (d - i - 1) then n1 else nneg1)), seq_nth by lia. cbn [Nat.add].
  rewrite any_orthant_bit by assumption. reflexivity.
Qed.

Lemma snd_walk x c l k : snd (walk d x (c, l) k) = halves l k.
Proof. induction k as [|k IH]; [reflexivity|]. cbn [walk]. unfold step at 1. cbn [snd halves]. rewrite IH. reflexivity. Qed.
Lemma len_walk x c l k : length c <= d -> length (fst (walk d x (c, l) k)) = length c.
Proof. intros H. induction k as [|k IH]; [reflexivity|]. cbn [walk]. rewrite len_step, IH. lia. Qed.
Lemma nth_walk x c l k j : length c <= d -> j < length c -> nth j (fst (walk d x (c, l) k)) n0 = cwalk (nth j x n0) l (nth j c n0) k.
Proof.
  intros H Hj. induction k as [|k IH]; [reflexivity|]. cbn [walk cwalk]. rewrite nth_step by (rewrite ?len_walk by assumption; lia).
  rewrite IH, snd_walk. reflexivity.
Qed.
Lemma walk_settled x c l k : length c <= d -> nhalf (halves l k) = halves l k ->
  (forall y e, comp y (halves l k) (cwalk y l e k) = cwalk y l e k) -> step d x (walk d x (c, l) k) = walk d x (c, l) k.
Proof.
  intros H HL HC. rewrite (surjective_pairing (walk d x (c, l) k)) at 2. rewrite (surjective_pairing (step d x (walk d x (c, l) k))). f_equal.
  - apply (nth_ext _ _ n0 n0); [rewrite len_step, !len_walk by assumption; lia|]. intros j Hj. rewrite len_step, len_walk in Hj by assumption.
    rewrite nth_step by (rewrite ?len_walk by assumption; lia). rewrite nth_walk by (assumption || lia). rewrite snd_walk. apply HC.
  - unfold step; cbn [snd]. rewrite snd_walk. exact HL.
Qed.
End Component.

(** *** binary64 *)
Definition is_zero (x : float) : Prop := exists s, Prim2B x = B754_zero s.

Lemma half_value x : BinarySingleNaN.is_finite (Prim2B x) = true ->
  B2R (Prim2B (nhalf x)) = round radix2 (SpecFloat.fexp FloatOps.prec emax) ZnearestE (B2R (Prim2B x) / 2).
Proof.
  intros F. unfold nhalf; cbn -[nlit]. set (two' := nlit 2 1 : float).
  assert (E2 := two_R). fold two' in E2.
  assert (C := @Bdiv_correct _ _ Hprec Hmax mode_NE (Prim2B x) (Prim2B two') ltac:(rewrite E2; lra)).
  rewrite <- div_equiv in C. rewrite E2 in C. rewrite Rlt_bool_true in C; [exact (proj1 C)|].
  apply Rle_lt_trans with (Rabs (B2R (Prim2B x))).
  - apply abs_round_le_generic; [apply fexp_correct; reflexivity|apply valid_rnd_round_mode| |].
    + apply generic_format_abs. apply generic_format_B2R.
    + unfold Rdiv. rewrite Rabs_mult, (Rabs_pos_eq (/ 2)) by lra. assert (P := Rabs_pos (B2R (Prim2B x))). lra.
  - apply abs_B2R_lt_emax.
Qed.
Lemma half_finite x : BinarySingleNaN.is_finite (Prim2B x) = true -> BinarySingleNaN.is_finite (Prim2B (nhalf x)) = true.
Proof. intros F. destruct (akin_half x) as [->|(_ & H & _)]; assumption. Qed.
Lemma half_not_finite x : BinarySingleNaN.is_finite (Prim2B x) = false -> nhalf x = x.
Proof. intros F. destruct (akin_half x) as [E|(H & _)]; [exact E|congruence]. Qed.
Lemma halves_finite x k : BinarySingleNaN.is_finite (Prim2B x) = true -> BinarySingleNaN.is_finite (Prim2B (halves x k)) = true.
Proof. intros F. induction k as [|k IH]; [exact F|]. apply half_finite, IH. Qed.

Lemma halves_bound x k : BinarySingleNaN.is_finite (Prim2B x) = true -> (k <= 2098)%nat ->
  (Rabs (B2R (Prim2B (halves x k))) <= bpow radix2 (1024 - Z.of_nat k))%R.
Proof.
  intros F. induction k as [|k IH]; intros Hk.
  - apply Rlt_le. apply (abs_B2R_lt_emax FloatOps.prec emax).
  - cbn [halves]. rewrite half_value by (apply halves_finite; exact F).
    apply abs_round_le_generic; [apply fexp_correct; reflexivity|apply valid_rnd_N| |].
    + apply generic_format_bpow. unfold SpecFloat.fexp, SpecFloat.emin, FloatOps.prec, emax. lia.
    + specialize (IH ltac:(lia)). unfold Rdiv. rewrite Rabs_mult, (Rabs_pos_eq (/ 2)) by lra.
      replace (1024 - Z.of_nat k)%Z with (1024 - Z.of_nat (S k) + 1)%Z in IH by lia. rewrite bpow_plus in IH.
      change (bpow radix2 1) with 2%R in IH. lra.
Qed.

Lemma smallest x : BinarySingleNaN.is_finite (Prim2B x) = true -> (Rabs (B2R (Prim2B x)) <= bpow radix2 (-1074))%R ->
  is_zero x \/ exists s, Prim2SF x = S754_finite s 1 (-1074).
Proof.
  intros F B. rewrite <- B2SF_Prim2B. unfold is_zero. destruct (Prim2B x) as [s|s| |s m e Hb]; try discriminate; [left; eauto|right].
  exists s. cbn [B2SF]. assert (Hc : Zeq_bool (SpecFloat.fexp FloatOps.prec emax (Z.pos (digits2_pos m) + e)) e = true).
  { clear F B. unfold SpecFloat.bounded, SpecFloat.canonical_mantissa in Hb. revert Hb. destruct (Zeq_bool _ e); [reflexivity|discriminate]. }
  apply Zeq_bool_eq in Hc.
  assert (E : (-1074 <= e)%Z) by (rewrite <- Hc; unfold SpecFloat.fexp, SpecFloat.emin, FloatOps.prec, emax; lia).
  cbn [B2R] in B. rewrite <- F2R_Zabs, abs_cond_Zopp in B. unfold F2R in B; cbn [Fnum Fexp] in B. cbn [Z.abs] in B.
  assert (P : (0 < bpow radix2 e)%R) by apply bpow_gt_0.
  assert (M1 : (1 <= IZR (Z.pos m))%R) by (apply IZR_le; lia).
  assert (E2 : (e <= -1074)%Z).
  { destruct (Z_le_gt_dec e (-1074)) as [L|G]; [exact L|exfalso].
    assert (bpow radix2 (-1074) < bpow radix2 e)%R by (apply bpow_lt; lia). nra. }
  assert (e = (-1074)%Z) as -> by lia. f_equal.
  assert (IZR (Z.pos m) <= 1)%R by nra. apply (le_IZR (Z.pos m) 1) in H. lia.
Qed.
Lemma half_smallest x s : Prim2SF x = S754_finite s 1 (-1074) -> is_zero (nhalf x).
Proof.
  intros H. assert (E : x = SF2Prim (S754_finite s 1 (-1074))) by (rewrite <- H, SF2Prim_Prim2SF; reflexivity).
  assert (Z : Prim2SF (nhalf x) = S754_zero s) by (rewrite E; destruct s; vm_compute; reflexivity).
  exists s. apply B2SF_inj. rewrite B2SF_Prim2B. exact Z.
Qed.
Lemma half_zero x : is_zero x -> nhalf x = x.
Proof.
  intros [s E]. assert (SFx : Prim2SF x = S754_zero s) by (rewrite <- B2SF_Prim2B, E; reflexivity).
  assert (X : x = SF2Prim (S754_zero s)) by (rewrite <- SFx, SF2Prim_Prim2SF; reflexivity).
  rewrite X. destruct s; vm_compute; reflexivity.
Qed.
Lemma halves_zero x k : BinarySingleNaN.is_finite (Prim2B x) = true -> (2099 <= k)%nat -> is_zero (halves x k).
Proof.
  intros F Hk. induction Hk as [|k Hk IH].
  - change (halves x 2099) with (nhalf (halves x 2098)).
    destruct (smallest (halves x 2098)) as [Z|[s Z]].
    + apply halves_finite, F.
    + change (-1074)%Z with (1024 - Z.of_nat 2098)%Z. apply halves_bound; [exact F|lia].
    + rewrite half_zero by exact Z. exact Z.
    + exact (half_smallest _ s Z).
  - cbn [halves]. rewrite half_zero by exact IH. exact IH.
Qed.

Lemma zero_cases x : is_zero x -> x = zero \/ x = neg_zero.
Proof.
  intros [s E]. assert (SFx : Prim2SF x = S754_zero s) by (rewrite <- B2SF_Prim2B, E; reflexivity).
  assert (X : x = SF2Prim (S754_zero s)) by (rewrite <- SFx, SF2Prim_Prim2SF; reflexivity).
  rewrite X. destruct s; [right|left]; vm_compute; reflexivity.
Qed.
Lemma add_zero c w : w = zero \/ w = neg_zero -> (c + w)%float = c \/ c = neg_zero /\ (c + w)%float = zero.
Proof.
  intros W. assert (ZC : is_zero c \/ ~ is_zero c).
  { unfold is_zero. destruct (Prim2B c); [left; eauto| | |]; right; intros [? H]; discriminate. }
  destruct ZC as [Z|Z].
  - apply zero_cases in Z. destruct Z as [-> | ->], W as [-> | ->]; vm_compute; auto.
  - left. apply Prim2B_inj. rewrite add_equiv. unfold is_zero in Z.
    assert (P : exists s, Prim2B w = B754_zero s).
    { destruct W as [-> | ->]; [exists false|exists true]; apply B2SF_inj; rewrite B2SF_Prim2B; vm_compute; reflexivity. }
    destruct P as [s ->]. destruct (Prim2B c) as [s'|s'| |s' m e B]; try reflexivity. exfalso. eauto.
Qed.
Lemma comp_zero x z c : is_zero z -> exists w, (w = zero \/ w = neg_zero) /\ comp x z c = (c + w)%float /\
  forall c', nleb c' x = nleb c x -> comp x z c' = (c' + w)%float.
Proof.
  intros Z. assert (H := half_zero z Z). unfold comp. rewrite !H.
  exists ((if nleb c x then n1 else nneg1) * z)%float. split; [|split; [reflexivity|intros c' ->; reflexivity]].
  apply zero_cases in Z. destruct (nleb c x), Z as [-> | ->]; vm_compute; auto.
Qed.
Lemma comp_zero_fixed x z c : is_zero z -> comp x z (comp x z c) = comp x z c.
Proof.
  intros Z. destruct (comp_zero x z c Z) as (w & W & E & G). rewrite E.
  destruct (add_zero c w W) as [A|[C A]]; rewrite A; [rewrite E; exact A|].
  rewrite (G zero).
  - destruct W as [-> | ->]; vm_compute; reflexivity.
  - rewrite C. cbn. rewrite !leb_equiv.
    replace (Prim2B zero) with (B754_zero false : binary_float FloatOps.prec emax) by (apply B2SF_inj; rewrite B2SF_Prim2B; vm_compute; reflexivity).
    replace (Prim2B neg_zero) with (B754_zero true : binary_float FloatOps.prec emax) by (apply B2SF_inj; rewrite B2SF_Prim2B; vm_compute; reflexivity).
    destruct (Prim2B x); reflexivity.
Qed.

(** Boxes of infinite or undefined length. *)
Lemma one_B : exists m e H, Prim2B (n1 : float) = B754_finite false m e H /\ exists H', Prim2B (nneg1 : float) = B754_finite true m e H'.
Proof.
  assert (A : B2SF (Prim2B (n1 : float)) = S754_finite false 4503599627370496 (-52)) by (rewrite B2SF_Prim2B; vm_compute; reflexivity).
  assert (B : B2SF (Prim2B (nneg1 : float)) = S754_finite true 4503599627370496 (-52)) by (rewrite B2SF_Prim2B; vm_compute; reflexivity).
  destruct (Prim2B n1) as [s|s| |s m e H]; try discriminate. destruct (Prim2B nneg1) as [s'|s'| |s' m' e' H']; try discriminate.
  cbn in A, B. injection A as -> -> ->. injection B as -> -> ->. eauto 10.
Qed.
Lemma comp_inf_fixed x l c : BinarySingleNaN.is_finite (Prim2B l) = false -> comp x l (comp x l (comp x l c)) = comp x l (comp x l c).
Proof.
  intros F. assert (H := half_not_finite l F). unfold comp. rewrite !H. cbn [nleb nadd nmul NumF].
  destruct one_B as (m1 & e1 & B1 & E1 & B1' & E1').
  assert (M : forall b : bool, Prim2B ((if b then n1 else nneg1) * l)%float =
    match Prim2B l with B754_infinity s => B754_infinity (if b then s else negb s) | _ => B754_nan end).
  { intros b. rewrite mul_equiv. destruct b; rewrite ?E1, ?E1'; destruct (Prim2B l) as [s|s| |s m e B]; try discriminate; try destruct s; reflexivity. }
  assert (A : forall c, Prim2B (c + (if (c <=? x)%float then n1 else nneg1) * l)%float =
    @Bplus _ _ Hprec Hmax mode_NE (Prim2B c) (match Prim2B l with B754_infinity s => B754_infinity (if Bleb (Prim2B c) (Prim2B x) then s else negb s) | _ => B754_nan end)).
  { intros e. rewrite add_equiv, M, leb_equiv. reflexivity. }
  apply Prim2B_inj. rewrite !A.
  destruct (Prim2B l) as [s|s| |s m e B]; try discriminate; destruct (Prim2B c) as [s2|s2| |s2 m2 e2 B2]; try reflexivity;
    destruct (Prim2B x) as [s3|s3| |s3 m3 e3 B3]; try destruct s; try destruct s2; try destruct s3; try reflexivity;
    match goal with |- context [Bleb (B754_finite ?a ?b ?e ?f) (B754_finite ?a' ?b' ?e' ?f')] =>
      destruct (Bleb (B754_finite a b e f) (B754_finite a' b' e' f')); reflexivity end.
Qed.

(** *** The box of every point is fixed from depth 2100 on *)
Lemma len_root_box d (pts : list (list float)) c l : root_box d pts = Some (c, l) -> length c <= d.
Proof.
  unfold root_box, data_range. destruct (all_some (fst (raw_range d pts))) as [lo|] eqn:EL; [|discriminate].
  destruct (all_some (snd (raw_range d pts))) as [hi|]; [|discriminate]. destruct (max_element _) as [m|]; [|discriminate].
  intros H. injection H as <- _.
  assert (L : length lo <= d).
  { assert (A : forall (xs : list (option float)) ys, all_some xs = Some ys -> length ys = length xs).
    { induction xs as [|[x|] xs IH]; intros ys; cbn; [intros X; injection X as <-; reflexivity| |discriminate].
      destruct (all_some xs) as [r|]; [|discriminate]. intros X. injection X as <-. cbn. rewrite (IH r eq_refl). reflexivity. }
    rewrite (A _ _ EL). clear EL A. unfold raw_range.
    assert (G : forall acc, length (fst acc) <= d -> length (fst (fold_left (@range_step float NumF) pts acc)) <= d).
    { induction pts as [|p pts IH]; intros acc Ha; [exact Ha|]. cbn [fold_left]. apply IH. unfold range_step; cbn [fst]. rewrite len_map2. lia. }
    apply G. cbn [fst]. rewrite repeat_length. lia. }
  unfold vscale, vadd, pad, vadd, vscale. rewrite map_length, len_map2, !len_map2, !map_length. lia.
Qed.

Lemma float_settled_from d x (c : list float) (l : float) n : length c <= d ->
  (BinarySingleNaN.is_finite (Prim2B l) = true -> is_zero (halves l (S n))) ->
  step d x (walk d x (c, l) (S (S n))) = walk d x (c, l) (S (S n)).
Proof.
  intros HC HZ. destruct (BinarySingleNaN.is_finite (Prim2B l)) eqn:F.
  - specialize (HZ eq_refl). apply walk_settled; [exact HC| |].
    + change (halves l (S (S n))) with (nhalf (halves l (S n))). rewrite !(half_zero _ HZ). reflexivity.
    + intros y e. change (halves l (S (S n))) with (nhalf (halves l (S n))). rewrite (half_zero _ HZ). change (cwalk y l e (S (S n))) with (comp y (halves l (S n)) (cwalk y l e (S n))). apply comp_zero_fixed. exact HZ.
  - assert (HL : forall k, halves l k = l) by (induction k as [|k IH]; [reflexivity|]; cbn [halves]; rewrite IH; apply half_not_finite, F).
    apply walk_settled; [exact HC|rewrite !HL; apply half_not_finite, F|].
    intros y e. rewrite HL. cbn [cwalk]. rewrite !HL. apply comp_inf_fixed, F.
Qed.
Lemma float_settled d x (c : list float) (l : float) : length c <= d -> step d x (walk d x (c, l) 2100) = walk d x (c, l) 2100.
Proof. intros HC. apply (float_settled_from d x c l 2098 HC). intros F. apply halves_zero; [exact F|apply le_n]. Qed.

Theorem float_height {Src} d (pos : Src -> list float) cap fuel srcs t : build_adaptive d pos cap fuel srcs = Ok t -> at_height t <= 2101.
Proof.
  intros H. assert (H' := H). destruct (any_inv _ _ _ _ _ _ H) as (c & l & _ & RB & _ & _).
  apply (settled_height d pos 2100 cap fuel srcs t c l RB); [|exact H].
  intros s _. apply float_settled. exact (len_root_box _ _ _ _ RB).
Qed.
Theorem float_decided {Src} d (pos : Src -> list float) cap srcs : 
  (exists fuel t, build_adaptive d pos cap fuel srcs = Ok t) <-> exists t, build_adaptive d pos cap 2101 srcs = Ok t.
Proof.
  split; [|intros [t H]; eauto]. intros (fuel & t & H). exists t. apply (enough_fuel d pos cap fuel srcs t 2101 H). exact (float_height _ _ _ _ _ _ H).
Qed.
