(** The adaptive tree in IEEE double arithmetic: instances of the arithmetic-free theorems, and cases they apply to. *)
From Coq Require Import Reals List Bool ZArith Arith Lia Lra Permutation Sorted.
From Flocq Require Import Core IEEE754.BinarySingleNaN IEEE754.PrimFloat.
From Coq Require Import Floats.
From Verif Require Import Num Outcome Vec Orthtree AdaptiveTree TreeSpec AnyTree AnyLists AnyTheorems FloatProofs FloatCases.
Import ListNotations.

Lemma akin_halves (l : float) k : akin l (halves l k).
Proof. induction k as [|k IH]; [left; reflexivity|]. exact (akin_trans _ _ _ IH (akin_half _)). Qed.
Lemma halves_min (l : float) i j : nmin (halves l i) (halves l j) = nmin (halves l j) (halves l i).
Proof. apply akin_min. exact (akin_trans _ _ _ (akin_sym _ _ (akin_halves l i)) (akin_halves l j)). Qed.

Theorem float_coverage {Src} (D : Dist float) d (pos : Src -> list float) cap fuel srcs t : build_adaptive d pos cap fuel srcs = Ok t ->
  all_lists d t = Throw \/
  exists ls, all_lists d t = Ok ls /\
    forall L, In L (leaf_list t) ->
      Permutation (interactions t ls L) (leaf_list t) /\ Permutation (flat_map (leaf_sources t) (interactions t ls L)) srcs.
Proof. intros H. apply (any_coverage d pos cap fuel srcs t H). intros c l _ i j. apply halves_min. Qed.

(** *** Cases *)
Definition plain_dist : Dist float := {| norm_ltb := fun v b => PrimFloat.ltb (PrimFloat.sqrt (vnorm_sq v)) b |}.

Lemma Bltb_scaled (k s b : binary_float FloatOps.prec emax) : (1 <= B2R k)%R -> BinarySingleNaN.is_finite k = true ->
  (forall sg, s = B754_infinity sg -> sg = false) -> (Bsign s = false \/ exists sg, s = B754_zero sg) ->
  Bltb (@Bmult _ _ Hprec Hmax mode_NE k s) b = true -> Bltb s b = true.
Proof.
  intros K FK HI HS H.
  assert (C := @Bmult_correct _ _ Hprec Hmax mode_NE k s).
  destruct (BinarySingleNaN.is_finite s) eqn:FS.
  - assert (Ps : (0 <= B2R s)%R).
    { destruct HS as [HS|[sg ->]]; [|simpl; lra]. destruct s as [sg|sg| |sg m e B]; simpl in *; try lra. subst sg. apply F2R_ge_0. simpl. lia. }
    destruct (Rlt_bool _ _) eqn:O in C.
    + destruct C as (C1 & C2 & _). rewrite FK in C2. cbn [andb] in C2.
      destruct (BinarySingleNaN.is_finite b) eqn:FB.
      * rewrite Bltb_correct in H |- * by assumption. rewrite C1 in H. revert H. unfold Rlt_bool.
        destruct (Rcompare_spec (round radix2 (SpecFloat.fexp FloatOps.prec emax) (round_mode mode_NE) (B2R k * B2R s)) (B2R b)) as [L|L|L]; try discriminate. intros _.
        apply Rlt_bool_true. eapply Rle_lt_trans; [|exact L].
        apply round_ge_generic; [apply fexp_correct; reflexivity|apply valid_rnd_round_mode|apply generic_format_B2R|].
        rewrite <- (Rmult_1_l (B2R s)) at 1. apply Rmult_le_compat_r; assumption.
      * destruct b as [sg|sg| |sg m e B]; try discriminate.
        -- destruct sg; [|destruct s as [s0|s0| |s0 m e B]; try discriminate; destruct s0; reflexivity].
           destruct (Bmult mode_NE k s) as [s0|s0| |s0 m e B]; try discriminate; destruct s0; discriminate.
        -- destruct (Bmult mode_NE k s); discriminate.
    + assert (NS : Bsign k = false).
      { destruct k as [sg|sg| |sg m e B]; simpl in K; try lra; try discriminate. simpl. destruct sg; [|reflexivity].
        assert (F2R (Float radix2 (Z.neg m) e) <= 0)%R by (apply F2R_le_0; simpl; lia). simpl in *. lra. }
      destruct HS as [HS|[sg ->]].
      * rewrite NS, HS in C. cbn in C. unfold Bltb in H. rewrite C in H. cbn in H. destruct b as [sb|sb| |sb mb eb Bb]; try destruct sb; discriminate.
      * exfalso. rewrite Rmult_0_r, round_0, Rabs_R0 in O by apply valid_rnd_round_mode.
        rewrite Rlt_bool_true in O by apply bpow_gt_0. discriminate.
  - destruct s as [sg|sg| |sg m e B]; try discriminate.
    + rewrite (HI sg eq_refl) in *. exfalso. destruct k as [sk|sk| |sk m e B]; simpl in K; try lra; try discriminate.
      destruct sk; [assert (F2R (Float radix2 (Z.neg m) e) <= 0)%R by (apply F2R_le_0; simpl; lia); simpl in *; lra|].
      destruct b as [sb|sb| |sb mb eb Bb]; try destruct sb; discriminate.
    + exfalso. destruct k, b; discriminate.
Qed.

Lemma plain_within_percent : within_percent plain_dist.
Proof.
  intros v b. cbn. rewrite !ltb_equiv, mul_equiv, sqrt_equiv.
  apply Bltb_scaled.
  - rewrite <- SF2R_B2SF, B2SF_Prim2B. replace (Prim2SF 0x1.028f5c28f5c29p0) with (S754_finite false 4548635623644201 (-52)) by (vm_compute; reflexivity).
    unfold SF2R, F2R; cbn [Fnum Fexp cond_Zopp]. apply Rmult_le_reg_r with (bpow radix2 52); [apply bpow_gt_0|].
    rewrite Rmult_assoc, <- bpow_plus, Rmult_1_l, Rmult_1_r. change (bpow radix2 52) with (IZR 4503599627370496). apply IZR_le. lia.
  - rewrite <- is_finite_SF_B2SF, B2SF_Prim2B. vm_compute. reflexivity.
  - intros sg. generalize (Prim2B (vnorm_sq v)). intros x. destruct x as [s|s| |s m e B]; cbn.
    + discriminate.
    + destruct s; [discriminate|]. intros H. injection H as <-. reflexivity.
    + discriminate.
    + intros H. exfalso. destruct s; [discriminate|].
      assert (C := @Bsqrt_correct _ _ Hprec Hmax mode_NE (B754_finite false m e B)). destruct C as (_ & C & _).
      cbn in C. unfold Bsqrt in H. cbn in H. rewrite H in C. discriminate.
  - generalize (Prim2B (vnorm_sq v)). intros x. assert (C := @Bsqrt_correct _ _ Hprec Hmax mode_NE x). destruct C as (_ & C & C3).
    destruct x as [s|s| |s m e B].
    + right. exists s. reflexivity.
    + left. destruct s; reflexivity.
    + left. reflexivity.
    + destruct s; [left; reflexivity|]. left. rewrite C3; [reflexivity|].
      destruct (Bsqrt mode_NE (B754_finite false m e B)); try reflexivity; discriminate C.
Qed.

Definition then_ok {A B} (e : outcome A) (f : A -> outcome B) : bool :=
  match e with Ok t => match f t with Ok _ => true | _ => false end | _ => false end.
Lemma then_ok_spec {A B} (e : outcome A) (f : A -> outcome B) : then_ok e f = true -> exists t x, e = Ok t /\ f t = Ok x.
Proof. unfold then_ok. destruct e as [t| | | | |]; try discriminate. intros H. exists t. destruct (f t) as [x| | | | |]; try discriminate. exists x. auto. Qed.

(** Eight sources, one per leaf; the doubles nearest to 0.1, 0.2, 0.8 and 0.9 are among the coordinates. *)
Definition eight : list (list float) :=
  [[-1; -1]; [1; 1]; [-1; 1]; [1; -1]; [0x1.999999999999ap-4; 0x1.999999999999ap-4]; [0x1.999999999999ap-3; 0x1.999999999999ap-4];
   [0.125; 0x1.999999999999ap-3]; [0x1.999999999999ap-1; 0x1.ccccccccccccdp-1]]%float.
Lemma eight_lists : exists t ls, build_adaptive 2 (fun x => x) 1 10 eight = Ok t /\ all_lists (D := plain_dist) 2 t = Ok ls.
Proof. apply then_ok_spec. vm_compute. reflexivity. Qed.
(** A source at an undefined position and one at infinity beside two ordinary ones. *)
Definition odd_positions : list (list float) := [[nan; 0]; [1; 1]; [infinity; -1]; [-1; -1]]%float.
Lemma odd_builds : exists t, build_adaptive 2 (fun x => x) 2 10 odd_positions = Ok t /\ at_height t = 1.
Proof.
  assert (X : then_ok (build_adaptive 2 (fun x => x) 2 10 odd_positions) (fun t => if Nat.eqb (at_height t) 1 then Ok tt else UB) = true)
    by (vm_compute; reflexivity).
  apply then_ok_spec in X. destruct X as (t & x & E & F). exists t. split; [exact E|]. destruct (Nat.eqb (at_height t) 1) eqn:H; [apply Nat.eqb_eq; exact H|discriminate].
Qed.
Lemma crowd_height : exists t, build_adaptive 2 (fun x => x) 1 54 crowd = Ok t /\ at_height t = 54.
Proof.
  assert (X : then_ok (build_adaptive 2 (fun x => x) 1 54 crowd) (fun t => if Nat.eqb (at_height t) 54 then Ok tt else UB) = true)
    by (vm_compute; reflexivity).
  apply then_ok_spec in X. destruct X as (t & x & E & F). exists t. split; [exact E|]. destruct (Nat.eqb (at_height t) 54) eqn:H; [apply Nat.eqb_eq; exact H|discriminate].
Qed.
