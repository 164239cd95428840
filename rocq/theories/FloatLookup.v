(** A source of the adaptive tree whose own position is reported to be outside the tree in doubles. *)
From Coq Require Import Reals List Bool ZArith Arith Lia Lra.
From Flocq Require Import Core Relative BinarySingleNaN PrimFloat.
From Verif Require Import Num Outcome Vec Orthtree AdaptiveTree TreeSpec GeometrySpec RootBoxProofs BalancedSpec BalancedApiProofs TreeTheorems TreeTheorems2 TreeTheorems3
  RoundedSpec RoundedTreeSpec FloatCases RoundedTreeCases FloatPotential.
From Coq Require Import Floats.
Import ListNotations.
Local Open Scope R_scope.

Definition mid : float := 0x1.0800ad03d9a94p-2%float.
Definition middle : list (list float * float) :=
  [([-1; -1; -1], 1); ([0x1.84p0; 0x1.84p0; 0x1.84p0], 1); ([mid; mid; mid], 1)]%float.

Definition no_leaf {A B} (e : outcome A) (f : A -> outcome (option B)) : bool :=
  match e with Ok t => match f t with Ok None => true | _ => false end | _ => false end.
Lemma no_leaf_spec {A B} (e : outcome A) (f : A -> outcome (option B)) : no_leaf e f = true -> exists t, e = Ok t /\ f t = Ok None.
Proof. unfold no_leaf. destruct e as [t| | | | |]; try discriminate. intros H. exists t. split; [reflexivity|]. destruct (f t) as [[?|]| | | | |]; try discriminate. reflexivity. Qed.
Theorem middle_lost : exists t, build_adaptive 3 fst 1 10 middle = Ok t /\ containing_leaf 3 t [mid; mid; mid] = Ok None.
Proof. apply no_leaf_spec. vm_compute. reflexivity. Qed.

Definition real_src (s : list float * float) : list R * R := (map real_of (fst s), real_of (snd s)).
Lemma middle_values : real_of (-1)%float = -1 /\ real_of 0x1.84p0%float = 97 / 64 /\ 1 / 4 < real_of mid < 1 / 3.
Proof.
  split; [|split].
  - rewrite real_of_SF. replace (Prim2SF (-1)) with (S754_finite true 4503599627370496 (-52)) by (vm_compute; reflexivity).
    unfold SF2R, F2R; cbn [Fnum Fexp cond_Zopp]. change (bpow radix2 (-52)) with (/ 4503599627370496). cbn [Z.opp]. lra.
  - rewrite real_of_SF. replace (Prim2SF 0x1.84p0) with (S754_finite false 6825768185233408 (-52)) by (vm_compute; reflexivity).
    unfold SF2R, F2R; cbn [Fnum Fexp cond_Zopp]. change (bpow radix2 (-52)) with (/ 4503599627370496). lra.
  - rewrite real_of_SF. replace (Prim2SF mid) with (S754_finite false 4644383559096980 (-54)) by (vm_compute; reflexivity).
    unfold SF2R, F2R; cbn [Fnum Fexp cond_Zopp]. change (bpow radix2 (-54)) with (/ 18014398509481984). lra.
Qed.
Theorem middle_found : exists fuel t n, build_adaptive 3 fst 1 fuel (map real_src middle) = Ok t /\
  containing_leaf 3 t (map real_of [mid; mid; mid]) = Ok (Some n) /\ In (real_src ([mid; mid; mid], 1%float)) (an_srcs n).
Proof.
  destruct middle_values as (A & B & C). unfold middle, real_src. cbn [map fst snd]. rewrite A, B.
  generalize (real_of 1). intros q. set (a := real_of mid) in *. set (ss := [([-1; -1; -1], q); ([97 / 64; 97 / 64; 97 / 64], q); ([a; a; a], q)]).
  assert (SP : spread 3 (@fst (list R) R) ss).
  { intros j Hj. split; [exists ([-1; -1; -1], q); split; [left; reflexivity|]|exists ([97 / 64; 97 / 64; 97 / 64], q); split; [right; left; reflexivity|]];
      destruct j as [|[|[|j]]]; cbn; lra || lia. }
  assert (LEN : forall s, In s ss -> length (fst s) = 3%nat) by (intros s [<-|[<-|[<-|[]]]]; reflexivity).
  assert (BU : exists fuel t, build_adaptive 3 (@fst (list R) R) 1 fuel ss = Ok t).
  { apply adaptive_builds; [lia|discriminate|exact LEN| |].
    - intros j Hj. destruct (SP j Hj) as [(s1 & I1 & L1) (s2 & I2 & L2)]. split; [exists s1|exists s2]; split; try assumption; lra.
    - intros x. apply NoDup_count_occ. cbn [map fst ss]. repeat constructor; intros H; repeat destruct H as [H|H]; try (injection H; intros; lra); destruct H. }
  destruct BU as (fuel & t & HB). destruct (containing_leaf_correct 3 (@fst (list R) R) 1 fuel ss t ltac:(lia) LEN HB) as (c & l & RB & CL).
  destruct (spread_inside 3 (@fst (list R) R) ss ltac:(lia) LEN SP) as (c' & l' & RB' & Hc & Hl & Hin). rewrite RB in RB'. injection RB' as <- <-.
  assert (I3 : In ([a; a; a], q) ss) by (right; right; left; reflexivity).
  destruct (proj1 (CL [a; a; a])) as (n & E & _ & _ & S).
  { intros j Hj. specialize (Hin _ I3 j Hj). cbn [fst] in Hin. lra. }
  exists fuel, t, n. split; [exact HB|]. split; [exact E|]. apply S; [exact I3|reflexivity].
Qed.
Theorem middle_self_term (hyp : list float -> float) : hyp [0; 0; 0]%float = 0%float ->
  potential_f hyp ([mid; mid; mid], 1%float) [mid; mid; mid] = neg_infinity.
Proof.
  intros H. unfold potential_f. cbn [fst snd]. replace (vsub [mid; mid; mid] [mid; mid; mid]) with [0; 0; 0]%float by (vm_compute; reflexivity).
  rewrite H. vm_compute. reflexivity.
Qed.
Theorem middle_infinite : potential_sum_f (fun v => PrimFloat.sqrt (vnorm_sq v)) middle [mid; mid; mid] = neg_infinity.
Proof. vm_compute. reflexivity. Qed.
