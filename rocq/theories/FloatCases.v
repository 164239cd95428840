(** Double arithmetic: two concrete inputs on which the constructor behaves differently from exact arithmetic. *)
From Coq Require Import Reals List Bool ZArith Arith Lia Lra Permutation.
From Flocq Require Import Core IEEE754.BinarySingleNaN IEEE754.PrimFloat.
From Coq Require Import Floats.
From Verif Require Import Num Outcome Vec Orthtree AdaptiveTree TreeSpec VecProofs AdaptiveProofs BuildProofs TreeTheorems TreeTheorems2 TreeTheorems3
  AnyTree AnyLists AnyTheorems FloatProofs.
Import ListNotations.

(** The real number a double stands for (0 for infinities and NaN). *)
Definition real_of (f : float) : R := B2R (Prim2B f).
Lemma real_of_SF f : real_of f = SF2R radix2 (Prim2SF f).
Proof. unfold real_of. rewrite <- SF2R_B2SF, B2SF_Prim2B. reflexivity. Qed.

(** *** The walk of a point down the tree *)
Section Walk.
Context {T Src : Type} {NT : Num T}.
Variable d : nat.
Variable pos : Src -> list T.

Definition step (x : list T) (st : list T * T) : list T * T :=
  (child_center d (fst st) (nhalf (snd st)) (get_orthant d (fst st) x), nhalf (snd st)).
Fixpoint walk (x : list T) (st : list T * T) (k : nat) : list T * T :=
  match k with O => st | S k' => step x (walk x st k') end.
(** [x] and [y] fall into the same orthant for the next [k] boxes. *)
Fixpoint together (x y : list T) (st : list T * T) (k : nat) : bool :=
  match k with O => true | S k' => Nat.eqb (get_orthant d (fst st) x) (get_orthant d (fst st) y) && together x y (step x st) k' end.

Lemma walk_tail x st k : walk x st (S k) = walk x (step x st) k.
Proof. induction k as [|k IH]; [reflexivity|]. cbn [walk] in *. rewrite IH. reflexivity. Qed.
Lemma together_spec x y st k : together x y st k = true ->
  forall j, j < k -> get_orthant d (fst (walk x st j)) x = get_orthant d (fst (walk x st j)) y.
Proof.
  revert st; induction k as [|k IH]; intros st H j Hj; [lia|]. cbn [together] in H. apply andb_true_iff in H. destruct H as [H1 H2].
  apply Nat.eqb_eq in H1. destruct j as [|j]; [exact H1|]. rewrite walk_tail. apply IH; [assumption|lia].
Qed.
Lemma walk_fixed x st n : step x (walk x st n) = walk x st n -> forall j, n <= j -> walk x st j = walk x st n.
Proof. intros H j Hj. induction Hj as [|j Hj IH]; [reflexivity|]. cbn [walk]. rewrite IH. exact H. Qed.
Lemma together_forever x y st n : step x (walk x st n) = walk x st n -> together x y st (S n) = true ->
  forall j, get_orthant d (fst (walk x st j)) x = get_orthant d (fst (walk x st j)) y.
Proof.
  intros HF HT j. destruct (le_lt_dec j n) as [L|L].
  - apply (together_spec x y st (S n)); [assumption|lia].
  - rewrite (walk_fixed x st n HF j) by lia. apply (together_spec x y st (S n)); [assumption|lia].
Qed.

Lemma path_walk c l x k : (ctr d c l (path d c l x k), blen l (path d c l x k)) = walk x (c, l) k.
Proof.
  induction k as [|k IH]; [reflexivity|]. cbn [path walk ctr blen]. unfold step. rewrite <- IH. reflexivity.
Qed.
Lemma path_together c l x y : (forall j, get_orthant d (fst (walk x (c, l) j)) x = get_orthant d (fst (walk x (c, l) j)) y) ->
  forall k, path d c l x k = path d c l y k.
Proof.
  intros H k. induction k as [|k IH]; [reflexivity|]. cbn [path]. rewrite <- IH. f_equal.
  specialize (H k). rewrite <- path_walk in H. exact H.
Qed.

(** Two sources that never part company keep the constructor busy for ever. *)
Lemma never_part cap fuel srcs s1 s2 c l n : root_box d (map pos srcs) = Some (c, l) -> cap <= 1 -> In s1 srcs -> In s2 srcs -> s1 <> s2 ->
  step (pos s1) (walk (pos s1) (c, l) n) = walk (pos s1) (c, l) n -> together (pos s1) (pos s2) (c, l) (S n) = true ->
  build_adaptive d pos cap fuel srcs = OutOfFuel.
Proof.
  intros RB HC I1 I2 NE HF HT. destruct (build_adaptive d pos cap fuel srcs) as [t| | | | |] eqn:E;
    try (unfold build_adaptive in E; rewrite RB in E; destruct (build_in_box d pos cap fuel c l srcs); discriminate); [exfalso|reflexivity].
  destruct (any_inv _ _ _ _ _ _ E) as (c' & l' & h & RB' & [Hh _] & _). rewrite RB in RB'. injection RB' as <- <-.
  assert (P := path_together c l (pos s1) (pos s2) (together_forever _ _ _ _ HF HT)).
  assert (S2 : forall k, 2 <= length (sub d pos c l srcs (path d c l (pos s1) k))).
  { intros k. assert (A1 : In s1 (sub d pos c l srcs (path d c l (pos s1) k))) by (apply sub_path; rewrite path_length; auto).
    assert (A2 : In s2 (sub d pos c l srcs (path d c l (pos s1) k))) by (apply sub_path; rewrite path_length; auto).
    destruct (sub d pos c l srcs (path d c l (pos s1) k)) as [|a [|b xs]]; simpl in *; [destruct A1| |lia].
    destruct A1 as [->|[]]. destruct A2 as [->|[]]. contradiction. }
  assert (RF : forall k, refined d pos c l cap srcs (rr cap srcs) (path d c l (pos s1) k) = true).
  { intros k. specialize (S2 k). unfold refined. destruct k as [|k].
    - cbn [path] in *. cbn [sub] in S2. unfold rr. apply negb_true_iff, Nat.leb_gt. lia.
    - cbn [path] in *. apply Nat.ltb_lt. lia. }
  assert (X : In (path d c l (pos s1) h) (filter (refined d pos c l cap srcs (rr cap srcs)) (level d pos c l cap srcs (rr cap srcs) h))).
  { apply filter_In. split; [|apply RF]. apply in_level. split; [apply path_length|]. apply present_path. intros j _. apply RF. }
  rewrite Hh in X. destruct X.
Qed.
End Walk.

(** *** Three sources that are never separated *)
Definition tiny : list (list float) := [[-1; -1]; [0x1p-70; 0x1p-70]; [0x1p-69; 0x1p-69]]%float.

Theorem tiny_diverges fuel : build_adaptive 2 (fun x => x) 1 fuel tiny = OutOfFuel.
Proof.
  assert (RB : exists cl, root_box 2 (map (fun x : list float => x) tiny) = Some cl /\
    step 2 [0x1p-70; 0x1p-70]%float (walk 2 [0x1p-70; 0x1p-70]%float cl 1100) = walk 2 [0x1p-70; 0x1p-70]%float cl 1100 /\
    together 2 [0x1p-70; 0x1p-70]%float [0x1p-69; 0x1p-69]%float cl 1101 = true).
  { eexists. split; [vm_compute; reflexivity|]. split; vm_compute; reflexivity. }
  destruct RB as ([c l] & RB & HF & HT).
  apply (never_part 2 (fun x => x) 1 fuel tiny [0x1p-70; 0x1p-70]%float [0x1p-69; 0x1p-69]%float c l 1100 RB); auto.
  - right. left. reflexivity.
  - right. right. left. reflexivity.
  - intros E. injection E as E.
    assert (X : PrimFloat.eqb 0x1p-70 0x1p-69 = true) by (rewrite E; reflexivity). vm_compute in X. discriminate.
Qed.

Lemma real_of_pow f e : Prim2SF f = S754_finite false 4503599627370496 e -> real_of f = bpow radix2 (e + 52).
Proof.
  intros H. rewrite real_of_SF, H. unfold SF2R, F2R; cbn [Fnum Fexp cond_Zopp].
  change (IZR (Z.pos 4503599627370496)) with (bpow radix2 52). rewrite <- bpow_plus. f_equal. lia.
Qed.
Lemma tiny_values : map (map real_of) tiny =
  [[-1; -1]; [bpow radix2 (-70); bpow radix2 (-70)]; [bpow radix2 (-69); bpow radix2 (-69)]]%R.
Proof.
  assert (A : real_of (-1)%float = (-1)%R).
  { rewrite real_of_SF. replace (Prim2SF (-1)) with (S754_finite true 4503599627370496 (-52)) by (vm_compute; reflexivity).
    unfold SF2R, F2R; cbn [Fnum Fexp cond_Zopp]. change (IZR (- Z.pos 4503599627370496)) with (- bpow radix2 52)%R.
    rewrite Ropp_mult_distr_l_reverse, <- bpow_plus. reflexivity. }
  assert (B := real_of_pow 0x1p-70 (-122) ltac:(vm_compute; reflexivity)).
  assert (C := real_of_pow 0x1p-69 (-121) ltac:(vm_compute; reflexivity)).
  unfold tiny. cbn [map]. rewrite A, B, C. reflexivity.
Qed.
(** In exact arithmetic the constructor returns on the same three points. *)
Theorem tiny_exact : exists fuel t, build_adaptive 2 (fun x => x) 1 fuel (map (map real_of) tiny) = Ok t.
Proof.
  assert (P : (0 < bpow radix2 (-70) /\ bpow radix2 (-69) = 2 * bpow radix2 (-70))%R).
  { split; [apply bpow_gt_0|]. change 2%R with (bpow radix2 1). rewrite <- bpow_plus. reflexivity. }
  rewrite tiny_values. revert P. generalize (bpow radix2 (-70)) (bpow radix2 (-69)). intros a b [P ->].
  apply adaptive_builds; [lia|discriminate| | |].
  - intros s [<-|[<-|[<-|[]]]]; reflexivity.
  - intros j Hj. split; [exists [-1; -1]%R; split; [left; reflexivity|]|exists [a; a]%R; split; [right; left; reflexivity|]];
      destruct j as [|[|j]]; cbn; try lra; lia.
  - intros x. rewrite map_id. apply NoDup_count_occ.
    repeat constructor; intros H; repeat destruct H as [H|H]; try (injection H; intros; lra); destruct H.
Qed.

(** *** Five sources on which the constructor throws *)
Definition crowd : list (list float) :=
  [[-0x1.9999999999997p-3; -0x1.999999999999ap-3]; [0x1.6666666666666p-1; 0x1.6666666666666p-1];
   [-0x1.9999999999996p-3; -0x1.9999999999992p-3]; [-0x1.9999999999999p-3; -0x1.999999999999ap-3];
   [-0x1.9999999999995p-3; -0x1.9999999999992p-3]]%float.

(** The distance routine may be any that is off by at most one percent: it answers "smaller" whenever a distance enlarged by
    one percent is still smaller. *)
Definition sqrt_dist : Dist float := {| norm_ltb := fun v b => PrimFloat.ltb (0x1.028f5c28f5c29p0 * PrimFloat.sqrt (vnorm_sq v)) b |}.
Definition within_percent (D : Dist float) : Prop :=
  forall v b, norm_ltb (Dist := sqrt_dist) v b = true -> norm_ltb (Dist := D) v b = true.

Definition then_throws {A B} (e : outcome A) (f : A -> outcome B) : bool :=
  match e with Ok t => match f t with Throw => true | _ => false end | _ => false end.
Lemma then_throws_spec {A B} (e : outcome A) (f : A -> outcome B) : then_throws e f = true -> exists t, e = Ok t /\ f t = Throw.
Proof. unfold then_throws. destruct e as [t| | | | |]; try discriminate. intros H. exists t. split; [reflexivity|]. destruct (f t); try discriminate. reflexivity. Qed.

Lemma crowd_sqrt : exists t, build_adaptive 2 (fun x => x) 1 60 crowd = Ok t /\ all_lists (D := sqrt_dist) 2 t = Throw.
Proof. apply then_throws_spec. vm_compute. reflexivity. Qed.
Theorem crowd_throws (D : Dist float) : within_percent D ->
  exists fuel t, build_adaptive 2 (fun x => x) 1 fuel crowd = Ok t /\ all_lists 2 t = Throw.
Proof.
  intros HD. destruct crowd_sqrt as (t & E & X). exists 60, t. split; [exact E|].
  exact (lists_throw_mono sqrt_dist D 2 (fun x => x) 1 60 crowd t HD E X).
Qed.
