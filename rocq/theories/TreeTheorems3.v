(** Orthant geometry, existence of trees, and concrete cases. *)
From Coq Require Import List Bool ZArith Arith Reals QArith Lra Lia Permutation.
From Verif Require Import Num Outcome Vec Orthtree AdaptiveTree TreeSpec VecProofs GeometrySpec GeometryProofs TreeGeometry
  AdaptiveProofs BfsProofs ListProofs ListContents RootBoxProofs BuildProofs TreeTheorems TreeTheorems2.
Import ListNotations.
Local Open Scope nat_scope.
Local Open Scope outcome_scope.

Theorem orthant_geometry d (c : list R) l : length c = d ->
  (forall x, get_orthant d c x < 2 ^ d /\
     (in_box d c l x -> in_box d (child_center d c (l / 2)%R (get_orthant d c x)) (l / 2)%R x)) /\
  (forall i x, i < 2 ^ d -> in_interior d (child_center d c (l / 2)%R i) (l / 2)%R x -> get_orthant d c x = i) /\
  (forall i x, in_box d (child_center d c (l / 2)%R i) (l / 2)%R x -> in_box d c l x) /\
  ((0 < l)%R -> forall i k, i < 2 ^ d -> k < 2 ^ d -> child_center d c (l / 2)%R i = child_center d c (l / 2)%R k -> i = k).
Proof.
  intros Hc.
  assert (NC : forall i j, j < d -> nth j (child_center d c (l / 2)%R i) 0%R = (nth j c 0 + (if Nat.testbit i (d - 1 - j) then l / 2 / 2 else - (l / 2 / 2)))%R)
    by (intros i j Hj; exact (vget_child_center d c (l / 2)%R i j Hc Hj)).
  split; [|split; [|split]].
  - intros x. split; [apply get_orthant_lt|apply child_contains; assumption].
  - intros i x Hi H. apply get_orthant_iff; [assumption|]. intros j Hj. specialize (H j Hj). rewrite NC in H by assumption.
    unfold vget; cbn [n0 NumR]. destruct (Nat.testbit i (d - 1 - j)); split; intros G; try reflexivity; try discriminate; lra.
  - intros i x. apply child_inside. assumption.
  - intros Hl i k Hi Hk E. apply (bits_eq_lt d); [assumption|assumption|]. intros b Hb.
    assert (A := NC i (d - 1 - b) ltac:(lia)). assert (B := NC k (d - 1 - b) ltac:(lia)). rewrite E in A.
    replace (d - 1 - (d - 1 - b)) with b in A, B by lia.
    destruct (Nat.testbit i b), (Nat.testbit k b); try reflexivity; lra.
Qed.

Theorem adaptive_builds {Src} d (pos : Src -> list R) cap srcs : 1 <= d -> srcs <> [] -> (forall s, In s srcs -> length (pos s) = d) ->
  (forall j, j < d -> (exists s, In s srcs /\ (nth j (pos s) 0 <= 0)%R) /\ (exists s, In s srcs /\ (0 <= nth j (pos s) 0)%R)) ->
  ((exists fuel t, build_adaptive d pos cap fuel srcs = Ok t) <->
   forall x, count_occ list_R_eq_dec (map pos srcs) x <= cap).
Proof.
  intros Hd HN Hpos HS.
  destruct (root_box d (map pos srcs)) as [[c l]|] eqn:RB.
  2:{ apply root_box_finite in RB; [contradiction|assumption|assumption]. }
  assert (Hc : length c = d).
  { destruct (root_box_spec d (map pos srcs) Hd) as (lo & hi & c' & l' & _ & RB' & Hc & _).
    - intros E. apply map_eq_nil in E. contradiction.
    - intros x Hx. apply in_map_iff in Hx. destruct Hx as (s & <- & Hs). auto.
    - rewrite RB in RB'. injection RB' as <- <-. assumption. }
  assert (TM := adaptive_terminates d pos cap c l srcs Hc Hpos (root_box_contains d pos srcs c l Hd Hpos RB HS)).
  rewrite <- TM. unfold build_adaptive. rewrite RB. split; intros (fuel & t & H); exists fuel.
  - destruct (build_in_box d pos cap fuel c l srcs) as [t'|]; [|discriminate]. exists t'. reflexivity.
  - exists t. rewrite H. reflexivity.
Qed.

(** *** A concrete case: five sources, at most one per leaf. *)
Definition five : list (list R) := [[-1; -1]; [1; 1]; [1/2; 1/2]; [-1; 1]; [1; -1]]%R.

Lemma five_dim : forall s, In s five -> length s = 2.
Proof. intros s H. repeat destruct H as [<-|H]; try reflexivity. destruct H. Qed.

Lemma five_straddles : forall j, j < 2 ->
  (exists s, In s five /\ (nth j s 0 <= 0)%R) /\ (exists s, In s five /\ (0 <= nth j s 0)%R).
Proof.
  intros j Hj. split; [exists [-1; -1]%R|exists [1; 1]%R]; (split; [simpl; auto|]);
    assert (j = 0 \/ j = 1) as [->| ->] by lia; cbn [nth]; lra.
Qed.

Lemma five_distinct : NoDup five.
Proof.
  unfold five. repeat constructor; intros H; repeat destruct H as [H|H]; try (injection H; intros; lra); destruct H.
Qed.

Lemma five_builds : exists fuel t, build_adaptive 2 (fun x => x) 1 fuel five = Ok t.
Proof.
  apply adaptive_builds; [lia|discriminate|apply five_dim|apply five_straddles|].
  intros x. rewrite map_id. assert (ND := five_distinct). apply (NoDup_count_occ list_R_eq_dec) with (x := x) in ND. exact ND.
Qed.

(** The same kind of tree executed over Q: seven sources, a tree of height 4 with all four list kinds non-empty. *)
Definition demo : list (list Q) :=
  [[-1; -1]; [1; 1]; [-1; 1]; [1; -1]; [1#10; 1#10]; [1#5; 1#10]; [1#8; 1#5]; [4#5;9#10]]%Q.
Definition demo_run : outcome (nat * (nat * nat * nat * nat)) :=
  do t <- build_adaptive 2 (fun x => x) 1 10 demo ;;
  do ls <- all_lists 2 t ;;
  let all := map an_addr (heap t) in
  let tot f := fold_right (fun p a => length (f p) + a) 0 all in
  Ok (at_height t, (tot (nl_near ls), tot (nl_inter ls), tot (nl_X ls), tot (nl_W ls))).
Example demo_run_eq : demo_run = Ok (4, (146, 30, 43, 43)).
Proof. vm_compute. reflexivity. Qed.
