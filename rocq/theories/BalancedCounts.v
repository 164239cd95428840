(** How many boxes of a level are adjacent to a box of the plane, or in its interaction list. *)
From Coq Require Import List Bool ZArith Arith Lia Lra Reals Permutation.
From Verif Require Import Orthtree AdaptiveTree TreeGeometry AdaptiveProofs BalancedAddr.
Import ListNotations.
Lemma gco2_inj p q : valid 2 p -> valid 2 q -> length p = length q -> gco 2 0 p = gco 2 0 q -> gco 2 1 p = gco 2 1 q -> p = q.
Proof.
  intros Vp Vq L E0 E1. apply (gcos_inj 2); try assumption. unfold gcos. cbn [seq map]. rewrite E0, E1. reflexivity.
Qed.
Lemma count_boxes (xs : list addr) k a b (cells : list (Z * Z)) : NoDup xs -> (forall q, In q xs -> valid 2 q /\ length q = k /\ In (gco 2 0 q - a, gco 2 1 q - b)%Z cells) ->
  length xs <= length cells.
Proof.
  intros ND H. rewrite <- (map_length (fun q => (gco 2 0 q - a, gco 2 1 q - b)%Z) xs). apply NoDup_incl_length.
  - clear - ND H. induction xs as [|x xs IH]; [constructor|]. inversion ND as [|? ? N1 N2]; subst. cbn [map]. constructor.
    + intros K. apply in_map_iff in K. destruct K as (y & E & Hy). injection E as E0 E1. destruct (H x (or_introl eq_refl)) as (V & L & _). destruct (H y (or_intror Hy)) as (V' & L' & _).
      assert (y = x) by (apply gco2_inj; try assumption; lia). subst y. contradiction.
    + apply IH; [exact N2|]. intros; apply H; right; assumption.
  - intros z Hz. apply in_map_iff in Hz. destruct Hz as (q & <- & Hq). apply H. exact Hq.
Qed.
Definition grid (a n : nat) : list (Z * Z) := flat_map (fun i => map (fun j => (Z.of_nat i - Z.of_nat a, Z.of_nat j - Z.of_nat a)%Z) (seq 0 n)) (seq 0 n).
Lemma in_grid a n x y : (0 <= x + Z.of_nat a < Z.of_nat n)%Z -> (0 <= y + Z.of_nat a < Z.of_nat n)%Z -> In (x, y) (grid a n).
Proof.
  intros Hx Hy. apply in_flat_map. exists (Z.to_nat (x + Z.of_nat a)). split; [apply in_seq; lia|]. apply in_map_iff. exists (Z.to_nat (y + Z.of_nat a)). split; [f_equal; lia|apply in_seq; lia].
Qed.
Lemma touch_cells p q : length p = length q -> touch 2 p q = true <-> (Z.abs (gco 2 0 q - gco 2 0 p) <= 1 /\ Z.abs (gco 2 1 q - gco 2 1 p) <= 1)%Z.
Proof.
  intros HL. rewrite touch_iff. assert (E : p2 q = p2 p) by (unfold p2; rewrite HL; reflexivity). rewrite E. assert (P := p2_pos p). split.
  - intros H. assert (H0 := H 0 ltac:(lia)). assert (H1 := H 1 ltac:(lia)). nia.
  - intros [H0 H1] j Hj. destruct j as [|[|j]]; [nia|nia|lia].
Qed.
Lemma count_near p xs : NoDup xs -> (forall q, In q xs -> valid 2 q /\ length q = length p /\ touch 2 p q = true) -> length xs <= 9.
Proof.
  intros ND H. change 9 with (length (grid 1 3)). apply (count_boxes xs (length p) (gco 2 0 p) (gco 2 1 p)); [exact ND|]. intros q Hq. destruct (H q Hq) as (V & L & T).
  apply touch_cells in T; [|congruence]. split; [exact V|]. split; [exact L|]. apply in_grid; lia.
Qed.
Lemma count_inter p xs : NoDup xs -> (forall q, In q xs -> valid 2 q /\ length q = length p /\ 1 <= length p /\ touch 2 (tl p) (tl q) = true /\ touch 2 p q = false) -> length xs <= 27.
Proof.
  intros ND H. destruct p as [|i p]; [destruct xs as [|q xs]; [cbn; lia|]; destruct (H q (or_introl eq_refl)) as (_ & _ & L & _); cbn in L; lia|]. cbn [tl] in H.
  set (e0 := gco 2 0 (i :: p)) in *. set (e1 := gco 2 1 (i :: p)) in *. set (a := gco 2 0 p) in *. set (b := gco 2 1 p) in *.
  assert (D0 : (e0 - 2 * a = 0 \/ e0 - 2 * a = 1)%Z) by (unfold e0, a; cbn [gco]; destruct (Nat.testbit _ _); lia).
  assert (D1 : (e1 - 2 * b = 0 \/ e1 - 2 * b = 1)%Z) by (unfold e1, b; cbn [gco]; destruct (Nat.testbit _ _); lia).
  apply (Nat.le_trans _ (length (filter (fun z => negb ((Z.abs (fst z - (e0 - 2 * a)) <=? 1) && (Z.abs (snd z - (e1 - 2 * b)) <=? 1))%Z) (grid 2 6)))).
  - apply (count_boxes xs (length (i :: p)) (2 * a) (2 * b)); [exact ND|]. intros q Hq. destruct (H q Hq) as (V & L & _ & T & N). split; [exact V|]. split; [exact L|].
    destruct q as [|i' q]; [discriminate|]. cbn [tl] in T. injection L as L. apply touch_cells in T; [|congruence]. fold a b in T.
    set (f0 := gco 2 0 (i' :: q)) in *. set (f1 := gco 2 1 (i' :: q)) in *.
    assert (Q0 : (0 <= f0 - 2 * gco 2 0 q <= 1)%Z) by (unfold f0; cbn [gco]; destruct (Nat.testbit _ _); lia).
    assert (Q1 : (0 <= f1 - 2 * gco 2 1 q <= 1)%Z) by (unfold f1; cbn [gco]; destruct (Nat.testbit _ _); lia).
    apply filter_In. split; [apply in_grid; lia|]. cbn [fst snd]. apply negb_true_iff. apply not_true_iff_false. intros X. apply andb_true_iff in X. destruct X as [X0 X1].
    apply Z.leb_le in X0, X1. apply not_true_iff_false in N. apply N. apply touch_cells; [cbn [length]; congruence|]. fold e0 e1 f0 f1. lia.
  - destruct D0 as [-> | ->], D1 as [-> | ->]; vm_compute; lia.
Qed.
