(** How many boxes of a tree can touch a box of at most their size, or be in its interaction list. *)
From Coq Require Import List Bool ZArith Arith Lia Lra Reals.
From Verif Require Import Orthtree AdaptiveTree TreeSpec TreeGeometry AdaptiveProofs BalancedAddr ListContents PassSpec.
Import ListNotations.

(** Points of the integer grid with every coordinate in a given range. *)
Fixpoint cells (bs : list (Z * nat)) : list (list Z) :=
  match bs with
  | [] => [[]]
  | (a, n) :: r => flat_map (fun i => map (cons (a + Z.of_nat i)%Z) (cells r)) (seq 0 n)
  end.
Lemma in_cells bs x : In x (cells bs) <-> Forall2 (fun b y => (fst b <= y < fst b + Z.of_nat (snd b))%Z) bs x.
Proof.
  revert x. induction bs as [|[a n] bs IH]; intros x; cbn [cells].
  - split; [intros [<-|[]]; constructor|]. intros H. inversion H. left. reflexivity.
  - rewrite in_flat_map. split.
    + intros (i & Hi & Hx). apply in_seq in Hi. apply in_map_iff in Hx. destruct Hx as (y & <- & Hy). constructor; [cbn; lia|]. apply IH. exact Hy.
    + intros H. inversion H as [|? z ? y Hz Hy]; subst. cbn [fst snd] in Hz. exists (Z.to_nat (z - a)). split; [apply in_seq; lia|].
      apply in_map_iff. exists y. split; [f_equal; lia|]. apply IH. exact Hy.
Qed.
Lemma cells_NoDup bs : NoDup (cells bs).
Proof.
  induction bs as [|[a n] bs IH]; cbn [cells]; [constructor; [intros []|constructor]|]. apply NoDup_flat_map.
  - apply seq_NoDup.
  - intros i _. apply FinFun.Injective_map_NoDup; [|exact IH]. intros x y E. congruence.
  - intros i j x _ _ Hi Hj. apply in_map_iff in Hi, Hj. destruct Hi as (y & <- & _). destruct Hj as (z & E & _). injection E as E _. lia.
Qed.
Lemma cells_length bs k : (forall b, In b bs -> snd b = k) -> length (cells bs) = k ^ length bs.
Proof.
  induction bs as [|[a n] bs IH]; intros H; [reflexivity|]. cbn [cells length Nat.pow]. assert (E : n = k) by exact (H _ (or_introl eq_refl)). subst n.
  rewrite <- IH by (intros; apply H; right; assumption). clear H IH. generalize 0 at 1. induction k as [|k IHk]; intros s; [reflexivity|].
  cbn [seq flat_map]. rewrite app_length, map_length, IHk. lia.
Qed.
(** The cube of [k] cells per coordinate starting at the cell [a]. *)
Definition cube (a : list Z) (k : nat) : list (list Z) := cells (map (fun z => (z, k)) a).
Lemma cube_length a k : length (cube a k) = k ^ length a.
Proof.
  unfold cube. rewrite (cells_length _ k); [rewrite map_length; reflexivity|]. intros b Hb. apply in_map_iff in Hb. destruct Hb as (z & <- & _). reflexivity.
Qed.
Lemma in_cube d (f g : nat -> Z) k : In (map f (seq 0 d)) (cube (map g (seq 0 d)) k) <-> forall j, j < d -> (g j <= f j < g j + Z.of_nat k)%Z.
Proof.
  unfold cube. rewrite map_map, in_cells. split.
  - intros H j Hj. assert (X : forall m s, Forall2 (fun (b : Z * nat) y => (fst b <= y < fst b + Z.of_nat (snd b))%Z) (map (fun x => (g x, k)) (seq s m)) (map f (seq s m)) ->
      forall i, s <= i < s + m -> (g i <= f i < g i + Z.of_nat k)%Z).
    { induction m as [|m IH]; intros s X i Hi; [lia|]. cbn [seq map] in X. inversion X; subst. destruct (Nat.eq_dec i s) as [->|N]; [assumption|]. apply (IH (S s)); [assumption|lia]. }
    apply (X d 0 H). lia.
  - intros H. assert (X : forall m s, (forall j, s <= j < s + m -> (g j <= f j < g j + Z.of_nat k)%Z) ->
      Forall2 (fun (b : Z * nat) y => (fst b <= y < fst b + Z.of_nat (snd b))%Z) (map (fun x => (g x, k)) (seq s m)) (map f (seq s m))).
    { induction m as [|m IH]; intros s X; [constructor|]. cbn [seq map]. constructor; [apply (X s); lia|]. apply IH. intros j Hj. apply X. lia. }
    apply X. intros j Hj. apply H. lia.
Qed.
Lemma map_seq_inj {A} d (f g : nat -> A) : map f (seq 0 d) = map g (seq 0 d) -> forall j, j < d -> f j = g j.
Proof.
  intros H j Hj. assert (X := f_equal (fun l => nth_error l j) H). cbn beta in X. rewrite !nth_error_map in X.
  rewrite (nth_error_nth' (seq 0 d) 0) in X by (rewrite seq_length; exact Hj). rewrite seq_nth in X by exact Hj. cbn in X. congruence.
Qed.

(** The grid coordinates of an ancestor. *)
Lemma gco_app d j r q : (gco d j q * 2 ^ Z.of_nat (length r) <= gco d j (r ++ q) < (gco d j q + 1) * 2 ^ Z.of_nat (length r))%Z.
Proof.
  induction r as [|i r IH]; [cbn [length app]; lia|]. cbn [app gco length]. rewrite Nat2Z.inj_succ, Z.pow_succ_r by lia. destruct (Nat.testbit _ _); lia.
Qed.
Lemma NoDup_map_on {A B} (f : A -> B) xs : NoDup xs -> (forall x y, In x xs -> In y xs -> f x = f y -> x = y) -> NoDup (map f xs).
Proof.
  induction 1 as [|x xs N _ IH]; intros H; [constructor|]. cbn [map]. constructor.
  - intros K. apply in_map_iff in K. destruct K as (y & E & Hy). apply H in E; [|right; exact Hy|left; reflexivity]. subst y. contradiction.
  - apply IH. intros; apply H; try right; assumption.
Qed.
Lemma suffix_of k (p : addr) : k <= length p -> exists r q, p = r ++ q /\ length q = k.
Proof.
  intros H. exists (firstn (length p - k) p), (skipn (length p - k) p). split; [symmetry; apply firstn_skipn|]. rewrite skipn_length. lia.
Qed.
Lemma valid_app d r q : valid d (r ++ q) -> valid d q.
Proof. intros H. apply Forall_app in H. apply H. Qed.

Lemma above_same_length q r : length q = length r -> is_above q r = true -> q = r.
Proof.
  intros L H. unfold is_above in H. apply existsb_addr in H. apply in_sufs_app in H. destruct H as (s & ->). rewrite app_length in L.
  destruct s; [reflexivity|cbn [length] in L; lia].
Qed.

(** Boxes no smaller than [p] that touch it, none inside another. *)
Theorem count_larger d p xs : valid d p -> NoDup xs -> (forall q r, In q xs -> In r xs -> is_above q r = true -> q = r) ->
  (forall q, In q xs -> valid d q /\ length q <= length p /\ touch d p q = true) -> length xs <= 3 ^ d.
Proof.
  intros Vp ND NA H.
  (* the cell of the size of [p] in [q] closest to [p] *)
  set (w := fun q : addr => (2 ^ Z.of_nat (length p - length q))%Z).
  set (cell := fun q => map (fun j => Z.max (gco d j q * w q) (Z.min (gco d j p) ((gco d j q + 1) * w q - 1))) (seq 0 d)).
  assert (E3 : length (cube (map (fun j => (gco d j p - 1)%Z) (seq 0 d)) 3) = 3 ^ d) by (rewrite cube_length, map_length, seq_length; reflexivity).
  rewrite <- E3, <- (map_length cell xs). clear E3. apply NoDup_incl_length.
  - apply NoDup_map_on; [exact ND|].
    assert (X : forall q r, In q xs -> In r xs -> length q <= length r -> cell q = cell r -> q = r).
    { intros q r Hq Hr L E. destruct (H q Hq) as (Vq & Lq & _). destruct (H r Hr) as (Vr & Lr & _).
      destruct (suffix_of (length q) r L) as (s & q' & -> & L'). apply NA; [exact Hq|exact Hr|]. assert (q = q').
      { apply (gcos_inj d); [congruence|exact Vq|apply (valid_app d s); exact Vr|]. apply map_ext_in. intros j Hj. apply in_seq in Hj.
        assert (Ej := map_seq_inj d _ _ E j ltac:(lia)). cbn beta in Ej.
        assert (Wq : (w q = w (s ++ q') * 2 ^ Z.of_nat (length s))%Z).
        { unfold w. rewrite app_length in *. rewrite <- Z.pow_add_r by lia. f_equal. lia. }
        assert (P1 : (0 < w (s ++ q'))%Z) by (unfold w; apply Z.pow_pos_nonneg; lia).
        assert (P2 : (0 < 2 ^ Z.of_nat (length s))%Z) by (apply Z.pow_pos_nonneg; lia).
        assert (G := gco_app d j s q'). set (e := (2 ^ Z.of_nat (length s))%Z) in *. set (u := w (s ++ q')) in *.
        assert (Q1 : (gco d j q * w q <= Z.max (gco d j q * w q) (Z.min (gco d j p) ((gco d j q + 1) * w q - 1)) < (gco d j q + 1) * w q)%Z) by (rewrite Wq in *; nia).
        rewrite Ej in Q1. set (b := gco d j (s ++ q')) in *.
        assert (Q2 : (b * u <= Z.max (b * u) (Z.min (gco d j p) ((b + 1) * u - 1)) < (b + 1) * u)%Z) by nia.
        set (z := Z.max (b * u) _) in *. rewrite Wq in Q1.
        assert (Q3 : (gco d j q' * (u * e) <= z < (gco d j q' + 1) * (u * e))%Z) by nia.
        assert (P3 : (0 < u * e)%Z) by nia. assert (gco d j q' < gco d j q + 1)%Z by nia. assert (gco d j q < gco d j q' + 1)%Z by nia. lia. }
      subst q'. unfold is_above. apply existsb_exists. exists q. split; [apply in_sufs_app; exists s; reflexivity|apply addr_eqb_refl]. }
    intros q r Hq Hr E. destruct (le_ge_dec (length q) (length r)); [apply X|symmetry; apply X]; auto.
  - intros z Hz. apply in_map_iff in Hz. destruct Hz as (q & <- & Hq). destruct (H q Hq) as (_ & Lq & T). apply in_cube. intros j Hj.
    apply touch_iff with (j := j) in T; [|exact Hj]. assert (E : (p2 p = p2 q * w q)%Z) by (unfold p2, w; rewrite <- Z.pow_add_r by lia; f_equal; lia).
    assert (P1 := p2_pos q). assert (P2 : (0 < w q)%Z) by (unfold w; apply Z.pow_pos_nonneg; lia). rewrite E in T. destruct T as [T1 T2].
    assert (gco d j p <= (gco d j q + 1) * w q)%Z by nia. assert (gco d j q * w q <= gco d j p + 1)%Z by nia.
    assert (gco d j q * w q <= (gco d j q + 1) * w q - 1)%Z by nia. lia.
Qed.
(** Boxes of the size of [p] whose parents touch the parent of [p] while they do not touch [p]. *)
Theorem count_interaction d p xs : valid d p -> 1 <= length p -> NoDup xs ->
  (forall q, In q xs -> valid d q /\ length q = length p /\ touch d (tl p) (tl q) = true /\ touch d p q = false) -> length xs + 3 ^ d <= 6 ^ d.
Proof.
  intros Vp Lp ND H. destruct p as [|i p]; [cbn in Lp; lia|]. cbn [tl] in H.
  set (small := cube (map (fun j => (gco d j (i :: p) - 1)%Z) (seq 0 d)) 3). set (big := cube (map (fun j => (2 * gco d j p - 2)%Z) (seq 0 d)) 6).
  assert (E3 : length small = 3 ^ d) by (unfold small; rewrite cube_length, map_length, seq_length; reflexivity).
  assert (E6 : length big = 6 ^ d) by (unfold big; rewrite cube_length, map_length, seq_length; reflexivity).
  rewrite <- E3, <- E6, <- (map_length (gcos d) xs), <- app_length. apply NoDup_incl_length.
  - apply NoDup_app_intro.
    + apply NoDup_map_on; [exact ND|]. intros q r Hq Hr E. destruct (H q Hq) as (Vq & Lq & _). destruct (H r Hr) as (Vr & Lr & _). apply (gcos_inj d); auto; congruence.
    + apply cells_NoDup.
    + intros z Hz Hs. apply in_map_iff in Hz. destruct Hz as (q & <- & Hq). destruct (H q Hq) as (_ & Lq & _ & N). apply not_true_iff_false in N. apply N.
      apply touch_iff. intros j Hj. unfold small, gcos in Hs. rewrite (in_cube d (fun j => gco d j q)) in Hs. specialize (Hs j Hj).
      assert (E : p2 q = p2 (i :: p)) by (unfold p2; rewrite Lq; reflexivity). rewrite E. assert (P := p2_pos (i :: p)). nia.
  - intros z Hz. apply in_app_or in Hz. destruct Hz as [Hz|Hz].
    + apply in_map_iff in Hz. destruct Hz as (q & <- & Hq). destruct (H q Hq) as (_ & Lq & T & _). destruct q as [|k q]; [discriminate|]. cbn [tl] in T. injection Lq as Lq.
      unfold big, gcos. apply in_cube. intros j Hj. apply touch_iff with (j := j) in T; [|exact Hj].
      assert (E : p2 q = p2 p) by (unfold p2; rewrite Lq; reflexivity). rewrite E in T. assert (P := p2_pos p). cbn [gco]. destruct (Nat.testbit k (d - 1 - j)); nia.
    + assert (G : forall j, (2 * gco d j p <= gco d j (i :: p) <= 2 * gco d j p + 1)%Z) by (intros j; cbn [gco]; destruct (Nat.testbit i (d - 1 - j)); lia).
      unfold small, big, cube in *. rewrite map_map in Hz. apply in_cells in Hz. apply in_cells. rewrite map_map. revert z Hz. generalize (seq 0 d).
      induction l as [|j l IH]; intros z Hz; [inversion Hz; constructor|]. destruct z as [|y z]; [inversion Hz|]. assert (Hy : (gco d j (i :: p) - 1 <= y < gco d j (i :: p) - 1 + Z.of_nat 3)%Z) by (inversion Hz; assumption).
      assert (Hr : Forall2 (fun (b : Z * nat) y => (fst b <= y < fst b + Z.of_nat (snd b))%Z) (map (fun x => ((gco d x (i :: p) - 1)%Z, 3)) l) z) by (inversion Hz; assumption).
      constructor; [|apply IH; exact Hr]. specialize (G j). unfold fst, snd in *. lia.
Qed.
