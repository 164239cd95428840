(** Leaf box indices, flat indices and Morton indices of the balanced tree. *)
From Coq Require Import List Bool ZArith Arith Lia Lra Reals.
From Verif Require Import Num Outcome Vec Orthtree AdaptiveTree VecProofs GeometrySpec GeometryProofs TreeGeometry AdaptiveProofs BalancedTree BalancedSpec.
Import ListNotations.

Lemma omapM_ok {A B} (f : A -> outcome B) (g : A -> B) xs : (forall x, In x xs -> f x = Ok (g x)) -> omapM f xs = Ok (map g xs).
Proof.
  induction xs as [|x xs IH]; intros H; [reflexivity|]. cbn [omapM map]. rewrite H by (left; reflexivity). cbn [bind].
  rewrite IH by (intros; apply H; right; assumption). reflexivity.
Qed.
Lemma omapM_fail {A B} (f : A -> outcome B) pre x post (r : outcome B) :
  (forall y, In y pre -> exists b, f y = Ok b) -> f x = r -> (forall b, r <> Ok b) ->
  omapM f (pre ++ x :: post) = match r with Ok _ => UB | Throw => Throw | Abort => Abort | UB => UB | NonFinite => NonFinite | OutOfFuel => OutOfFuel end.
Proof.
  intros H Hx Hr. induction pre as [|y pre IH].
  - cbn [app omapM]. rewrite Hx. destruct r; try reflexivity. exfalso. apply (Hr a). reflexivity.
  - cbn [app omapM]. destruct (H y (or_introl eq_refl)) as [b ->]. cbn [bind].
    rewrite IH by (intros; apply H; right; assumption). destruct r; reflexivity.
Qed.

Lemma Int_part_eq (y : R) (z : Z) : (IZR z <= y < IZR z + 1)%R -> Int_part y = z.
Proof.
  intros H. assert (B := base_Int_part y).
  assert (Int_part y < z + 1)%Z by (apply lt_IZR; rewrite plus_IZR; lra).
  assert (z < Int_part y + 1)%Z by (apply lt_IZR; rewrite plus_IZR; lra). lia.
Qed.

Lemma boxes_eq h : h < 32 -> boxes_per_dim h = Ok (2 ^ Z.of_nat h)%Z.
Proof.
  intros Hh. unfold boxes_per_dim, to_u32, u32_max. assert (0 < 2 ^ Z.of_nat h)%Z by (apply Z.pow_pos_nonneg; lia).
  assert (2 ^ Z.of_nat h < 2 ^ 32)%Z by (apply Z.pow_lt_mono_r; lia). change (2 ^ 32)%Z with 4294967296%Z in *.
  rewrite (proj2 (Z.leb_le _ _)), (proj2 (Z.ltb_lt _ _)) by lia. reflexivity.
Qed.

(** *** Leaf box indices *)
Section Indices.
Variable d h : nat.
Variable c : list R.
Variable l : R.
Hypothesis Hc : length c = d.
Hypothesis Hl : (0 < l)%R.
Hypothesis Hh : h < 32.

Notation in_half_open := (in_half_open d c l).
Notation low j := (nth j c 0 - l / 2)%R.
Notation width := (l / 2 ^ h)%R.

Definition coord (x : list R) (j : nat) : R := ((nth j x 0 - low j) / width)%R.

Lemma width_pos : (0 < width)%R.
Proof. apply Rdiv_lt_0_compat; [exact Hl|apply pow2_pos]. Qed.

Definition index_of (x : list R) (i : nat) : outcome Z :=
  bind (to_u32 (Int_part (coord x i))) (fun k => if (2 ^ Z.of_nat h <=? k)%Z then Throw else Ok k).

Lemma IZR_pow2 n : IZR (2 ^ Z.of_nat n) = (2 ^ n)%R.
Proof. rewrite <- pow_IZR. reflexivity. Qed.

Lemma leaf_box_indices_eq x : length x = d -> leaf_box_indices d h c l x = omapM (index_of x) (seq 0 d).
Proof.
  intros Hx. unfold leaf_box_indices. rewrite boxes_eq by exact Hh. cbn [bind].
  assert (E0 : neqb l n0 = false).
  { unfold neqb. cbn [nleb n0 NumR]. rewrite (proj2 (Rleb_false l 0)) by lra. reflexivity. }
  rewrite E0.
  assert (G : forall xs ys (f g : nat -> outcome Z), (forall i, In i xs -> f i = g i) -> xs = ys -> omapM f xs = omapM g ys).
  { intros xs ys f g H <-. induction xs as [|a xs IH]; [reflexivity|]. cbn [omapM]. rewrite H by (left; reflexivity).
    rewrite IH by (intros; apply H; right; assumption). reflexivity. }
  apply G; [|reflexivity]. intros i Hi. apply in_seq in Hi. unfold index_of.
  assert (V : (vget (vscale (vsub x (box_lower d c l)) (ndiv n1 l)) i * IZR (2 ^ Z.of_nat h) = coord x i)%R).
  { unfold coord. assert (LB := len_box_lower d c l Hc). rewrite vget_vscale by (rewrite len_vsub; lia).
    rewrite vget_vsub by lia. rewrite vget_box_lower by (auto; lia).
    unfold vget. cbn [ndiv n1 NumR n0]. rewrite IZR_pow2. field. split; [apply pow_nonzero; lra|lra]. }
  cbn [nfloor nmul nlit NumR of_option bind]. cbn [nmul NumR] in V. rewrite <- V. unfold Rdiv at 1. rewrite Rinv_1, Rmult_1_r. reflexivity.
Qed.

Lemma coord_floor x j z : (IZR z * width <= nth j x 0 - low j < (IZR z + 1) * width)%R -> Int_part (coord x j) = z.
Proof.
  intros H. assert (W := width_pos). apply Int_part_eq.
  assert (E : (nth j x 0 - low j = coord x j * width)%R) by (unfold coord; field; split; [apply pow_nonzero; lra|lra]).
  rewrite E in H. split; [apply Rmult_le_reg_r with width|apply Rmult_lt_reg_r with width]; lra.
Qed.
Lemma floor_coord x j : let z := Int_part (coord x j) in (IZR z * width <= nth j x 0 - low j < (IZR z + 1) * width)%R.
Proof.
  cbn zeta. assert (B := base_Int_part (coord x j)). assert (W := width_pos).
  assert (E : (nth j x 0 - low j = coord x j * width)%R) by (unfold coord; field; split; [apply pow_nonzero; lra|lra]).
  rewrite E. split; [apply Rmult_le_compat_r|apply Rmult_lt_compat_r]; lra.
Qed.
Lemma pow_width : (2 ^ h * width = l)%R.
Proof. field. apply pow_nonzero; lra. Qed.

Lemma index_in x j z : (0 <= z < 2 ^ Z.of_nat h)%Z -> Int_part (coord x j) = z -> index_of x j = Ok z.
Proof.
  intros Hz E. unfold index_of. rewrite E. unfold to_u32, u32_max.
  assert (2 ^ Z.of_nat h < 2 ^ 32)%Z by (apply Z.pow_lt_mono_r; lia). change (2 ^ 32)%Z with 4294967296%Z in *.
  rewrite (proj2 (Z.leb_le _ _)), (proj2 (Z.ltb_lt _ _)) by lia. cbn [andb bind].
  rewrite (proj2 (Z.leb_gt _ _)) by lia. reflexivity.
Qed.
Lemma half_open_coord x j : j < d -> in_half_open x -> (0 <= Int_part (coord x j) < 2 ^ Z.of_nat h)%Z.
Proof.
  intros Hj H. specialize (H j Hj). assert (F := floor_coord x j). cbn zeta in F. assert (W := width_pos). assert (P := pow_width).
  set (z := Int_part (coord x j)) in *. split.
  - assert (IZR (-1) < IZR z)%R; [|assert (-1 < z)%Z by (apply lt_IZR; assumption); lia].
    destruct (Rlt_dec (IZR (-1)) (IZR z)) as [|N]; [assumption|exfalso]. nra.
  - apply lt_IZR. rewrite IZR_pow2. destruct (Rlt_dec (IZR z) (2 ^ h)) as [|N]; [assumption|exfalso]. nra.
Qed.

(** The indices of a point of the half-open root box. *)
Theorem indices_in x : length x = d -> in_half_open x ->
  leaf_box_indices d h c l x = Ok (map (fun j => Int_part (coord x j)) (seq 0 d)).
Proof.
  intros Hx H. rewrite leaf_box_indices_eq by exact Hx. apply omapM_ok. intros j Hj. apply in_seq in Hj.
  apply index_in; [apply half_open_coord; [lia|exact H]|reflexivity].
Qed.
Lemma index_below x j : (nth j x 0 < low j)%R -> index_of x j = UB.
Proof.
  intros H. assert (F := floor_coord x j). cbn zeta in F. assert (W := width_pos). unfold index_of, to_u32.
  set (z := Int_part (coord x j)) in *. assert (z < 0)%Z.
  { apply lt_IZR. destruct (Rlt_dec (IZR z) 0) as [|N]; [assumption|exfalso]. nra. }
  rewrite (proj2 (Z.leb_gt _ _)) by lia. reflexivity.
Qed.
Lemma index_far x j : (low j + width * 4294967296 <= nth j x 0)%R -> index_of x j = UB.
Proof.
  intros H. assert (F := floor_coord x j). cbn zeta in F. assert (W := width_pos). unfold index_of, to_u32, u32_max.
  set (z := Int_part (coord x j)) in *. assert (4294967296 <= z)%Z.
  { assert (4294967296 < z + 1)%Z; [|lia]. apply lt_IZR. rewrite plus_IZR. destruct (Rlt_dec 4294967296 (IZR z + 1)) as [|N]; [assumption|exfalso]. nra. }
  rewrite (proj2 (Z.ltb_ge _ _)) by lia. rewrite andb_false_r. reflexivity.
Qed.
Lemma index_above x j : (low j + l <= nth j x 0 < low j + width * 4294967296)%R -> index_of x j = Throw.
Proof.
  intros H. assert (F := floor_coord x j). cbn zeta in F. assert (W := width_pos). assert (P := pow_width). unfold index_of, to_u32, u32_max.
  set (z := Int_part (coord x j)) in *.
  assert (A : (2 ^ Z.of_nat h <= z)%Z).
  { assert (2 ^ Z.of_nat h < z + 1)%Z; [|lia]. apply lt_IZR. rewrite IZR_pow2, plus_IZR.
    destruct (Rlt_dec (2 ^ h) (IZR z + 1)) as [|N]; [assumption|exfalso]. nra. }
  assert (B : (z < 4294967296)%Z).
  { apply lt_IZR. destruct (Rlt_dec (IZR z) 4294967296) as [|N]; [assumption|exfalso]. nra. }
  assert (0 < 2 ^ Z.of_nat h)%Z by (apply Z.pow_pos_nonneg; lia).
  rewrite (proj2 (Z.leb_le _ _)), (proj2 (Z.ltb_lt _ _)) by lia. cbn [andb bind]. rewrite (proj2 (Z.leb_le _ _)) by lia. reflexivity.
Qed.
Lemma seq_at j : j < d -> seq 0 d = seq 0 j ++ j :: seq (S j) (d - S j).
Proof. intros H. replace d with (j + S (d - S j)) at 1 by lia. rewrite seq_app. reflexivity. Qed.

Theorem indices_below x j : length x = d -> j < d ->
  (forall i, i < j -> (low i <= nth i x 0 < low i + l)%R) -> (nth j x 0 < low j)%R -> leaf_box_indices d h c l x = UB.
Proof.
  intros Hx Hj H1 H2. rewrite leaf_box_indices_eq by exact Hx. rewrite (seq_at j Hj).
  rewrite (omapM_fail _ _ _ _ UB); [reflexivity| |apply index_below; exact H2|discriminate].
  intros i Hi. apply in_seq in Hi. exists (Int_part (coord x i)). apply index_in; [|reflexivity].
  assert (F := floor_coord x i). cbn zeta in F. assert (W := width_pos). assert (P := pow_width). specialize (H1 i ltac:(lia)).
  set (z := Int_part (coord x i)) in *. split.
  - assert (-1 < z)%Z; [|lia]. apply lt_IZR. destruct (Rlt_dec (IZR (-1)) (IZR z)) as [|N]; [assumption|exfalso]. nra.
  - apply lt_IZR. rewrite IZR_pow2. destruct (Rlt_dec (IZR z) (2 ^ h)) as [|N]; [assumption|exfalso]. nra.
Qed.
Theorem indices_far x j : length x = d -> j < d ->
  (forall i, i < j -> (low i <= nth i x 0 < low i + l)%R) -> (low j + width * 4294967296 <= nth j x 0)%R -> leaf_box_indices d h c l x = UB.
Proof.
  intros Hx Hj H1 H2. rewrite leaf_box_indices_eq by exact Hx. rewrite (seq_at j Hj).
  rewrite (omapM_fail _ _ _ _ UB); [reflexivity| |apply index_far; exact H2|discriminate].
  intros i Hi. apply in_seq in Hi. exists (Int_part (coord x i)). apply index_in; [|reflexivity].
  assert (F := floor_coord x i). cbn zeta in F. assert (W := width_pos). assert (P := pow_width). specialize (H1 i ltac:(lia)).
  set (z := Int_part (coord x i)) in *. split.
  - assert (-1 < z)%Z; [|lia]. apply lt_IZR. destruct (Rlt_dec (IZR (-1)) (IZR z)) as [|N]; [assumption|exfalso]. nra.
  - apply lt_IZR. rewrite IZR_pow2. destruct (Rlt_dec (IZR z) (2 ^ h)) as [|N]; [assumption|exfalso]. nra.
Qed.
Theorem indices_above x j : length x = d -> j < d ->
  (forall i, i < j -> (low i <= nth i x 0 < low i + l)%R) -> (low j + l <= nth j x 0 < low j + width * 4294967296)%R ->
  leaf_box_indices d h c l x = Throw.
Proof.
  intros Hx Hj H1 H2. rewrite leaf_box_indices_eq by exact Hx. rewrite (seq_at j Hj).
  rewrite (omapM_fail _ _ _ _ Throw); [reflexivity| |apply index_above; exact H2|discriminate].
  intros i Hi. apply in_seq in Hi. exists (Int_part (coord x i)). apply index_in; [|reflexivity].
  assert (F := floor_coord x i). cbn zeta in F. assert (W := width_pos). assert (P := pow_width). specialize (H1 i ltac:(lia)).
  set (z := Int_part (coord x i)) in *. split.
  - assert (-1 < z)%Z; [|lia]. apply lt_IZR. destruct (Rlt_dec (IZR (-1)) (IZR z)) as [|N]; [assumption|exfalso]. nra.
  - apply lt_IZR. rewrite IZR_pow2. destruct (Rlt_dec (IZR z) (2 ^ h)) as [|N]; [assumption|exfalso]. nra.
Qed.
End Indices.

(** *** Flat index *)
Section Flat.
Variable B : Z.
Hypothesis HB : (0 < B)%Z.
(** Value of a list of digits, least significant first. *)
Fixpoint dig (zs : list Z) : Z := match zs with [] => 0 | z :: r => z + B * dig r end%Z.
Definition digits (zs : list Z) : Prop := Forall (fun z => 0 <= z < B)%Z zs.
Lemma dig_bounds zs : digits zs -> (0 <= dig zs < B ^ Z.of_nat (length zs))%Z.
Proof.
  induction 1 as [|z zs Hz H IH]; [cbn; lia|]. cbn [dig length]. rewrite Nat2Z.inj_succ, Z.pow_succ_r by lia. nia.
Qed.
Lemma dig_inj zs : digits zs -> forall ys, digits ys -> length zs = length ys -> dig zs = dig ys -> zs = ys.
Proof.
  induction 1 as [|z zs Hz H IH]; intros ys Hy HL E; destruct Hy as [|y ys Hy1 Hy]; try discriminate; [reflexivity|].
  cbn [dig] in E. assert (z = y /\ dig zs = dig ys) as [-> E2].
  { assert (dig zs = dig ys) by nia. split; [nia|assumption]. }
  f_equal. apply IH; auto.
Qed.
Lemma dig_onto n k : (0 <= k < B ^ Z.of_nat n)%Z -> exists zs, length zs = n /\ digits zs /\ dig zs = k.
Proof.
  revert k. induction n as [|n IH]; intros k Hk.
  - exists []. split; [reflexivity|]. split; [constructor|]. cbn in *. lia.
  - rewrite Nat2Z.inj_succ, Z.pow_succ_r in Hk by lia. destruct (IH (k / B)%Z) as (zs & L & D & E).
    { split; [apply Z.div_pos; lia|apply Z.div_lt_upper_bound; lia]. }
    exists (k mod B :: zs)%Z. split; [cbn; congruence|]. split; [constructor; [apply Z.mod_pos_bound; lia|exact D]|].
    cbn [dig]. rewrite E. assert (M := Z.div_mod k B ltac:(lia)). lia.
Qed.
End Flat.

Lemma rev_as_map {A} (xs : list A) da : rev xs = map (fun i => nth (length xs - i - 1) xs da) (seq 0 (length xs)).
Proof.
  induction xs as [|x xs IH] using rev_ind; [reflexivity|]. rewrite rev_app_distr, app_length. cbn [rev app length].
  rewrite Nat.add_1_r. cbn [seq map]. f_equal.
  - rewrite app_nth2 by lia. replace (S (length xs) - 0 - 1 - length xs) with 0 by lia. reflexivity.
  - rewrite IH, <- seq_shift, map_map. apply map_ext_in. intros i Hi. apply in_seq in Hi.
    rewrite app_nth1 by lia. f_equal; lia.
Qed.

Section FlatIndex.
Variable d h : nat.
Hypothesis Hh : h < 32.
Hypothesis Hdh : d * h <= 32.
Notation B := (2 ^ Z.of_nat h)%Z.

Lemma flat_fold zs : digits B zs -> forall a off, (0 <= a)%Z -> (0 < off)%Z -> (a + off * dig B zs < u32_max)%Z ->
  fst (fold_left (fun acc z => (wrap32 (fst acc + wrap32 (snd acc * z)), wrap32 (snd acc * B))) zs (a, wrap32 off)) = (a + off * dig B zs)%Z.
Proof.
  assert (M : u32_max <> 0%Z) by (unfold u32_max; lia).
  induction 1 as [|z zs Hz H IH]; intros a off Ha Ho Hb; cbn [fold_left dig fst] in *; [lia|].
  assert (P : (0 < B)%Z) by (apply Z.pow_pos_nonneg; lia). assert (D := dig_bounds B P zs H).
  cbn [fst snd]. assert (W1 : wrap32 (wrap32 off * z) = (off * z)%Z).
  { unfold wrap32. rewrite Z.mul_mod_idemp_l by exact M. apply Z.mod_small. nia. }
  rewrite W1. assert (W2 : wrap32 (a + off * z) = (a + off * z)%Z) by (unfold wrap32; apply Z.mod_small; nia). rewrite W2.
  assert (W3 : wrap32 (wrap32 off * B) = wrap32 (off * B)) by (unfold wrap32; apply Z.mul_mod_idemp_l; exact M). rewrite W3.
  rewrite IH by nia. ring.
Qed.

Theorem flat_index_eq idx : length idx = d -> digits B idx -> flat_index d h idx = Ok (dig B (rev idx)).
Proof.
  intros HL HD. unfold flat_index. rewrite boxes_eq by exact Hh. cbn [bind]. f_equal.
  assert (E : map (fun i => nth (d - i - 1) idx 0%Z) (seq 0 d) = rev idx) by (rewrite <- HL; symmetry; apply rev_as_map).
  assert (F : forall (f : Z * Z -> Z -> Z * Z) s a, fold_left (fun acc i => f acc (nth (d - i - 1) idx 0%Z)) s a
     = fold_left f (map (fun i => nth (d - i - 1) idx 0%Z) s) a).
  { intros f s. induction s as [|i s IH]; intros a; [reflexivity|]. cbn [fold_left map]. apply IH. }
  rewrite (F (fun acc z => (wrap32 (fst acc + wrap32 (snd acc * z)), wrap32 (snd acc * B)))%Z), E.
  assert (HR : digits B (rev idx)) by (apply Forall_rev; exact HD).
  change (0, 1)%Z with (0, wrap32 1)%Z. rewrite flat_fold; [lia|exact HR|lia|lia|].
  assert (P : (0 < B)%Z) by (apply Z.pow_pos_nonneg; lia). assert (D := dig_bounds B P _ HR). rewrite rev_length, HL in D.
  rewrite <- Z.pow_mul_r in D by lia. assert (2 ^ (Z.of_nat h * Z.of_nat d) <= 2 ^ 32)%Z by (apply Z.pow_le_mono_r; lia).
  change (2 ^ 32)%Z with u32_max in *. lia.
Qed.
End FlatIndex.

(** *** Morton index *)
Lemma testbit_pair (a b : Z) n k : (0 <= n)%Z -> (0 <= b < 2 ^ n)%Z -> (0 <= k)%Z ->
  Z.testbit (a * 2 ^ n + b) k = if (k <? n)%Z then Z.testbit b k else Z.testbit a (k - n).
Proof.
  intros Hn Hb Hk. assert (P : (0 < 2 ^ n)%Z) by (apply Z.pow_pos_nonneg; lia). destruct (Z.ltb_spec k n).
  - rewrite <- (Z.mod_pow2_bits_low (a * 2 ^ n + b) n k) by lia. f_equal.
    rewrite Z.add_comm, Z.mod_add by lia. apply Z.mod_small. lia.
  - replace k with ((k - n) + n)%Z at 1 by lia. rewrite <- Z.div_pow2_bits by lia. f_equal.
    rewrite Z.add_comm, Z.div_add by lia. rewrite Z.div_small by lia. lia.
Qed.

Section Morton.
Variable d h : nat.
Hypothesis Hdh : d * h <= 64.
Notation B := (2 ^ Z.of_nat h)%Z.

Lemma helper_bits_gen (zs : list Z) : digits B zs -> length zs <= d -> 
  let acc := fold_left (fun acc z => Z.lor (Z.shiftl acc (Z.of_nat h) mod 2 ^ 64) z) zs 0%Z in
  forall j i, j < length zs -> i < h ->
    Z.testbit acc (Z.of_nat (j * h + i)) = Z.testbit (nth (length zs - 1 - j) zs 0%Z) (Z.of_nat i).
Proof.
  induction zs as [|z zs IH] using rev_ind; intros HD HL acc j i Hj Hi; [cbn in Hj; lia|].
  apply Forall_app in HD. destruct HD as [HD Hz]. inversion Hz as [|? ? Hz1 _]; subst.
  rewrite app_length in *. cbn [length] in *. unfold acc. rewrite fold_left_app. cbn [fold_left].
  set (acc0 := fold_left _ zs 0%Z) in *. rewrite Z.lor_spec.
  assert (HK : (Z.of_nat (j * h + i) < 64)%Z) by nia.
  rewrite Z.mod_pow2_bits_low by lia. rewrite Z.shiftl_spec by lia.
  destruct j as [|j].
  - cbn [Nat.mul Nat.add]. rewrite (Z.testbit_neg_r acc0) by lia. cbn [orb].
    rewrite app_nth2 by lia. replace (length zs + 1 - 1 - 0 - length zs) with 0 by lia. reflexivity.
  - replace (Z.of_nat (S j * h + i) - Z.of_nat h)%Z with (Z.of_nat (j * h + i)) by lia.
    rewrite IH by (auto; lia). rewrite app_nth1 by lia. replace (length zs + 1 - 1 - S j) with (length zs - 1 - j) by lia.
    assert (Z0 : Z.testbit z (Z.of_nat (S j * h + i)) = false).
    { destruct (Z.eq_dec z 0) as [->|NZ]; [apply Z.bits_0|]. apply Z.bits_above_log2; [lia|].
      apply Z.lt_le_trans with (Z.of_nat h); [apply Z.log2_lt_pow2; lia|lia]. }
    rewrite Z0. apply orb_false_r.
Qed.
Lemma helper_bits idx : length idx = d -> digits B idx -> forall j i, j < d -> i < h ->
  Z.testbit (morton_helper d h idx) (Z.of_nat (j * h + i)) = Z.testbit (nth (d - 1 - j) idx 0%Z) (Z.of_nat i).
Proof.
  intros HL HD j i Hj Hi. unfold morton_helper.
  assert (F : forall (f : Z -> Z -> Z) s a, fold_left (fun acc i => f acc (nth i idx 0%Z)) s a = fold_left f (map (fun i => nth i idx 0%Z) s) a).
  { intros f s. induction s as [|k s IH]; intros a; [reflexivity|]. cbn [fold_left map]. apply IH. }
  rewrite (F (fun acc z => Z.lor (Z.shiftl acc (Z.of_nat h) mod 2 ^ 64) z)).
  assert (E : map (fun i => nth i idx 0%Z) (seq 0 d) = idx) by (symmetry; apply list_as_map_seq; exact HL). rewrite E.
  rewrite helper_bits_gen by (auto; lia). rewrite HL. reflexivity.
Qed.

Lemma put_bits (b : nat -> bool) m : forall n acc, (forall k, (Z.of_nat n <= k)%Z -> Z.testbit acc k = false) ->
  exists acc', fold_left (fun (acc : nat * Z) j => (S (fst acc), put_bit (snd acc) (fst acc) (b j))) (seq 0 m) (n, acc) = (n + m, acc') /\
    (forall k, (0 <= k < Z.of_nat n)%Z -> Z.testbit acc' k = Z.testbit acc k) /\
    (forall j, j < m -> Z.testbit acc' (Z.of_nat (n + j)) = b j) /\
    (forall k, (Z.of_nat (n + m) <= k)%Z -> Z.testbit acc' k = false).
Proof.
  induction m as [|m IH]; intros n acc Hz.
  - exists acc. rewrite Nat.add_0_r. split; [reflexivity|]. split; [auto|]. split; [lia|exact Hz].
  - destruct (IH n acc Hz) as (acc1 & E & L & Mi & U). rewrite seq_S, fold_left_app, E. cbn [fold_left fst snd Nat.add].
    eexists. split; [rewrite Nat.add_succ_r; reflexivity|].
    assert (PB : forall k, (0 <= k)%Z -> Z.testbit (put_bit acc1 (n + m) (b m)) k = if (k =? Z.of_nat (n + m))%Z then b m else Z.testbit acc1 k).
    { intros k Hk. unfold put_bit. destruct (b m).
      - rewrite Z.setbit_eqb by lia. rewrite Z.eqb_sym. destruct (k =? _)%Z; reflexivity.
      - rewrite Z.clearbit_eqb. rewrite Z.eqb_sym. destruct (k =? _)%Z; cbn [negb]; [apply andb_false_r|apply andb_true_r]. }
    split; [|split].
    + intros k Hk. rewrite PB by lia. destruct (Z.eqb_spec k (Z.of_nat (n + m))); [lia|]. apply L. lia.
    + intros j Hj. rewrite PB by lia. destruct (Z.eqb_spec (Z.of_nat (n + j)) (Z.of_nat (n + m))) as [Q|Q].
      * replace j with m by lia. reflexivity.
      * apply Mi. lia.
    + intros k Hk. rewrite PB by lia. destruct (Z.eqb_spec k (Z.of_nat (n + m))); [lia|]. apply U. lia.
Qed.

Lemma morton_bits_spec helper hh : exists acc,
  fold_left (fun (acc : nat * Z) i => fold_left (fun (acc : nat * Z) j => (S (fst acc), put_bit (snd acc) (fst acc) (Z.testbit helper (Z.of_nat (j * h + i))))) (seq 0 d) acc)
    (seq 0 hh) (0, 0%Z) = (hh * d, acc) /\
    (forall i j, i < hh -> j < d -> Z.testbit acc (Z.of_nat (i * d + j)) = Z.testbit helper (Z.of_nat (j * h + i))) /\
    (forall k, (Z.of_nat (hh * d) <= k)%Z -> Z.testbit acc k = false).
Proof.
  induction hh as [|hh IH].
  - exists 0%Z. split; [reflexivity|]. split; [lia|]. intros; apply Z.bits_0.
  - destruct IH as (acc & E & Bt & U). rewrite seq_S, fold_left_app, E. cbn [fold_left Nat.add].
    destruct (put_bits (fun j => Z.testbit helper (Z.of_nat (j * h + hh))) d (hh * d) acc U) as (acc1 & E1 & L1 & M1 & U1).
    exists acc1. split; [rewrite E1; f_equal; lia|]. split.
    + intros i j Hi Hj. destruct (Nat.eq_dec i hh) as [->|NE].
      * apply M1. exact Hj.
      * rewrite L1; [apply Bt; lia|]. split; [lia|]. apply Nat2Z.inj_lt. nia.
    + intros k Hk. apply U1. lia.
Qed.
End Morton.

Theorem morton_index_bits d h idx : h < 64 / d -> length idx = d -> digits (2 ^ Z.of_nat h) idx ->
  exists m, morton_index d h idx = Ok m /\ (0 <= m < 2 ^ Z.of_nat (d * h))%Z /\
  forall i j, i < h -> j < d -> Z.testbit m (Z.of_nat (i * d + j)) = Z.testbit (nth (d - 1 - j) idx 0%Z) (Z.of_nat i).
Proof.
  intros Hh HL HD. assert (Hd : d <> 0) by (intros ->; cbn in Hh; lia).
  assert (Hdh : d * h <= 64) by (assert (Q := Nat.mul_div_le 64 d Hd); nia).
  unfold morton_index. rewrite (proj2 (Nat.leb_gt _ _)) by exact Hh.
  destruct (morton_bits_spec d h Hdh (morton_helper d h idx) h) as (m & E & Bt & U).
  unfold morton_bits. rewrite E. exists m. split; [reflexivity|]. split.
  - split.
    + destruct (Z_lt_le_dec m 0) as [N|]; [|assumption]. exfalso.
      assert (X := Z.bits_iff_neg_ex m). destruct X as [_ X]. 
      assert (X2 := proj1 (Z.bits_iff_neg_ex m)). specialize (X2 N). destruct X2 as (k & Hk).
      specialize (Hk (Z.max (k + 1) (Z.of_nat (h * d))) ltac:(lia)). rewrite U in Hk by lia. discriminate.
    + destruct (Z_lt_le_dec m (2 ^ Z.of_nat (d * h))) as [|G]; [assumption|]. exfalso.
      assert (P : (0 < 2 ^ Z.of_nat (d * h))%Z) by (apply Z.pow_pos_nonneg; lia).
      assert (L : (Z.of_nat (d * h) <= Z.log2 m)%Z) by (apply Z.log2_le_pow2; lia).
      assert (T := Z.bit_log2 m ltac:(lia)). rewrite U in T; [discriminate|]. rewrite Nat.mul_comm. exact L.
  - intros i j Hi Hj. rewrite Bt by assumption. apply helper_bits; auto.
Qed.
