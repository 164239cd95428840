(** The structure of a balanced tree stated on the built object. *)
From Coq Require Import List Bool ZArith Arith Lia Lra Reals Permutation.
From Verif Require Import Num Outcome Vec Orthtree AdaptiveTree TreeSpec VecProofs GeometrySpec GeometryProofs TreeGeometry
  AdaptiveProofs BfsProofs ListProofs ListContents RootBoxProofs BuildProofs TreeTheorems
  TreeTheorems3 CAux FieldSpec Fields FieldProofs FmmPasses PassTree FmmTree2D FmmApi FmmApiProofs BalancedTree BalancedSpec BalancedIndex BalancedAddr BalancedProofs BalancedFmm BalancedApiProofs.
Import ListNotations.

(** *** Leaf box indices *)
Theorem indices_inside d h c l x : length c = d -> (0 < l)%R -> h < 32 -> length x = d -> in_half_open d c l x ->
  exists idx, leaf_box_indices d h c l x = Ok idx /\ length idx = d /\
  forall j, j < d -> (0 <= nth j idx 0 < 2 ^ Z.of_nat h)%Z /\
    (nth j c 0 - l / 2 + IZR (nth j idx 0%Z) * (l / 2 ^ h) <= nth j x 0 < nth j c 0 - l / 2 + (IZR (nth j idx 0%Z) + 1) * (l / 2 ^ h))%R.
Proof.
  intros Hc Hl Hh Hx H. eexists. split; [apply indices_in; assumption|]. split; [rewrite map_length, seq_length; reflexivity|].
  intros j Hj. rewrite (nth_map_seq (fun j => Int_part (coord h c l x j)) d j 0%Z Hj).
  split; [apply (half_open_coord d); assumption|]. assert (F := floor_coord h c l Hl x j). cbn zeta in F. lra.
Qed.

(** *** Flat and Morton indices *)
Lemma tuple_digits d h idx : tuple d h idx -> digits (2 ^ Z.of_nat h) idx.
Proof. intros [_ H]. apply Forall_forall. exact H. Qed.
Lemma digits_tuple d h idx : length idx = d -> digits (2 ^ Z.of_nat h) idx -> tuple d h idx.
Proof. intros L H. split; [exact L|]. apply Forall_forall. exact H. Qed.

Theorem flat_bijective d h : h < 32 -> d * h <= 32 ->
  (forall idx, tuple d h idx -> exists k, flat_index d h idx = Ok k /\ (0 <= k < 2 ^ Z.of_nat (d * h))%Z) /\
  (forall i1 i2, tuple d h i1 -> tuple d h i2 -> flat_index d h i1 = flat_index d h i2 -> i1 = i2) /\
  (forall k, (0 <= k < 2 ^ Z.of_nat (d * h))%Z -> exists idx, tuple d h idx /\ flat_index d h idx = Ok k).
Proof.
  intros Hh Hdh. assert (P : (0 < 2 ^ Z.of_nat h)%Z) by (apply Z.pow_pos_nonneg; lia).
  assert (EP : forall n, n = d -> ((2 ^ Z.of_nat h) ^ Z.of_nat n = 2 ^ Z.of_nat (d * h))%Z).
  { intros n ->. rewrite <- Z.pow_mul_r by lia. f_equal. lia. }
  split; [|split].
  - intros idx T. exists (dig (2 ^ Z.of_nat h) (rev idx)). assert (D := tuple_digits _ _ _ T). destruct T as [L _].
    split; [apply flat_index_eq; assumption|]. assert (B := dig_bounds _ P _ (Forall_rev D)). rewrite rev_length, EP in B by exact L. exact B.
  - intros i1 i2 T1 T2 E. assert (D1 := tuple_digits _ _ _ T1). assert (D2 := tuple_digits _ _ _ T2). destruct T1 as [L1 _], T2 as [L2 _].
    rewrite !flat_index_eq in E by assumption. injection E as E. apply (dig_inj _ P) in E; [|apply Forall_rev; assumption|apply Forall_rev; assumption|rewrite !rev_length; congruence].
    rewrite <- (rev_involutive i1), <- (rev_involutive i2), E. reflexivity.
  - intros k Hk. rewrite <- (EP d eq_refl) in Hk. destruct (dig_onto _ P d k Hk) as (zs & L & D & E). exists (rev zs).
    assert (D' : digits (2 ^ Z.of_nat h) (rev zs)) by (apply Forall_rev; exact D).
    split; [apply digits_tuple; [rewrite rev_length; exact L|exact D']|]. rewrite flat_index_eq by (try rewrite rev_length; assumption).
    rewrite rev_involutive, E. reflexivity.
Qed.

Lemma all_boxes_NoDup d k : NoDup (all_boxes d k).
Proof.
  apply NoDup_nth_error. intros i j Hi E.
  assert (K : forall i p, nth_error (all_boxes d k) i = Some p -> valid d p /\ length p = k).
  { intros i0 p Hp. apply all_boxes_In. eapply nth_error_In. exact Hp. }
  (* the boxes are as many as their index values, and every index value is taken *)
  revert i j Hi E. apply NoDup_nth_error.
  clear K. induction k as [|k IH]; [repeat constructor; intros []|]. cbn [all_boxes]. apply NoDup_flat_map.
  - exact IH.
  - intros p _. apply FinFun.Injective_map_NoDup; [intros a b H; congruence|apply seq_NoDup].
  - intros p q z _ _ Hp Hq. apply in_map_iff in Hp, Hq. destruct Hp as (a & <- & _), Hq as (b & Eb & _). congruence.
Qed.
Lemma nth_boxes_aidx d k i p : nth_error (all_boxes d k) i = Some p -> valid d p /\ length p = k /\ aidx d p = Z.of_nat i.
Proof.
  intros H. assert (I : In p (all_boxes d k)) by (eapply nth_error_In; exact H). apply all_boxes_In in I. destruct I as [V L].
  split; [exact V|]. split; [exact L|]. assert (N := nth_all_boxes d p V). rewrite L in N.
  assert (Hi : i < length (all_boxes d k)) by (apply nth_error_Some; congruence).
  assert (E : i = Z.to_nat (aidx d p)) by (apply (proj1 (NoDup_nth_error (all_boxes d k)) (all_boxes_NoDup d k)); [exact Hi|congruence]).
  assert (B := aidx_bounds d p V). lia.
Qed.

Theorem morton_bijective d h : h < 64 / d ->
  (forall idx, tuple d h idx -> exists m, morton_index d h idx = Ok m /\ (0 <= m < 2 ^ Z.of_nat (d * h))%Z /\
     forall i j, i < h -> j < d -> Z.testbit m (Z.of_nat (i * d + j)) = Z.testbit (nth (d - 1 - j) idx 0%Z) (Z.of_nat i)) /\
  (forall i1 i2, tuple d h i1 -> tuple d h i2 -> morton_index d h i1 = morton_index d h i2 -> i1 = i2) /\
  (forall m, (0 <= m < 2 ^ Z.of_nat (d * h))%Z -> exists idx, tuple d h idx /\ morton_index d h idx = Ok m).
Proof.
  intros Hh. split; [|split].
  - intros idx T. apply morton_index_bits; [exact Hh|apply T|apply tuple_digits in T; exact T].
  - intros i1 i2 T1 T2 E. assert (D1 := tuple_digits _ _ _ T1). assert (D2 := tuple_digits _ _ _ T2).
    destruct (morton_index_bits d h i1 Hh (proj1 T1) D1) as (m1 & E1 & _ & B1).
    destruct (morton_index_bits d h i2 Hh (proj1 T2) D2) as (m2 & E2 & _ & B2).
    assert (m2 = m1) by congruence. subst m2.
    apply (nth_ext _ _ 0%Z 0%Z); [destruct T1, T2; congruence|]. intros n Hn. assert (Hnd : n < d) by (destruct T1; lia).
    assert (R1 : (0 <= nth n i1 0 < 2 ^ Z.of_nat h)%Z) by (apply T1; apply nth_In; exact Hn).
    assert (R2 : (0 <= nth n i2 0 < 2 ^ Z.of_nat h)%Z) by (apply T2; apply nth_In; destruct T1, T2; lia).
    apply Z.bits_inj'. intros k Hk. destruct (Z.lt_ge_cases k (Z.of_nat h)) as [Lk|Lk].
    + specialize (B1 (Z.to_nat k) (d - 1 - n) ltac:(lia) ltac:(lia)). specialize (B2 (Z.to_nat k) (d - 1 - n) ltac:(lia) ltac:(lia)).
      replace (d - 1 - (d - 1 - n)) with n in * by lia. rewrite Z2Nat.id in * by lia. congruence.
    + assert (HB : forall z, (0 <= z < 2 ^ Z.of_nat h)%Z -> Z.testbit z k = false).
      { intros z Hz. destruct (Z.eq_dec z 0) as [->|]; [apply Z.testbit_0_l|]. apply Z.bits_above_log2; [lia|].
        eapply Z.lt_le_trans; [|exact Lk]. apply Z.log2_lt_pow2; lia. }
      rewrite !HB by assumption. reflexivity.
  - intros m Hm.
    assert (HN : Z.to_nat m < length (all_boxes d h)).
    { rewrite all_boxes_length. rewrite <- Nat.pow_mul_r. apply Nat2Z.inj_lt. rewrite Z2Nat.id by lia. rewrite Nat2Z.inj_pow. exact (proj2 Hm). }
    destruct (nth_error (all_boxes d h) (Z.to_nat m)) as [p|] eqn:E; [|apply nth_error_None in E; lia].
    destruct (nth_boxes_aidx _ _ _ _ E) as (V & L & A). exists (gcos d p). split.
    + apply digits_tuple; [apply gcos_length|]. rewrite <- L. apply gcos_digits.
    + rewrite <- L in Hh. assert (M := morton_aidx d p V Hh). rewrite L in M. rewrite M, A. f_equal. lia.
Qed.
Theorem morton_throws d h idx : 64 / d <= h <-> morton_index d h idx = Throw.
Proof.
  unfold morton_index. destruct (Nat.leb_spec (64 / d) h) as [H|H]; split; intros K; try reflexivity; try assumption; [lia|discriminate].
Qed.
(** The flat index is computed in 32 bits: at depth 11 of an octree different boxes collide. *)
Theorem flat_wraps : exists i1 i2, i1 <> i2 /\ tuple 3 11 i1 /\ tuple 3 11 i2 /\ flat_index 3 11 i1 = flat_index 3 11 i2.
Proof.
  exists [0; 0; 0]%Z, [1024; 0; 0]%Z. split; [discriminate|].
  assert (T : forall a, (0 <= a < 2048)%Z -> tuple 3 11 [a; 0; 0]%Z).
  { intros a Ha. split; [reflexivity|]. change (2 ^ Z.of_nat 11)%Z with 2048%Z. intros z Hz. repeat destruct Hz as [<-|Hz]; try lia; destruct Hz. }
  split; [apply T; lia|]. split; [apply T; lia|]. reflexivity.
Qed.

(** *** The built tree *)
Section Built.
Context {Src : Type}.
Variable d : nat.
Variable pos : Src -> list R.
Variable h : nat.
Variable srcs : list Src.
Variable t : @btree R Src.
Variable ls : nlists.
Hypothesis Hd : 1 <= d.
Hypothesis Hpos : forall s, In s srcs -> length (pos s) = d.
Hypothesis H1 : 1 <= h.
Hypothesis Hh : h < 32.
Hypothesis Hdh : d * h <= 32.
Hypothesis HB : bal_build d pos h srcs = Ok (t, ls).

Lemma bal_inv : exists c l ch, root_box d (map pos srcs) = Some (c, l) /\ length c = d /\ (0 < l)%R /\
  (forall s, In s srcs -> in_half_open d c l (pos s)) /\
  (forall p, present d pos c l 0 srcs (ByDepth h) p -> ch p = chs d pos c l srcs h p) /\
  t = bal_spec d pos c l srcs h ch /\ ls = final d pos c l 0 srcs (ByDepth h) h.
Proof.
  assert (HR : exists c l, root_box d (map pos srcs) = Some (c, l)).
  { unfold bal_build in HB. destruct (root_box d (map pos srcs)) as [[c l]|]; [eauto|discriminate]. }
  destruct HR as (c & l & HR). exists c, l.
  destruct (root_len d pos srcs Hd Hpos c l HR) as [Hc _].
  destruct (proj1 (bal_build_iff d pos srcs Hd Hpos h c l H1 Hh Hdh HR) (ex_intro _ _ HB)) as [Hl Hin].
  destruct (bal_in_box_ok d pos c l srcs h Hd Hc Hpos Hl Hh Hdh Hin H1) as (ch & Hch & HBX). exists ch.
  assert (HB' : bal_build d pos h srcs = Ok (bal_spec d pos c l srcs h ch, final d pos c l 0 srcs (ByDepth h) h)).
  { unfold bal_build. rewrite HR. destruct h as [|h']; [lia|]. exact HBX. }
  rewrite HB in HB'. injection HB' as -> ->. repeat (split; [assumption|]). split; reflexivity.
Qed.

(** Sizes and order of the arrays. *)
Notation offset := (level_offset d).
Theorem layout : (2 ^ d - 1) * length (bt_nodes t) = (2 ^ d) ^ h - 1 /\ length (bt_leaves t) = (2 ^ d) ^ h /\
  (forall k i n, nth_error (bt_nodes t) i = Some n -> (an_depth n = k <-> offset k <= i < offset k + (2 ^ d) ^ k)) /\
  (forall i n, nth_error (bt_leaves t) i = Some n -> an_depth n = h) /\
  (h < 64 / d -> exists c l, root_box d (map pos srcs) = Some (c, l) /\ forall i n, nth_error (bt_leaves t) i = Some n ->
     an_len n = (l / 2 ^ h)%R /\ exists idx, leaf_box_indices d h c l (an_center n) = Ok idx /\ morton_index d h idx = Ok (Z.of_nat i)).
Proof.
  destruct bal_inv as (c & l & ch & HR & Hc & Hl & Hin & Hch & -> & _). cbn [bal_spec bt_nodes bt_leaves].
  assert (NC := nc_ge d pos c srcs Hd Hc Hpos). unfold n_children in NC.
  assert (CNT : forall k, k <= h -> (2 ^ d - 1) * length (flat_map (level d pos c l 0 srcs (ByDepth h)) (seq 0 k)) + 1 = (2 ^ d) ^ k).
  { intros k Hk. rewrite (nodes_count d pos c l srcs h Hd Hc) by exact Hk. apply (geom d c Hd Hc). exact NC. }
  assert (LV : forall k, k <= h -> length (level d pos c l 0 srcs (ByDepth h) k) = (2 ^ d) ^ k).
  { intros k Hk. rewrite (level_boxes d pos c l srcs h Hd Hc) by exact Hk. apply all_boxes_length. }
  assert (OFF : forall k, k <= h -> offset k = length (flat_map (level d pos c l 0 srcs (ByDepth h)) (seq 0 k))).
  { intros k Hk. unfold level_offset. rewrite <- (CNT k Hk), Nat.add_sub, Nat.mul_comm. apply Nat.div_mul. lia. }
  split; [rewrite map_length; rewrite <- (CNT h (le_n h)), Nat.add_sub; reflexivity|]. split; [rewrite map_length; apply LV; lia|].
  split; [|split].
  - intros k i n E. rewrite nth_error_map in E. destruct (nth_error (flat_map _ (seq 0 h)) i) as [p|] eqn:Ep; [|discriminate].
    injection E as <-. change (an_depth (mk d pos c l 0 srcs (ByDepth h) p)) with (length p).
    assert (IP : In p (flat_map (level d pos c l 0 srcs (ByDepth h)) (seq 0 h))) by (eapply nth_error_In; exact Ep).
    apply in_flat_map in IP. destruct IP as (kp & Hkp & IP). apply in_seq in Hkp. assert (LP := level_len d pos c l srcs h kp p IP).
    assert (RNG : forall k', k' < h -> (offset k' <= i < offset k' + (2 ^ d) ^ k' -> length p = k')).
    { intros k' Hk' Hi.
      assert (SP : seq 0 h = seq 0 k' ++ k' :: seq (S k') (h - S k')).
      { replace (k' :: seq (S k') (h - S k')) with (seq k' (S (h - S k'))) by reflexivity. rewrite <- (seq_app k' _ 0). f_equal. lia. }
      rewrite SP, flat_map_app in Ep. cbn [flat_map] in Ep. rewrite OFF in Hi by lia.
      rewrite nth_error_app2 in Ep by lia. rewrite nth_error_app1 in Ep by (rewrite LV by lia; lia).
      apply nth_error_In in Ep. eapply level_len. exact Ep. }
    assert (SUC : forall k', k' < h -> offset k' + (2 ^ d) ^ k' = offset (S k')).
    { intros k' Hk'. rewrite !OFF by lia. rewrite (seq_S k' 0), flat_map_app, app_length. cbn [flat_map Nat.add]. rewrite app_nil_r, LV by lia. reflexivity. }
    assert (MONO : forall a b, a <= b -> b <= h -> offset a <= offset b).
    { intros a b Hab. induction Hab as [|b Hab IH]; intros Hb; [lia|]. rewrite <- SUC by lia. specialize (IH ltac:(lia)). lia. }
    split.
    + intros <-. assert (IN : i < offset h).
      { rewrite OFF by lia. apply nth_error_Some. congruence. }
      (* the depth-k slice that contains i *)
      assert (FIND : forall b, b <= h -> i < offset b -> exists k', k' < b /\ offset k' <= i < offset k' + (2 ^ d) ^ k').
      { induction b as [|b IH]; intros Hb Hi; [rewrite OFF in Hi by lia; cbn in Hi; lia|].
        destruct (le_lt_dec (offset b) i) as [G|G]; [exists b; split; [lia|]; rewrite SUC by lia; lia|].
        destruct (IH ltac:(lia) G) as (k' & ? & ?). exists k'. split; [lia|assumption]. }
      destruct (FIND h (le_n h) IN) as (k' & Hk' & R). rewrite (RNG k' ltac:(lia) R). exact R.
    + intros R. destruct (le_lt_dec h k) as [G|G]; [|apply RNG; assumption]. exfalso.
      assert (i < offset h) by (rewrite OFF by lia; apply nth_error_Some; congruence).
      assert (offset h <= offset k); [|lia]. unfold level_offset. apply Nat.div_le_mono; [lia|]. assert ((2 ^ d) ^ h <= (2 ^ d) ^ k) by (apply Nat.pow_le_mono_r; lia). lia.
  - intros i n E. apply nth_error_In in E. apply in_map_iff in E. destruct E as (p & <- & Hp). apply level_len in Hp. exact Hp.
  - intros H64. exists c, l. split; [exact HR|]. intros i n E. rewrite nth_error_map in E.
    rewrite (level_boxes d pos c l srcs h Hd Hc) in E by lia.
    destruct (nth_error (all_boxes d h) i) as [p|] eqn:Ep; [|discriminate]. injection E as <-.
    destruct (nth_boxes_aidx _ _ _ _ Ep) as (V & L & A).
    change (an_len (mk d pos c l 0 srcs (ByDepth h) p)) with (box_len l p). change (an_center (mk d pos c l 0 srcs (ByDepth h) p)) with (box_ctr d c l p).
    split; [rewrite box_len_pow, L; reflexivity|]. exists (gcos d p). split; [apply indices_ctr; assumption|].
    rewrite <- A. rewrite <- L in H64. assert (M := morton_aidx d p V H64). rewrite L in M. exact M.
Qed.

(** The sources of a leaf. *)
Definition inside (n : @anode R Src) (s : Src) : Prop := in_half_open d (an_center n) (an_len n) (pos s).
Lemma leaf_inv n : In n (bt_leaves t) -> exists c l p, root_box d (map pos srcs) = Some (c, l) /\ length c = d /\ (0 < l)%R /\ (forall s, In s srcs -> in_half_open d c l (pos s)) /\
  length p = h /\ valid d p /\ n = mk d pos c l 0 srcs (ByDepth h) p.
Proof.
  destruct bal_inv as (c & l & ch & HR & Hc & Hl & Hin & Hch & -> & _). cbn [bal_spec bt_leaves]. intros Hn.
  apply in_map_iff in Hn. destruct Hn as (p & <- & Hp). exists c, l, p. repeat (split; [assumption|]).
  split; [eapply level_len; exact Hp|]. split; [|reflexivity]. apply (level_valid d pos c l srcs h Hd Hc Hpos) in Hp. exact Hp.
Qed.
Lemma path_inside c l p x : length c = d -> (0 < l)%R -> valid d p -> length p = h -> in_half_open d c l x -> 
  (path d c l x h = p <-> in_half_open d (box_ctr d c l p) (box_len l p) x).
Proof. intros Hc Hl V L Hx. assert (A := path_iff d c l p x Hc Hl V Hx). rewrite L in A. exact A. Qed.
Theorem leaf_contents n : In n (bt_leaves t) ->
  exists b : Src -> bool, (forall s, In s srcs -> (b s = true <-> inside n s)) /\ an_srcs n = filter b srcs.
Proof.
  intros Hn. destruct (leaf_inv n Hn) as (c & l & p & _ & Hc & Hl & Hin & L & V & ->). exists (fun s => addr_eqb (path d c l (pos s) h) p). split.
  - intros s Hs. rewrite addr_eqb_eq. unfold inside. change (an_len (mk d pos c l 0 srcs (ByDepth h) p)) with (box_len l p).
    change (an_center (mk d pos c l 0 srcs (ByDepth h) p)) with (box_ctr d c l p). apply path_inside; auto.
  - assert (ES : an_srcs (mk d pos c l 0 srcs (ByDepth h) p) = sub d pos c l srcs p).
    { unfold mk. cbn [an_srcs]. rewrite refined_eq, L, Nat.ltb_irrefl. reflexivity. }
    rewrite ES, sub_filter, L. reflexivity.
Qed.
Theorem source_found s : h < 64 / d -> In s srcs -> exists n, bal_containing_leaf d t (pos s) = Ok n /\ In n (bt_leaves t) /\ In s (an_srcs n).
Proof.
  intros H64 Hs. destruct bal_inv as (c & l & ch & HR & Hc & Hl & Hin & Hch & -> & _).
  eexists. split; [apply bal_containing_leaf_ok; auto|].
  assert (PV := path_valid_all d c l (pos s) h). assert (PL := path_length d c l (pos s) h). split.
  - cbn [bal_spec bt_leaves]. apply in_map. rewrite (level_boxes d pos c l srcs h Hd Hc) by lia. apply all_boxes_In. auto.
  - unfold mk. cbn [an_srcs]. rewrite refined_eq, PL, Nat.ltb_irrefl. cbn [negb]. rewrite sub_filter, PL. apply filter_In. split; [exact Hs|]. apply addr_eqb_eq. reflexivity.
Qed.
(** The leaf found for any point of the half-open root box contains it. *)
Theorem leaf_found x : h < 64 / d -> length x = d -> forall c l, root_box d (map pos srcs) = Some (c, l) -> in_half_open d c l x ->
  exists n, bal_containing_leaf d t x = Ok n /\ In n (bt_leaves t) /\ in_half_open d (an_center n) (an_len n) x.
Proof.
  intros H64 Hx c0 l0 HR0 HI. destruct bal_inv as (c & l & ch & HR & Hc & Hl & Hin & Hch & -> & _).
  rewrite HR in HR0. injection HR0 as <- <-.
  assert (PV := path_valid_all d c l x h). assert (PL := path_length d c l x h).
  eexists. split; [apply bal_containing_leaf_ok; auto|]. split.
  - cbn [bal_spec bt_leaves]. apply in_map. rewrite (level_boxes d pos c l srcs h Hd Hc) by lia. apply all_boxes_In. auto.
  - apply (path_inside c l); auto.
Qed.

(** Near lists and interaction lists. *)
Lemma box_inv n : In n (boxes t) -> exists c l p, root_box d (map pos srcs) = Some (c, l) /\ length c = d /\ (0 < l)%R /\
  present d pos c l 0 srcs (ByDepth h) p /\ n = mk d pos c l 0 srcs (ByDepth h) p.
Proof.
  destruct bal_inv as (c & l & ch & HR & Hc & Hl & Hin & Hch & -> & _). unfold boxes. cbn [bal_spec bt_nodes bt_leaves]. rewrite <- map_app. intros Hn.
  apply in_map_iff in Hn. destruct Hn as (p & <- & Hp). exists c, l, p. repeat (split; [assumption|]). split; [|reflexivity].
  apply in_app_or in Hp. destruct Hp as [Hp|Hp]; [apply in_flat_map in Hp; destruct Hp as (k & _ & Hp)|]; apply in_level in Hp; apply Hp.
Qed.
Lemma present_box c l p : root_box d (map pos srcs) = Some (c, l) -> present d pos c l 0 srcs (ByDepth h) p -> In (mk d pos c l 0 srcs (ByDepth h) p) (boxes t).
Proof.
  destruct bal_inv as (c' & l' & ch & HR & Hc & Hl & Hin & Hch & -> & _). intros HR' P. rewrite HR in HR'. injection HR' as <- <-.
  unfold boxes. cbn [bal_spec bt_nodes bt_leaves]. rewrite <- map_app. apply in_map.
  assert (I : In p (order d pos c' l' 0 srcs (ByDepth h) h)) by (apply in_order; [apply height_ok_bal; assumption|exact P]).
  unfold order in I. rewrite seq_S, flat_map_app in I. cbn [flat_map Nat.add] in I. rewrite app_nil_r in I. exact I.
Qed.
Theorem near_exact n : In n (boxes t) -> NoDup (nl_near ls (an_addr n)) /\
  forall q, In q (nl_near ls (an_addr n)) <->
    exists m, In m (boxes t) /\ an_addr m = q /\ an_depth m = an_depth n /\ boxes_touch d (an_center n) (an_len n) (an_center m) (an_len m).
Proof.
  intros Hn. destruct (box_inv n Hn) as (c & l & p & HR & Hc & Hl & P & ->).
  destruct bal_inv as (c' & l' & ch & HR' & _ & _ & Hin & Hch & Et & El). rewrite HR in HR'. injection HR' as <- <-.
  assert (HO := height_ok_bal d pos c l srcs h Hd Hc).
  change (an_addr (mk d pos c l 0 srcs (ByDepth h) p)) with p. rewrite El.
  assert (REL : forall q, In q (nl_near (final d pos c l 0 srcs (ByDepth h) h) p) <-> present d pos c l 0 srcs (ByDepth h) q /\ length q = length p /\ touch d p q = true).
  { intros q. assert (PL := proj1 (present_iff d pos c l srcs h Hd Hc Hpos p) P).
    destruct (refined d pos c l 0 srcs (ByDepth h) p) eqn:Rp.
    - rewrite (final_near_inner d pos c l 0 srcs (ByDepth h) h Hc HO p P Rp). rewrite (own_near_in d pos c l 0 srcs (ByDepth h) Hc p q P).
      unfold near_rel. rewrite Rp. split.
      + intros (Pq & T & D). split; [exact Pq|]. split; [|exact T]. destruct D as [D|[D1 D2]]; [exact D|]. rewrite refined_eq in D2, Rp. apply Nat.ltb_ge in D2. apply Nat.ltb_lt in Rp. lia.
      + intros (Pq & Lq & T). split; [exact Pq|]. split; [exact T|]. tauto.
    - rewrite (final_near_leaf d pos c l 0 srcs (ByDepth h) h Hc HO p q P Rp). rewrite refined_eq in *. apply Nat.ltb_ge in Rp. split.
      + intros (Pq & Rq & T). apply Nat.ltb_ge in Rq. assert (QL := proj1 (present_iff d pos c l srcs h Hd Hc Hpos q) Pq). split; [exact Pq|]. split; [lia|exact T].
      + intros (Pq & Lq & T). split; [exact Pq|]. split; [apply Nat.ltb_ge; lia|exact T]. }
  split.
  - destruct (refined d pos c l 0 srcs (ByDepth h) p) eqn:Rp.
    + rewrite (final_near_inner d pos c l 0 srcs (ByDepth h) h Hc HO p P Rp). apply (own_near_NoDup d pos c l 0 srcs (ByDepth h) Hc p P).
    + apply (final_near_leaf_NoDup d pos c l 0 srcs (ByDepth h) h Hc HO p P Rp).
  - intros q. rewrite REL. split.
    + intros (Pq & Lq & T). exists (mk d pos c l 0 srcs (ByDepth h) q). split; [apply present_box; assumption|]. split; [reflexivity|].
      split; [exact Lq|]. apply (touch_boxes d c l); assumption.
    + intros (m & Hm & Em & Dm & T). destruct (box_inv m Hm) as (c2 & l2 & q2 & HR2 & _ & _ & Pq & ->). rewrite HR in HR2. injection HR2 as <- <-.
      change (an_addr (mk d pos c l 0 srcs (ByDepth h) q2)) with q2 in Em. subst q2. split; [exact Pq|]. split; [exact Dm|].
      apply (touch_boxes d c l); assumption.
Qed.
Theorem inter_exact n : In n (boxes t) -> NoDup (nl_inter ls (an_addr n)) /\
  (forall q, In q (nl_inter ls (an_addr n)) <->
    exists i p j r m, an_addr n = i :: p /\ q = j :: r /\ In m (boxes t) /\ an_addr m = q /\ In r (nl_near ls p) /\
      ~ boxes_touch d (an_center n) (an_len n) (an_center m) (an_len m)).
Proof.
  intros Hn. destruct (box_inv n Hn) as (c & l & p & HR & Hc & Hl & P & ->).
  destruct bal_inv as (c' & l' & ch & HR' & _ & _ & Hin & Hch & Et & El). rewrite HR in HR'. injection HR' as <- <-.
  assert (HO := height_ok_bal d pos c l srcs h Hd Hc).
  change (an_addr (mk d pos c l 0 srcs (ByDepth h) p)) with p.
  split; [rewrite El; apply (final_inter_NoDup d pos c l 0 srcs (ByDepth h) h Hc HO p P)|].
  intros q. rewrite El at 1. rewrite (final_inter_in d pos c l 0 srcs (ByDepth h) h Hc HO p q P). unfold vrel.
  assert (NR : forall i p0 r, i :: p0 = p -> (In r (nl_near ls p0) <-> present d pos c l 0 srcs (ByDepth h) r /\ length r = length p0 /\ touch d p0 r = true)).
  { intros i p0 r E. assert (P0 : present d pos c l 0 srcs (ByDepth h) p0). { rewrite <- E in P. cbn [present] in P. apply P. }
    destruct (near_exact _ (present_box c l p0 HR P0)) as [_ X]. specialize (X r).
    change (an_addr (mk d pos c l 0 srcs (ByDepth h) p0)) with p0 in X. rewrite X. split.
    - intros (m & Hm & Em & Dm & T). destruct (box_inv m Hm) as (c2 & l2 & q2 & HR2 & _ & _ & Pq & ->). rewrite HR in HR2. injection HR2 as <- <-.
      change (an_addr (mk d pos c l 0 srcs (ByDepth h) q2)) with q2 in Em. subst q2. split; [exact Pq|]. split; [exact Dm|]. apply (touch_boxes d c l); assumption.
    - intros (Pr & Lr & T). exists (mk d pos c l 0 srcs (ByDepth h) r). split; [apply present_box; assumption|]. split; [reflexivity|]. split; [exact Lr|].
      apply (touch_boxes d c l); assumption. }
  split.
  - intros [Pq V]. apply andb_true_iff in V. destruct V as [V NT]. apply andb_true_iff in V. destruct V as [V T]. apply andb_true_iff in V. destruct V as [V1 V2].
    apply Nat.eqb_eq in V1. apply Nat.leb_le in V2. apply negb_true_iff in NT.
    destruct p as [|i p]; [cbn in V2; lia|]. destruct q as [|j r]; [cbn in V1; lia|]. cbn [tl length] in *.
    exists i, p, j, r, (mk d pos c l 0 srcs (ByDepth h) (j :: r)). split; [reflexivity|]. split; [reflexivity|]. split; [apply present_box; assumption|]. split; [reflexivity|]. split.
    + apply (NR i p r eq_refl). cbn [present] in Pq. split; [apply Pq|]. split; [lia|exact T].
    + intros B. apply (touch_boxes d c l (i :: p) (j :: r) Hc Hl) in B. congruence.
  - intros (i & p0 & j & r & m & E & -> & Hm & Em & Hr & NB). destruct (box_inv m Hm) as (c2 & l2 & q2 & HR2 & _ & _ & Pq & ->).
    rewrite HR in HR2. injection HR2 as <- <-. change (an_addr (mk d pos c l 0 srcs (ByDepth h) q2)) with q2 in Em. subst q2. split; [exact Pq|].
    apply (NR i p0 r (eq_sym E)) in Hr. destruct Hr as (Pr & Lr & T). rewrite E. cbn [tl length].
    rewrite (proj2 (Nat.eqb_eq _ _)) by lia. cbn [Nat.leb]. rewrite T. cbn [andb]. apply negb_true_iff. apply not_true_is_false. intros B. apply NB.
    rewrite E in *. apply (touch_boxes d c l (i :: p0) (j :: r) Hc Hl) in B. exact B.
Qed.
Theorem inter_separated n m : In n (boxes t) -> In m (boxes t) -> In (an_addr m) (nl_inter ls (an_addr n)) ->
  an_len n = an_len m /\ exists j, j < d /\ (2 * an_len n <= Rabs (nth j (an_center n) 0 - nth j (an_center m) 0))%R.
Proof.
  intros Hn Hm IN. destruct (box_inv n Hn) as (c & l & p & HR & Hc & Hl & P & ->). destruct (box_inv m Hm) as (c2 & l2 & q & HR2 & _ & _ & Q & ->).
  rewrite HR in HR2. injection HR2 as <- <-.
  destruct bal_inv as (c' & l' & ch & HR' & _ & _ & Hin & Hch & Et & El). rewrite HR in HR'. injection HR' as <- <-.
  assert (HO := height_ok_bal d pos c l srcs h Hd Hc). rewrite El in IN.
  change (an_addr (mk d pos c l 0 srcs (ByDepth h) ?x)) with x in IN.
  change (an_center (mk d pos c l 0 srcs (ByDepth h) ?x)) with (box_ctr d c l x).
  change (an_len (mk d pos c l 0 srcs (ByDepth h) ?x)) with (box_len l x).
  apply (final_inter_in d pos c l 0 srcs (ByDepth h) h Hc HO p q P) in IN. destruct IN as [_ V]. unfold vrel in V.
  apply andb_true_iff in V. destruct V as [V NT]. apply andb_true_iff in V. destruct V as [V _].
  apply andb_true_iff in V. destruct V as [V1 V2]. apply Nat.eqb_eq in V1. apply negb_true_iff in NT.
  split; [rewrite !box_len_pow, V1; reflexivity|].
  destruct (touch_same_level d p q V1 NT) as (j & Hj & D). exists j. split; [assumption|].
  rewrite !(nth_box_ctr d c l _ j) by assumption. rewrite V1, box_len_pow, V1.
  assert (PW := pow2_pos (length q)).
  replace (_ - _)%R with (IZR (gco d j p - gco d j q) * (l / 2 ^ length q))%R by (rewrite minus_IZR; field; lra).
  rewrite Rabs_mult, (Rabs_pos_eq (l / 2 ^ length q)) by (left; apply Rdiv_lt_0_compat; lra).
  apply Rmult_le_compat_r; [left; apply Rdiv_lt_0_compat; lra|]. rewrite <- abs_IZR. apply IZR_le. lia.
Qed.

(** Coverage. *)
Theorem balanced_coverage L : In L (leaf_addresses t) -> Permutation (reached t ls L) (leaf_addresses t).
Proof.
  destruct bal_inv as (c & l & ch & HR & Hc & Hl & Hin & Hch & Et & El). assert (HO := height_ok_bal d pos c l srcs h Hd Hc).
  assert (EL : leaf_addresses t = leaf_list (spec_tree d pos c l 0 srcs (ByDepth h) h)).
  { rewrite Et. unfold leaf_addresses, leaf_list, leaf_nodes. cbn [bal_spec bt_leaves spec_tree at_leaves].
    rewrite seq_S, map_app, concat_app. cbn [map concat Nat.add]. rewrite app_nil_r, map_app.
    assert (Z0 : concat (map (leaf_level d pos c l 0 srcs (ByDepth h)) (seq 0 h)) = []).
    { rewrite <- flat_map_concat_map. apply flat_map_nil. intros k Hk. apply in_seq in Hk. unfold leaf_level. rewrite filter_false; [reflexivity|].
      intros p Hp. apply level_len in Hp. rewrite refined_eq, (proj2 (Nat.ltb_lt _ _)) by lia. reflexivity. }
    rewrite Z0. cbn [map app]. unfold leaf_level. rewrite filter_true; [reflexivity|]. intros p Hp. apply level_len in Hp. rewrite refined_eq, Hp, Nat.ltb_irrefl. reflexivity. }
  intros HL. assert (LP : present d pos c l 0 srcs (ByDepth h) L /\ refined d pos c l 0 srcs (ByDepth h) L = false).
  { rewrite Et in HL. unfold leaf_addresses in HL. cbn [bal_spec bt_leaves] in HL. rewrite map_map in HL. apply in_map_iff in HL. destruct HL as (p & <- & Hp).
    change (an_addr (mk d pos c l 0 srcs (ByDepth h) p)) with p. split; [apply in_level in Hp; apply Hp|]. apply level_len in Hp. rewrite refined_eq, Hp. apply Nat.ltb_irrefl. }
  destruct LP as [P N]. assert (G := interactions_perm d pos c l 0 srcs (ByDepth h) h Hc HO L P N). rewrite leaf_list_eq in EL. rewrite EL. etransitivity; [|exact G].
  unfold reached, interactions. rewrite El. apply Permutation_app_head.
  assert (W0 : nl_W (final d pos c l 0 srcs (ByDepth h) h) L = []).
  { destruct (nl_W (final d pos c l 0 srcs (ByDepth h) h) L) as [|q qs] eqn:EX; [reflexivity|]. exfalso.
    assert (Q : In q (nl_W (final d pos c l 0 srcs (ByDepth h) h) L)) by (rewrite EX; left; reflexivity).
    apply (final_W_in d pos c l 0 srcs (ByDepth h) h Hc HO L q P) in Q. destruct Q as (Pq & Rq & X).
    rewrite refined_eq in Rq. apply Nat.ltb_ge in Rq. unfold wrel in X. apply andb_true_iff in X. destruct X as [X _].
    apply andb_true_iff in X. destruct X as [X _]. apply Nat.ltb_lt in X. apply (present_iff d pos c l srcs h Hd Hc Hpos) in Pq. lia. }
  rewrite W0. cbn [flat_map app]. unfold leaves_below. rewrite leaf_list_eq, EL.
  match goal with |- Permutation ?A ?B => replace B with A; [reflexivity|] end.
  apply flat_map_ext_in'. intros a Ha. assert (Pa : present d pos c l 0 srcs (ByDepth h) a) by (eapply present_suf; eassumption).
  assert (X0 : nl_X (final d pos c l 0 srcs (ByDepth h) h) a = []).
  { destruct (nl_X (final d pos c l 0 srcs (ByDepth h) h) a) as [|q qs] eqn:EX; [reflexivity|]. exfalso.
    assert (Q : In q (nl_X (final d pos c l 0 srcs (ByDepth h) h) a)) by (rewrite EX; left; reflexivity).
    apply (final_X_in d pos c l 0 srcs (ByDepth h) h Hc HO a q Pa) in Q. destruct Q as (Pq & Rq & X).
    rewrite refined_eq in Rq. apply Nat.ltb_ge in Rq. unfold xrel in X. apply andb_true_iff in X. destruct X as [X _].
    apply andb_true_iff in X. destruct X as [X _]. apply Nat.ltb_lt in X. apply (present_iff d pos c l srcs h Hd Hc Hpos) in Pa. lia. }
  rewrite X0, app_nil_r. reflexivity.
Qed.
End Built.

(** *** A case that meets the hypotheses: five points, height 1. *)
Lemma five_spread {Src} (pos : Src -> list R) srcs : map pos srcs = five -> spread 2 pos srcs.
Proof.
  intros E j Hj. assert (I : forall x, In x five -> exists s, In s srcs /\ pos s = x).
  { intros x Hx. rewrite <- E in Hx. apply in_map_iff in Hx. destruct Hx as (s & <- & ?). eauto. }
  destruct (I [-1; -1]%R ltac:(left; reflexivity)) as (s1 & I1 & E1). destruct (I [1; 1]%R ltac:(right; left; reflexivity)) as (s2 & I2 & E2).
  split; [exists s1; rewrite E1|exists s2; rewrite E2]; (split; [assumption|]); destruct j as [|[|j]]; cbn; lra || lia.
Qed.
Lemma five_built : exists t ls, bal_build 2 (fun x => x) 1 five = Ok (t, ls).
Proof.
  assert (HS : spread 2 (fun x : list R => x) five) by (apply five_spread; apply map_id).
  destruct (spread_inside 2 (fun x : list R => x) five ltac:(lia) five_dim HS) as (c & l & HR & Hc & Hl & Hin).
  destruct (proj2 (bal_build_iff 2 (fun x : list R => x) five ltac:(lia) five_dim 1 c l ltac:(lia) ltac:(lia) ltac:(lia) HR) (conj Hl Hin)) as ([t ls] & H). eauto.
Qed.
Lemma five_unit_spread : spread 2 (@ps_pos R) five_unit.
Proof. apply five_spread. unfold five_unit. rewrite map_map. apply map_id. Qed.
Lemma five_unit_balanced : same_dim 2 five_unit /\ spread 2 (@ps_pos R) five_unit /\ 1 <= 1 /\ 1 < length five_unit * 2 ^ 2 /\
  (Z.of_nat (length five_unit) <= Z.of_nat 1 * 2 ^ 32)%Z /\ order_of 1 five_unit = Ok 3 /\ (1 < abs_charge five_unit)%R.
Proof.
  destruct five_unit_case as (H1 & _ & _ & H2 & H3). split; [exact H1|]. split; [exact five_unit_spread|]. split; [lia|].
  split; [cbn; lia|]. split; [cbn; lia|]. split; assumption.
Qed.
Lemma height_case : bal_height 2 5 1 = Ok 2.
Proof.
  apply bal_height_spec; [lia|]. split; [lia|]. split; [cbn; lia|]. split; [reflexivity|]. split; [cbn; lia|].
  intros [|[|k]] Hk; cbn; lia.
Qed.
Lemma indices_case : length [0; 0]%R = 2 /\ (0 < 2)%R /\ 3 < 32 /\ length [1/2; -1]%R = 2 /\ in_half_open 2 [0; 0]%R 2 [1/2; -1]%R.
Proof.
  split; [reflexivity|]. split; [lra|]. split; [lia|]. split; [reflexivity|]. intros [|[|j]] Hj; cbn; lra || lia.
Qed.
Lemma indices_case2 : tuple 3 2 [1; 3; 2]%Z /\ flat_index 3 2 [1; 3; 2]%Z = Ok 30%Z /\ morton_index 3 2 [1; 3; 2]%Z = Ok 30%Z /\
  morton_index 3 2 [1; 0; 2]%Z = Ok 12%Z.
Proof.
  split; [|repeat split; reflexivity]. split; [reflexivity|]. change (2 ^ Z.of_nat 2)%Z with 4%Z. intros z Hz. repeat destruct Hz as [<-|Hz]; try lia. destruct Hz.
Qed.
