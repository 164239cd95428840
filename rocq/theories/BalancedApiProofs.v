(** Height selection, success of the construction, and the two-dimensional balanced tree end to end. *)
From Coq Require Import List Bool ZArith Arith Lia Lra Reals Permutation.
From Coquelicot Require Import Complex.
From Verif Require Import Num Outcome Vec Orthtree AdaptiveTree TreeSpec VecProofs GeometrySpec GeometryProofs TreeGeometry
  AdaptiveProofs BuildProofs ListProofs ListContents RootBoxProofs TreeTheorems TreeTheorems3 Tables Expansion2D CAux TableProofs Exp2Proofs Exp2Local Exp2Errors Exp2ForceErrors Exp2Theorems FieldSpec Schedule Fields FieldProofs FieldSchedules
  FmmPasses PassProofs PassSteps PassTree PassSpec PassEval FmmTree2D FmmTree2DProofs FmmForce2DProofs FmmTheorems PassAgree FmmApi FmmApiProofs
  BalancedTree BalancedSpec BalancedIndex BalancedAddr BalancedProofs BalancedFmm BalancedFmmProofs.
Import ListNotations.
Local Open Scope R_scope.

(** *** Height *)
Section Log.
Variable B : R.
Hypothesis HB : 1 < B.
Lemma lnB_pos : 0 < ln B. Proof. rewrite <- ln_1. apply ln_increasing; lra. Qed.
Lemma logB_le y n : 0 < y -> (ln y / ln B <= INR n <-> y <= B ^ n).
Proof.
  intros Hy. assert (L := lnB_pos). assert (P := pow_lt B n ltac:(lra)).
  assert (E : ln y / ln B <= INR n <-> ln y <= ln (B ^ n)).
  { rewrite ln_pow by lra. split; intros H.
    - apply (Rmult_le_compat_r (ln B)) in H; [|lra]. unfold Rdiv in H. rewrite Rmult_assoc, Rinv_l, Rmult_1_r in H by lra. exact H.
    - apply (Rmult_le_reg_r (ln B)); [exact L|]. unfold Rdiv. rewrite Rmult_assoc, Rinv_l, Rmult_1_r by lra. exact H. }
  rewrite E. split; intros H.
  - destruct (Rle_lt_dec y (B ^ n)) as [|C0]; [assumption|]. apply ln_increasing in C0; [lra|exact P].
  - destruct H as [H| ->]; [left; apply ln_increasing; assumption|lra].
Qed.
Lemma logB_gt y : 0 < y -> (-1 < ln y / ln B <-> 1 < y * B).
Proof.
  intros Hy. assert (L := lnB_pos).
  assert (E : -1 < ln y / ln B <-> ln (/ B) < ln y).
  { rewrite ln_Rinv by lra. split; intros H.
    - apply (Rmult_lt_compat_r (ln B)) in H; [|lra]. unfold Rdiv in H. rewrite Rmult_assoc, Rinv_l in H by lra. lra.
    - apply (Rmult_lt_reg_r (ln B)); [exact L|]. unfold Rdiv. rewrite Rmult_assoc, Rinv_l by lra. lra. }
  assert (IB : 0 < / B) by (apply Rinv_0_lt_compat; lra).
  rewrite E. split; intros H.
  - apply ln_lt_inv in H; [|exact IB|exact Hy]. apply (Rmult_lt_compat_r B) in H; [|lra]. rewrite Rinv_l in H by lra. exact H.
  - apply ln_increasing; [exact IB|]. apply (Rmult_lt_reg_r B); [lra|]. rewrite Rinv_l by lra. exact H.
Qed.
End Log.

Lemma ratio_le n cap m : (0 < cap)%nat -> (INR n / INR cap <= INR m <-> (n <= cap * m)%nat).
Proof.
  intros Hc. assert (C0 := lt_0_INR cap Hc). split; intros H.
  - apply INR_le. rewrite mult_INR. apply (Rmult_le_compat_r (INR cap)) in H; [|lra]. unfold Rdiv in H. rewrite Rmult_assoc, Rinv_l in H by lra. lra.
  - apply le_INR in H. rewrite mult_INR in H. apply (Rmult_le_reg_r (INR cap)); [exact C0|]. unfold Rdiv. rewrite Rmult_assoc, Rinv_l by lra. lra.
Qed.

(** The height is the least [h] such that [2^(d h)] leaves of the given capacity hold all sources. *)
Theorem bal_height_spec d n cap h : (1 <= d)%nat ->
  bal_height d n cap = Ok h <->
  (1 <= cap)%nat /\ (cap < n * 2 ^ d)%nat /\ (Z.of_nat h < 2 ^ 64)%Z /\
  (n <= cap * (2 ^ d) ^ h)%nat /\ (forall k, (k < h)%nat -> (cap * (2 ^ d) ^ k < n)%nat).
Proof.
  intros Hd. unfold bal_height, n_children.
  destruct (Nat.eqb_spec n 0) as [->|Hn]; [cbn [orb]; split; [discriminate|intros (_ & H & _); lia]|].
  destruct (Nat.eqb_spec cap 0) as [->|Hcap]; [cbn [orb]; split; [discriminate|intros (H & _); lia]|]. cbn [orb].
  assert (N2 : (2 <= 2 ^ d)%nat). { destruct d as [|k]; [lia|]. cbn [Nat.pow]. assert (2 ^ k <> 0)%nat by (apply Nat.pow_nonzero; lia). lia. }
  set (M := (2 ^ d)%nat) in *. clearbody M.
  assert (HB : 1 < INR M) by (apply (lt_INR 1); lia).
  assert (C0 : 0 < INR cap) by (apply lt_0_INR; lia). assert (Y : 0 < INR n / INR cap) by (apply Rdiv_lt_0_compat; [apply lt_0_INR; lia|exact C0]).
  assert (LE : forall k, ln (INR n / INR cap) / ln (INR M) <= INR k <-> (n <= cap * M ^ k)%nat).
  { intros k. rewrite (logB_le (INR M) HB) by exact Y. rewrite <- pow_INR. apply ratio_le. lia. }
  assert (GT : -1 < ln (INR n / INR cap) / ln (INR M) <-> (cap < n * M)%nat).
  { rewrite (logB_gt (INR M) HB) by exact Y. split; intros H.
    - apply INR_lt. rewrite mult_INR. apply (Rmult_lt_compat_r (INR cap)) in H; [|exact C0].
      replace (INR n / INR cap * INR M * INR cap) with (INR n * INR M) in H by (field; lra). lra.
    - apply lt_INR in H. rewrite mult_INR in H. apply (Rmult_lt_reg_r (INR cap)); [exact C0|].
      replace (INR n / INR cap * INR M * INR cap) with (INR n * INR M) by (field; lra). lra. }
  destruct (Rceil_spec (ln (INR n / INR cap) / ln (INR M))) as [C1 C2]. set (z := Rceil (ln (INR n / INR cap) / ln (INR M))) in *. clearbody z.
  unfold to_size. split.
  - destruct (Z.leb_spec 0 z) as [Z0|Z0]; [|discriminate]. destruct (Z.ltb_spec z (2 ^ 64)) as [Z1|Z1]; [|discriminate]. cbn [andb].
    intros H. injection H as <-. assert (EZ : IZR z = INR (Z.to_nat z)) by (rewrite INR_IZR_INZ, Z2Nat.id by exact Z0; reflexivity).
    split; [lia|]. split; [apply GT; apply IZR_le in Z0; lra|]. split; [rewrite Z2Nat.id by exact Z0; exact Z1|].
    split; [apply LE; rewrite <- EZ; exact C2|]. intros k Hk. apply Nat.nle_gt. intros H. apply LE in H.
    assert (Hz : INR k <= IZR z - 1). { rewrite EZ. assert (K : INR (S k) <= INR (Z.to_nat z)) by (apply le_INR; lia). rewrite S_INR in K. lra. } lra.
  - intros (_ & H1 & H2 & H3 & H4). apply GT in H1. apply LE in H3.
    assert (Z0 : (0 <= z)%Z). { assert (H : -1 < IZR z) by lra. apply lt_IZR in H. lia. }
    assert (Zp : (z <= Z.of_nat h)%Z).
    { assert (H : IZR z - 1 < IZR (Z.of_nat h)) by (rewrite <- INR_IZR_INZ; lra). replace 1 with (IZR 1) in H by reflexivity. rewrite <- minus_IZR in H. apply lt_IZR in H. lia. }
    assert (Zq : z = Z.of_nat h).
    { destruct (Z.eq_dec z (Z.of_nat h)) as [|NE]; [assumption|]. exfalso.
      assert (L : (Z.to_nat z < h)%nat) by lia. specialize (H4 _ L). apply Nat.lt_nge in H4. apply H4. apply LE.
      replace (INR (Z.to_nat z)) with (IZR z) by (rewrite INR_IZR_INZ, Z2Nat.id by exact Z0; reflexivity). exact C2. }
    subst z. rewrite (proj2 (Z.leb_le 0 (Z.of_nat h)) Z0), (proj2 (Z.ltb_lt _ _) H2). cbn [andb]. rewrite Nat2Z.id. reflexivity.
Qed.
Theorem bal_height_undefined d n cap : (1 <= d)%nat -> (n * 2 ^ d <= cap)%nat -> bal_height d n cap = UB.
Proof.
  intros Hd H. destruct (bal_height d n cap) as [h| | | | |] eqn:E; try reflexivity.
  - apply bal_height_spec in E; [lia|exact Hd].
  - exfalso; revert E; unfold bal_height, to_size; destruct (_ || _)%bool; [discriminate|]; destruct (_ && _)%bool; discriminate.
  - exfalso; revert E; unfold bal_height, to_size; destruct (_ || _)%bool; [discriminate|]; destruct (_ && _)%bool; discriminate.
  - exfalso; revert E; unfold bal_height, to_size; destruct (_ || _)%bool; [discriminate|]; destruct (_ && _)%bool; discriminate.
  - exfalso; revert E; unfold bal_height, to_size; destruct (_ || _)%bool; [discriminate|]; destruct (_ && _)%bool; discriminate.
Qed.

(** *** When the construction succeeds *)
Lemma omapM_all {A C} (f : A -> outcome C) xs ys : omapM f xs = Ok ys -> forall x, In x xs -> exists y, f x = Ok y.
Proof.
  revert ys; induction xs as [|a xs IH]; intros ys H x Hx; [destruct Hx|]. cbn [omapM] in H.
  destruct (f a) as [b| | | | |] eqn:E; try discriminate. cbn [bind] in H. destruct Hx as [<-|Hx]; [eauto|].
  destruct (omapM f xs) as [bs| | | | |] eqn:E2; try discriminate. eapply IH; [reflexivity|exact Hx].
Qed.
Lemma ofold_all {A C} (f : A -> C -> outcome A) (Q : C -> Prop) xs : (forall a x b, In x xs -> f a x = Ok b -> Q x) ->
  forall a b, ofold f xs a = Ok b -> forall x, In x xs -> Q x.
Proof.
  induction xs as [|y xs IH]; intros H a b E x Hx; [destruct Hx|]. cbn [ofold] in E.
  destruct (f a y) as [a'| | | | |] eqn:Ey; try discriminate. cbn [bind] in E. destruct Hx as [<-|Hx]; [eapply H; [left; reflexivity|exact Ey]|].
  eapply IH; [|exact E|exact Hx]. intros; eapply H; [right; eassumption|eassumption].
Qed.
Lemma indices_ok_in d h c l x idx : length c = d -> 0 < l -> (h < 32)%nat -> length x = d ->
  leaf_box_indices d h c l x = Ok idx -> in_half_open d c l x.
Proof.
  intros Hc Hl Hh Hx H j Hj. rewrite leaf_box_indices_eq in H by assumption.
  destruct (omapM_all _ _ _ H j) as (z & Hz); [apply in_seq; lia|].
  assert (F := floor_coord h c l Hl x j). cbn zeta in F. assert (W : 0 < l / 2 ^ h) by (apply Rdiv_lt_0_compat; [exact Hl|apply pow2_pos]).
  unfold index_of, to_u32 in Hz. set (y := Int_part (coord h c l x j)) in *.
  destruct ((0 <=? y)%Z && (y <? u32_max)%Z)%bool eqn:E1; [|discriminate]. cbn [bind] in Hz. destruct (Z.leb_spec (2 ^ Z.of_nat h) y) as [|E2]; [discriminate|].
  apply andb_true_iff in E1. destruct E1 as [E1 _]. apply Z.leb_le in E1.
  assert (Y0 : 0 <= IZR y) by (apply (IZR_le 0); exact E1).
  assert (Y1 : IZR y + 1 <= 2 ^ h). { rewrite <- IZR_pow2. rewrite <- (plus_IZR y 1). apply IZR_le. lia. }
  assert (P : 2 ^ h * (l / 2 ^ h) = l) by (field; apply pow_nonzero; lra).
  unfold vec in *. split; nra.
Qed.

Section Success.
Context {Src : Type}.
Variable d : nat.
Variable pos : Src -> list R.
Variable srcs : list Src.
Hypothesis Hd : (1 <= d)%nat.
Hypothesis Hdim : forall s, In s srcs -> length (pos s) = d.

Lemma root_nonempty c l : root_box d (map pos []) = Some (c, l) -> False.
Proof.
  intros HR. assert (HN : root_box d (map pos []) = None) by (apply (root_box_finite d pos []); [exact Hd|intros s []|reflexivity]). congruence.
Qed.
Lemma root_len c l : root_box d (map pos srcs) = Some (c, l) -> length c = d /\ 0 <= l.
Proof.
  intros HR. destruct (root_box_spec d (map pos srcs) Hd) as (lo & hi & c' & l' & (_ & _ & EB) & RB' & Hc & CC & LL & _).
  { intros E. apply map_eq_nil in E. rewrite E in HR. apply root_nonempty in HR. exact HR. }
  { intros x Hx. apply in_map_iff in Hx. destruct Hx as (s' & <- & Hs'). auto. }
  rewrite HR in RB'. injection RB' as <- <-. split; [exact Hc|]. specialize (LL 0%nat Hd). destruct (EB 0%nat Hd) as (A & (x & Ix & Ex) & _).
  assert (A1 := A x Ix). unfold eps5 in *. nra.
Qed.

Theorem bal_build_iff h c l : (1 <= h)%nat -> (h < 32)%nat -> (d * h <= 32)%nat -> root_box d (map pos srcs) = Some (c, l) ->
  (exists r, bal_build d pos h srcs = Ok r) <-> 0 < l /\ forall s, In s srcs -> in_half_open d c l (pos s).
Proof.
  intros H1 Hh Hdh HR. destruct (root_len c l HR) as [Hc Hl0]. split.
  - intros (r & H).
    assert (B : forall s, In s srcs -> exists idx, leaf_box_indices d h c l (pos s) = Ok idx).
    { intros s Hs. unfold bal_build in H. rewrite HR in H. destruct h as [|h']; [lia|].
      destruct (expand_all d (S h') c l) as [st| | | | |]; try discriminate. cbn [bind] in H. unfold distribute in H.
      destruct (fill_buckets d pos (S h') c l srcs) as [bs| | | | |] eqn:EF; try discriminate. unfold fill_buckets in EF.
      revert s Hs. eapply ofold_all; [|exact EF]. intros a x b Hx E. unfold bucket_of in E.
      destruct (leaf_box_indices d (S h') c l (pos x)) as [idx| | | | |]; try discriminate. exists idx. reflexivity. }
    assert (NE : srcs <> []). { intros E. rewrite E in HR. apply root_nonempty in HR. exact HR. }
    assert (Hl : 0 < l).
    { destruct srcs as [|s ss] eqn:Es; [congruence|]. destruct (B s ltac:(left; reflexivity)) as (idx & Hi).
      unfold leaf_box_indices in Hi. destruct (boxes_per_dim h) as [n| | | | |]; try discriminate. cbn [bind] in Hi.
      destruct Hl0 as [|E0]; [assumption|]. exfalso. subst l. unfold neqb in Hi. cbn [nleb n0 NumR] in Hi.
      assert (E : Rleb 0 0 = true) by (apply Rleb_true; lra). rewrite E in Hi. discriminate. }
    split; [exact Hl|]. intros s Hs. destruct (B s Hs) as (idx & Hi). eapply indices_ok_in; try eassumption. apply Hdim. exact Hs.
  - intros [Hl Hin]. destruct (bal_in_box_ok d pos c l srcs h Hd Hc Hdim Hl Hh Hdh Hin H1) as (ch & Hch & HBX).
    eexists. unfold bal_build. rewrite HR. destruct h as [|h']; [lia|]. exact HBX.
Qed.

(** Data on both sides of every coordinate hyperplane are inside. *)
Notation spread := (spread d pos srcs).
Lemma spread_inside : spread -> exists c l, root_box d (map pos srcs) = Some (c, l) /\ length c = d /\ 0 < l /\
  forall s, In s srcs -> in_half_open d c l (pos s).
Proof.
  intros HS. assert (NE : srcs <> []). { intros E. destruct (HS 0%nat Hd) as [(s & Hs & _) _]. rewrite E in Hs. destruct Hs. }
  destruct (root_box_spec d (map pos srcs) Hd) as (lo & hi & c & l & (_ & _ & EB) & RB & Hc & CC & LL & _).
  { intros E. apply map_eq_nil in E. contradiction. }
  { intros x Hx. apply in_map_iff in Hx. destruct Hx as (s' & <- & Hs'). auto. }
  exists c, l. split; [exact RB|]. split; [exact Hc|].
  assert (K : forall j, (j < d)%nat -> nth j lo 0 <= 0 /\ 0 < nth j hi 0).
  { intros j Hj. destruct (EB j Hj) as (A & _). destruct (HS j Hj) as ((s1 & I1 & N1) & (s2 & I2 & N2)).
    assert (A1 := A _ (in_map pos _ _ I1)). assert (A2 := A _ (in_map pos _ _ I2)). lra. }
  split.
  - specialize (LL 0%nat Hd). specialize (K 0%nat Hd). unfold eps5 in *. lra.
  - intros s Hs j Hj. specialize (CC j Hj). specialize (LL j Hj). specialize (K j Hj). destruct (EB j Hj) as (A & _).
    assert (A3 := A _ (in_map pos _ _ Hs)). unfold vec, eps5 in *. rewrite CC. lra.
Qed.

(** Data on one side of the origin never are: the padding moves the box away from them. *)
Theorem one_sided_unusable h : (1 <= h)%nat -> (h < 32)%nat -> (d * h <= 32)%nat -> srcs <> [] ->
  (forall s, In s srcs -> forall j, (j < d)%nat -> 0 < nth j (pos s) 0) \/ (forall s, In s srcs -> forall j, (j < d)%nat -> nth j (pos s) 0 <= 0) ->
  forall r, bal_build d pos h srcs <> Ok r.
Proof.
  intros H1 Hh Hdh NE HS r HB.
  destruct (root_box_spec d (map pos srcs) Hd) as (lo & hi & c & l & (_ & _ & EB) & RB & Hc & CC & LL & (j & Hj & EL)).
  { intros E. apply map_eq_nil in E. contradiction. }
  { intros x Hx. apply in_map_iff in Hx. destruct Hx as (s' & <- & Hs'). auto. }
  destruct (proj1 (bal_build_iff h c l H1 Hh Hdh RB) (ex_intro _ r HB)) as [Hl Hin].
  destruct (EB j Hj) as (A & (x1 & I1 & N1) & (x2 & I2 & N2)). specialize (CC j Hj).
  apply in_map_iff in I1, I2. destruct I1 as (s1 & E1 & I1), I2 as (s2 & E2 & I2). subst x1 x2.
  assert (B1 := Hin s1 I1 j Hj). assert (B2 := Hin s2 I2 j Hj). unfold vec, eps5 in *. rewrite CC in *.
  destruct HS as [HS|HS].
  - assert (S1 := HS s1 I1 j Hj). rewrite N1 in *. lra.
  - assert (S2 := HS s2 I2 j Hj). rewrite N2 in *. lra.
Qed.
End Success.

(** *** The two-dimensional balanced tree *)
Notation not_at x := (fun s => negb (is_at x s)).
Section EndToEnd.
Variables (orders : list nat) (cap : nat) (eps : R) (srcs : list (psrc R)) (p h : nat) (c : list R) (l : R).
Hypothesis Hdim : same_dim 2 srcs.
Hypothesis Hord : order_of eps srcs = Ok p.
Hypothesis Hp : (1 <= p)%nat.
Hypothesis Hht : bal_height 2 (length srcs) cap = Ok h.
Hypothesis H16 : (h <= 16)%nat.
Hypothesis Hroot : root_box 2 (map (@ps_pos R) srcs) = Some (c, l).
Hypothesis Hl : 0 < l.
Hypothesis Hin : forall s, In s srcs -> in_half_open 2 c l (ps_pos s).
Notation tb0 := (table_after orders).

Lemma bal_api_unique f : (forall r, make_bal (ops2 p) 2 h srcs tb0 r <-> r = Ok f) ->
  forall r, balanced_fmm2 cap eps srcs tb0 r <-> r = Ok (BalObj p f).
Proof.
  intros U r. split.
  - intros H. inversion H as [r0 X1 X2|p0 r0 X1 X2 X3|p0 h0 r0 X1 X2 X3]; subst.
    + exfalso. apply (X2 p). exact Hord.
    + exfalso. apply (X3 h). exact Hht.
    + assert (p0 = p) by congruence. assert (h0 = h) by congruence. subst p0 h0. apply U in X3. subst r0. reflexivity.
  - intros ->. change (Ok (BalObj p f)) with (omap (BalObj p) (Ok f)). eapply bf_make; [exact Hord|exact Hht|]. apply U. reflexivity.
Qed.

Theorem bal2_end_to_end : exists o, (forall r, balanced_fmm2 cap eps srcs tb0 r <-> r = Ok o) /\ bo_order o = p /\ bt_height (b_tree (bo_fmm o)) = h /\
  (forall grav x, length x = 2%nat -> in_half_open 2 c l x -> exists v, bal_potential_at grav o x = Ok v /\
     Rabs (v - direct_potential 2 grav (filter (not_at x) srcs) x) <=
        (if (h =? 0)%nat then 0 else trunc_bound (sqrt 2 / 2) p * abs_charge srcs)) /\
  (forall grav smooth x, length x = 2%nat -> in_half_open 2 c l x -> 0 <= smooth -> exists v, bal_force_at grav smooth o x = Ok (map v (seq 0 2)) /\
     exists near far, Permutation (near ++ far) (filter (not_at x) srcs) /\
       (forall s, In s far -> apart 2 (ps_pos s) x (l / 2 ^ h)) /\
       forall k, (k < 2)%nat ->
       Rabs (v k - (rsum (fun s => force_on 2 grav smooth s x k) near + rsum (fun s => force_on 2 grav 0 s x k) far)) <=
        (if (h =? 0)%nat then 0 else (sqrt 2 / 2) ^ p / ((2 - sqrt 2) * (l / 2 ^ h)) * abs_charge srcs)).
Proof.
  assert (Hok := table_after_ok orders). destruct (root_len 2 (@ps_pos R) srcs ltac:(lia) Hdim c l Hroot) as [Hc _].
  destruct (make_bal_good (ops2 p) 2 tb0 (se_table tb0 p) (ME2 p) (LE2 p) lv dr (E2 p) (sound2 p Hp tb0 Hok) eq_refl
    c l srcs h ltac:(lia) Hc Hl ltac:(lia) ltac:(lia) Hdim Hin Hroot) as (f & U & G).
  destruct (make_bal_good (ops2 p) 2 tb0 (se_table tb0 p) (ME2 p) (LE2 p) lf df (E2f p) (sound2f p Hp tb0 Hok) eq_refl
    c l srcs h ltac:(lia) Hc Hl ltac:(lia) ltac:(lia) Hdim Hin Hroot) as (f' & U' & G').
  assert (f' = f). { assert (X : Ok f = Ok f') by (apply U'; apply U; reflexivity). congruence. } subst f'. clear U'.
  assert (H64 : (h < 64 / 2)%nat) by (change (64 / 2)%nat with 32%nat; lia).
  exists (BalObj p f). split; [apply bal_api_unique; exact U|]. split; [reflexivity|]. split; [|split].
  - destruct G as ((ch & _ & Et) & _). cbn [bo_fmm]. rewrite Et. reflexivity.
  - intros grav x Hx HI.
    destruct (bal_pot_accurate (ops2 p) 2 tb0 (se_table tb0 p) (ME2 p) (LE2 p) lv dr (E2 p) (sound2 p Hp tb0 Hok)
      c l srcs h ltac:(lia) Hc Hl ltac:(lia) ltac:(lia) Hdim Hin H64 tt) with (f := f) (grav := grav) (x := x) as (v & Hv & B1); try assumption.
    + intros; reflexivity.
    + intros. eapply mpot2; eassumption.
    + reflexivity.
    + intros. unfold E2. apply trunc_bound_nonneg. apply ratio2_lt.
    + exists v. split; [exact Hv|exact B1].
  - intros grav smooth x Hx HI Hs.
    destruct (bal_force_accurate (ops2 p) 2 tb0 (se_table tb0 p) (ME2 p) (LE2 p) lf df (E2f p) (sound2f p Hp tb0 Hok)
      c l srcs h ltac:(lia) Hc Hl ltac:(lia) ltac:(lia) Hdim Hin H64 (fun k => k) (fun _ _ => True)) with (f := f) (grav := grav) (eps := smooth) (x := x)
      as (v & Hv & near & far & P1 & P2 & P3); try assumption.
    + intros. eapply lfrc2; eassumption.
    + intros. eapply mfrc2; eassumption.
    + reflexivity.
    + intros. apply E2f_nonneg; assumption.
    + intros; exact Logic.I.
    + exists v. split; [exact Hv|]. exists near, far. split; [exact P1|]. split; [exact P2|]. intros k Hk. exact (P3 k Hk).
Qed.
End EndToEnd.

(** Hypotheses on the input alone. *)
Lemma height_bounded n cap h : bal_height 2 n cap = Ok h -> (Z.of_nat n <= Z.of_nat cap * 2 ^ 32)%Z -> (h <= 16)%nat.
Proof.
  intros H N. apply bal_height_spec in H; [|lia]. destruct H as (_ & _ & _ & _ & H). destruct (le_gt_dec h 16) as [|G]; [assumption|exfalso].
  specialize (H 16%nat G). apply Nat2Z.inj_lt in H. rewrite Nat2Z.inj_mul, !Nat2Z.inj_pow in H. change (Z.of_nat 2) with 2%Z in H.
  replace ((2 ^ 2) ^ Z.of_nat 16)%Z with (2 ^ 32)%Z in H by reflexivity. lia.
Qed.
Theorem bal2_usable orders cap eps srcs p : same_dim 2 srcs -> spread 2 (@ps_pos R) srcs ->
  (1 <= cap)%nat -> (cap < length srcs * 2 ^ 2)%nat -> (Z.of_nat (length srcs) <= Z.of_nat cap * 2 ^ 32)%Z ->
  order_of eps srcs = Ok p -> eps < abs_charge srcs ->
  exists o c l, root_box 2 (map (@ps_pos R) srcs) = Some (c, l) /\ 0 < l /\ (forall s, In s srcs -> in_half_open 2 c l (ps_pos s)) /\
  (forall r, balanced_fmm2 cap eps srcs (table_after orders) r <-> r = Ok o) /\
  forall grav x, length x = 2%nat -> in_half_open 2 c l x -> exists v, bal_potential_at grav o x = Ok v /\
     Rabs (v - direct_potential 2 grav (filter (not_at x) srcs) x) <= trunc_bound (sqrt 2 / 2) p * abs_charge srcs.
Proof.
  intros Hdim Hst Hc1 Hc2 Hc3 Hord HA. assert (Hp := order_pos _ _ _ Hord HA).
  destruct (spread_inside 2 (@ps_pos R) srcs ltac:(lia) Hdim Hst) as (c & l & HR & Hc & Hl & Hin).
  assert (EX : exists h, bal_height 2 (length srcs) cap = Ok h).
  { assert (LST : exists h, (length srcs <= cap * (2 ^ 2) ^ h)%nat /\ forall k, (k < h)%nat -> (cap * (2 ^ 2) ^ k < length srcs)%nat).
    { assert (G : forall m, (length srcs <= cap * (2 ^ 2) ^ m)%nat ->
        exists h, (h <= m)%nat /\ (length srcs <= cap * (2 ^ 2) ^ h)%nat /\ forall k, (k < h)%nat -> (cap * (2 ^ 2) ^ k < length srcs)%nat).
      { induction m as [|m IH]; intros Hm; [exists 0%nat; split; [lia|]; split; [exact Hm|intros; lia]|].
        destruct (le_gt_dec (length srcs) (cap * (2 ^ 2) ^ m)) as [L|L]; [destruct (IH L) as (h & ? & ? & ?); exists h; split; [lia|auto]|].
        exists (S m). split; [lia|]. split; [exact Hm|]. intros k Hk. eapply Nat.le_lt_trans; [|exact L].
        apply Nat.mul_le_mono_l. apply Nat.pow_le_mono_r; lia. }
      destruct (G 16%nat) as (h & _ & ?); [|eauto]. apply Nat2Z.inj_le. rewrite Nat2Z.inj_mul, !Nat2Z.inj_pow. change (Z.of_nat 2) with 2%Z.
      replace ((2 ^ 2) ^ Z.of_nat 16)%Z with (2 ^ 32)%Z by reflexivity. exact Hc3. }
    destruct LST as (h & L1 & L2). exists h. apply bal_height_spec; [lia|]. split; [exact Hc1|]. split; [exact Hc2|].
    split; [|split; [exact L1|exact L2]].
    destruct (Z.lt_ge_cases (Z.of_nat h) 17) as [|C17].
    - eapply Z.lt_le_trans; [exact H|]. change (2 ^ 64)%Z with 18446744073709551616%Z. lia.
    - exfalso. specialize (L2 16%nat ltac:(lia)). apply Nat2Z.inj_lt in L2. rewrite Nat2Z.inj_mul, !Nat2Z.inj_pow in L2. change (Z.of_nat 2) with 2%Z in L2.
      replace ((2 ^ 2) ^ Z.of_nat 16)%Z with (2 ^ 32)%Z in L2 by reflexivity. lia. }
  destruct EX as (h & Hh). assert (H16 := height_bounded _ _ _ Hh Hc3).
  destruct (bal2_end_to_end orders cap eps srcs p h c l Hdim Hord Hp Hh H16 HR Hl Hin) as (o & U & _ & _ & V & _).
  exists o, c, l. split; [exact HR|]. split; [exact Hl|]. split; [exact Hin|]. split; [exact U|]. intros grav x Hx HI. destruct (V grav x Hx HI) as (v & Hv & B1).
  exists v. split; [exact Hv|]. eapply Rle_trans; [exact B1|].
  destruct (h =? 0)%nat; [|lra]. apply Rmult_le_pos; [apply trunc_bound_nonneg; apply ratio2_lt|]. apply rsum_nonneg. intros. apply Rabs_pos.
Qed.
