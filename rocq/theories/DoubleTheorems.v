(** Consequences for the trees built in IEEE doubles. *)
From Coq Require Import Reals List Bool ZArith Arith Lia Lra Permutation.
From Flocq Require Import Core BinarySingleNaN PrimFloat.
From Verif Require Import Num Outcome Vec Orthtree AdaptiveTree TreeSpec BalancedTree BalancedSpec RoundedSpec RoundedCases RoundedTree RoundedTreeSpec RoundedTreeTheorems
  RoundedAdaptive RoundedTreeCases FloatCases FloatFit FloatGeometry FloatSpec FloatBridge FloatBridgeTrees FloatNorm.
From Coq Require Import Floats.
Import ListNotations.
Local Open Scope R_scope.

(** The library norm in doubles has relative error at most a thousandth. *)
Lemma double_like_with hyp : accurate_norm (/ 1000) hyp -> double_like double_round hyp.
Proof. intros H. destruct double_is_double_like as (A & B & _). split; [exact A|]. split; [exact B|exact H]. Qed.

Section Balanced.
Context {Src : Type}.
Variables (d h : nat) (pos : Src -> list float) (srcs : list Src) (hypF : list float -> float) (hyp : list R -> R).
Hypothesis HN : norm_of d hypF hyp.
Hypothesis HA : accurate_norm (/ 1000) hyp.
Hypothesis HO : ordinary_sources d pos srcs.
Hypothesis HR : in_range d h (real_pos pos) srcs.
Notation NF := NumF.
Notation DF := (DistF hypF).
Let HD := double_like_with hyp HA.

Lemma h31 : (h <= 31)%nat.
Proof. destruct HR as (_ & H & _). lia. Qed.
Theorem doubles_build : exists t ls, bal_build (N := NF) (D := DF) d pos h srcs = Ok (t, ls) /\ bt_height t = h /\ 0 < real_of (bt_len t).
Proof.
  destruct (rounded_builds double_round hyp HD d h (real_pos pos) srcs HR) as (t & ls & B & Bh & _ & Bl).
  destruct (bal_build_same d pos hypF hyp HN h srcs h31 HO) as [E F]. rewrite B in E.
  destruct (bal_build (N := NF) (D := DF) d pos h srcs) as [[t' ls']| | | | |]; try discriminate. rewrite omap_ok in E. injection E as E1 E2. subst t ls.
  exists t', ls'. split; [reflexivity|]. split; [exact Bh|exact Bl].
Qed.
Section Built.
Variables (t : @btree float Src) (ls : nlists).
Hypothesis HB : bal_build (N := NF) (D := DF) d pos h srcs = Ok (t, ls).
Lemma real_side : bal_build (N := NR) (D := DistRnd hyp) d (real_pos pos) h srcs = Ok (real_btree t, ls).
Proof. destruct (bal_build_same d pos hypF hyp HN h srcs h31 HO) as [E _]. rewrite HB in E. exact E. Qed.
Lemma flat_real (l : list (@anode float Src)) : flat_map an_srcs (map real_node l) = flat_map an_srcs l.
Proof. induction l as [|n l IH]; [reflexivity|]. cbn [map flat_map]. rewrite IH. reflexivity. Qed.
Theorem doubles_sources : Permutation (flat_map an_srcs (bt_leaves t)) srcs /\
  forall n s, In n (bt_leaves t) -> In s (an_srcs n) -> almost_in d (real_node n) (map real_of (pos s)).
Proof.
  destruct (rounded_sources double_round hyp HD d h (real_pos pos) srcs HR _ _ real_side) as [P Q]. cbn [bt_leaves real_btree] in P, Q. rewrite flat_real in P.
  split; [exact P|]. intros n s N S. apply (Q (real_node n) s); [apply in_map; exact N|exact S].
Qed.
Theorem doubles_coverage L : In L (leaf_addresses (real_btree t)) -> Permutation (reached (real_btree t) ls L) (leaf_addresses (real_btree t)).
Proof. exact (rounded_coverage double_round hyp HD d h (real_pos pos) srcs HR _ _ real_side L). Qed.
Theorem doubles_separated n m : In n (bt_nodes t ++ bt_leaves t) -> In m (bt_nodes t ++ bt_leaves t) -> In (an_addr m) (nl_inter ls (an_addr n)) ->
  an_depth m = an_depth n /\ exists j, (j < d)%nat /\ 199 / 100 * real_of (an_len n) <= Rabs (nth j (map real_of (an_center n)) 0 - nth j (map real_of (an_center m)) 0).
Proof.
  intros N M I. apply (rounded_separated double_round hyp HD d h (real_pos pos) srcs HR _ _ real_side (real_node n) (real_node m)); try exact I;
    unfold boxes; cbn [bt_nodes bt_leaves real_btree]; rewrite <- map_app; apply in_map; assumption.
Qed.
Theorem doubles_lookup x : (h < 64 / d)%nat -> ordinary d x -> among d (real_pos pos) srcs (map real_of x) ->
  exists n, bal_containing_leaf (N := NF) d t x = Ok n /\ In n (bt_leaves t) /\ almost_in d (real_node n) (map real_of x) /\
    forall s, In s srcs -> map real_of (pos s) = map real_of x -> In s (an_srcs n).
Proof.
  intros H64 OX AX. destruct (rounded_lookup double_round hyp HD d h (real_pos pos) srcs HR _ _ real_side (map real_of x) H64 AX) as (n & B & _ & A & S).
  destruct (bal_build_same d pos hypF hyp HN h srcs h31 HO) as [_ F]. destruct (F t ls HB) as (_ & Bh & G).
  rewrite (bal_containing_leaf_same d t x) in B; [|rewrite Bh; exact h31|exact G|exact OX].
  destruct (bal_containing_leaf (N := NF) d t x) as [m| | | | |] eqn:E; try discriminate. rewrite omap_ok in B. injection B as <-.
  exists m. split; [reflexivity|]. split; [|split; [exact A|exact S]].
  unfold bal_containing_leaf in E. destruct (leaf_box_indices (N := NF) d (bt_height t) (bt_center t) (bt_len t) x) as [idx| | | | |]; try discriminate. cbn [bind] in E.
  destruct (morton_index d (bt_height t) idx) as [k| | | | |]; try discriminate. cbn [bind] in E.
  destruct (nth_error (bt_leaves t) (Z.to_nat k)) as [q|] eqn:NE; [|discriminate]. cbn [of_option] in E. injection E as <-. eapply nth_error_In. exact NE.
Qed.
End Built.
End Balanced.

Section Adaptive.
Context {Src : Type}.
Variables (d h cap fuel : nat) (pos : Src -> list float) (srcs : list Src) (hypF : list float -> float) (hyp : list R -> R).
Hypothesis HN : norm_of d hypF hyp.
Hypothesis HA : accurate_norm (/ 1000) hyp.
Hypothesis HO : ordinary_sources d pos srcs.
Hypothesis HF : (fuel <= 60)%nat.
Notation NF := NumF.
Notation DF := (DistF hypF).
Let HD := double_like_with hyp HA.

Theorem doubles_ends : in_refinable_range d h (real_pos pos) srcs -> (1 <= cap)%nat -> (h <= fuel)%nat ->
  exists t, build_adaptive (N := NF) d pos cap fuel srcs = Ok t /\ (at_height t <= h)%nat.
Proof.
  intros HR C Hf. destruct (adaptive_ends double_round hyp d h (real_pos pos) srcs cap fuel HD HR C Hf) as (t & B & Bh).
  destruct (build_adaptive_same d pos cap fuel srcs HF HO) as [E _]. rewrite B in E.
  destruct (build_adaptive (N := NF) d pos cap fuel srcs) as [t'| | | | |]; try discriminate. rewrite omap_ok in E. injection E as ->. exists t'. split; [reflexivity|exact Bh].
Qed.
Section Built.
Hypothesis HR : in_adaptive_range d h (real_pos pos) srcs.
Variable t : @atree float Src.
Hypothesis HB : build_adaptive (N := NF) d pos cap fuel srcs = Ok t.
Hypothesis Ht : (at_height t <= h)%nat.
Lemma real_adaptive : build_adaptive (N := NR) d (real_pos pos) cap fuel srcs = Ok (real_atree t).
Proof. destruct (build_adaptive_same d pos cap fuel srcs HF HO) as [E _]. rewrite HB in E. exact E. Qed.
Lemma built_good : gtree d t.
Proof. destruct (build_adaptive_same d pos cap fuel srcs HF HO) as [_ G]. apply G, HB. Qed.
Theorem doubles_no_exception : exists ls, all_lists (N := NF) (D := DF) d t = Ok ls.
Proof.
  destruct (adaptive_lists_ok double_round hyp HD d h (real_pos pos) srcs HR cap fuel _ real_adaptive Ht) as (ls & L). exists ls. rewrite <- L. symmetry.
  exact (all_lists_same d hypF hyp HN t built_good).
Qed.
Lemma leaf_nodes_real : leaf_nodes (real_atree t) = map real_node (leaf_nodes t).
Proof. unfold leaf_nodes, real_atree. cbn [at_leaves]. symmetry. apply concat_map. Qed.
Lemma leaf_list_real : leaf_list (real_atree t) = leaf_list t.
Proof. unfold leaf_list. rewrite leaf_nodes_real, map_map. reflexivity. Qed.
Theorem doubles_adaptive_sources : Permutation (flat_map an_srcs (leaf_nodes t)) srcs /\
  forall n, In n (leaf_nodes t) -> (length (an_srcs n) <= cap)%nat /\ forall s, In s (an_srcs n) -> almost_in d (real_node n) (map real_of (pos s)).
Proof.
  destruct (adaptive_sources double_round hyp HD d h (real_pos pos) srcs HR cap fuel _ real_adaptive Ht) as [P Q]. rewrite leaf_nodes_real in P, Q. rewrite flat_real in P.
  split; [exact P|]. intros n N. apply (Q (real_node n)). apply in_map, N.
Qed.
Theorem doubles_adaptive_coverage ls L : all_lists (N := NF) (D := DF) d t = Ok ls -> In L (leaf_list t) -> Permutation (interactions t ls L) (leaf_list t).
Proof.
  intros HL I. rewrite <- (all_lists_same d hypF hyp HN t built_good) in HL. rewrite <- leaf_list_real in I |- *.
  destruct (adaptive_coverage double_round hyp d (real_pos pos) srcs cap fuel _ real_adaptive ls HL L I) as [P _].
  replace (interactions t ls L) with (interactions (real_atree t) ls L); [exact P|]. unfold interactions.
  assert (LB : forall q, leaves_below (real_atree t) q = leaves_below t q) by (intros q; unfold leaves_below; rewrite leaf_list_real; reflexivity).
  assert (FM : forall l, flat_map (leaves_below (real_atree t)) l = flat_map (leaves_below t) l).
  { induction l as [|q l IH]; [reflexivity|]. cbn [flat_map]. rewrite LB, IH. reflexivity. }
  f_equal. f_equal; [apply FM|]. induction (ancestors_or_self L) as [|a l IH]; [reflexivity|]. cbn [flat_map]. rewrite FM, IH. reflexivity.
Qed.
Theorem doubles_adaptive_lookup x : ordinary d x -> among d (real_pos pos) srcs (map real_of x) ->
  (exists o, containing_leaf (N := NF) d t x = Ok o) /\
  (forall n, containing_leaf (N := NF) d t x = Ok (Some n) -> almost_in d (real_node n) (map real_of x) /\
     forall s, In s srcs -> map real_of (pos s) = map real_of x -> In s (an_srcs n)) /\
  (forall n, In n (leaf_nodes t) -> inside d (real_node n) (map real_of x) -> exists m, containing_leaf (N := NF) d t x = Ok (Some m) /\ an_addr m = an_addr n).
Proof.
  intros OX AX. destruct (adaptive_containing double_round hyp HD d h (real_pos pos) srcs HR cap fuel _ real_adaptive Ht (map real_of x) AX) as (A & B & C).
  rewrite (containing_leaf_same d t built_good x (ordinary_fin d x OX)) in A, B, C.
  destruct (containing_leaf (N := NF) d t x) as [o| | | | |]; try (destruct A as [o' A]; discriminate). rewrite omap_ok in *. split; [exists o; reflexivity|]. split.
  - intros n Q. injection Q as ->. destruct (B (real_node n) eq_refl) as (_ & B2 & B3). split; [exact B2|exact B3].
  - intros n N IN. specialize (C (real_node n)). rewrite leaf_nodes_real in C. specialize (C (in_map real_node _ _ N) IN). destruct o as [m|]; [|discriminate].
    exists m. split; [reflexivity|]. injection C. intros. assumption.
Qed.
End Built.
End Adaptive.

(** *** A case: nine points with integer coordinates. *)
Definition nine_points : list (list Z) := [[-1; 0]; [1; 1]; [0; -1]; [3; 7]; [-100; 20]; [50; 50]; [50; 51]; [-99; -99]; [1; -100]]%Z.
Definition nine_doubles : list (list float) := map (map float_of_Z) nine_points.
Lemma nine_real : map (map real_of) nine_doubles = map (map IZR) nine_points.
Proof.
  unfold nine_doubles. rewrite map_map. apply map_ext_in. intros p P. rewrite map_map. apply map_ext_in. intros z Z. apply of_Z_real.
  cbn in P. repeat destruct P as [<-|P]; try contradiction; cbn in Z; repeat destruct Z as [<-|Z]; try contradiction; cbn; lia.
Qed.
Lemma nine_ordinary : ordinary_sources 2 (fun x => x) nine_doubles.
Proof.
  intros s S. unfold nine_doubles in S. apply in_map_iff in S. destruct S as (p & <- & P).
  assert (Q : length p = 2%nat /\ forall z, In z p -> (Z.abs z <= 100)%Z).
  { cbn in P. repeat destruct P as [<-|P]; try contradiction; (split; [reflexivity|]); intros z Z; cbn in Z; repeat destruct Z as [<-|Z]; try contradiction; cbn; lia. }
  destruct Q as [L B]. split; [rewrite map_length; exact L|]. intros y Y. apply in_map_iff in Y. destruct Y as (z & <- & I). specialize (B z I).
  destruct (of_Z_real z ltac:(lia)) as [F R]. split; [exact F|]. rewrite R. destruct (Z.eq_dec z 0) as [->|NZ]; [left; reflexivity|right]. rewrite <- abs_IZR. split.
  - apply Rle_trans with (pw 0); [apply bpow_le; lia|]. simpl. apply IZR_le. lia.
  - apply Rle_trans with (pw 7); [simpl; apply IZR_le; lia|apply bpow_le; lia].
Qed.
Lemma nine_pos s : In s nine_doubles -> exists p, In p nine_points /\ s = map float_of_Z p /\ real_pos (fun x => x) s = map IZR p.
Proof.
  intros S. unfold nine_doubles in S. apply in_map_iff in S. destruct S as (p & <- & P). exists p. split; [exact P|]. split; [reflexivity|].
  unfold real_pos. rewrite map_map. apply map_ext_in. intros z Z. apply of_Z_real.
  cbn in P. repeat destruct P as [<-|P]; try contradiction; cbn in Z; repeat destruct Z as [<-|Z]; try contradiction; cbn; lia.
Qed.
Lemma nine_surround : surround 2 (real_pos (fun x => x)) nine_doubles 1 100.
Proof.
  intros j Hj.
  assert (W : forall p, In p nine_points -> exists s, In s nine_doubles /\ real_pos (fun x => x) s = map IZR p).
  { intros p P. exists (map float_of_Z p). assert (I : In (map float_of_Z p) nine_doubles) by (apply in_map, P). split; [exact I|].
    unfold real_pos. rewrite map_map. apply map_ext_in. intros z Z. apply of_Z_real.
    cbn in P. repeat destruct P as [<-|P]; try contradiction; cbn in Z; repeat destruct Z as [<-|Z]; try contradiction; cbn; lia. }
  assert (B : forall s, In s nine_doubles -> Rabs (nth j (real_pos (fun x => x) s) 0) <= 100).
  { intros s S. destruct (nine_pos s S) as (p & P & _ & ->). apply Rabs_le. destruct j as [|[|j]]; [| |lia]; cbn in P; repeat destruct P as [<-|P]; try contradiction; cbn; lra. }
  assert (P1 : In [-1; 0]%Z nine_points) by (left; reflexivity). assert (P2 : In [1; 1]%Z nine_points) by (right; left; reflexivity).
  assert (P3 : In [0; -1]%Z nine_points) by (right; right; left; reflexivity).
  destruct (W _ P1) as (s1 & I1 & E1). destruct (W _ P2) as (s2 & I2 & E2). destruct (W _ P3) as (s3 & I3 & E3).
  destruct j as [|[|j]]; [| |lia]; (split; [|split; [|exact B]]).
  - exists s1. split; [exact I1|]. rewrite E1. cbn. lra.
  - exists s2. split; [exact I2|]. rewrite E2. cbn. lra.
  - exists s3. split; [exact I3|]. rewrite E3. cbn. lra.
  - exists s2. split; [exact I2|]. rewrite E2. cbn. lra.
Qed.
Theorem nine_doubles_in_range : in_range 2 8 (real_pos (fun x => x)) nine_doubles.
Proof.
  split; [lia|]. split; [lia|]. split; [cbn; lia|]. split.
  - intros s S. destruct (nine_pos s S) as (p & P & _ & ->). rewrite map_length. cbn in P. repeat destruct P as [<-|P]; try contradiction; reflexivity.
  - exists 1, 100. split; [exact nine_surround|]. split; [lra|split; cbn; lra].
Qed.
Theorem nine_doubles_refinable : in_refinable_range 2 12 (real_pos (fun x => x)) nine_doubles.
Proof.
  destruct nine_doubles_in_range as (_ & _ & _ & L & _). split; [lia|]. split; [lia|]. split; [exact L|]. exists 1, 100. split; [exact nine_surround|]. split.
  - split; [lra|split; cbn; lra].
  - split.
    + apply (NoDup_map_inv (map real_of)). rewrite nine_real. unfold nine_points. cbn [map]. repeat constructor; intros H; cbn in H; repeat destruct H as [H|H]; try (injection H; intros; lra); destruct H.
    + intros s s' Hs Hs' NE. destruct (nine_pos s Hs) as (p & P & Q & ->). destruct (nine_pos s' Hs') as (p' & P' & Q' & ->). assert (NP : p <> p') by (intros ->; apply NE; congruence).
      clear NE Q Q' Hs Hs'. replace (2 ^ 12) with 4096 by (cbn; lra). cbn in P, P'.
      repeat destruct P as [<-|P]; try contradiction; repeat destruct P' as [<-|P']; try contradiction; try (exfalso; apply NP; reflexivity);
      (exists 0%nat; split; [lia|]; cbn [nth map]; unfold Rabs; destruct Rcase_abs; lra) || (exists 1%nat; split; [lia|]; cbn [nth map]; unfold Rabs; destruct Rcase_abs; lra).
Qed.
Lemma nine_adaptive : in_adaptive_range 2 12 (real_pos (fun x => x)) nine_doubles.
Proof. destruct nine_doubles_refinable as (A & B & C & m & M & D & E & _). split; [exact A|]. split; [lia|]. split; [exact C|]. exists m, M. split; assumption. Qed.
(** The two points of the failing case are ordinary too: the rounded model fails on them in the same way. *)
Lemma pow_magnitude (f : float) s m e : PrimFloat.is_finite f = true -> Prim2SF f = S754_finite s m e -> (-200 <= e)%Z -> (Z.log2 (Z.pos m) + e < 200)%Z -> magnitude 200 f.
Proof.
  intros F H L U. split; [exact F|right]. rewrite real_of_SF, H. unfold SF2R, F2R. cbn [Fnum Fexp]. rewrite Rabs_mult, (Rabs_pos_eq (pw e)) by apply bpow_ge_0. rewrite <- abs_IZR.
  replace (Z.abs (cond_Zopp s (Z.pos m))) with (Z.pos m) by (destruct s; reflexivity). split.
  - apply Rle_trans with (1 * pw e); [rewrite Rmult_1_l; apply bpow_le, L|]. apply Rmult_le_compat_r; [apply bpow_ge_0|]. apply IZR_le. lia.
  - assert (B : IZR (Z.pos m) <= pw (Z.log2 (Z.pos m) + 1)).
    { rewrite <- IZR_Zpower by (assert (0 <= Z.log2 (Z.pos m))%Z by apply Z.log2_nonneg; lia). apply IZR_le. cbn [radix_val radix2].
      destruct (Z.log2_spec (Z.pos m) ltac:(lia)) as [_ H2]. unfold Z.succ in H2. apply Z.lt_le_incl. exact H2. }
    apply Rle_trans with (pw (Z.log2 (Z.pos m) + 1) * pw e); [apply Rmult_le_compat_r; [apply bpow_ge_0|exact B]|]. rewrite <- bpow_plus. apply bpow_le. lia.
Qed.
Lemma low_ordinary : ordinary_sources 2 (fun x => x) low_corner.
Proof.
  assert (A : magnitude 200 (-0x1p-60)%float).
  { apply (pow_magnitude _ true 4503599627370496 (-112)); try (vm_compute; reflexivity); try (vm_compute; discriminate). }
  assert (B : magnitude 200 1%float).
  { apply (pow_magnitude _ false 4503599627370496 (-52)); try (vm_compute; reflexivity); try (vm_compute; discriminate). }
  intros s [<-|[<-|[]]]; (split; [reflexivity|]); intros y [<-|[<-|[]]]; assumption.
Qed.
Theorem low_rounded : bal_build (N := NR) (D := DistRnd (rounded_norm 2)) 2 (real_pos (fun x => x)) 1 low_corner = UB.
Proof.
  destruct (bal_build_same 2 (fun x => x) float_norm (rounded_norm 2) (float_norm_of 2 ltac:(lia)) 1 low_corner ltac:(lia) low_ordinary) as [E _]. rewrite E.
  destruct low_fails as [_ H]. rewrite (H (DistF float_norm)). reflexivity.
Qed.
