(** Termination of the adaptive construction for every list of sources: those outside the root box behave like the nearest
    points of the box. *)
From Coq Require Import List Bool ZArith Arith Reals Lra Lia Permutation.
From Verif Require Import Num Outcome Vec Orthtree AdaptiveTree TreeSpec VecProofs GeometrySpec GeometryProofs TreeGeometry
  AdaptiveProofs BfsProofs ListProofs ListContents RootBoxProofs BuildProofs TreeTheorems TreeTheorems2 TreeTheorems3 PointTree PointProofs.
Import ListNotations.

(** The point of the box nearest to [x]. *)
Definition nearest (d : nat) (c : list R) (l : R) (x : list R) : list R :=
  map (fun j => Rmax (nth j c 0 - l / 2) (Rmin (nth j c 0 + l / 2) (nth j x 0)))%R (seq 0 d).

Lemma nth_nearest d c l x j : j < d -> nth j (nearest d c l x) 0%R = Rmax (nth j c 0 - l / 2)%R (Rmin (nth j c 0 + l / 2)%R (nth j x 0%R)).
Proof.
  intros Hj. unfold nearest. set (g := fun j : nat => _). rewrite (nth_indep _ _ (g 0)) by (rewrite map_length, seq_length; exact Hj).
  rewrite map_nth, seq_nth by exact Hj. reflexivity.
Qed.
Lemma len_nearest d c l x : length (nearest d c l x) = d.
Proof. unfold nearest. rewrite map_length, seq_length. reflexivity. Qed.
Lemma nearest_in d c l x : (0 <= l)%R -> in_box d c l (nearest d c l x).
Proof.
  intros Hl j Hj. rewrite nth_nearest by exact Hj.
  unfold Rmax, Rmin. repeat destruct (Rle_dec _ _); lra.
Qed.
Lemma nearest_id d c l x : length x = d -> in_box d c l x -> nearest d c l x = x.
Proof.
  intros Hx H. apply (nth_ext _ _ 0%R 0%R); [rewrite len_nearest; auto|]. intros j Hj. rewrite len_nearest in Hj. rewrite nth_nearest by exact Hj.
  specialize (H j Hj). unfold Rmax, Rmin. repeat destruct (Rle_dec _ _); lra.
Qed.

Section Clamp.
Context {Src : Type}.
Variable d : nat.
Variable pos : Src -> list R.
Variable c : list R.
Variable l : R.
Hypothesis Hc : length c = d.
Hypothesis Hl : (0 < l)%R.
Notation pos' := (fun s => nearest d c l (pos s)).

Lemma orthant_nearest p x : get_orthant d (box_ctr d c l p) (nearest d c l x) = get_orthant d (box_ctr d c l p) x.
Proof.
  apply get_orthant_iff; [apply get_orthant_lt|]. intros j Hj. rewrite get_orthant_bit by exact Hj. rewrite Rleb_true.
  unfold vget. cbn [n0 NumR]. rewrite nth_nearest, nth_box_ctr by assumption.
  assert (B := gco_bounds d j p). assert (P2 := pow2_pos (length p)). assert (W2 : (0 < l / 2 ^ length p)%R) by (apply Rdiv_lt_0_compat; lra).
  assert (E : (2 ^ length p * (l / 2 ^ length p) = l)%R) by (field; lra).
  assert (B1 : (0 <= IZR (gco d j p))%R) by (apply IZR_le; lia).
  assert (B2 : (IZR (gco d j p) + 1 <= 2 ^ length p)%R).
  { rewrite <- (plus_IZR _ 1). unfold p2 in B. rewrite <- IZR_pow2 || rewrite pow_IZR. apply IZR_le. lia. }
  set (w := (l / 2 ^ length p)%R) in *. set (g := IZR (gco d j p)) in *.
  unfold Rmax, Rmin. repeat destruct (Rle_dec _ _); split; nra.
Qed.
Lemma sub_nearest srcs p : sub d pos' c l srcs p = sub d pos c l srcs p.
Proof.
  induction p as [|i p IH]; [reflexivity|]. cbn [sub]. rewrite IH. apply filter_ext. intros s. rewrite orthant_nearest. reflexivity.
Qed.
Lemma refined_nearest cap srcs r p : refined d pos' c l cap srcs r p = refined d pos c l cap srcs r p.
Proof. unfold refined. rewrite sub_nearest. reflexivity. Qed.
Lemma level_nearest cap srcs r k : level d pos' c l cap srcs r k = level d pos c l cap srcs r k.
Proof.
  induction k as [|k IH]; [reflexivity|]. cbn [level]. rewrite IH. f_equal. apply filter_ext. intros p. apply refined_nearest.
Qed.
Lemma empty_nearest cap srcs r k : filter (refined d pos' c l cap srcs r) (level d pos' c l cap srcs r k) = filter (refined d pos c l cap srcs r) (level d pos c l cap srcs r k).
Proof. rewrite level_nearest. apply filter_ext. intros p. apply refined_nearest. Qed.

(** Refinement from the root ends iff at most [cap] sources share a nearest point. *)
Lemma refinement_ends cap srcs :
  (exists k, 1 <= k /\ filter (refined d pos c l cap srcs true) (level d pos c l cap srcs true k) = []) <->
  forall x, count_occ list_R_eq_dec (map pos' srcs) x <= cap.
Proof.
  split.
  - intros (k & _ & HE) x. destruct (le_lt_dec (count_occ list_R_eq_dec (map pos' srcs) x) cap) as [|L]; [assumption|exfalso].
    rewrite <- empty_nearest in HE. revert HE. apply (many_coincident_level d pos' c l cap srcs true x k); [reflexivity|exact L].
  - intros H. destruct (terminates_level d pos' c l cap srcs true (ex_intro _ true eq_refl) Hc) as (k & Hk & HE).
    + intros; apply len_nearest.
    + intros; apply nearest_in; lra.
    + exact H.
    + exists k. split; [exact Hk|]. rewrite <- empty_nearest. exact HE.
Qed.
End Clamp.

(** All sources at one point. *)
Lemma coincident_ends {Src} d (pos : Src -> list R) c l cap srcs x : (forall s, In s srcs -> pos s = x) ->
  ((exists k, 1 <= k /\ filter (refined d pos c l cap srcs true) (level d pos c l cap srcs true k) = []) <-> length srcs <= cap).
Proof.
  intros H. split.
  - intros (k & _ & HE). destruct (le_lt_dec (length srcs) cap) as [|L]; [assumption|exfalso].
    rewrite (all_equal_count pos srcs x H) in L. exact (many_coincident_level d pos c l cap srcs true x k eq_refl L HE).
  - intros L. exists 1. split; [lia|]. apply filter_none. intros p Hp. unfold refined. apply in_level in Hp. destruct Hp as [Lp _].
    destruct p as [|i p]; [discriminate Lp|]. cbn -[sub]. apply Nat.ltb_ge. 
    assert (K : length (sub d pos c l srcs (i :: p)) <= length srcs).
    { clear. generalize (i :: p) as q. induction q as [|k q IH]; [apply le_n|]. cbn [sub]. eapply Nat.le_trans; [|exact IH].
      generalize (sub d pos c l srcs q) as ss. induction ss as [|s ss IHs]; [apply le_n|]. cbn [filter]. destruct (Nat.eqb _ _); cbn [length]; lia. }
    lia.
Qed.

Section Whole.
Context {Src : Type}.
Variable d : nat.
Variable pos : Src -> list R.
Hypothesis Hd : 1 <= d.

Lemma flat_coincident srcs c : (forall s, In s srcs -> length (pos s) = d) -> root_box d (map pos srcs) = Some (c, 0%R) ->
  exists x, forall s, In s srcs -> pos s = x.
Proof.
  intros Hpos RB. destruct (root_box_spec d (map pos srcs) Hd) as (lo & hi & c' & l' & (L1 & L2 & EB) & RB' & Hc & CC & LL & _).
  { intros E. apply map_eq_nil in E. apply (root_box_finite d pos srcs Hd Hpos) in E. congruence. }
  { intros x Hx. apply in_map_iff in Hx. destruct Hx as (s & <- & Hs). auto. }
  rewrite RB in RB'. injection RB' as <- <-. exists lo. intros s Hs. apply (nth_ext _ _ 0%R 0%R); [rewrite (Hpos s Hs); auto|].
  intros j Hj. rewrite (Hpos s Hs) in Hj. destruct (EB j Hj) as (A & _). specialize (A _ (in_map pos _ _ Hs)). specialize (LL j Hj).
  unfold eps5 in LL. lra.
Qed.

(** What the constructors need: the refinement of the box of the data ends. *)
Lemma data_refinement_ends cap srcs c l : (forall s, In s srcs -> length (pos s) = d) -> root_box d (map pos srcs) = Some (c, l) ->
  ((exists k, 1 <= k /\ filter (refined d pos c l cap srcs true) (level d pos c l cap srcs true k) = []) <->
   forall x, count_occ list_R_eq_dec (map (fun s => nearest d c l (pos s)) srcs) x <= cap).
Proof.
  intros Hpos RB.
  assert (BL : length c = d /\ (0 <= l)%R).
  { destruct (root_box_spec d (map pos srcs) Hd) as (lo & hi & c' & l' & EB & RB' & Hc & CC & LL & (j & Hj & Ej)).
    { intros E. apply map_eq_nil in E. apply (root_box_finite d pos srcs Hd Hpos) in E. congruence. }
    { intros x Hx. apply in_map_iff in Hx. destruct Hx as (s & <- & Hs). auto. }
    rewrite RB in RB'. injection RB' as <- <-. split; [exact Hc|].
    rewrite Ej. destruct EB as (_ & _ & EB). destruct (EB j Hj) as (A & (x & Hx & Ex) & _). specialize (A x Hx). unfold eps5. nra. }
  destruct BL as [Hc [Hl|E]]; [apply refinement_ends; assumption|]. subst l.
  destruct (flat_coincident srcs c Hpos RB) as (x & Hx). rewrite (coincident_ends d pos c 0%R cap srcs x Hx).
  assert (Hn : forall s, In s srcs -> nearest d c 0 (pos s) = nearest d c 0 x) by (intros s Hs; rewrite (Hx s Hs); reflexivity).
  split.
  - intros L y. eapply Nat.le_trans; [apply count_occ_length|]. rewrite map_length. exact L.
  - intros H. specialize (H (nearest d c 0 x)). rewrite <- (all_equal_count (fun s => nearest d c 0 (pos s)) srcs _ Hn) in H. exact H.
Qed.

Theorem adaptive_ends cap srcs c l : (forall s, In s srcs -> length (pos s) = d) -> root_box d (map pos srcs) = Some (c, l) ->
  ((exists fuel t, build_adaptive d pos cap fuel srcs = Ok t) <->
   forall x, count_occ list_R_eq_dec (map (fun s => nearest d c l (pos s)) srcs) x <= cap).
Proof.
  intros Hpos RB. destruct (le_lt_dec (length srcs) cap) as [L|L].
  - split.
    + intros _ y. eapply Nat.le_trans; [apply count_occ_length|]. rewrite map_length. exact L.
    + intros _. exists 0. unfold build_adaptive, build_in_box. rewrite RB. apply Nat.leb_le in L. rewrite L. eexists. reflexivity.
  - rewrite <- (data_refinement_ends cap srcs c l Hpos RB). unfold build_adaptive. rewrite RB. split.
    + intros (fuel & t & H). destruct (build_in_box d pos cap fuel c l srcs) as [t'|] eqn:E; [|discriminate].
      unfold build_in_box in E. destruct (Nat.leb_spec (length srcs) cap) as [|_]; [lia|].
      apply (build_from_root d pos c l cap srcs true) in E; [|reflexivity]. destruct E as (h & Hh & [HE _] & _). exists h. split; [lia|exact HE].
    + intros (k & Hk & HE). exists k. unfold build_in_box. destruct (Nat.leb_spec (length srcs) cap) as [|_]; [lia|].
      assert (T := build_from_root_complete d pos c l cap srcs true k k eq_refl ltac:(lia) HE).
      match type of T with ?b <> _ => match goal with |- context [match ?g with _ => _ end] => change g with b end; destruct b as [t|] end;
        [exists t; reflexivity|exfalso; apply T; reflexivity].
Qed.
Theorem points_end cap srcs c l : (forall s, In s srcs -> length (pos s) = d) -> root_box d (map pos srcs) = Some (c, l) ->
  ((exists fuel t, build_points d pos cap fuel srcs = Ok t) <->
   forall x, count_occ list_R_eq_dec (map (fun s => nearest d c l (pos s)) srcs) x <= cap).
Proof.
  intros Hpos RB. rewrite <- (data_refinement_ends cap srcs c l Hpos RB). unfold build_points. rewrite RB. split.
  - intros (fuel & t & H). destruct (build_point_tree d pos cap fuel c l srcs) as [t'|] eqn:E; [|discriminate].
    apply (build_from_root d pos c l cap srcs true) in E; [|reflexivity]. destruct E as (h & Hh & [HE _] & _). exists h. split; [lia|exact HE].
  - intros (k & Hk & HE). exists k.
    assert (T := build_from_root_complete d pos c l cap srcs true k k eq_refl ltac:(lia) HE).
    match type of T with ?b <> _ => match goal with |- context [match ?g with _ => _ end] => change g with b end; destruct b as [t|] end;
      [exists t; reflexivity|exfalso; apply T; reflexivity].
Qed.
(** The constructor runs for ever otherwise. *)
Theorem adaptive_total cap srcs c l : (forall s, In s srcs -> length (pos s) = d) -> root_box d (map pos srcs) = Some (c, l) ->
  forall fuel, (exists t, build_adaptive d pos cap fuel srcs = Ok t) \/ build_adaptive d pos cap fuel srcs = OutOfFuel.
Proof.
  intros Hpos RB fuel. unfold build_adaptive. rewrite RB. destruct (build_in_box d pos cap fuel c l srcs); eauto.
Qed.
End Whole.

(** *** Which data lie in their root box *)
Theorem root_box_contains_iff {Src} d (pos : Src -> list R) srcs c l (lo hi : list R) (W : R) :
  1 <= d -> (forall s, In s srcs -> length (pos s) = d) -> root_box d (map pos srcs) = Some (c, l) ->
  (forall j, j < d -> (forall s, In s srcs -> nth j lo 0 <= nth j (pos s) 0 <= nth j hi 0)%R /\
     (exists s, In s srcs /\ nth j (pos s) 0%R = nth j lo 0%R) /\ (exists s, In s srcs /\ nth j (pos s) 0%R = nth j hi 0%R)) ->
  (forall j, j < d -> (nth j hi 0 - nth j lo 0 <= W)%R) -> (exists j, j < d /\ W = (nth j hi 0 - nth j lo 0)%R) ->
  ((forall s, In s srcs -> in_box d c l (pos s)) <->
   forall j, j < d -> (nth j hi 0 - nth j lo 0 + / 100000 * Rabs (nth j lo 0 + nth j hi 0) <= (1 + / 100000) * W)%R).
Proof.
  intros Hd Hpos RB HB HW (k & Hk & EW).
  destruct (root_box_spec d (map pos srcs) Hd) as (lo' & hi' & c' & l' & (_ & _ & EB) & RB' & Hc & CC & LL & (k' & Hk' & Ek')).
  { intros E. apply map_eq_nil in E. apply (root_box_finite d pos srcs Hd Hpos) in E. congruence. }
  { intros x Hx. apply in_map_iff in Hx. destruct Hx as (s & <- & Hs). auto. }
  rewrite RB in RB'. injection RB' as <- <-.
  assert (EQ : forall j, j < d -> nth j lo' 0%R = nth j lo 0%R /\ nth j hi' 0%R = nth j hi 0%R).
  { intros j Hj. destruct (EB j Hj) as (A & (x & Ix & Ex) & (y & Iy & Ey)). destruct (HB j Hj) as (B & (s1 & I1 & E1) & (s2 & I2 & E2)).
    apply in_map_iff in Ix, Iy. destruct Ix as (sx & <- & Isx). destruct Iy as (sy & <- & Isy).
    assert (B1 := B _ Isx). assert (B2 := B _ Isy). assert (A1 := A _ (in_map pos _ _ I1)). assert (A2 := A _ (in_map pos _ _ I2)). lra. }
  assert (EL : l = ((1 + / 100000) * W)%R).
  { assert (E5 : eps5 = (/ 100000)%R) by (unfold eps5; lra). destruct (EQ k' Hk') as [Q1 Q2]. rewrite Q1, Q2, E5 in Ek'. assert (X := HW k' Hk').
    assert (Y := LL k Hk). destruct (EQ k Hk) as [Q3 Q4]. rewrite Q3, Q4, E5, <- EW in Y. nra. }
  assert (EC : forall j, j < d -> nth j c 0%R = ((nth j lo 0 + nth j hi 0) * (1 + / 100000) / 2)%R).
  { intros j Hj. rewrite CC by exact Hj. destruct (EQ j Hj) as [-> ->]. unfold eps5. lra. }
  split.
  - intros H j Hj. destruct (HB j Hj) as (_ & (s1 & I1 & E1) & (s2 & I2 & E2)). assert (H1 := H s1 I1 j Hj). assert (H2 := H s2 I2 j Hj).
    rewrite E1 in H1. rewrite E2 in H2. rewrite EC, EL in H1, H2 by exact Hj. unfold Rabs. destruct (Rcase_abs _); lra.
  - intros H s Hs j Hj. specialize (H j Hj). destruct (HB j Hj) as (B & _). specialize (B s Hs). rewrite EC, EL by exact Hj.
    unfold Rabs in H. destruct (Rcase_abs _); lra.
Qed.

(** *** Cases *)
Lemma far_pair_root : exists c l, root_box 2 (map (fun x => x) far_pair) = Some (c, l).
Proof. destruct far_pair_box as (c & l & RB & _). exists c, l. rewrite map_id. exact RB. Qed.
Lemma five_bounds : (forall j, j < 2 -> (forall s, In s five -> nth j [-1; -1] 0 <= nth j s 0 <= nth j [1; 1] 0)%R /\
  (exists s, In s five /\ nth j s 0%R = nth j [-1; -1]%R 0%R) /\ (exists s, In s five /\ nth j s 0%R = nth j [1; 1]%R 0%R)) /\
  (forall j, j < 2 -> (nth j [1; 1] 0 - nth j [-1; -1] 0 <= 2)%R) /\ (exists j, j < 2 /\ 2%R = (nth j [1; 1] 0 - nth j [-1; -1] 0)%R).
Proof.
  split; [|split].
  - intros j Hj. split; [|split].
    + intros s Hs. destruct j as [|[|j]]; [| |lia]; repeat destruct Hs as [<-|Hs]; try destruct Hs; cbn; lra.
    + exists [-1; -1]%R. split; [left; reflexivity|reflexivity].
    + exists [1; 1]%R. split; [right; left; reflexivity|reflexivity].
  - intros j Hj. destruct j as [|[|j]]; [| |lia]; cbn; lra.
  - exists 0. split; [lia|]. cbn. lra.
Qed.
