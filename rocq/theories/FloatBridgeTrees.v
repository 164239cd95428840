(** The trees built in IEEE doubles from ordinary coordinates, and their lists and look-ups, are those of the model with rounded
    operations. *)
From Coq Require Import Reals List Bool ZArith Arith Lia Lra.
From Flocq Require Import Core.
From Verif Require Import Num Outcome Vec Orthtree AdaptiveTree BalancedTree VecProofs RoundedCases RoundedTree FloatCases FloatFit FloatGeometry FloatSpec FloatBridge.
From Coq Require Import Floats.
Import ListNotations.
Local Open Scope R_scope.

Lemma omap_ok {A B} (f : A -> B) a : omap f (Ok a) = Ok (f a).
Proof. reflexivity. Qed.

Section Trees.
Context {Src : Type}.
Variable d : nat.
Variable pos : Src -> list float.
Variables (hypF : list float -> float) (hyp : list R -> R).
Hypothesis HH : norm_of d hypF hyp.
Notation rpos := (real_pos pos).
Notation nodeF := (@anode float Src).
Notation DF := (DistF hypF).
Notation DR := (DistRnd hyp).

Lemma ordinary_fits x : ordinary d x -> fitv (-252) 200 x.
Proof. intros [_ H]. apply Forall_forall. intros y Y. apply (magnitude_fits 200); [lia|]. apply H, Y. Qed.
Lemma ordinary_fin x : ordinary d x -> finv x.
Proof. intros H. eapply fitv_fin. apply ordinary_fits, H. Qed.
Lemma ordinary_pts srcs : ordinary_sources d pos srcs -> Forall (fitv (-252) 200) (map pos srcs).
Proof. intros H. apply Forall_forall. intros x X. apply in_map_iff in X. destruct X as (s & <- & S). apply ordinary_fits, H, S. Qed.
Lemma raw_length pts : (forall p, In p pts -> length p = d) -> length (fst (raw_range (N := NumF) d pts)) = d /\ length (snd (raw_range (N := NumF) d pts)) = d.
Proof.
  intros H. unfold raw_range. assert (G : forall st, length (fst st) = d -> length (snd st) = d ->
    length (fst (fold_left (range_step (N := NumF)) pts st)) = d /\ length (snd (fold_left (range_step (N := NumF)) pts st)) = d).
  { induction pts as [|p pts IH]; intros st A B; [split; assumption|]. cbn [fold_left]. apply IH.
    - intros q Q. apply H. right. exact Q.
    - unfold range_step. cbn [fst]. rewrite length_map2, A, (H p (or_introl eq_refl)). apply Nat.min_id.
    - unfold range_step. cbn [snd]. rewrite length_map2, B, (H p (or_introl eq_refl)). apply Nat.min_id. }
  apply G; cbn [fst snd]; apply repeat_length.
Qed.
Lemma all_some_length {A} (l : list (option A)) v : all_some l = Some v -> length v = length l.
Proof.
  revert v. induction l as [|[x|] l IH]; intros v H; cbn [all_some] in H; [injection H as <-; reflexivity| |discriminate].
  destruct (all_some l) as [r|]; [|discriminate]. injection H as <-. cbn [length]. rewrite (IH r eq_refl). reflexivity.
Qed.
Lemma vadd_length {T} (N : Num T) (a b : list T) : length (vadd a b) = Nat.min (length a) (length b).
Proof. unfold vadd. apply length_map2. Qed.
Lemma pad_length {T} (N : Num T) (a : list T) : length (pad a) = length a.
Proof. unfold pad. rewrite vadd_length. unfold vscale. rewrite map_length. apply Nat.min_id. Qed.
Lemma root_good srcs c l leaf ss : ordinary_sources d pos srcs -> root_box (N := NumF) d (map pos srcs) = Some (c, l) -> good d (ANode [] c l 0 leaf ss : nodeF).
Proof.
  intros HS HB. destruct (root_box_real d (-252) 200 (map pos srcs) ltac:(lia) ltac:(lia) (ordinary_pts srcs HS)) as [_ H].
  destruct (H c l HB) as [A B]. unfold good. cbn [an_center an_len an_depth]. split; [|split; [exact A|split; [exact B|lia]]].
  unfold root_box, data_range in HB. destruct (raw_length (map pos srcs)) as [L1 L2].
  { intros p P. apply in_map_iff in P. destruct P as (s & <- & S). apply (HS s S). }
  destruct (all_some (fst (raw_range (N := NumF) d (map pos srcs)))) as [lo|] eqn:E1; [|discriminate].
  destruct (all_some (snd (raw_range (N := NumF) d (map pos srcs)))) as [hi|] eqn:E2; [|discriminate].
  destruct (max_element (N := NumF) _) as [m|]; [|discriminate]. injection HB as <- _. apply all_some_length in E1, E2.
  unfold vscale. rewrite map_length, vadd_length, !pad_length, E1, E2, L1, L2. apply Nat.min_id.
Qed.
Lemma root_box_same srcs : ordinary_sources d pos srcs ->
  root_box (N := NR) d (map rpos srcs) = option_map real_box (root_box (N := NumF) d (map pos srcs)).
Proof.
  intros HS. destruct (root_box_real d (-252) 200 (map pos srcs) ltac:(lia) ltac:(lia) (ordinary_pts srcs HS)) as [H _]. rewrite <- H. rewrite map_map. reflexivity.
Qed.

(** *** The adaptive tree *)
Lemma gtree_of t : Forall (Forall (good d)) (at_nodes t) -> Forall (Forall (good d)) (at_leaves t) -> @gtree Src d t.
Proof.
  intros A B n I. unfold heap in I. apply in_app_or in I. rewrite !in_concat in I. rewrite Forall_forall in A, B.
  destruct I as [(l & L & I)|(l & L & I)]; [specialize (A l L)|specialize (B l L)]; rewrite Forall_forall in *; auto.
Qed.
Theorem build_adaptive_same cap fuel srcs : (fuel <= 60)%nat -> ordinary_sources d pos srcs ->
  build_adaptive (N := NR) d rpos cap fuel srcs = omap real_atree (build_adaptive (N := NumF) d pos cap fuel srcs) /\
  forall t, build_adaptive (N := NumF) d pos cap fuel srcs = Ok t -> gtree d t.
Proof.
  intros K HS. unfold build_adaptive. rewrite (root_box_same srcs HS). destruct (root_box (N := NumF) d (map pos srcs)) as [[c l]|] eqn:HB; [|split; [reflexivity|discriminate]].
  cbn [option_map real_box fst snd]. unfold build_in_box. destruct (Nat.leb (length srcs) cap).
  - split; [reflexivity|]. intros t Q. injection Q as <-. apply gtree_of; cbn [at_nodes at_leaves]; [constructor|]. constructor; [|constructor]. constructor; [|constructor]. apply (root_good srcs); assumption.
  - assert (G := root_good srcs c l false [] HS HB). set (root := ANode [] c l 0 false []) in *.
    destruct (build_loop_real d pos cap fuel 0 [(root, srcs)] [[root]] [[]]) as [E F].
    + lia.
    + constructor; [|constructor]. split; [|reflexivity]. split; [exact G|]. apply Forall_forall. intros s S. apply ordinary_fin, HS, S.
    + constructor; [|constructor]. constructor; [exact G|constructor].
    + constructor; constructor.
    + cbn [map] in E. unfold real_pair in E. cbn [fst snd] in E. change (real_node root) with (ANode (Src := Src) [] (map real_of c) (real_of l) 0 false []) in E.
      rewrite E. destruct (build_loop (N := NumF) d pos cap fuel 0 [(root, srcs)] [[root]] [[]]) as [t|]; [|split; [reflexivity|discriminate]].
      split; [reflexivity|]. intros t' Q. injection Q as <-. destruct (F t eq_refl) as (F1 & F2 & _). apply gtree_of; assumption.
Qed.

Lemma heap_same t : heap (real_atree t) = map real_node (@heap float Src t).
Proof. unfold heap, real_atree. cbn [at_nodes at_leaves]. rewrite map_app, !concat_map. reflexivity. Qed.
Lemma lookup_same t p : lookup (real_atree t) p = option_map real_node (@lookup float Src t p).
Proof. unfold lookup. rewrite heap_same. apply find_map. intros x. reflexivity. Qed.
Lemma lookup_in t p n : @lookup float Src t p = Some n -> In n (heap t).
Proof. unfold lookup. intros H. apply find_some in H. apply H. Qed.
Lemma children_same t p : children d (real_atree t) p = @children float Src d t p.
Proof. unfold children. rewrite lookup_same. destruct (lookup t p) as [n|]; reflexivity. Qed.

Section Lists.
Variable t : @atree float Src.
Hypothesis HT : gtree d t.
Lemma nbhd_child_same nd ls q : good d nd -> nbhd_child (N := NR) (D := DR) d (real_atree t) (real_node nd) ls q = nbhd_child (N := NumF) (D := DF) d t nd ls q.
Proof.
  intros G. unfold nbhd_child. rewrite lookup_same. destruct (lookup t q) as [ch|] eqn:E; [|reflexivity]. cbn [option_map].
  assert (GC := HT ch (lookup_in t q ch E)). rewrite <- (good_adjacent d nd ch G GC), <- (good_close d hypF hyp nd ch HH G GC). reflexivity.
Qed.
Lemma nbhd_neighbour_same nd ls q : good d nd -> nbhd_neighbour (N := NR) (D := DR) d (real_atree t) (real_node nd) ls q = nbhd_neighbour (N := NumF) (D := DF) d t nd ls q.
Proof.
  intros G. unfold nbhd_neighbour. rewrite lookup_same. destruct (lookup t q) as [pn|] eqn:E; [|reflexivity]. cbn [option_map].
  assert (GC := HT pn (lookup_in t q pn E)). rewrite <- (good_adjacent d nd pn G GC), children_same. cbn [an_leaf an_addr real_node].
  destruct (an_leaf pn); [reflexivity|]. apply ofold_ext. intros s a _. apply nbhd_child_same, G.
Qed.
Lemma nbhd_same p ls : nbhd (N := NR) (D := DR) d (real_atree t) p ls = nbhd (N := NumF) (D := DF) d t p ls.
Proof.
  unfold nbhd. rewrite lookup_same. destruct (lookup t p) as [nd|] eqn:E; [|reflexivity]. cbn [option_map]. destruct p as [|i p]; [reflexivity|].
  apply ofold_ext. intros s a _. apply nbhd_neighbour_same. apply (HT nd (lookup_in t _ nd E)).
Qed.
Theorem all_lists_same : all_lists (N := NR) (D := DR) d (real_atree t) = all_lists (N := NumF) (D := DF) d t.
Proof.
  unfold all_lists. rewrite heap_same, map_length. apply bfs_ext; [intros s p; apply children_same|exact nbhd_same].
Qed.
Lemma descend_same x : finv x -> forall fuel p, descend (N := NR) d (real_atree t) fuel p (map real_of x) = omap real_node (descend (N := NumF) d t fuel p x).
Proof.
  intros HX. induction fuel as [|fuel IH]; intros p; cbn [descend]; rewrite lookup_same; destruct (lookup t p) as [n|] eqn:E; try reflexivity; cbn [option_map an_leaf real_node];
    destruct (an_leaf n); try reflexivity.
  cbn [an_center real_node]. rewrite <- get_orthant_real; [apply IH|apply (good_fin d n), (HT n (lookup_in t _ n E))|exact HX].
Qed.
Lemma descend_in x : forall fuel p n, descend (N := NumF) d t fuel p x = Ok n -> In n (heap t).
Proof.
  induction fuel as [|fuel IH]; intros p n; cbn [descend]; destruct (lookup t p) as [m|] eqn:E; try discriminate; destruct (an_leaf m); try discriminate.
  - intros Q. injection Q as <-. apply (lookup_in t p), E.
  - intros Q. injection Q as <-. apply (lookup_in t p), E.
  - apply IH.
Qed.
Theorem containing_leaf_same x : finv x ->
  containing_leaf (N := NR) d (real_atree t) (map real_of x) = omap (option_map real_node) (containing_leaf (N := NumF) d t x).
Proof.
  intros HX. unfold containing_leaf. change (at_height (real_atree t)) with (at_height t). rewrite descend_same by exact HX.
  destruct (descend (N := NumF) d t (at_height t) [] x) as [n| | | | |] eqn:E; try reflexivity. rewrite !omap_ok. cbn [an_center an_len real_node].
  rewrite <- (good_contains d n x (HT n (descend_in x _ _ n E)) HX). destruct (contains (N := NumF) d (an_center n) (an_len n) x); reflexivity.
Qed.
End Lists.

(** *** The balanced tree *)
Definition real_bstate (st : @bstate float Src) : @bstate R Src := BState (map real_node (bs_nodes st)) (map real_node (bs_leaves st)) (bs_children st).
Definition gstate (h : nat) (st : @bstate float Src) : Prop := forall n, In n (bs_nodes st ++ bs_leaves st) -> good d n /\ (an_depth n <= h)%nat.

Lemma bs_lookup_same st p : bs_lookup (real_bstate st) p = option_map real_node (bs_lookup st p).
Proof. unfold bs_lookup, real_bstate. cbn [bs_nodes bs_leaves]. rewrite <- map_app. apply find_map. intros x. reflexivity. Qed.
Lemma bs_lookup_in (st : @bstate float Src) p n : bs_lookup st p = Some n -> In n (bs_nodes st ++ bs_leaves st) /\ an_addr n = p.
Proof.
  unfold bs_lookup. intros H. apply find_some in H. destruct H as [H1 H2]. split; [exact H1|]. clear H1. revert p H2. generalize (an_addr n). clear.
  induction a as [|x a IH]; intros [|y p] H; cbn [addr_eqb] in H; try discriminate; [reflexivity|]. apply andb_true_iff in H. destruct H as [A B].
  apply Nat.eqb_eq in A. f_equal; [exact A|]. apply IH, B.
Qed.
(** A loop that commutes with the change of representation and keeps an invariant. *)
Lemma ofold_sim {A S S'} (r : S -> S') (I : S -> Prop) (f : S -> A -> outcome S) (g : S' -> A -> outcome S') l :
  (forall s a, I s -> In a l -> g (r s) a = omap r (f s a) /\ forall s', f s a = Ok s' -> I s') ->
  forall s, I s -> ofold g l (r s) = omap r (ofold f l s) /\ forall s', ofold f l s = Ok s' -> I s'.
Proof.
  induction l as [|a l IH]; intros H s HI; cbn [ofold].
  - split; [reflexivity|]. intros s' Q. injection Q as <-. exact HI.
  - destruct (H s a HI (or_introl eq_refl)) as [E F]. rewrite E. destruct (f s a) as [s1| | | | |]; try (split; [reflexivity|discriminate]).
    cbn [bind omap]. apply IH; [|apply F; reflexivity]. intros s2 b HI2 B. apply H; [exact HI2|right; exact B].
Qed.
Lemma bfs_sim {P S S'} (r : S -> S') (I : S -> Prop) (c : S -> P -> list P) (c' : S' -> P -> list P) (f : P -> S -> outcome S) (g : P -> S' -> outcome S') :
  (forall s p, c' (r s) p = c s p) -> (forall s p, I s -> g p (r s) = omap r (f p s) /\ forall s', f p s = Ok s' -> I s') ->
  forall fuel q s, I s -> bfs c' g fuel q (r s) = omap r (bfs c f fuel q s) /\ forall s', bfs c f fuel q s = Ok s' -> I s'.
Proof.
  intros HC H. induction fuel as [|fuel IH]; intros q s HI; destruct q as [|p q]; cbn [bfs]; try (split; [reflexivity|]); try (intros s' Q; injection Q as <-; exact HI); try discriminate.
  destruct (H s p HI) as [E F]. rewrite E. destruct (f p s) as [s1| | | | |]; try (split; [reflexivity|discriminate]). cbn [bind omap]. rewrite HC. apply IH, F. reflexivity.
Qed.
Lemma store_node_sim h k p n st : good d n -> (an_depth n <= k)%nat -> gstate k st ->
  store_node d h p (real_node n) (real_bstate st) = omap real_bstate (store_node d h p n st) /\ forall st', store_node d h p n st = Ok st' -> gstate k st'.
Proof.
  intros G K HS. unfold store_node. cbn [real_bstate bs_nodes bs_leaves bs_children]. rewrite map_length. destruct (Nat.ltb _ _); [|split; [reflexivity|discriminate]].
  split.
  - rewrite omap_ok. unfold real_bstate. cbn [bs_nodes bs_leaves bs_children]. rewrite map_app. reflexivity.
  - intros st' Q. injection Q as <-. intros m M. cbn [bs_nodes bs_leaves] in M. rewrite <- app_assoc in M. apply in_app_or in M. destruct M as [M|[<-|M]].
    + apply HS, in_or_app. left. exact M.
    + split; assumption.
    + apply HS, in_or_app. right. exact M.
Qed.
Lemma store_leaf_sim h k p n st : good d n -> (an_depth n <= k)%nat -> gstate k st ->
  store_leaf d h p (real_node n) (real_bstate st) = omap real_bstate (store_leaf d h p n st) /\ forall st', store_leaf d h p n st = Ok st' -> gstate k st'.
Proof.
  intros G K HS. unfold store_leaf. cbn [real_bstate bs_nodes bs_leaves bs_children]. rewrite map_length. destruct (Nat.ltb _ _); [|split; [reflexivity|discriminate]].
  split.
  - rewrite omap_ok. unfold real_bstate. cbn [bs_nodes bs_leaves bs_children]. rewrite map_app. reflexivity.
  - intros st' Q. injection Q as <-. intros m M. cbn [bs_nodes bs_leaves] in M. rewrite app_assoc in M. apply in_app_or in M. destruct M as [M|[<-|[]]].
    + apply HS, M.
    + split; assumption.
Qed.
Lemma expand_node_sim h p st : (h <= 31)%nat -> gstate h st ->
  expand_node (N := NR) d h p (real_bstate st) = omap real_bstate (expand_node (N := NumF) d h p st) /\ forall st', expand_node (N := NumF) d h p st = Ok st' -> gstate h st'.
Proof.
  intros K HS. unfold expand_node. rewrite bs_lookup_same. destruct (bs_lookup st p) as [nd|] eqn:E; [|split; [reflexivity|discriminate]].
  destruct (bs_lookup_in st p nd E) as [IN AD]. destruct (HS nd IN) as [G D]. subst p. cbn [option_map of_option bind an_len an_depth an_center real_node].
  destruct (Nat.ltb (an_depth nd + 1) h) eqn:L1.
  - apply Nat.ltb_lt in L1. apply (ofold_sim real_bstate (gstate h)); [|exact HS]. intros s j S _.
    destruct (child_good d nd j false [] G) as (A & B & C); [lia|]. rewrite <- B, <- C.
    apply (store_node_sim h h (an_addr nd) _ s A); [cbn [an_depth]; lia|exact S].
  - destruct (Nat.eqb (an_depth nd + 1) h) eqn:L2; [|split; [reflexivity|intros st' Q; injection Q as <-; exact HS]].
    apply Nat.eqb_eq in L2. apply (ofold_sim real_bstate (gstate h)); [|exact HS]. intros s j S _.
    destruct (child_good d nd j true [] G) as (A & B & C); [lia|]. rewrite <- B, <- C.
    apply (store_leaf_sim h h (an_addr nd) _ s A); [cbn [an_depth]; lia|exact S].
Qed.
Lemma expand_all_sim h c l : (h <= 31)%nat -> good d (ANode [] c l 0 false [] : nodeF) ->
  expand_all (N := NR) d h (map real_of c) (real_of l) = omap real_bstate (expand_all (N := NumF) d h c l) /\
  forall st, expand_all (N := NumF) d h c l = Ok st -> gstate h st.
Proof.
  intros K G. unfold expand_all. destruct (Nat.ltb 0 (n_nodes d h)); [|split; [reflexivity|discriminate]].
  apply (bfs_sim real_bstate (gstate h) (fun st p => bs_children st p) (fun st p => bs_children st p) _ _ (fun s p => eq_refl) (fun s p => expand_node_sim h p s K) _ [[]]
    (BState [ANode [] c l 0 false []] [] (fun _ => []))).
  intros n [<-|[]]. split; [exact G|]. cbn [an_depth]. lia.
Qed.

Section Fill.
Variables (h : nat) (c : list float) (l : float).
Hypothesis Hh : (h <= 31)%nat.
Hypothesis HR : good d (ANode [] c l 0 false [] : nodeF).
Lemma root_fits : fitv (-436) 233 c /\ fits (-436) 233 l.
Proof. destruct HR as (_ & A & B & _). cbn [an_center an_len an_depth] in *. unfold ek, Ek in *. split; [eapply fitv_weaken|eapply fits_weaken]; try eassumption; lia. Qed.
Lemma bucket_of_same x : fitv (-436) 233 x -> bucket_of (N := NR) d h (map real_of c) (real_of l) (map real_of x) = bucket_of (N := NumF) d h c l x.
Proof.
  intros HX. unfold bucket_of. destruct root_fits as [A B]. rewrite (leaf_box_indices_real d (-436) 233 h c l x); try assumption; try lia. reflexivity.
Qed.
Lemma ordinary_wide x : ordinary d x -> fitv (-436) 233 x.
Proof. intros H. eapply fitv_weaken; [| |apply ordinary_fits, H]; lia. Qed.
Lemma good_wide n : good d n -> (an_depth n <= h)%nat -> fitv (-436) 233 (@an_center float Src n).
Proof. intros G D. destruct (good_fits d n 31 G ltac:(lia)) as [A _]. unfold ek, Ek in A. eapply fitv_weaken; [| |exact A]; lia. Qed.
Lemma distribute_same srcs leaves : ordinary_sources d pos srcs -> (forall n, In n leaves -> good d n /\ (an_depth n <= h)%nat) ->
  distribute (N := NR) d rpos h (map real_of c) (real_of l) srcs (map real_node leaves) = omap (map real_node) (distribute (N := NumF) d pos h c l srcs leaves) /\
  forall lv, distribute (N := NumF) d pos h c l srcs leaves = Ok lv -> forall n, In n lv -> good d n /\ (an_depth n <= h)%nat.
Proof.
  intros HS HL. unfold distribute.
  assert (E : fill_buckets (N := NR) d rpos h (map real_of c) (real_of l) srcs = fill_buckets (N := NumF) d pos h c l srcs).
  { unfold fill_buckets. apply ofold_ext. intros bs s S. unfold real_pos. rewrite bucket_of_same by (apply ordinary_wide, HS, S). reflexivity. }
  rewrite E. destruct (fill_buckets (N := NumF) d pos h c l srcs) as [bs| | | | |]; try (split; [reflexivity|discriminate]). cbn [bind]. clear E.
  induction leaves as [|leaf leaves IH]; cbn [map omapM].
  - split; [reflexivity|]. intros lv Q. injection Q as <-. intros n [].
  - destruct (HL leaf (or_introl eq_refl)) as [G D]. cbn [an_center real_node]. rewrite bucket_of_same by (apply good_wide; assumption).
    destruct (bucket_of (N := NumF) d h c l (an_center leaf)) as [k| | | | |]; try (split; [reflexivity|discriminate]). cbn [bind].
    destruct IH as [E F]; [intros n N; apply HL; right; exact N|]. rewrite E.
    destruct (omapM _ leaves) as [lv| | | | |]; try (split; [reflexivity|discriminate]). cbn [bind omap]. split; [reflexivity|].
    intros lv' Q. injection Q as <-. intros n [<-|N]; [|apply (F lv eq_refl), N]. split; [exact G|exact D].
Qed.
End Fill.

Definition gbtree (t : @btree float Src) : Prop := forall n, In n (bt_nodes t ++ bt_leaves t) -> good d n /\ (an_depth n <= 31)%nat.
Lemma bt_lookup_same t p : bt_lookup (real_btree t) p = option_map real_node (@bt_lookup float Src t p).
Proof. unfold bt_lookup, real_btree. cbn [bt_nodes bt_leaves]. rewrite <- map_app. apply find_map. intros x. reflexivity. Qed.
Lemma bt_lookup_in t p n : @bt_lookup float Src t p = Some n -> In n (bt_nodes t ++ bt_leaves t).
Proof. unfold bt_lookup. intros H. apply find_some in H. apply H. Qed.
Lemma bal_nbhd_same t p ls : gbtree t -> bal_nbhd (N := NR) (D := DR) d (real_btree t) p ls = bal_nbhd (N := NumF) (D := DF) d t p ls.
Proof.
  intros HT. unfold bal_nbhd. destruct p as [|i p]; [reflexivity|]. rewrite bt_lookup_same. destruct (bt_lookup t (i :: p)) as [nd|] eqn:E; [|reflexivity].
  cbn [option_map of_option bind]. apply ofold_ext. intros s q _. apply ofold_ext. intros s' j _. cbn [bt_children real_btree].
  destruct (nth_error (bt_children t q) j) as [r|]; [|reflexivity]. cbn [of_option bind]. unfold bal_child. rewrite bt_lookup_same.
  destruct (bt_lookup t r) as [ch|] eqn:EC; [|reflexivity]. cbn [option_map of_option bind].
  destruct (HT nd (bt_lookup_in t _ nd E)) as [G _]. destruct (HT ch (bt_lookup_in t _ ch EC)) as [GC _].
  rewrite <- (good_adjacent d nd ch G GC), <- (good_close d hypF hyp nd ch HH G GC). reflexivity.
Qed.
Lemma bal_lists_same t : gbtree t -> bal_lists (N := NR) (D := DR) d (real_btree t) = bal_lists (N := NumF) (D := DF) d t.
Proof.
  intros HT. unfold bal_lists. cbn [real_btree bt_nodes bt_leaves bt_children]. rewrite !map_length. apply bfs_ext; [intros s p; reflexivity|].
  intros p s. apply bal_nbhd_same, HT.
Qed.
Definition real_built (r : @btree float Src * nlists) : @btree R Src * nlists := (real_btree (fst r), snd r).
Theorem bal_build_same h srcs : (h <= 31)%nat -> ordinary_sources d pos srcs ->
  bal_build (N := NR) (D := DR) d rpos h srcs = omap real_built (bal_build (N := NumF) (D := DF) d pos h srcs) /\
  forall t ls, bal_build (N := NumF) (D := DF) d pos h srcs = Ok (t, ls) -> gbtree t /\ bt_height t = h /\ good d (ANode [] (bt_center t) (bt_len t) 0 false [] : nodeF).
Proof.
  intros K HS. unfold bal_build. rewrite (root_box_same srcs HS). destruct (root_box (N := NumF) d (map pos srcs)) as [[c l]|] eqn:HB; [|split; [reflexivity|discriminate]].
  cbn [option_map real_box fst snd]. assert (G := root_good srcs c l false [] HS HB). destruct h as [|h'].
  - cbn [bal_nbhd bind]. split; [reflexivity|]. intros t ls Q. injection Q as <- _. split; [|split; [reflexivity|exact G]].
    intros n [<-|[]]. split; [apply (root_good srcs c l true srcs HS HB)|]. cbn [an_depth]. lia.
  - set (h := S h') in *. destruct (expand_all_sim h c l K G) as [E F]. rewrite E. destruct (expand_all (N := NumF) d h c l) as [st| | | | |]; try (split; [reflexivity|discriminate]).
    rewrite omap_ok. cbn [bind]. cbn [bs_leaves real_bstate]. specialize (F st eq_refl).
    destruct (distribute_same h c l K G srcs (bs_leaves st) HS) as [E2 F2]; [intros n N; apply F, in_or_app; right; exact N|]. rewrite E2.
    destruct (distribute (N := NumF) d pos h c l srcs (bs_leaves st)) as [lv| | | | |]; try (split; [reflexivity|discriminate]). rewrite omap_ok. cbn [bind]. specialize (F2 lv eq_refl).
    set (t := BTree h c l (bs_nodes st) lv (bs_children st)).
    assert (HT : gbtree t).
    { intros n N. unfold t in N. cbn [bt_nodes bt_leaves] in N. apply in_app_or in N. destruct N as [N|N].
      - destruct (F n) as [A B]; [apply in_or_app; left; exact N|]. split; [exact A|lia].
      - destruct (F2 n N) as [A B]. split; [exact A|lia]. }
    change (BTree h (map real_of c) (real_of l) (bs_nodes (real_bstate st)) (map real_node lv) (bs_children (real_bstate st))) with (real_btree t).
    rewrite (bal_lists_same t HT). destruct (bal_lists (N := NumF) (D := DF) d t) as [ls| | | | |]; try (split; [reflexivity|discriminate]). cbn [bind].
    split; [reflexivity|]. intros t' ls' Q. injection Q as <- _. split; [exact HT|]. split; [reflexivity|exact G].
Qed.
Theorem bal_containing_leaf_same (t : @btree float Src) x : (bt_height t <= 31)%nat -> good d (ANode [] (bt_center t) (bt_len t) 0 false [] : nodeF) -> ordinary d x ->
  bal_containing_leaf (N := NR) d (real_btree t) (map real_of x) = omap real_node (bal_containing_leaf (N := NumF) d t x).
Proof.
  intros K G HX. unfold bal_containing_leaf. cbn [real_btree bt_height bt_center bt_len bt_leaves].
  destruct (root_fits (bt_height t) (bt_center t) (bt_len t) K G) as [A B].
  rewrite <- (leaf_box_indices_real d (-436) 233 (bt_height t) (bt_center t) (bt_len t) x); try assumption; try lia; [|apply (ordinary_wide (bt_height t) K), HX].
  destruct (leaf_box_indices (N := NumF) d (bt_height t) (bt_center t) (bt_len t) x) as [idx| | | | |]; try reflexivity. cbn [bind].
  destruct (morton_index d (bt_height t) idx) as [k| | | | |]; try reflexivity. cbn [bind]. rewrite nth_error_map.
  destruct (nth_error (bt_leaves t) (Z.to_nat k)); reflexivity.
Qed.
End Trees.

Theorem balanced_lookup_same {Src} d h (pos : Src -> list float) srcs hypF hyp t ls x : norm_of d hypF hyp -> (h <= 31)%nat -> ordinary_sources d pos srcs ->
  bal_build (N := NumF) (D := DistF hypF) d pos h srcs = Ok (t, ls) -> ordinary d x ->
  bal_containing_leaf (N := NR) d (real_btree t) (map real_of x) = omap real_node (bal_containing_leaf (N := NumF) d t x).
Proof.
  intros HN Hh HO HB HX. destruct (bal_build_same d pos hypF hyp HN h srcs Hh HO) as [_ F]. destruct (F t ls HB) as (_ & Bh & G).
  apply bal_containing_leaf_same; [rewrite Bh; exact Hh|exact G|exact HX].
Qed.
Theorem adaptive_lists_same {Src} d cap fuel (pos : Src -> list float) srcs hypF hyp t : norm_of d hypF hyp -> (fuel <= 60)%nat -> ordinary_sources d pos srcs ->
  build_adaptive (N := NumF) d pos cap fuel srcs = Ok t ->
  all_lists (N := NR) (D := DistRnd hyp) d (real_atree t) = all_lists (N := NumF) (D := DistF hypF) d t.
Proof.
  intros HN HF HO HB. destruct (build_adaptive_same d pos cap fuel srcs HF HO) as [_ G]. apply all_lists_same; [exact HN|apply G, HB].
Qed.
Theorem adaptive_lookup_same {Src} d cap fuel (pos : Src -> list float) srcs t x : (fuel <= 60)%nat -> ordinary_sources d pos srcs ->
  build_adaptive (N := NumF) d pos cap fuel srcs = Ok t -> ordinary d x ->
  containing_leaf (N := NR) d (real_atree t) (map real_of x) = omap (option_map real_node) (containing_leaf (N := NumF) d t x).
Proof.
  intros HF HO HB HX. destruct (build_adaptive_same d pos cap fuel srcs HF HO) as [_ G]. apply containing_leaf_same; [apply G, HB|apply (ordinary_fin d), HX].
Qed.
