(** The balanced tree in any arithmetic: if every leaf centre and every source gets the grid indices of a leaf, adjacency of
    two boxes of the same depth is adjacency of their cells and boxes that are not adjacent are not too close, then the
    constructor succeeds, with the lists of the exact construction.  The shape of the tree, and the lists as functions of
    the shape, are those of BalancedProofs; they do not depend on the coordinates, so they are taken at a dummy box. *)
From Coq Require Import List Bool ZArith Arith Lia Lra Reals Permutation.
From Verif Require Import AnyTree Num Outcome Vec Orthtree AdaptiveTree VecProofs GeometrySpec GeometryProofs TreeGeometry AdaptiveProofs TreeSpec
  BfsProofs ListProofs ListContents BuildProofs TreeTheorems BalancedTree BalancedSpec BalancedIndex BalancedAddr BalancedProofs.
Import ListNotations.

Section AnyBalanced.
Context {T Src : Type} {NT : Num T} {DT : Dist T}.
Variable d : nat.
Variable pos : Src -> list T.
Variable c : list T.
Variable l : T.
Variable srcs : list Src.
Variable h : nat.
Hypothesis Hd : 1 <= d.

Notation rule := (ByDepth h).
Notation pos0 := (fun _ : Src => @nil R).
Notation c0 := (repeat 0%R d).
Notation ss0 := (@nil Src).
Notation refined := (AdaptiveProofs.refined d pos0 c0 1%R 0 ss0 rule).
Notation present := (AdaptiveProofs.present d pos0 c0 1%R 0 ss0 rule).
Notation level := (AdaptiveProofs.level d pos0 c0 1%R 0 ss0 rule).
Notation order := (AdaptiveProofs.order d pos0 c0 1%R 0 ss0 rule h).
Notation kids := (AdaptiveProofs.kids d).
Notation chs := (BalancedProofs.chs d pos0 c0 1%R ss0 h).
Notation gen := (BalancedProofs.gen d pos0 c0 1%R ss0 h).
Notation nc := (n_children d).
Notation ctr := (AnyTree.ctr d c l).
Notation blen := (AnyTree.blen l).

Lemma Hc0 : length c0 = d.
Proof. apply repeat_length. Qed.
Lemma Hpos0 : forall s, In s ss0 -> length (pos0 s) = d.
Proof. intros s []. Qed.
Lemma rf p : refined p = (length p <? h).
Proof. reflexivity. Qed.

(** Nodes before the sources are distributed. *)
Definition mk0 (p : addr) : anode := @ANode T Src p (ctr p) (blen p) (length p) (negb (length p <? h)) [].
Definition Inv (done : list addr) (st : @bstate T Src) : Prop :=
  bs_nodes st = map mk0 (filter refined (gen done)) /\
  bs_leaves st = map mk0 (filter (fun p => negb (refined p)) (gen done)) /\
  forall p, bs_children st p = if existsb (addr_eqb p) done then chs p else [].

Lemma find_mk0 ps p : In p ps -> find (fun n => addr_eqb (an_addr n) p) (map mk0 ps) = Some (mk0 p).
Proof.
  induction ps as [|q ps IH]; [intros []|]. intros [->|H]; cbn [map find an_addr mk0].
  - rewrite addr_eqb_refl. reflexivity.
  - destruct (addr_eqb q p) eqn:E; [apply addr_eqb_eq in E; subst; reflexivity|apply IH; exact H].
Qed.
Lemma find_mk0_None ps p : ~ In p ps -> find (fun n => addr_eqb (an_addr n) p) (map mk0 ps) = None.
Proof.
  induction ps as [|q ps IH]; intros H; [reflexivity|]. cbn [map find an_addr mk0]. destruct (addr_eqb q p) eqn:E.
  - apply addr_eqb_eq in E. subst. exfalso. apply H. left; reflexivity.
  - apply IH. intros K. apply H. right; exact K.
Qed.
Lemma lookup_Inv done st p : Inv done st -> In p (gen done) -> bs_lookup st p = Some (mk0 p).
Proof.
  intros (EN & EL & _) H. unfold bs_lookup. rewrite EN, EL, find_app. destruct (refined p) eqn:E.
  - rewrite find_mk0 by (apply filter_In; auto). reflexivity.
  - rewrite find_mk0_None; [|intros K; apply filter_In in K; destruct K; congruence].
    apply find_mk0. apply filter_In. rewrite E. auto.
Qed.
Lemma store_nodes p (f : nat -> @anode T Src) js : (forall j, an_addr (f j) = j :: p) -> forall st : @bstate T Src,
  length (bs_nodes st) + length js <= n_nodes d h ->
  exists st', ofold (fun s j => store_node d h p (f j) s) js st = Ok st' /\
    bs_nodes st' = bs_nodes st ++ map f js /\ bs_leaves st' = bs_leaves st /\
    pushed (bs_children st) (bs_children st') p (map (fun j => j :: p) js).
Proof.
  intros Hf. induction js as [|j js IH]; intros st H; cbn [ofold length] in *.
  - exists st. rewrite app_nil_r. repeat split; auto. intros q. destruct (addr_eqb q p); [symmetry; apply app_nil_r|reflexivity].
  - unfold store_node at 1. rewrite (proj2 (Nat.ltb_lt _ _)) by lia. cbn [bind].
    destruct (IH (BState (bs_nodes st ++ [f j]) (bs_leaves st) (push (bs_children st) p (an_addr (f j))))) as (st' & E & A & B & C).
    { cbn [bs_nodes]. rewrite app_length. cbn [length]. lia. }
    exists st'. split; [exact E|]. split; [rewrite A; cbn [bs_nodes map]; rewrite <- app_assoc; reflexivity|]. split; [exact B|].
    intros q. rewrite C. cbn [bs_children map]. unfold push. rewrite Hf.
    destruct (addr_eqb q p) eqn:Q.
    + apply addr_eqb_eq in Q. subst q. rewrite ?addr_eqb_refl. rewrite <- app_assoc. reflexivity.
    + try rewrite Q. reflexivity.
Qed.
Lemma store_leaves p (f : nat -> @anode T Src) js : (forall j, an_addr (f j) = j :: p) -> forall st : @bstate T Src,
  length (bs_leaves st) + length js <= n_leaves d h ->
  exists st', ofold (fun s j => store_leaf d h p (f j) s) js st = Ok st' /\
    bs_nodes st' = bs_nodes st /\ bs_leaves st' = bs_leaves st ++ map f js /\
    pushed (bs_children st) (bs_children st') p (map (fun j => j :: p) js).
Proof.
  intros Hf. induction js as [|j js IH]; intros st H; cbn [ofold length] in *.
  - exists st. rewrite app_nil_r. repeat split; auto. intros q. destruct (addr_eqb q p); [symmetry; apply app_nil_r|reflexivity].
  - unfold store_leaf at 1. rewrite (proj2 (Nat.ltb_lt _ _)) by lia. cbn [bind].
    destruct (IH (BState (bs_nodes st) (bs_leaves st ++ [f j]) (push (bs_children st) p (an_addr (f j))))) as (st' & E & A & B & C).
    { cbn [bs_leaves]. rewrite app_length. cbn [length]. lia. }
    exists st'. split; [exact E|]. split; [exact A|]. split; [rewrite B; cbn [bs_leaves map]; rewrite <- app_assoc; reflexivity|].
    intros q. rewrite C. cbn [bs_children map]. unfold push. rewrite Hf.
    destruct (addr_eqb q p) eqn:Q.
    + apply addr_eqb_eq in Q. subst q. rewrite ?addr_eqb_refl. rewrite <- app_assoc. reflexivity.
    + try rewrite Q. reflexivity.
Qed.
Lemma expand_step done p rest st : order = done ++ p :: rest -> In p (gen done) -> Inv done st ->
  exists st', expand_node d h p st = Ok st' /\ bs_children st' p = chs p /\ Inv (done ++ [p]) st'.
Proof.
  intros E Hp HI. unfold expand_node. rewrite (lookup_Inv done st p HI Hp). cbn [of_option bind an_len an_center an_depth mk0].
  destruct HI as (EN & EL & EC). destruct (order_prefix d pos0 c0 1%R ss0 h Hd Hc0 _ _ _ E) as (tl & ET).
  assert (ND : ~ In p done).
  { assert (N := order_NoDup d pos0 c0 1%R 0 ss0 rule h). rewrite E in N. apply NoDup_remove_2 in N. intros K. apply N. apply in_or_app. left; exact K. }
  assert (EX : existsb (addr_eqb p) done = false).
  { apply not_true_iff_false. intros K. apply existsb_exists in K. destruct K as (q & Hq & Q). apply addr_eqb_eq in Q. subst. contradiction. }
  assert (NF := nodes_fit d pos0 c0 1%R ss0 h Hd Hc0 Hpos0). assert (LF := leaves_fit d pos0 c0 1%R ss0 h Hd Hc0). rewrite ET, filter_len_app, gen_snoc, filter_len_app in NF, LF.
  rewrite Nat.add_1_r. destruct (Nat.ltb_spec (Datatypes.S (length p)) h) as [L|G].
  - assert (CH : chs p = kids p) by (unfold BalancedProofs.chs; rewrite rf, (proj2 (Nat.ltb_lt _ _)) by lia; reflexivity).
    destruct (kids_refined d pos0 c0 1%R ss0 h Hd Hc0 p L) as [K1 K2].
    rewrite CH, K1 in NF. assert (LK : length (kids p) = nc) by (unfold AdaptiveProofs.kids; rewrite map_length, seq_length; reflexivity).
    destruct (store_nodes p (fun j => ANode (j :: p) (child_center d (ctr p) (nhalf (blen p)) j) (nhalf (blen p)) (Datatypes.S (length p)) false [])
               (seq 0 nc) (fun _ => eq_refl) st) as (st' & E' & A & B & C).
    { rewrite EN, map_length, seq_length. lia. }
    exists st'. split; [exact E'|]. split.
    + rewrite C, addr_eqb_refl, EC, EX, CH. reflexivity.
    + split; [|split].
      * rewrite A, EN, gen_snoc, filter_app, map_app, CH, K1. f_equal. unfold AdaptiveProofs.kids. rewrite map_map. apply map_ext. intros j.
        unfold mk0. cbn [length]. rewrite (proj2 (Nat.ltb_lt _ _)) by lia. reflexivity.
      * rewrite B, EL, gen_snoc, filter_app, CH, K2, app_nil_r. reflexivity.
      * intros q. rewrite C, EC, existsb_app. cbn [existsb]. rewrite orb_false_r. destruct (addr_eqb q p) eqn:Q.
        -- apply addr_eqb_eq in Q. subst q. rewrite EX, CH. reflexivity.
        -- rewrite orb_false_r. reflexivity.
  - destruct (Nat.eqb_spec (Datatypes.S (length p)) h) as [L|N].
    + assert (CH : chs p = kids p) by (unfold BalancedProofs.chs; rewrite rf, (proj2 (Nat.ltb_lt _ _)) by lia; reflexivity).
      destruct (kids_leaves d pos0 c0 1%R ss0 h Hd Hc0 p L) as [K1 K2].
      rewrite CH, K2 in LF. assert (LK : length (kids p) = nc) by (unfold AdaptiveProofs.kids; rewrite map_length, seq_length; reflexivity).
      destruct (store_leaves p (fun j => ANode (j :: p) (child_center d (ctr p) (nhalf (blen p)) j) (nhalf (blen p)) (Datatypes.S (length p)) true [])
                 (seq 0 nc) (fun _ => eq_refl) st) as (st' & E' & A & B & C).
      { rewrite EL, map_length, seq_length. lia. }
      exists st'. split; [exact E'|]. split.
      * rewrite C, addr_eqb_refl, EC, EX, CH. reflexivity.
      * split; [|split].
        -- rewrite A, EN, gen_snoc, filter_app, CH, K1, app_nil_r. reflexivity.
        -- rewrite B, EL, gen_snoc, filter_app, map_app, CH, K2. f_equal. unfold AdaptiveProofs.kids. rewrite map_map. apply map_ext. intros j.
           unfold mk0. cbn [length]. rewrite (proj2 (Nat.ltb_ge _ _)) by lia. reflexivity.
        -- intros q. rewrite C, EC, existsb_app. cbn [existsb]. rewrite orb_false_r. destruct (addr_eqb q p) eqn:Q.
           ++ apply addr_eqb_eq in Q. subst q. rewrite EX, CH. reflexivity.
           ++ rewrite orb_false_r. reflexivity.
    + assert (CH : chs p = []) by (unfold BalancedProofs.chs; rewrite rf, (proj2 (Nat.ltb_ge _ _)) by lia; reflexivity).
      exists st. split; [reflexivity|]. split; [rewrite EC, EX; symmetry; exact CH|].
      split; [|split].
      * rewrite EN, gen_snoc, CH, app_nil_r. reflexivity.
      * rewrite EL, gen_snoc, CH, app_nil_r. reflexivity.
      * intros q. rewrite EC, existsb_app. cbn [existsb]. rewrite orb_false_r. destruct (addr_eqb q p) eqn:Q.
        -- apply addr_eqb_eq in Q. subst q. rewrite EX, CH. reflexivity.
        -- rewrite orb_false_r. reflexivity.
Qed.
Theorem any_expand_all : 1 <= h -> exists st : @bstate T Src, expand_all d h c l = Ok st /\
  bs_nodes st = map mk0 (flat_map level (seq 0 h)) /\ bs_leaves st = map mk0 (level h) /\
  forall p, present p -> bs_children st p = chs p.
Proof.
  intros H1. unfold expand_all.
  assert (R0 : refined [] = true) by (rewrite rf; apply Nat.ltb_lt; cbn; lia).
  assert (N0 : 0 < n_nodes d h).
  { assert (F := nodes_fit d pos0 c0 1%R ss0 h Hd Hc0 Hpos0). rewrite (order_fix d pos0 c0 1%R ss0 h Hd Hc0) in F. cbn [filter] in F. rewrite R0 in F. cbn [length] in F. lia. }
  rewrite (proj2 (Nat.ltb_lt _ _) N0).
  destruct (bfs_dynamic (fun (st : @bstate T Src) p => bs_children st p) (fun p st => expand_node d h p st) chs [] order Inv (@length nat)) with
    (rest := order) (done := @nil addr) (q := [@nil nat]) (fuel := n_nodes d h + n_leaves d h)
    (st := BState [@ANode T Src [] c l 0 false []] [] (fun _ => @nil addr)) as (st & E & HI).
  - intros p x Hx. unfold BalancedProofs.chs in Hx. destruct (refined p); [|destruct Hx]. unfold AdaptiveProofs.kids in Hx. apply in_map_iff in Hx.
    destruct Hx as (i & <- & _). cbn. lia.
  - apply (order_fix d pos0 c0 1%R ss0 h Hd Hc0).
  - intros done p rest st. apply expand_step.
  - reflexivity.
  - reflexivity.
  - unfold Inv, BalancedProofs.gen. cbn [flat_map filter bs_nodes bs_leaves bs_children existsb]. rewrite R0. cbn [negb map].
    repeat split. unfold mk0. replace (length (@nil nat) <? h) with true by (symmetry; exact R0). reflexivity.
  - apply (order_length d pos0 c0 1%R ss0 h Hd Hc0 Hpos0).
  - exists st. split; [exact E|]. destruct HI as (A & B & C). unfold BalancedProofs.gen in A, B. rewrite <- (order_fix d pos0 c0 1%R ss0 h Hd Hc0) in A, B.
    rewrite (order_nodes d pos0 c0 1%R ss0 h Hd Hc0) in A. rewrite (order_leaves d pos0 c0 1%R ss0 h Hd Hc0) in B. split; [exact A|]. split; [exact B|].
    intros p Hp. rewrite C. assert (X : existsb (addr_eqb p) order = true).
    { apply existsb_exists. exists p. split; [apply in_order; [exact (height_ok_bal d pos0 c0 1%R ss0 h Hd Hc0)|exact Hp]|apply addr_eqb_refl]. }
    rewrite X. reflexivity.
Qed.

(** *** Distribution of the sources *)
Hypothesis Hh : h < 32.
Hypothesis Hdh : d * h <= 32.
(** The leaf each source goes to. *)
Variable leaf_of : Src -> addr.
Hypothesis Hsrc : forall s, In s srcs -> length (leaf_of s) = h /\ valid d (leaf_of s) /\
  leaf_box_indices d h c l (pos s) = Ok (gcos d (leaf_of s)).
Hypothesis Hctr : forall p, length p = h -> valid d p -> leaf_box_indices d h c l (ctr p) = Ok (gcos d p).

Lemma bucket_src s : In s srcs -> bucket_of d h c l (pos s) = Ok (bucket d h (leaf_of s)).
Proof.
  intros H. destruct (Hsrc s H) as (L & _ & E). unfold bucket_of. rewrite E. cbn [bind]. apply (bucket_ok d c0 Hc0 h Hh Hdh). exact L.
Qed.
Lemma bucket_ctr p : length p = h -> valid d p -> bucket_of d h c l (ctr p) = Ok (bucket d h p).
Proof.
  intros L V. unfold bucket_of. rewrite (Hctr p L V). cbn [bind]. apply (bucket_ok d c0 Hc0 h Hh Hdh). exact L.
Qed.
Definition part (p : addr) : list Src := filter (fun s => addr_eqb (leaf_of s) p) srcs.
Definition mk (p : addr) : anode := if length p <? h then mk0 p else set_srcs (mk0 p) (part p).

Notation bk s := (bucket d h (leaf_of s)).
Lemma any_fill_buckets : fill_buckets d pos h c l srcs =
  Ok (map (fun i => filter (fun s => Nat.eqb (bk s) i) srcs) (seq 0 (n_leaves d h))).
Proof.
  unfold fill_buckets. rewrite (ofold_pure _ (fun bs s => update_nth (bk s) (fun b => b ++ [s]) bs)).
  - f_equal. rewrite (bucket_fold (fun s => bk s) (n_leaves d h)) by apply repeat_length. apply map_ext_in. intros i Hi. apply in_seq in Hi.
    rewrite nth_repeat. reflexivity.
  - intros bs s Hs. rewrite bucket_src by exact Hs. reflexivity.
Qed.
Lemma bucket_part p : valid d p -> length p = h -> filter (fun s => Nat.eqb (bk s) (bucket d h p)) srcs = part p.
Proof.
  intros V L. unfold part. apply filter_ext_in. intros s Hs. destruct (Hsrc s Hs) as (Ls & Vs & _).
  destruct (addr_eqb (leaf_of s) p) eqn:E.
  - apply addr_eqb_eq in E. rewrite E. apply Nat.eqb_refl.
  - apply Nat.eqb_neq. intros K. apply addr_eqb_neq in E. apply E. apply (bucket_inj d c0 Hc0 h Hh Hdh) in K; auto.
Qed.
Theorem any_distribute : distribute d pos h c l srcs (map mk0 (level h)) = Ok (map mk (level h)).
Proof.
  unfold distribute. rewrite any_fill_buckets. cbn [bind]. rewrite omapM_map. apply omapM_ok. intros p Hp.
  assert (L := level_len d pos0 c0 1%R ss0 h h p Hp). assert (V := level_valid d pos0 c0 1%R ss0 h Hd Hc0 Hpos0 h p Hp). cbn [an_center mk0].
  rewrite (bucket_ctr p L V). cbn [bind]. f_equal.
  assert (B := bucket_ok d c0 Hc0 h Hh Hdh p L). destruct B as [_ B].
  rewrite (nth_map_seq (fun i => filter (fun s => Nat.eqb (bk s) i) srcs)) by exact B.
  rewrite bucket_part by assumption. unfold mk. rewrite L, Nat.ltb_irrefl. reflexivity.
Qed.

(** *** Neighbour lists *)
Definition any_bal (ch : addr -> list addr) : btree := BTree h c l (map mk (flat_map level (seq 0 h))) (map mk (level h)) ch.
Lemma an_addr_mk p : an_addr (mk p) = p.
Proof. unfold mk. destruct (length p <? h); reflexivity. Qed.
Lemma find_mk ps p : In p ps -> find (fun n => addr_eqb (an_addr n) p) (map mk ps) = Some (mk p).
Proof.
  induction ps as [|q ps IH]; [intros []|]. intros [->|H]; cbn [map find]; rewrite an_addr_mk.
  - rewrite addr_eqb_refl. reflexivity.
  - destruct (addr_eqb q p) eqn:E; [apply addr_eqb_eq in E; subst; reflexivity|apply IH; exact H].
Qed.
Lemma any_lookup ch p : present p -> bt_lookup (any_bal ch) p = Some (mk p).
Proof.
  intros P. unfold bt_lookup, any_bal. cbn [bt_nodes bt_leaves]. rewrite <- map_app. apply find_mk.
  assert (I : In p order) by (apply in_order; [apply (height_ok_bal d pos0 c0 1%R ss0 h Hd Hc0)|exact P]).
  unfold AdaptiveProofs.order in I. rewrite seq_S, flat_map_app in I. cbn [flat_map Nat.add] in I. rewrite app_nil_r in I. exact I.
Qed.

Hypothesis Hadj : forall p q, valid d p -> valid d q -> length p = length q -> length p <= h ->
  adjacent d (ctr p) (blen p) (ctr q) (blen q) = touch d p q.
Hypothesis Hclose : forall p q, valid d p -> valid d q -> length p = length q -> length p <= h -> touch d p q = false ->
  too_close (mk0 p) (mk0 q) = false.

Section Lists.
Variable ch : addr -> list addr.
Hypothesis Hch : forall p, present p -> ch p = chs p.
Notation t := (any_bal ch).
Notation own_near := (own_near d pos0 c0 1%R 0 ss0 rule).
Notation events := (events d pos0 c0 1%R 0 ss0 rule).
Notation child_events := (child_events d pos0 c0 1%R 0 ss0 rule).
Notation neighbour_events := (neighbour_events d pos0 c0 1%R 0 ss0 rule).
Notation after done := (apply_events (flat_map events done) nl_empty).

Lemma any_adjacent p q : present p -> present q -> length p = length q -> nodes_adjacent d (mk p) (mk q) = touch d p q.
Proof.
  intros P Q HL. apply (present_iff d pos0 c0 1%R ss0 h Hd Hc0 Hpos0) in P, Q. destruct P as [Vp Lp], Q as [Vq Lq].
  unfold nodes_adjacent, mk. destruct (length p <? h), (length q <? h); cbn [an_center an_len mk0 set_srcs]; apply Hadj; assumption.
Qed.
Lemma any_close p q : present p -> present q -> length p = length q -> touch d p q = false -> too_close (mk p) (mk q) = false.
Proof.
  intros P Q HL HT. apply (present_iff d pos0 c0 1%R ss0 h Hd Hc0 Hpos0) in P, Q. destruct P as [Vp Lp], Q as [Vq Lq].
  assert (K := Hclose p q Vp Vq HL Lp HT). unfold too_close, mk in *. destruct (length p <? h), (length q <? h); exact K.
Qed.
Lemma any_child_events p q ls : present p -> present q -> length p = length q ->
  bal_child d t (mk p) ls q = Ok (apply_events (child_events p q) ls).
Proof.
  intros P Q HL. unfold bal_child. rewrite any_lookup by exact Q. cbn [of_option bind].
  rewrite any_adjacent by assumption. unfold ListProofs.child_events, leaf. rewrite an_addr_mk.
  destruct (touch d p q) eqn:E.
  - rewrite !rf, HL. destruct (length q <? h); reflexivity.
  - rewrite (any_close p q P Q HL E). reflexivity.
Qed.

Lemma any_step done x rest ls : order = done ++ x :: rest -> In x ([] :: flat_map chs done) -> ls = after done ->
  exists ls', bal_nbhd d t x ls = Ok ls' /\ bt_children t x = chs x /\ ls' = after (done ++ [x]).
Proof.
  intros E _ ->. assert (Px : present x).
  { apply (in_order d pos0 c0 1%R 0 ss0 rule h (height_ok_bal d pos0 c0 1%R ss0 h Hd Hc0)). rewrite E. apply in_elt. }
  eexists. split; [|split; [cbn [bt_children any_bal]; apply Hch; exact Px|reflexivity]].
  rewrite flat_map_app. cbn [flat_map]. rewrite app_nil_r, apply_events_app.
  destruct x as [|i q]; [reflexivity|]. unfold bal_nbhd. rewrite any_lookup by exact Px. cbn [of_option bind].
  assert (ND : NoDup done).
  { assert (N := order_NoDup d pos0 c0 1%R 0 ss0 rule h). rewrite E in N. clear - N. induction done as [|y done IH]; [constructor|].
    inversion N as [|? ? N1 N2]; subst. constructor; [intros K; apply N1; apply in_or_app; left; exact K|apply IH; exact N2]. }
  assert (PD : forall y, In y done -> present y).
  { intros y Hy. apply (in_order d pos0 c0 1%R 0 ss0 rule h (height_ok_bal d pos0 c0 1%R ss0 h Hd Hc0)). rewrite E. apply in_or_app. left; exact Hy. }
  assert (Hq : In q done) by (apply (order_parent_before d pos0 c0 1%R 0 ss0 rule Hc0 h (height_ok_bal d pos0 c0 1%R ss0 h Hd Hc0)) with (1 := E) (i := i); reflexivity).
  assert (Px' := Px). destruct Px' as (Hi & Pq & Rq).
  rewrite (near_inner_after d pos0 c0 1%R 0 ss0 rule Hc0 h (height_ok_bal d pos0 c0 1%R ss0 h Hd Hc0) done q ND PD Hq Rq).
  rewrite (ofold_events _ (neighbour_events (i :: q))); [reflexivity|].
  intros pn ls Hpn. destruct (near_inner d pos0 c0 1%R ss0 h Hd Hc0 Hh Hdh i q pn Px Hpn) as (Pp & Rp & Lp).
  assert (EC : bt_children t pn = kids pn) by (cbn [bt_children any_bal]; rewrite Hch by exact Pp; unfold BalancedProofs.chs; rewrite Rp; reflexivity).
  rewrite EC. assert (LK : n_children d = length (kids pn)) by (unfold AdaptiveProofs.kids; rewrite map_length, seq_length; reflexivity).
  rewrite LK. rewrite (ofold_nth d c0 h Hd Hc0 Hh Hdh (bal_child d t (mk (i :: q))) (kids pn)).
  unfold ListProofs.neighbour_events, leaf. rewrite Rp. cbn [negb]. apply ofold_events.
  intros k ls' Hk. destruct (kids_present d pos0 c0 1%R ss0 h Hd Hc0 Hh Hdh pn k Pp Rp Hk) as [Pk Lk].
  apply any_child_events; [exact Px|exact Pk|]. rewrite Lk. cbn. lia.
Qed.

Notation final := (final d pos0 c0 1%R 0 ss0 rule h).
Theorem any_lists_ok : bal_lists d t = Ok final.
Proof.
  unfold bal_lists.
  destruct (bfs_dynamic (fun (_ : nlists) p => bt_children t p) (bal_nbhd d t) chs [] order (fun done ls => ls = after done) (@length nat)) with
    (rest := order) (done := @nil addr) (q := [@nil nat]) (fuel := length (bt_nodes t) + length (bt_leaves t)) (st := nl_empty) as (st & E & HI).
  - intros p x Hx. unfold BalancedProofs.chs in Hx. destruct (refined p); [|destruct Hx]. unfold AdaptiveProofs.kids in Hx. apply in_map_iff in Hx.
    destruct Hx as (i & <- & _). cbn. lia.
  - apply (order_fix d pos0 c0 1%R ss0 h Hd Hc0).
  - intros done p rest st. apply any_step.
  - reflexivity.
  - reflexivity.
  - reflexivity.
  - cbn [bt_nodes bt_leaves any_bal]. rewrite !map_length. rewrite <- (order_nodes d pos0 c0 1%R ss0 h Hd Hc0), <- (order_leaves d pos0 c0 1%R ss0 h Hd Hc0).
    rewrite filter_split_length. lia.
  - rewrite E, HI. reflexivity.
Qed.
End Lists.

Notation final := (final d pos0 c0 1%R 0 ss0 rule h).
(** The structure part of the constructor, once the root box is known. *)
Theorem any_bal_build : 1 <= h -> root_box d (map pos srcs) = Some (c, l) -> exists ch, (forall p, present p -> ch p = chs p) /\
  bal_build d pos h srcs = Ok (any_bal ch, final).
Proof.
  intros H1 RB. destruct (any_expand_all H1) as (st & E & A & B & C). exists (bs_children st). split; [exact C|].
  unfold bal_build. rewrite RB. destruct h as [|h'] eqn:EH; [lia|]. rewrite <- EH in *. rewrite E. cbn [bind]. rewrite B, any_distribute. cbn [bind].
  assert (ES : BTree h c l (bs_nodes st) (map mk (level h)) (bs_children st) = any_bal (bs_children st)).
  { unfold any_bal. f_equal. rewrite A. apply map_ext_in. intros p Hp.
    apply in_flat_map in Hp. destruct Hp as (k & Hk & Hp). apply in_seq in Hk. apply (level_len d pos0 c0 1%R ss0 h k p) in Hp.
    unfold mk. rewrite (proj2 (Nat.ltb_lt _ _)) by lia. reflexivity. }
  rewrite ES, any_lists_ok by exact C. reflexivity.
Qed.

(** *** The containing leaf *)
Theorem any_containing_leaf ch x p : h < 64 / d -> length p = h -> valid d p -> leaf_box_indices d h c l x = Ok (gcos d p) ->
  bal_containing_leaf d (any_bal ch) x = Ok (mk p).
Proof.
  intros H64 L V E. unfold bal_containing_leaf. cbn [bt_height bt_center bt_len bt_leaves any_bal].
  rewrite E. cbn [bind]. assert (M := morton_aidx d p V). rewrite L in M. rewrite (M H64). cbn [bind].
  rewrite (level_boxes d pos0 c0 1%R ss0 h Hd Hc0 h) by lia. rewrite nth_error_map. assert (NB := nth_all_boxes d p V). rewrite L in NB. unfold addr in *. rewrite NB. reflexivity.
Qed.
End AnyBalanced.

(** *** The lists as functions of the shape *)
Section Shape.
Variable Src : Type.
Variables d h : nat.
Hypothesis Hd : 1 <= d.
Notation rule := (ByDepth h).
Notation pos0 := (fun _ : Src => @nil R).
Notation c0 := (repeat 0%R d).
Notation ss0 := (@nil Src).
Notation refined := (AdaptiveProofs.refined d pos0 c0 1%R 0 ss0 rule).
Notation present := (AdaptiveProofs.present d pos0 c0 1%R 0 ss0 rule).
Notation level := (AdaptiveProofs.level d pos0 c0 1%R 0 ss0 rule).
Notation final := (final d pos0 c0 1%R 0 ss0 rule h).
Notation HO := (height_ok_bal d pos0 c0 1%R ss0 h Hd (Hc0 d)).
Notation Hc := (Hc0 d).
Notation Hpos := (Hpos0 d).

Lemma shape_present p : present p <-> valid d p /\ length p <= h.
Proof. apply (present_iff d pos0 c0 1%R ss0 h Hd Hc Hpos). Qed.
Lemma shape_level k : k <= h -> level k = all_boxes d k.
Proof. apply (level_boxes d pos0 c0 1%R ss0 h Hd Hc). Qed.
Theorem shape_near p : present p -> NoDup (nl_near final p) /\
  forall q, In q (nl_near final p) <-> present q /\ length q = length p /\ touch d p q = true.
Proof.
  intros P. assert (PL := proj1 (shape_present p) P). destruct (refined p) eqn:Rp.
  - split; [rewrite (final_near_inner d pos0 c0 1%R 0 ss0 rule h Hc HO p P Rp); apply (own_near_NoDup d pos0 c0 1%R 0 ss0 rule Hc p P)|]. intros q.
    rewrite (final_near_inner d pos0 c0 1%R 0 ss0 rule h Hc HO p P Rp). rewrite (own_near_in d pos0 c0 1%R 0 ss0 rule Hc p q P).
    unfold near_rel. rewrite Rp. split.
    + intros (Pq & T & D). split; [exact Pq|]. split; [|exact T]. destruct D as [D|[D1 D2]]; [exact D|]. rewrite refined_eq in D2, Rp. apply Nat.ltb_ge in D2. apply Nat.ltb_lt in Rp. lia.
    + intros (Pq & Lq & T). split; [exact Pq|]. split; [exact T|]. tauto.
  - split; [apply (final_near_leaf_NoDup d pos0 c0 1%R 0 ss0 rule h Hc HO p P Rp)|]. intros q.
    rewrite (final_near_leaf d pos0 c0 1%R 0 ss0 rule h Hc HO p q P Rp). rewrite refined_eq in *. apply Nat.ltb_ge in Rp. split.
    + intros (Pq & Rq & T). apply Nat.ltb_ge in Rq. assert (QL := proj1 (shape_present q) Pq). split; [exact Pq|]. split; [lia|exact T].
    + intros (Pq & Lq & T). split; [exact Pq|]. split; [apply Nat.ltb_ge; lia|exact T].
Qed.
Theorem shape_inter p : present p -> NoDup (nl_inter final p) /\
  forall q, In q (nl_inter final p) <-> present q /\ length q = length p /\ 1 <= length p /\ touch d (tl p) (tl q) = true /\ touch d p q = false.
Proof.
  intros P. split; [apply (final_inter_NoDup d pos0 c0 1%R 0 ss0 rule h Hc HO p P)|]. intros q. rewrite (final_inter_in d pos0 c0 1%R 0 ss0 rule h Hc HO p q P). unfold vrel.
  rewrite !andb_true_iff, negb_true_iff, Nat.eqb_eq, Nat.leb_le. intuition congruence.
Qed.
Theorem shape_coverage L : valid d L -> length L = h ->
  Permutation (nl_near final L ++ flat_map (fun a => flat_map (fun q => filter (is_above q) (all_boxes d h)) (nl_inter final a)) (ancestors_or_self L)) (all_boxes d h).
Proof.
  intros V HL.
  assert (EL : all_boxes d h = leaf_list (spec_tree d pos0 c0 1%R 0 ss0 rule h)).
  { rewrite <- shape_level by lia. unfold leaf_list, leaf_nodes. cbn [spec_tree at_leaves].
    rewrite seq_S, map_app, concat_app. cbn [map concat Nat.add]. rewrite app_nil_r, map_app.
    assert (Z0 : concat (map (leaf_level d pos0 c0 1%R 0 ss0 rule) (seq 0 h)) = []).
    { rewrite <- flat_map_concat_map. apply flat_map_nil. intros k Hk. apply in_seq in Hk. unfold leaf_level. rewrite filter_false; [reflexivity|].
      intros p Hp. apply level_len in Hp. rewrite refined_eq, (proj2 (Nat.ltb_lt _ _)) by lia. reflexivity. }
    rewrite Z0. cbn [map app]. unfold leaf_level. rewrite filter_true; [symmetry; rewrite map_map; apply map_id|].
    intros p Hp. apply level_len in Hp. rewrite refined_eq, Hp, Nat.ltb_irrefl. reflexivity. }
  assert (P : present L) by (apply shape_present; split; [exact V|lia]).
  assert (N : refined L = false) by (rewrite refined_eq, HL; apply Nat.ltb_irrefl).
  assert (G := interactions_perm d pos0 c0 1%R 0 ss0 rule h Hc HO L P N). rewrite leaf_list_eq in EL. rewrite EL. etransitivity; [|exact G].
  unfold interactions. apply Permutation_app_head.
  assert (W0 : nl_W final L = []).
  { destruct (nl_W final L) as [|q qs] eqn:EX; [reflexivity|]. exfalso.
    assert (Q : In q (nl_W final L)) by (rewrite EX; left; reflexivity).
    apply (final_W_in d pos0 c0 1%R 0 ss0 rule h Hc HO L q P) in Q. destruct Q as (Pq & Rq & X).
    rewrite refined_eq in Rq. apply Nat.ltb_ge in Rq. unfold wrel in X. apply andb_true_iff in X. destruct X as [X _].
    apply andb_true_iff in X. destruct X as [X _]. apply Nat.ltb_lt in X. apply shape_present in Pq. lia. }
  rewrite W0. cbn [flat_map app]. unfold leaves_below. rewrite ?leaf_list_eq.
  match goal with |- Permutation ?A ?B => replace B with A; [reflexivity|] end.
  apply flat_map_ext_in'. intros a Ha. assert (Pa : present a) by (eapply present_suf; eassumption).
  assert (X0 : nl_X final a = []).
  { destruct (nl_X final a) as [|q qs] eqn:EX; [reflexivity|]. exfalso.
    assert (Q : In q (nl_X final a)) by (rewrite EX; left; reflexivity).
    apply (final_X_in d pos0 c0 1%R 0 ss0 rule h Hc HO a q Pa) in Q. destruct Q as (Pq & Rq & X).
    rewrite refined_eq in Rq. apply Nat.ltb_ge in Rq. unfold xrel in X. apply andb_true_iff in X. destruct X as [X _].
    apply andb_true_iff in X. destruct X as [X _]. apply Nat.ltb_lt in X. apply shape_present in Pa. lia. }
  rewrite X0, app_nil_r. reflexivity.
Qed.
End Shape.

(** Distribution of a list over disjoint parts. *)
Lemma part_perm {Src} (f : Src -> addr) ps ss : NoDup ps -> (forall s, In s ss -> In (f s) ps) ->
  Permutation (flat_map (fun p => filter (fun s => addr_eqb (f s) p) ss) ps) ss.
Proof.
  intros N. induction ss as [|s ss IH]; intros H.
  - cbn [filter]. rewrite flat_map_nil by reflexivity. reflexivity.
  - assert (E : Permutation (flat_map (fun p => filter (fun x => addr_eqb (f x) p) (s :: ss)) ps)
        (flat_map (fun p => if addr_eqb (f s) p then [s] else []) ps ++ flat_map (fun p => filter (fun x => addr_eqb (f x) p) ss) ps)).
    { clear. induction ps as [|p ps IH]; [reflexivity|]. cbn [flat_map filter]. destruct (addr_eqb (f s) p); cbn [app].
      - constructor. rewrite IH, !app_assoc. apply Permutation_app_tail. apply Permutation_app_comm.
      - rewrite IH, !app_assoc. apply Permutation_app_tail. apply Permutation_app_comm. }
    rewrite E. rewrite IH by (intros; apply H; right; assumption).
    assert (S1 : flat_map (fun p => if addr_eqb (f s) p then [s] else []) ps = [s]).
    { assert (I := H s (or_introl eq_refl)). clear - N I. induction ps as [|p ps IH]; [destruct I|]. inversion N as [|? ? N1 N2]; subst.
      cbn [flat_map]. destruct (addr_eqb (f s) p) eqn:K.
      - apply addr_eqb_eq in K. rewrite flat_map_nil; [reflexivity|]. intros q Hq. destruct (addr_eqb (f s) q) eqn:K'; [|reflexivity].
        apply addr_eqb_eq in K'. congruence.
      - destruct I as [I|I]; [rewrite I, addr_eqb_refl in K; discriminate|]. cbn [app]. apply IH; assumption. }
    rewrite S1. reflexivity.
Qed.

(** The address with given grid coordinates. *)
Definition unit_point (k : nat) (idx : list Z) : list R := map (fun z => - (1 / 2) + (IZR z + 1 / 2) / 2 ^ k)%R idx.
Definition box_at (d k : nat) (idx : list Z) : addr := path d (repeat 0%R d) 1%R (unit_point k idx) k.
Lemma box_at_gcos d k idx : k < 32 -> tuple d k idx -> gcos d (box_at d k idx) = idx.
Proof.
  intros Hk [L B]. assert (HC := Hc0 d). assert (H01 : (0 < 1)%R) by lra. assert (P := pow2_pos k).
  assert (NTH : forall j, j < d -> nth j (unit_point k idx) 0%R = (- (1 / 2) + (IZR (nth j idx 0%Z) + 1 / 2) / 2 ^ k)%R).
  { intros j Hj. unfold unit_point. rewrite (nth_map_lt _ idx j 0%Z 0%R) by lia. reflexivity. }
  assert (NC : forall j, nth j (repeat 0%R d) 0%R = 0%R).
  { intros j. destruct (nth_in_or_default j (repeat 0%R d) 0%R) as [I|E]; [apply repeat_spec in I; exact I|exact E]. }
  assert (BZ : forall j, j < d -> (0 <= IZR (nth j idx 0%Z) /\ IZR (nth j idx 0%Z) + 1 <= 2 ^ k)%R).
  { intros j Hj. assert (Z0 := B (nth j idx 0%Z) ltac:(apply nth_In; lia)). split; [apply (IZR_le 0); lia|].
    rewrite <- (plus_IZR _ 1), <- IZR_pow2. apply IZR_le. lia. }
  assert (IN : in_half_open d (repeat 0%R d) 1%R (unit_point k idx)).
  { intros j Hj. rewrite NTH, NC by exact Hj. specialize (BZ j Hj).
    assert (0 <= (IZR (nth j idx 0%Z) + 1 / 2) / 2 ^ k)%R by (apply Rmult_le_pos; [lra|left; apply Rinv_0_lt_compat; exact P]).
    assert ((IZR (nth j idx 0%Z) + 1 / 2) / 2 ^ k < 1)%R by (apply Rmult_lt_reg_r with (2 ^ k)%R; [exact P|]; unfold Rdiv; rewrite Rmult_assoc, Rinv_l by lra; lra).
    lra. }
  apply (nth_ext _ _ 0%Z 0%Z); [rewrite gcos_length; congruence|]. rewrite gcos_length. intros j Hj. rewrite gcos_nth by exact Hj.
  assert (C := path_cell d _ _ HC (unit_point k idx) k j Hj IN). rewrite NTH, NC in C by exact Hj. fold (box_at d k idx) in C.
  set (a := gco d j (box_at d k idx)) in *. set (b := nth j idx 0%Z) in *.
  assert (I1 : (IZR a < IZR b + 1)%R).
  { apply Rmult_lt_reg_r with (/ 2 ^ k)%R; [apply Rinv_0_lt_compat; exact P|]. assert (0 < / 2 ^ k)%R by (apply Rinv_0_lt_compat; exact P). unfold Rdiv in C. lra. }
  assert (I2 : (IZR b < IZR a + 1)%R).
  { apply Rmult_lt_reg_r with (/ 2 ^ k)%R; [apply Rinv_0_lt_compat; exact P|]. assert (0 < / 2 ^ k)%R by (apply Rinv_0_lt_compat; exact P). unfold Rdiv in C. lra. }
  rewrite <- (plus_IZR b 1) in I1. rewrite <- (plus_IZR a 1) in I2. apply lt_IZR in I1, I2. lia.
Qed.
Lemma box_at_length d k idx : length (box_at d k idx) = k.
Proof. apply path_length. Qed.
Lemma box_at_valid d k idx : valid d (box_at d k idx).
Proof. apply path_valid_all. Qed.
