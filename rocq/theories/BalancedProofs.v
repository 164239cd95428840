(** The balanced tree is the tree of the specification with the rule "refine down to depth [h]". *)
From Coq Require Import List Bool ZArith Arith Lia Lra Reals.
From Verif Require Import Num Outcome Vec Orthtree AdaptiveTree VecProofs GeometrySpec GeometryProofs TreeGeometry AdaptiveProofs
  BfsProofs ListProofs BuildProofs BalancedTree BalancedSpec BalancedIndex BalancedAddr.
Import ListNotations.

(** *** Breadth-first traversal that creates the nodes it visits *)
Section Dynamic.
Context {P St : Type}.
Variable ch : St -> P -> list P.
Variable process : P -> St -> outcome St.
Variable chs : P -> list P.
Variable root : P.
Variable ord : list P.
Variable Inv : list P -> St -> Prop.
Variable m : P -> nat.
Hypothesis Hm : forall p x, In x (chs p) -> m p < m x.
Hypothesis Hord : ord = root :: flat_map chs ord.
Hypothesis Hstep : forall done p rest st, ord = done ++ p :: rest -> In p (root :: flat_map chs done) -> Inv done st ->
  exists st', process p st = Ok st' /\ ch st' p = chs p /\ Inv (done ++ [p]) st'.

Lemma no_orphans rest : rest = flat_map chs rest -> rest = [].
Proof.
  intros E. destruct rest as [|p rest]; [reflexivity|]. exfalso.
  assert (G : forall n x, In x (p :: rest) -> m x <= n -> False).
  { induction n as [|n IH]; intros x Hx Hn.
    - rewrite E in Hx. apply in_flat_map in Hx. destruct Hx as (y & _ & Hy). apply Hm in Hy. lia.
    - rewrite E in Hx. apply in_flat_map in Hx. destruct Hx as (y & Iy & Hy). apply Hm in Hy. apply (IH y Iy). lia. }
  apply (G (m p) p); [left; reflexivity|lia].
Qed.

Lemma bfs_dynamic rest : forall done q fuel st, ord = done ++ rest -> done ++ q = root :: flat_map chs done -> Inv done st ->
  length rest <= fuel -> exists st', bfs ch process fuel q st = Ok st' /\ Inv ord st'.
Proof.
  induction rest as [|p rest IH]; intros done q fuel st E Q HI Hf.
  - rewrite app_nil_r in E. subst done. rewrite <- Hord in Q. assert (q = []) as ->.
    { apply (app_inv_head ord). rewrite app_nil_r. exact Q. }
    exists st. split; [destruct fuel; reflexivity|exact HI].
  - assert (T : p :: rest = q ++ flat_map chs (p :: rest)).
    { apply (app_inv_head done). rewrite <- E, app_assoc, Q. rewrite Hord at 1. rewrite E, flat_map_app. reflexivity. }
    destruct q as [|p' q].
    { apply no_orphans in T. discriminate. }
    rewrite <- app_comm_cons in T. assert (p' = p) as -> by congruence.
    destruct fuel as [|fuel]; [cbn in Hf; lia|]. cbn [bfs].
    destruct (Hstep done p rest st E) as (st' & Hp & Hc & HI'); [rewrite <- Q; apply in_or_app; right; left; reflexivity|exact HI|].
    rewrite Hp. cbn [bind]. rewrite Hc. apply (IH (done ++ [p])).
    + rewrite <- app_assoc. exact E.
    + rewrite flat_map_app. cbn [flat_map]. rewrite app_nil_r, <- app_assoc. cbn [app].
      change (root :: flat_map chs done ++ chs p) with ((root :: flat_map chs done) ++ chs p).
      rewrite <- Q, <- app_assoc. reflexivity.
    + exact HI'.
    + cbn in Hf. lia.
Qed.
End Dynamic.

Section Balanced.
Context {Src : Type}.
Variable d : nat.
Variable pos : Src -> list R.
Variable c : list R.
Variable l : R.
Variable srcs : list Src.
Variable h : nat.
Hypothesis Hd : 1 <= d.
Hypothesis Hc : length c = d.
Hypothesis Hpos : forall s, In s srcs -> length (pos s) = d.

Notation rule := (ByDepth h).
Notation refined := (refined d pos c l 0 srcs rule).
Notation present := (present d pos c l 0 srcs rule).
Notation level := (level d pos c l 0 srcs rule).
Notation mk := (mk d pos c l 0 srcs rule).
Notation sub := (sub d pos c l srcs).
Notation order := (order d pos c l 0 srcs rule h).
Notation kids := (kids d).
Notation spec := (spec_tree d pos c l 0 srcs rule h).
Notation nc := (n_children d).

Lemma refined_eq p : refined p = (length p <? h).
Proof. reflexivity. Qed.
Lemma nc_ge : 2 <= nc.
Proof. unfold n_children. destruct d as [|k]; [lia|]. cbn. assert (2 ^ k <> 0) by (apply Nat.pow_nonzero; lia). lia. Qed.

Lemma filter_true {A} (f : A -> bool) xs : (forall x, In x xs -> f x = true) -> filter f xs = xs.
Proof. induction xs as [|x xs IH]; intros H; [reflexivity|]. cbn. rewrite H by (left; reflexivity). f_equal. apply IH. intros; apply H; right; assumption. Qed.
Lemma filter_false {A} (f : A -> bool) xs : (forall x, In x xs -> f x = false) -> filter f xs = [].
Proof. induction xs as [|x xs IH]; intros H; [reflexivity|]. cbn. rewrite H by (left; reflexivity). apply IH. intros; apply H; right; assumption. Qed.

Lemma level_len k p : In p (level k) -> length p = k.
Proof. intros H. apply in_level in H. apply H. Qed.
Lemma filter_level_lt k : k < h -> filter refined (level k) = level k.
Proof. intros H. apply filter_true. intros p Hp. apply level_len in Hp. rewrite refined_eq. apply Nat.ltb_lt. lia. Qed.
Lemma filter_level_ge k : h <= k -> filter refined (level k) = [].
Proof. intros H. apply filter_false. intros p Hp. apply level_len in Hp. rewrite refined_eq. apply Nat.ltb_ge. lia. Qed.
Lemma level_boxes k : k <= h -> level k = all_boxes d k.
Proof.
  induction k as [|k IH]; intros H; [reflexivity|]. cbn [AdaptiveProofs.level all_boxes].
  rewrite filter_level_lt by lia. rewrite IH by lia. reflexivity.
Qed.
Lemma present_iff p : present p <-> valid d p /\ length p <= h.
Proof.
  induction p as [|i p IH]; cbn [AdaptiveProofs.present length].
  - split; [intros _; split; [constructor|lia]|auto].
  - rewrite IH, refined_eq, Nat.ltb_lt. unfold n_children. split.
    + intros (Hi & (V & _) & L). split; [constructor; assumption|lia].
    + intros (V & L). inversion V; subst. repeat split; auto; lia.
Qed.
Lemma height_ok_bal : height_ok d pos c l 0 srcs rule h.
Proof.
  split; [apply filter_level_ge; lia|]. intros k Hk. rewrite filter_level_lt by exact Hk. rewrite level_boxes by lia.
  intros E. assert (L := all_boxes_length d k). rewrite E in L. cbn in L. assert ((2 ^ d) ^ k <> 0) by (apply Nat.pow_nonzero, Nat.pow_nonzero; lia). lia.
Qed.

(** Children in the finished tree. *)
Definition chs (p : addr) : list addr := if refined p then kids p else [].
Lemma flat_map_chs ps : flat_map chs ps = flat_map kids (filter refined ps).
Proof. induction ps as [|p ps IH]; [reflexivity|]. cbn [flat_map filter]. unfold chs at 1. destruct (refined p); cbn [flat_map]; rewrite IH; reflexivity. Qed.
Lemma chs_level k : flat_map chs (level k) = level (S k).
Proof. rewrite flat_map_chs. reflexivity. Qed.
Lemma chs_levels n k : flat_map chs (flat_map level (seq k n)) = flat_map level (seq (S k) n).
Proof.
  revert k; induction n as [|n IH]; intros k; [reflexivity|]. cbn [seq flat_map]. rewrite flat_map_app, chs_level, IH. reflexivity.
Qed.
Lemma order_fix : order = [] :: flat_map chs order.
Proof.
  unfold AdaptiveProofs.order at 2. rewrite chs_levels. rewrite (seq_S h 1), flat_map_app. cbn [flat_map Nat.add].
  assert (E : level (S h) = []) by (cbn [AdaptiveProofs.level]; rewrite filter_level_ge by lia; reflexivity).
  rewrite E, !app_nil_r. reflexivity.
Qed.

(** Nodes before the sources are distributed. *)
Definition mk0 (p : addr) : anode := @ANode R Src p (box_ctr d c l p) (box_len l p) (length p) (negb (refined p)) [].
Definition gen (done : list addr) : list addr := [] :: flat_map chs done.
Definition Inv (done : list addr) (st : @bstate R Src) : Prop :=
  bs_nodes st = map mk0 (filter refined (gen done)) /\
  bs_leaves st = map mk0 (filter (fun p => negb (refined p)) (gen done)) /\
  forall p, bs_children st p = if existsb (addr_eqb p) done then chs p else [].

Lemma filter_flat_map_levels (f : addr -> bool) n k : filter f (flat_map level (seq k n)) = flat_map (fun i => filter f (level i)) (seq k n).
Proof. revert k; induction n as [|n IH]; intros k; [reflexivity|]. cbn [seq flat_map]. rewrite filter_app, IH. reflexivity. Qed.
Lemma flat_map_ext_in' {A B} (f g : A -> list B) xs : (forall x, In x xs -> f x = g x) -> flat_map f xs = flat_map g xs.
Proof. induction xs as [|x xs IH]; intros H; [reflexivity|]. cbn. rewrite H by (left; reflexivity). f_equal. apply IH. intros; apply H; right; assumption. Qed.
Lemma flat_map_nil {A B} (f : A -> list B) xs : (forall x, In x xs -> f x = []) -> flat_map f xs = [].
Proof. induction xs as [|x xs IH]; intros H; [reflexivity|]. cbn. rewrite H by (left; reflexivity). apply IH. intros; apply H; right; assumption. Qed.

Lemma order_nodes : filter refined order = flat_map level (seq 0 h).
Proof.
  unfold AdaptiveProofs.order. rewrite filter_flat_map_levels, seq_S, flat_map_app. cbn [flat_map Nat.add].
  rewrite filter_level_ge by lia. rewrite !app_nil_r. apply flat_map_ext_in'. intros k Hk. apply in_seq in Hk. apply filter_level_lt. lia.
Qed.
Lemma order_leaves : filter (fun p => negb (refined p)) order = level h.
Proof.
  unfold AdaptiveProofs.order. rewrite filter_flat_map_levels, seq_S, flat_map_app. cbn [flat_map Nat.add].
  rewrite (filter_true _ (level h)).
  2:{ intros p Hp. apply level_len in Hp. rewrite refined_eq, Hp, Nat.ltb_irrefl. reflexivity. }
  rewrite app_nil_r. rewrite flat_map_nil; [reflexivity|]. intros k Hk. apply in_seq in Hk. apply filter_false. intros p Hp.
  apply level_len in Hp. rewrite refined_eq. rewrite (proj2 (Nat.ltb_lt _ _)) by lia. reflexivity.
Qed.

Lemma geom n k : 2 <= n -> (n - 1) * list_sum (map (fun i => n ^ i) (seq 0 k)) + 1 = n ^ k.
Proof.
  intros Hn. induction k as [|k IH]; [cbn; lia|]. rewrite seq_S, map_app. rewrite list_sum_app. cbn [map list_sum fold_right Nat.add Nat.pow].
  rewrite Nat.mul_add_distr_l. nia.
Qed.
Lemma nodes_count k : k <= h -> length (flat_map level (seq 0 k)) = list_sum (map (fun i => nc ^ i) (seq 0 k)).
Proof.
  induction k as [|k IH]; intros H; [reflexivity|]. rewrite seq_S, flat_map_app, map_app, list_sum_app, app_length, IH by lia.
  cbn [flat_map map list_sum fold_right Nat.add]. rewrite app_nil_r, level_boxes, all_boxes_length by lia. unfold n_children. lia.
Qed.
Lemma nodes_fit : length (filter refined order) <= n_nodes d h.
Proof.
  rewrite order_nodes, nodes_count by lia. unfold n_nodes. assert (N := nc_ge). apply Nat.div_le_lower_bound; [lia|].
  assert (G := geom nc h N). lia.
Qed.
Lemma leaves_fit : length (filter (fun p => negb (refined p)) order) = n_leaves d h.
Proof. rewrite order_leaves, level_boxes, all_boxes_length by lia. reflexivity. Qed.

Lemma find_mk0 ps p : In p ps -> find (fun n => addr_eqb (an_addr n) p) (map mk0 ps) = Some (mk0 p).
Proof.
  induction ps as [|q ps IH]; [intros []|]. intros [->|H]; cbn [map find an_addr mk0].
  - rewrite addr_eqb_refl. reflexivity.
  - destruct (addr_eqb q p) eqn:E; [apply addr_eqb_eq in E; subst; reflexivity|apply IH; exact H].
Qed.
Lemma find_app {A} (f : A -> bool) xs ys : find f (xs ++ ys) = match find f xs with Some x => Some x | None => find f ys end.
Proof. induction xs as [|x xs IH]; [reflexivity|]. cbn. destruct (f x); [reflexivity|exact IH]. Qed.
Lemma find_mk0_None ps p : ~ In p ps -> find (fun n => addr_eqb (an_addr n) p) (map mk0 ps) = None.
Proof.
  induction ps as [|q ps IH]; intros H; [reflexivity|]. cbn [map find an_addr mk0]. destruct (addr_eqb q p) eqn:E.
  - apply addr_eqb_eq in E. subst. exfalso. apply H. left; reflexivity.
  - apply IH. intros K. apply H. right; exact K.
Qed.
Lemma lookup_Inv done st p : Inv done st -> In p (gen done) -> bs_lookup st p = Some (mk0 p).
Proof.
  intros (EN & EL & _) H. unfold bs_lookup. rewrite EN, EL, find_app. destruct (refined p) eqn:E.
  - rewrite find_mk0 by (apply filter_In; auto). reflexivity.
  - rewrite find_mk0_None; [|intros K; apply filter_In in K; destruct K; congruence].
    apply find_mk0. apply filter_In. rewrite E. auto.
Qed.

Definition pushed (ch ch' : addr -> list addr) (p : addr) (qs : list addr) : Prop :=
  forall q, ch' q = if addr_eqb q p then ch q ++ qs else ch q.
Lemma store_nodes p (f : nat -> @anode R Src) js : (forall j, an_addr (f j) = j :: p) -> forall st : @bstate R Src,
  length (bs_nodes st) + length js <= n_nodes d h ->
  exists st', ofold (fun s j => store_node d h p (f j) s) js st = Ok st' /\
    bs_nodes st' = bs_nodes st ++ map f js /\ bs_leaves st' = bs_leaves st /\
    pushed (bs_children st) (bs_children st') p (map (fun j => j :: p) js).
Proof.
  intros Hf. induction js as [|j js IH]; intros st H; cbn [ofold length] in *.
  - exists st. rewrite app_nil_r. repeat split; auto. intros q. destruct (addr_eqb q p); [symmetry; apply app_nil_r|reflexivity].
  - unfold store_node at 1. rewrite (proj2 (Nat.ltb_lt _ _)) by lia. cbn [bind].
    destruct (IH (BState (bs_nodes st ++ [f j]) (bs_leaves st) (push (bs_children st) p (an_addr (f j))))) as (st' & E & A & B & C).
    { cbn [bs_nodes]. rewrite app_length. cbn [length]. lia. }
    exists st'. split; [exact E|]. split; [rewrite A; cbn [bs_nodes map]; rewrite <- app_assoc; reflexivity|]. split; [exact B|].
    intros q. rewrite C. cbn [bs_children map]. unfold push. rewrite Hf.
    destruct (addr_eqb q p) eqn:Q.
    + apply addr_eqb_eq in Q. subst q. rewrite ?addr_eqb_refl. rewrite <- app_assoc. reflexivity.
    + try rewrite Q. reflexivity.
Qed.
Lemma store_leaves p (f : nat -> @anode R Src) js : (forall j, an_addr (f j) = j :: p) -> forall st : @bstate R Src,
  length (bs_leaves st) + length js <= n_leaves d h ->
  exists st', ofold (fun s j => store_leaf d h p (f j) s) js st = Ok st' /\
    bs_nodes st' = bs_nodes st /\ bs_leaves st' = bs_leaves st ++ map f js /\
    pushed (bs_children st) (bs_children st') p (map (fun j => j :: p) js).
Proof.
  intros Hf. induction js as [|j js IH]; intros st H; cbn [ofold length] in *.
  - exists st. rewrite app_nil_r. repeat split; auto. intros q. destruct (addr_eqb q p); [symmetry; apply app_nil_r|reflexivity].
  - unfold store_leaf at 1. rewrite (proj2 (Nat.ltb_lt _ _)) by lia. cbn [bind].
    destruct (IH (BState (bs_nodes st) (bs_leaves st ++ [f j]) (push (bs_children st) p (an_addr (f j))))) as (st' & E & A & B & C).
    { cbn [bs_leaves]. rewrite app_length. cbn [length]. lia. }
    exists st'. split; [exact E|]. split; [exact A|]. split; [rewrite B; cbn [bs_leaves map]; rewrite <- app_assoc; reflexivity|].
    intros q. rewrite C. cbn [bs_children map]. unfold push. rewrite Hf.
    destruct (addr_eqb q p) eqn:Q.
    + apply addr_eqb_eq in Q. subst q. rewrite ?addr_eqb_refl. rewrite <- app_assoc. reflexivity.
    + try rewrite Q. reflexivity.
Qed.

Lemma order_prefix done p rest : order = done ++ p :: rest -> exists tl, order = gen (done ++ [p]) ++ tl.
Proof.
  intros E. exists (flat_map chs rest). rewrite order_fix. rewrite E. unfold gen. rewrite !flat_map_app. cbn [flat_map app].
  rewrite app_nil_r, <- app_assoc. reflexivity.
Qed.
Lemma filter_len_app {A} (f : A -> bool) xs ys : length (filter f (xs ++ ys)) = length (filter f xs) + length (filter f ys).
Proof. rewrite filter_app, app_length. reflexivity. Qed.
Lemma gen_snoc done p : gen (done ++ [p]) = gen done ++ chs p.
Proof. unfold gen. rewrite flat_map_app. cbn [flat_map]. rewrite app_nil_r. reflexivity. Qed.

Lemma kids_refined p : Datatypes.S (length p) < h -> filter refined (kids p) = kids p /\ filter (fun p => negb (refined p)) (kids p) = [].
Proof.
  intros H. unfold AdaptiveProofs.kids. split; [apply filter_true|apply filter_false]; intros q Hq; apply in_map_iff in Hq;
    destruct Hq as (i & <- & _); rewrite refined_eq; cbn [length]; rewrite (proj2 (Nat.ltb_lt _ _)) by lia; reflexivity.
Qed.
Lemma kids_leaves p : Datatypes.S (length p) = h -> filter refined (kids p) = [] /\ filter (fun p => negb (refined p)) (kids p) = kids p.
Proof.
  intros H. unfold AdaptiveProofs.kids. split; [apply filter_false|apply filter_true]; intros q Hq; apply in_map_iff in Hq;
    destruct Hq as (i & <- & _); rewrite refined_eq; cbn [length]; rewrite (proj2 (Nat.ltb_ge _ _)) by lia; reflexivity.
Qed.

Lemma expand_step done p rest st : order = done ++ p :: rest -> In p (gen done) -> Inv done st ->
  exists st', expand_node d h p st = Ok st' /\ bs_children st' p = chs p /\ Inv (done ++ [p]) st'.
Proof.
  intros E Hp HI. unfold expand_node. rewrite (lookup_Inv done st p HI Hp). cbn [of_option bind an_len an_center an_depth mk0].
  destruct HI as (EN & EL & EC). destruct (order_prefix _ _ _ E) as (tl & ET).
  assert (ND : ~ In p done).
  { assert (N := order_NoDup d pos c l 0 srcs rule h). rewrite E in N. apply NoDup_remove_2 in N. intros K. apply N. apply in_or_app. left; exact K. }
  assert (EX : existsb (addr_eqb p) done = false).
  { apply not_true_iff_false. intros K. apply existsb_exists in K. destruct K as (q & Hq & Q). apply addr_eqb_eq in Q. subst. contradiction. }
  assert (NF := nodes_fit). assert (LF := leaves_fit). rewrite ET, filter_len_app, gen_snoc, filter_len_app in NF, LF.
  rewrite Nat.add_1_r. destruct (Nat.ltb_spec (Datatypes.S (length p)) h) as [L|G].
  - assert (CH : chs p = kids p) by (unfold chs; rewrite refined_eq, (proj2 (Nat.ltb_lt _ _)) by lia; reflexivity).
    destruct (kids_refined p L) as [K1 K2].
    rewrite CH, K1 in NF. assert (LK : length (kids p) = nc) by (unfold AdaptiveProofs.kids; rewrite map_length, seq_length; reflexivity).
    destruct (store_nodes p (fun j => ANode (j :: p) (child_center d (box_ctr d c l p) (nhalf (box_len l p)) j) (nhalf (box_len l p)) (Datatypes.S (length p)) false [])
               (seq 0 nc) (fun _ => eq_refl) st) as (st' & E' & A & B & C).
    { rewrite EN, map_length, seq_length. lia. }
    exists st'. split; [exact E'|]. split.
    + rewrite C, addr_eqb_refl, EC, EX, CH. reflexivity.
    + split; [|split].
      * rewrite A, EN, gen_snoc, filter_app, map_app, CH, K1. f_equal. unfold AdaptiveProofs.kids. rewrite map_map. apply map_ext. intros j.
        unfold mk0. rewrite refined_eq. cbn [length]. rewrite (proj2 (Nat.ltb_lt _ _)) by lia. rewrite nhalf_R. reflexivity.
      * rewrite B, EL, gen_snoc, filter_app, CH, K2, app_nil_r. reflexivity.
      * intros q. rewrite C, EC, existsb_app. cbn [existsb]. rewrite orb_false_r. destruct (addr_eqb q p) eqn:Q.
        -- apply addr_eqb_eq in Q. subst q. rewrite EX, CH. reflexivity.
        -- rewrite orb_false_r. reflexivity.
  - destruct (Nat.eqb_spec (Datatypes.S (length p)) h) as [L|N].
    + assert (CH : chs p = kids p) by (unfold chs; rewrite refined_eq, (proj2 (Nat.ltb_lt _ _)) by lia; reflexivity).
      destruct (kids_leaves p L) as [K1 K2].
      rewrite CH, K2 in LF. assert (LK : length (kids p) = nc) by (unfold AdaptiveProofs.kids; rewrite map_length, seq_length; reflexivity).
      destruct (store_leaves p (fun j => ANode (j :: p) (child_center d (box_ctr d c l p) (nhalf (box_len l p)) j) (nhalf (box_len l p)) (Datatypes.S (length p)) true [])
                 (seq 0 nc) (fun _ => eq_refl) st) as (st' & E' & A & B & C).
      { rewrite EL, map_length, seq_length. lia. }
      exists st'. split; [exact E'|]. split.
      * rewrite C, addr_eqb_refl, EC, EX, CH. reflexivity.
      * split; [|split].
        -- rewrite A, EN, gen_snoc, filter_app, CH, K1, app_nil_r. reflexivity.
        -- rewrite B, EL, gen_snoc, filter_app, map_app, CH, K2. f_equal. unfold AdaptiveProofs.kids. rewrite map_map. apply map_ext. intros j.
           unfold mk0. rewrite refined_eq. cbn [length]. rewrite (proj2 (Nat.ltb_ge _ _)) by lia. rewrite nhalf_R. reflexivity.
        -- intros q. rewrite C, EC, existsb_app. cbn [existsb]. rewrite orb_false_r. destruct (addr_eqb q p) eqn:Q.
           ++ apply addr_eqb_eq in Q. subst q. rewrite EX, CH. reflexivity.
           ++ rewrite orb_false_r. reflexivity.
    + assert (CH : chs p = []) by (unfold chs; rewrite refined_eq, (proj2 (Nat.ltb_ge _ _)) by lia; reflexivity).
      exists st. split; [reflexivity|]. split; [rewrite EC, EX; symmetry; exact CH|].
      split; [|split].
      * rewrite EN, gen_snoc, CH, app_nil_r. reflexivity.
      * rewrite EL, gen_snoc, CH, app_nil_r. reflexivity.
      * intros q. rewrite EC, existsb_app. cbn [existsb]. rewrite orb_false_r. destruct (addr_eqb q p) eqn:Q.
        -- apply addr_eqb_eq in Q. subst q. rewrite EX, CH. reflexivity.
        -- rewrite orb_false_r. reflexivity.
Qed.

Lemma order_length : length order <= n_nodes d h + n_leaves d h.
Proof. rewrite <- (filter_split_length refined order). assert (A := nodes_fit). assert (B := leaves_fit). lia. Qed.

Theorem expand_all_ok : 1 <= h -> exists st : @bstate R Src, expand_all d h c l = Ok st /\
  bs_nodes st = map mk0 (flat_map level (seq 0 h)) /\ bs_leaves st = map mk0 (level h) /\
  forall p, present p -> bs_children st p = chs p.
Proof.
  intros H1. unfold expand_all.
  assert (R0 : refined [] = true) by (rewrite refined_eq; apply Nat.ltb_lt; cbn; lia).
  assert (N0 : 0 < n_nodes d h).
  { assert (F := nodes_fit). rewrite order_fix in F. cbn [filter] in F. rewrite R0 in F. cbn [length] in F. lia. }
  rewrite (proj2 (Nat.ltb_lt _ _) N0).
  destruct (bfs_dynamic (fun st p => bs_children st p) (fun p st => expand_node d h p st) chs [] order Inv (@length nat)) with
    (rest := order) (done := @nil addr) (q := [@nil nat]) (fuel := n_nodes d h + n_leaves d h)
    (st := BState [@ANode R Src [] c l 0 false []] [] (fun _ => @nil addr)) as (st & E & HI).
  - intros p x Hx. unfold chs in Hx. destruct (refined p); [|destruct Hx]. unfold AdaptiveProofs.kids in Hx. apply in_map_iff in Hx.
    destruct Hx as (i & <- & _). cbn. lia.
  - apply order_fix.
  - intros done p rest st. apply expand_step.
  - reflexivity.
  - reflexivity.
  - unfold Inv, gen. cbn [flat_map filter bs_nodes bs_leaves bs_children existsb]. rewrite R0. cbn [negb map].
    repeat split. unfold mk0. rewrite R0. reflexivity.
  - apply order_length.
  - exists st. split; [exact E|]. destruct HI as (A & B & C). unfold gen in A, B. rewrite <- order_fix in A, B.
    rewrite order_nodes in A. rewrite order_leaves in B. split; [exact A|]. split; [exact B|].
    intros p Hp. rewrite C. assert (X : existsb (addr_eqb p) order = true).
    { apply existsb_exists. exists p. split; [apply in_order; [exact height_ok_bal|exact Hp]|apply addr_eqb_refl]. }
    rewrite X. reflexivity.
Qed.

(** *** Distribution of the sources *)
Hypothesis Hl : (0 < l)%R.
Hypothesis Hh : h < 32.
Hypothesis Hdh : d * h <= 32.
Hypothesis Hin : forall s, In s srcs -> in_half_open d c l (pos s).

Lemma ofold_pure {A B} (f : A -> B -> outcome A) (g : A -> B -> A) xs : (forall a x, In x xs -> f a x = Ok (g a x)) ->
  forall a, ofold f xs a = Ok (fold_left g xs a).
Proof.
  induction xs as [|x xs IH]; intros H a; [reflexivity|]. cbn [ofold fold_left]. rewrite H by (left; reflexivity). cbn [bind].
  apply IH. intros; apply H; right; assumption.
Qed.
Notation bk s := (bucket d h (path d c l (pos s) h)).
Lemma fill_buckets_eq : fill_buckets d pos h c l srcs =
  Ok (map (fun i => filter (fun s => Nat.eqb (bk s) i) srcs) (seq 0 (n_leaves d h))).
Proof.
  unfold fill_buckets. rewrite (ofold_pure _ (fun bs s => update_nth (bk s) (fun b => b ++ [s]) bs)).
  - f_equal. rewrite (bucket_fold (fun s => bk s) (n_leaves d h)) by apply repeat_length. apply map_ext_in. intros i Hi. apply in_seq in Hi.
    rewrite nth_repeat. reflexivity.
  - intros bs s Hs. rewrite (bucket_of_path d c l Hc Hl h Hh Hdh) by auto. reflexivity.
Qed.
Lemma bucket_sub p : valid d p -> length p = h -> filter (fun s => Nat.eqb (bk s) (bucket d h p)) srcs = sub p.
Proof.
  intros V L. rewrite sub_filter. apply filter_ext. intros s. rewrite L.
  destruct (addr_eqb (path d c l (pos s) h) p) eqn:E.
  - apply addr_eqb_eq in E. rewrite E. apply Nat.eqb_refl.
  - apply Nat.eqb_neq. intros K. apply addr_eqb_neq in E. apply E. 
    apply (bucket_inj d c Hc h Hh Hdh) in K; auto; [apply path_length|apply path_valid_all].
Qed.
Lemma level_valid k p : In p (level k) -> valid d p.
Proof. intros H. apply in_level in H. destruct H as [_ H]. apply present_iff in H. apply H. Qed.
Lemma mk_leaf p : length p = h -> mk p = set_srcs (mk0 p) (sub p).
Proof. intros H. unfold AdaptiveProofs.mk, set_srcs, mk0. cbn [an_addr an_center an_len an_depth an_leaf]. rewrite refined_eq, H, Nat.ltb_irrefl. reflexivity. Qed.
Lemma mk_node p : length p < h -> mk p = mk0 p.
Proof. intros H. unfold AdaptiveProofs.mk, mk0. rewrite refined_eq, (proj2 (Nat.ltb_lt _ _) H). reflexivity. Qed.

Lemma omapM_map {A B C} (f : B -> outcome C) (g : A -> B) xs : omapM f (map g xs) = omapM (fun x => f (g x)) xs.
Proof. induction xs as [|x xs IH]; [reflexivity|]. cbn [map omapM]. rewrite IH. reflexivity. Qed.
Theorem distribute_ok : distribute d pos h c l srcs (map mk0 (level h)) = Ok (map mk (level h)).
Proof.
  unfold distribute. rewrite fill_buckets_eq. cbn [bind]. rewrite omapM_map. apply omapM_ok. intros p Hp.
  assert (L := level_len _ _ Hp). assert (V := level_valid _ _ Hp). cbn [an_center mk0].
  rewrite (bucket_of_ctr d c l Hc Hl h Hh Hdh p L). cbn [bind]. f_equal.
  assert (B := bucket_ok d c Hc h Hh Hdh p L). destruct B as [_ B].
  rewrite (nth_map_seq (fun i => filter (fun s => Nat.eqb (bk s) i) srcs)) by exact B.
  rewrite bucket_sub by assumption. symmetry. apply mk_leaf. exact L.
Qed.

(** *** Neighbour lists *)
Definition bal_spec (ch : addr -> list addr) : btree := BTree h c l (map mk (flat_map level (seq 0 h))) (map mk (level h)) ch.
Lemma find_mk ps p : In p ps -> find (fun n => addr_eqb (an_addr n) p) (map mk ps) = Some (mk p).
Proof.
  induction ps as [|q ps IH]; [intros []|]. intros [->|H]; cbn [map find an_addr AdaptiveProofs.mk].
  - rewrite addr_eqb_refl. reflexivity.
  - destruct (addr_eqb q p) eqn:E; [apply addr_eqb_eq in E; subst; reflexivity|apply IH; exact H].
Qed.
Lemma bt_lookup_spec ch p : present p -> bt_lookup (bal_spec ch) p = Some (mk p).
Proof.
  intros P. unfold bt_lookup, bal_spec. cbn [bt_nodes bt_leaves]. rewrite <- map_app. apply find_mk.
  assert (I : In p order) by (apply in_order; [apply height_ok_bal|exact P]).
  unfold AdaptiveProofs.order in I. rewrite seq_S, flat_map_app in I. cbn [flat_map Nat.add] in I. rewrite app_nil_r in I. exact I.
Qed.

Section Lists.
Variable ch : addr -> list addr.
Hypothesis Hch : forall p, present p -> ch p = chs p.
Notation t := (bal_spec ch).
Notation own_near := (own_near d pos c l 0 srcs rule).
Notation events := (events d pos c l 0 srcs rule).
Notation child_events := (child_events d pos c l 0 srcs rule).
Notation neighbour_events := (neighbour_events d pos c l 0 srcs rule).
Notation after done := (apply_events (flat_map events done) nl_empty).

Lemma bal_child_events p q ls : present q -> length p = length q -> 
  bal_child d t (mk p) ls q = Ok (apply_events (child_events p q) ls).
Proof.
  intros Q HL. unfold bal_child. rewrite bt_lookup_spec by exact Q. cbn [of_option bind].
  rewrite (nodes_adjacent_touch d pos c l 0 srcs rule Hc Hl). unfold ListProofs.child_events, leaf.
  destruct (touch d p q) eqn:E.
  - rewrite !refined_eq, HL. destruct (length q <? h); reflexivity.
  - rewrite (too_close_false d pos c l 0 srcs rule Hc Hl p q HL E). reflexivity.
Qed.
Lemma near_inner i q pn : present (i :: q) -> In pn (own_near q) -> present pn /\ refined pn = true /\ length pn = length q.
Proof.
  intros (_ & Pq & Rq) H. apply (own_near_in d pos c l 0 srcs rule Hc) in H; [|exact Pq].
  destruct H as (P & _ & H). rewrite Rq in H. rewrite refined_eq in *. apply Nat.ltb_lt in Rq. destruct H as [H|[H N]].
  - split; [exact P|]. split; [apply Nat.ltb_lt; lia|exact H].
  - apply Nat.ltb_ge in N. lia.
Qed.
Lemma kids_present p q : present p -> refined p = true -> In q (kids p) -> present q /\ length q = Datatypes.S (length p).
Proof.
  intros P Rp H. unfold AdaptiveProofs.kids in H. apply in_map_iff in H. destruct H as (i & <- & Hi). apply in_seq in Hi.
  split; [|reflexivity]. cbn [AdaptiveProofs.present]. split; [lia|auto].
Qed.

Lemma ofold_nth {A B} (f : A -> B -> outcome A) (xs : list B) a :
  ofold (fun a j => bind (of_option (nth_error xs j)) (fun x => f a x)) (seq 0 (length xs)) a = ofold f xs a.
Proof.
  assert (G : forall pre a, ofold (fun a j => bind (of_option (nth_error (pre ++ xs) j)) (fun x => f a x)) (seq (length pre) (length xs)) a = ofold f xs a).
  { clear a. induction xs as [|x xs IH]; intros pre a; [reflexivity|]. cbn [length seq ofold].
    rewrite nth_error_app2 by lia. rewrite Nat.sub_diag. cbn [nth_error of_option bind].
    destruct (f a x); cbn [bind]; try reflexivity.
    specialize (IH (pre ++ [x])). rewrite app_length in IH. cbn [length] in IH. rewrite Nat.add_1_r in IH.
    rewrite <- IH. rewrite <- app_assoc. reflexivity. }
  apply (G []).
Qed.

Lemma bal_step done x rest ls : order = done ++ x :: rest -> In x ([] :: flat_map chs done) -> ls = after done ->
  exists ls', bal_nbhd d t x ls = Ok ls' /\ bt_children t x = chs x /\ ls' = after (done ++ [x]).
Proof.
  intros E _ ->. assert (Px : present x).
  { apply (in_order d pos c l 0 srcs rule h height_ok_bal). rewrite E. apply in_elt. }
  eexists. split; [|split; [cbn [bt_children bal_spec]; apply Hch; exact Px|reflexivity]].
  rewrite flat_map_app. cbn [flat_map]. rewrite app_nil_r, apply_events_app.
  destruct x as [|i q]; [reflexivity|]. unfold bal_nbhd. rewrite bt_lookup_spec by exact Px. cbn [of_option bind].
  assert (ND : NoDup done).
  { assert (N := order_NoDup d pos c l 0 srcs rule h). rewrite E in N. clear - N. induction done as [|y done IH]; [constructor|].
    inversion N as [|? ? N1 N2]; subst. constructor; [intros K; apply N1; apply in_or_app; left; exact K|apply IH; exact N2]. }
  assert (PD : forall y, In y done -> present y).
  { intros y Hy. apply (in_order d pos c l 0 srcs rule h height_ok_bal). rewrite E. apply in_or_app. left; exact Hy. }
  assert (Hq : In q done) by (apply (order_parent_before d pos c l 0 srcs rule Hc h height_ok_bal) with (1 := E) (i := i); reflexivity).
  destruct Px as (Hi & Pq & Rq).
  rewrite (near_inner_after d pos c l 0 srcs rule Hc h height_ok_bal done q ND PD Hq Rq).
  rewrite (ofold_events _ (neighbour_events (i :: q))); [reflexivity|].
  intros pn ls Hpn. destruct (near_inner i q pn) as (Pp & Rp & Lp); [repeat split; assumption|exact Hpn|].
  assert (EC : bt_children t pn = kids pn) by (cbn [bt_children bal_spec]; rewrite Hch by exact Pp; unfold chs; rewrite Rp; reflexivity).
  rewrite EC. assert (LK : n_children d = length (kids pn)) by (unfold AdaptiveProofs.kids; rewrite map_length, seq_length; reflexivity).
  rewrite LK. rewrite (ofold_nth (bal_child d t (mk (i :: q))) (kids pn)).
  unfold ListProofs.neighbour_events, leaf. rewrite Rp. cbn [negb]. apply ofold_events.
  intros k ls' Hk. destruct (kids_present pn k Pp Rp Hk) as [Pk Lk]. apply bal_child_events; [exact Pk|]. rewrite Lk. cbn. lia.
Qed.

Notation final := (final d pos c l 0 srcs rule h).
Theorem bal_lists_ok : bal_lists d t = Ok final.
Proof.
  unfold bal_lists.
  destruct (bfs_dynamic (fun (_ : nlists) p => bt_children t p) (bal_nbhd d t) chs [] order (fun done ls => ls = after done) (@length nat)) with
    (rest := order) (done := @nil addr) (q := [@nil nat]) (fuel := length (bt_nodes t) + length (bt_leaves t)) (st := nl_empty) as (st & E & HI).
  - intros p x Hx. unfold chs in Hx. destruct (refined p); [|destruct Hx]. unfold AdaptiveProofs.kids in Hx. apply in_map_iff in Hx.
    destruct Hx as (i & <- & _). cbn. lia.
  - apply order_fix.
  - intros done p rest st. apply bal_step.
  - reflexivity.
  - reflexivity.
  - reflexivity.
  - cbn [bt_nodes bt_leaves bal_spec]. rewrite !map_length. rewrite <- order_nodes, <- order_leaves.
    rewrite filter_split_length. lia.
  - rewrite E, HI. reflexivity.
Qed.
End Lists.

(** The structure part of the constructor, for a given root box. *)
Definition bal_in_box (c : list R) (l : R) : outcome (btree * nlists) :=
  bind (expand_all d h c l) (fun st =>
  bind (distribute d pos h c l srcs (bs_leaves st)) (fun leaves =>
  let t := BTree h c l (bs_nodes st) leaves (bs_children st) in
  bind (bal_lists d t) (fun ls => Ok (t, ls)))).
Theorem bal_in_box_ok : 1 <= h -> exists ch, (forall p, present p -> ch p = chs p) /\
  bal_in_box c l = Ok (bal_spec ch, final d pos c l 0 srcs rule h).
Proof.
  intros H1. destruct (expand_all_ok H1) as (st & E & A & B & C). exists (bs_children st). split; [exact C|].
  unfold bal_in_box. rewrite E. cbn [bind]. rewrite B, distribute_ok. cbn [bind].
  assert (ES : BTree h c l (bs_nodes st) (map mk (level h)) (bs_children st) = bal_spec (bs_children st)).
  { unfold bal_spec. f_equal. rewrite A. apply map_ext_in. intros p Hp. symmetry. apply mk_node.
    apply in_flat_map in Hp. destruct Hp as (k & Hk & Hp). apply in_seq in Hk. apply level_len in Hp. lia. }
  rewrite ES, bal_lists_ok by exact C. reflexivity.
Qed.

(** *** The containing leaf *)
Theorem bal_containing_leaf_ok ch x : h < 64 / d -> length x = d -> in_half_open d c l x ->
  bal_containing_leaf d (bal_spec ch) x = Ok (mk (path d c l x h)).
Proof.
  intros H64 Hx H. unfold bal_containing_leaf. cbn [bt_height bt_center bt_len bt_leaves bal_spec].
  rewrite (indices_path d c l Hc Hl h Hh x Hx H). cbn [bind].
  assert (V := path_valid_all d c l x h). assert (L := path_length d c l x h).
  assert (M := morton_aidx d (path d c l x h) V). rewrite L in M. rewrite (M H64). cbn [bind].
  rewrite level_boxes by lia. rewrite nth_error_map. assert (NB := nth_all_boxes d _ V). rewrite L in NB. unfold addr in *. rewrite NB. reflexivity.
Qed.
End Balanced.
