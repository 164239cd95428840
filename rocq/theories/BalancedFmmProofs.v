(** The passes and the evaluation of the balanced tree reduce to those of the tree of the specification with the rule
    "refine down to depth [h]". *)
From Coq Require Import List Bool ZArith Arith Lia Lra Reals Permutation FunctionalExtensionality.
From Verif Require Import Num Outcome Vec Orthtree AdaptiveTree TreeSpec VecProofs GeometrySpec GeometryProofs TreeGeometry
  AdaptiveProofs BfsProofs ListProofs ListContents RootBoxProofs BuildProofs TreeTheorems TreeTheorems2 CAux FieldSpec Schedule Fields FieldProofs
  FmmPasses PassProofs PassSteps PassTree PassSpec PassEval FmmTheorems
  BalancedTree BalancedSpec BalancedIndex BalancedAddr BalancedProofs BalancedFmm.
Import ListNotations.

(** Empty regions do nothing. *)
Lemma region_nil {ME LE Tb} (m : @mem ME LE Tb) r : region_result [] m r <-> r = Ok m.
Proof.
  split.
  - intros (run & Hi & ->). inversion Hi as [its X|before a it0 after run0 H1]; [reflexivity|]. exfalso. destruct before; discriminate.
  - intros ->. exists []. split; [constructor; intros it []|reflexivity].
Qed.
Lemma passes_skip {ME LE Tb} (rgs : list (@region ME LE Tb)) m r : passes_result ([] :: rgs) m r <-> passes_result rgs m r.
Proof.
  split.
  - intros H. inversion H as [|? ? ? m' ? Hb Hp|? ? ? ? Hb Hn]; subst.
    + apply region_nil in Hb. injection Hb as ->. exact Hp.
    + apply region_nil in Hb. exfalso. eapply Hn. exact Hb.
  - intros H. eapply pr_ok; [apply region_nil; reflexivity|exact H].
Qed.
Lemma passes_skips {ME LE Tb} (es rgs : list (@region ME LE Tb)) m r : (forall e, In e es -> e = []) ->
  (passes_result (es ++ rgs) m r <-> passes_result rgs m r).
Proof.
  induction es as [|e es IH]; intros H; [reflexivity|]. rewrite (H e) by (left; reflexivity). cbn [app]. rewrite passes_skip.
  apply IH. intros; apply H; right; assumption.
Qed.

Section Reduce.
Context {ME LE Tb I : Type}.
Variable o : ops ME LE Tb.
Variable d : nat.
Variable tb0 tb : Tb.
Variable MEof : list R -> list (psrc R) -> ME -> Prop.
Variable wfLE : list R -> LE -> Prop.
Variable lval : I -> LE -> list R -> R.
Variable dir : I -> psrc R -> list R -> R.
Variable E : I -> R -> R.
Hypothesis SO : sound o d tb MEof wfLE lval dir E.
Hypothesis Htb : snd (o_zero o tb0 []) = tb.
Notation pos := (@ps_pos R).
Variable c : list R.
Variable l : R.
Variable srcs : list (psrc R).
Variable h : nat.
Hypothesis Hd : 1 <= d.
Hypothesis Hc : length c = d.
Hypothesis Hl : (0 < l)%R.
Hypothesis Hh : h < 32.
Hypothesis Hdh : d * h <= 32.
Hypothesis Hdim : same_dim d srcs.
Hypothesis Hin : forall s, In s srcs -> in_half_open d c l (pos s).

Notation rule := (ByDepth h).
Notation refined := (refined d pos c l 0 srcs rule).
Notation present := (present d pos c l 0 srcs rule).
Notation level := (level d pos c l 0 srcs rule).
Notation mk := (mk d pos c l 0 srcs rule).
Notation spec := (spec_tree d pos c l 0 srcs rule h).
Notation lists := (final d pos c l 0 srcs rule h).
Notation chs := (chs d pos c l srcs h).
Notation bal_spec := (bal_spec d pos c l srcs h).
Notation nc := (n_children d).

Lemma half_open_box x : in_half_open d c l x -> in_box d c l x.
Proof. intros H j Hj. specialize (H j Hj). unfold vec in *. lra. Qed.
Lemma height_bal : height_ok d pos c l 0 srcs rule h.
Proof. apply height_ok_bal; assumption. Qed.

Lemma bt_lookup_eq ch p : bt_lookup (bal_spec ch) p = lookup spec p.
Proof.
  assert (DEC : present p \/ ~ present p).
  { destruct (in_dec addr_eq_dec p (order d pos c l 0 srcs rule h)) as [H|H].
    - left. apply (in_order d pos c l 0 srcs rule h height_bal). exact H.
    - right. intros P. apply H. apply (in_order d pos c l 0 srcs rule h height_bal). exact P. }
  destruct DEC as [P|P].
  - rewrite (lookup_mk d pos c l 0 srcs rule h height_bal p P). apply bt_lookup_spec; assumption.
  - rewrite (lookup_None d pos c l 0 srcs rule h height_bal p P).
    unfold bt_lookup, BalancedProofs.bal_spec. cbn [bt_nodes bt_leaves]. rewrite <- map_app.
    match goal with |- find _ (map mk ?ps) = None => assert (NI : ~ In p ps) end.
    { intros K. apply in_app_or in K. destruct K as [K|K].
      - apply in_flat_map in K. destruct K as (k & _ & K). apply in_level in K. apply P. apply K.
      - apply in_level in K. apply P. apply K. }
    clear P. revert NI. generalize (flat_map level (seq 0 h) ++ level h). intros ps. induction ps as [|q ps IH]; intros NI; [reflexivity|].
    cbn [map find AdaptiveProofs.mk an_addr]. destruct (addr_eqb q p) eqn:Eq.
    + apply addr_eqb_eq in Eq. subst q. exfalso. apply NI. left. reflexivity.
    + apply IH. intros K. apply NI. right. exact K.
Qed.
Lemma bmem0_eq ch : bmem0 o (bal_spec ch) tb0 = mem0 o spec tb0.
Proof.
  unfold bmem0, mem0. f_equal; apply functional_extensionality; intros a; rewrite bt_lookup_eq; reflexivity.
Qed.

Lemma final_X_nil p : present p -> nl_X lists p = [].
Proof.
  intros P. destruct (nl_X lists p) as [|q qs] eqn:EX; [reflexivity|]. exfalso.
  assert (Q : In q (nl_X lists p)) by (rewrite EX; left; reflexivity).
  apply (final_X_in d pos c l 0 srcs rule h Hc height_bal p q P) in Q. destruct Q as (Pq & Rq & X).
  rewrite refined_eq in Rq. apply Nat.ltb_ge in Rq. unfold xrel in X. apply andb_true_iff in X. destruct X as [X _].
  apply andb_true_iff in X. destruct X as [X _]. apply Nat.ltb_lt in X. apply (present_iff d pos c l srcs h Hd Hc Hdim) in P. lia.
Qed.
Lemma final_W_nil p : present p -> nl_W lists p = [].
Proof.
  intros P. destruct (nl_W lists p) as [|q qs] eqn:EX; [reflexivity|]. exfalso.
  assert (Q : In q (nl_W lists p)) by (rewrite EX; left; reflexivity).
  apply (final_W_in d pos c l 0 srcs rule h Hc height_bal p q P) in Q. destruct Q as (Pq & Rq & X).
  rewrite refined_eq in Rq. apply Nat.ltb_ge in Rq. unfold wrel in X. apply andb_true_iff in X. destruct X as [X _].
  apply andb_true_iff in X. destruct X as [X _]. apply Nat.ltb_lt in X. apply (present_iff d pos c l srcs h Hd Hc Hdim) in Pq. lia.
Qed.

Section Arrays.
Variable ch : addr -> list addr.
Hypothesis Hch : forall p, present p -> ch p = chs p.

(** The slice of the node array with the nodes of depth [k]. *)
Lemma slice_ok {A} (pre mid post : list A) :
  omapM (fun i => of_option (nth_error (pre ++ mid ++ post) (length pre + i))) (seq 0 (length mid)) = Ok mid.
Proof.
  assert (G : forall a ms, (forall i, i < length ms -> nth_error (pre ++ mid ++ post) (length pre + (a + i)) = nth_error ms i) ->
    omapM (fun i => of_option (nth_error (pre ++ mid ++ post) (length pre + i))) (seq a (length ms)) = Ok ms).
  { intros a ms; revert a; induction ms as [|x ms IH]; intros a H; [reflexivity|]. cbn [length seq omapM].
    assert (H0 := H 0 ltac:(cbn; lia)). rewrite Nat.add_0_r in H0. rewrite H0. cbn [nth_error of_option bind].
    rewrite IH; [reflexivity|]. intros i Hi. specialize (H (Datatypes.S i) ltac:(cbn; lia)). cbn [nth_error] in H. rewrite <- H. f_equal. lia. }
  apply G. intros i Hi. rewrite nth_error_app2 by lia. replace (_ - _) with i by lia. rewrite nth_error_app1 by exact Hi. reflexivity.
Qed.
Lemma bal_level_ok k : k < h -> bal_level d (bal_spec ch) k = Ok (map mk (level k)).
Proof.
  intros Hk. unfold bal_level. unfold BalancedProofs.bal_spec. cbn [bt_nodes].
  assert (SP : seq 0 h = seq 0 k ++ k :: seq (Datatypes.S k) (h - Datatypes.S k)).
  { replace (k :: seq (Datatypes.S k) (h - Datatypes.S k)) with (seq k (Datatypes.S (h - Datatypes.S k))) by reflexivity.
    rewrite <- (seq_app k _ 0). f_equal. lia. }
  rewrite SP, flat_map_app, map_app. cbn [flat_map]. rewrite map_app.
  assert (OF : (nc ^ k - 1) / (nc - 1) = length (map mk (flat_map level (seq 0 k)))).
  { rewrite map_length, (nodes_count d pos c l srcs h Hd Hc) by lia. assert (N := nc_ge d pos c srcs Hd Hc Hdim). rewrite <- (geom d c Hd Hc nc k N), Nat.add_sub, Nat.mul_comm. apply Nat.div_mul. lia. }
  assert (LN : nc ^ k = length (map mk (level k))).
  { rewrite map_length, (level_boxes d pos c l srcs h Hd Hc), all_boxes_length by lia. reflexivity. }
  rewrite OF. rewrite LN. apply slice_ok.
Qed.

Lemma in_level_present k p : In p (level k) -> present p.
Proof. intros H. apply in_level in H. apply H. Qed.
Lemma bit_m2m_eq k p : In p (level k) -> bit_m2m o (bal_spec ch) (mk p) = it_m2m o d spec (mk p).
Proof.
  intros H. assert (P := in_level_present _ _ H). unfold bit_m2m, it_m2m. cbn [AdaptiveProofs.mk an_addr BalancedProofs.bal_spec bt_children].
  rewrite (children_eq d pos c l 0 srcs rule h height_bal p P), Hch by exact P. reflexivity.
Qed.
Lemma bit_local_eq k p : In p (level k) -> bit_local o lists (mk p) = it_local o spec lists (mk p).
Proof.
  intros H. assert (P := in_level_present _ _ H). unfold bit_local, it_local. cbn [AdaptiveProofs.mk an_addr].
  rewrite final_X_nil by exact P. cbn [map]. rewrite !app_nil_r. reflexivity.
Qed.
Lemma leaf_level_lt k : k < h -> leaf_level d pos c l 0 srcs rule k = [].
Proof.
  intros H. unfold leaf_level. rewrite filter_false; [reflexivity|]. intros p Hp. apply level_len in Hp.
  rewrite refined_eq, (proj2 (Nat.ltb_lt _ _)) by lia. reflexivity.
Qed.
Lemma leaf_level_h : leaf_level d pos c l 0 srcs rule h = map mk (level h).
Proof.
  unfold leaf_level. rewrite filter_true; [reflexivity|]. intros p Hp. apply level_len in Hp. rewrite refined_eq, Hp, Nat.ltb_irrefl. reflexivity.
Qed.
Lemma inner_level_lt k : k < h -> inner_level d pos c l 0 srcs rule k = map mk (level k).
Proof. intros H. unfold inner_level. rewrite (filter_level_lt d pos c l srcs h Hd Hc) by exact H. reflexivity. Qed.
Lemma nth_nodes k : k < h -> nth k (at_nodes spec) [] = map mk (level k).
Proof.
  intros H. unfold spec_tree; cbn [at_nodes]. rewrite <- (inner_level_lt k H).
  rewrite (nth_indep _ [] (inner_level d pos c l 0 srcs rule 0)) by (rewrite map_length, seq_length; exact H).
  rewrite map_nth, seq_nth by exact H. reflexivity.
Qed.
Lemma nth_leaves k : k <= h -> nth k (at_leaves spec) [] = leaf_level d pos c l 0 srcs rule k.
Proof.
  intros H. unfold spec_tree; cbn [at_leaves].
  rewrite (nth_indep _ [] (leaf_level d pos c l 0 srcs rule 0)) by (rewrite map_length, seq_length; lia).
  rewrite map_nth, seq_nth by lia. reflexivity.
Qed.

Lemma bal_regions_ok : 1 <= h -> exists rgs, bal_regions o d (bal_spec ch) lists = Ok rgs /\
  forall m r, passes_result rgs m r <-> passes_result (regions o d spec lists) m r.
Proof.
  intros H1. unfold bal_regions, regions. cbn [BalancedProofs.bal_spec bt_height bt_leaves spec_tree at_height].
  rewrite (omapM_ok _ (fun k => map (it_m2m o d spec) (nth k (at_nodes spec) [])) (rev (seq 2 (h - 2)))).
  2:{ intros k Hk. apply in_rev in Hk. apply in_seq in Hk. rewrite bal_level_ok by lia. unfold omap; cbn [bind]. f_equal.
      rewrite nth_nodes by lia. rewrite !map_map. apply map_ext_in. intros p Hp. eapply bit_m2m_eq. exact Hp. }
  cbn [bind].
  rewrite (omapM_ok _ (fun k => map (it_local o spec lists) (nth k (at_nodes spec) [] ++ nth k (at_leaves spec) [])) (seq 2 (h - 2))).
  2:{ intros k Hk. apply in_seq in Hk. rewrite bal_level_ok by lia. unfold omap; cbn [bind]. f_equal.
      rewrite nth_nodes, nth_leaves, leaf_level_lt by lia. rewrite app_nil_r, !map_map. apply map_ext_in. intros p Hp. eapply bit_local_eq. exact Hp. }
  cbn [bind]. eexists. split; [reflexivity|]. intros m r.
  match goal with |- _ <-> passes_result (?A ++ ?B) m r => 
    assert (EA : A = map (fun _ => []) (seq 0 h) ++ [map (it_p2m o) (map mk (level h))]) end.
  { unfold spec_tree; cbn [at_leaves]. rewrite seq_S, !map_app. cbn [map Nat.add]. rewrite leaf_level_h. f_equal.
    rewrite map_map. apply map_ext_in. intros k Hk. apply in_seq in Hk. rewrite leaf_level_lt by lia. reflexivity. }
  rewrite EA, <- app_assoc. rewrite (passes_skips (map (fun _ => []) (seq 0 h))).
  2:{ intros e He. apply in_map_iff in He. destruct He as (? & <- & _). reflexivity. }
  rewrite nth_leaves, leaf_level_h by lia.
  assert (EL : map (bit_local o lists) (map mk (level h)) = map (it_local o spec lists) (map mk (level h))).
  { rewrite !map_map. apply map_ext_in. intros p Hp. eapply bit_local_eq. exact Hp. }
  rewrite EL. reflexivity.
Qed.
End Arrays.

(** What is known of the constructed object. *)
Definition bal_ok (f : @bfmm ME LE Tb) : Prop :=
  (exists ch, (forall p, present p -> ch p = chs p) /\ b_tree f = bal_spec ch) /\ b_lists f = lists /\
  (h = 0 -> b_mem f = mem0 o spec tb0) /\
  (1 <= h -> mem_good d tb MEof wfLE lval dir E c l 0 srcs rule h (b_mem f)).

Theorem make_bal_good : root_box d (map pos srcs) = Some (c, l) ->
  exists f, (forall r, make_bal o d h srcs tb0 r <-> r = Ok f) /\ bal_ok f.
Proof.
  intros HR. assert (Hbox : forall s, In s srcs -> in_box d c l (pos s)) by (intros s Hs; apply half_open_box, Hin, Hs).
  destruct (Nat.eq_dec h 0) as [H0|H0].
  - assert (HB : bal_build d pos h srcs = Ok (bal_spec (fun _ => []), lists)).
    { unfold bal_build. rewrite HR. rewrite H0. reflexivity. }
    exists (BFmm (bal_spec (fun _ => [])) lists (bmem0 o (bal_spec (fun _ => [])) tb0)). split.
    + intros r. split.
      * intros H. inversion H as [r0 X1 X2|t0 ls0 X1 X2|t0 ls0 r0 X1 X2 X3 X4|t0 ls0 rgs r0 X1 X2 X3 X4]; subst r; try lia.
        -- exfalso. eapply X2. rewrite <- X1. exact HB.
        -- assert (EQ : Ok (t0, ls0) = Ok (bal_spec (fun _ => []), lists)) by congruence. injection EQ as -> ->. reflexivity.
      * intros ->. apply mb_leaf; assumption.
    + split; [|split; [reflexivity|split; [intros _; apply bmem0_eq|intros; lia]]]. exists (fun _ => []). split; [|reflexivity].
      intros p P. apply (present_iff d pos c l srcs h Hd Hc Hdim) in P. unfold BalancedProofs.chs. rewrite refined_eq, (proj2 (Nat.ltb_ge _ _)) by lia. reflexivity.
  - assert (H1 : 1 <= h) by lia.
    destruct (bal_in_box_ok d pos c l srcs h Hd Hc Hdim Hl Hh Hdh Hin H1) as (ch & Hch & HBX).
    assert (HB : bal_build d pos h srcs = Ok (bal_spec ch, lists)).
    { unfold bal_build. rewrite HR. destruct h as [|h']; [lia|]. exact HBX. }
    destruct (passes_good o d tb0 tb MEof wfLE lval dir E Htb c l 0 srcs (sound_everywhere _ _ _ _ _ _ _ _ _ _ _ Hc Hl SO) rule h Hc Hl height_bal Hdim Hbox H1) as (m' & Gm & Rm).
    destruct (bal_regions_ok ch Hch H1) as (rgs & HG & HP).
    exists (BFmm (bal_spec ch) lists m'). split.
    + intros r. split.
      * intros H. inversion H as [r0 X1 X2|t0 ls0 X1 X2|t0 ls0 r0 X1 X2 X3 X4|t0 ls0 rgs0 r0 X1 X2 X3 X4]; subst r; try lia.
        -- exfalso. eapply X2. rewrite <- X1. exact HB.
        -- exfalso. assert (EQ : Ok (t0, ls0) = Ok (bal_spec ch, lists)) by congruence. injection EQ as -> ->. eapply X4. rewrite <- X3. exact HG.
        -- assert (EQ : Ok (t0, ls0) = Ok (bal_spec ch, lists)) by congruence. injection EQ as -> ->.
           assert (rgs0 = rgs) by congruence. subst rgs0. rewrite bmem0_eq in X4. apply HP, Rm in X4. subst r0. reflexivity.
      * intros ->. change (Ok (BFmm (bal_spec ch) lists m')) with (omap (BFmm (bal_spec ch) lists) (Ok m')).
        eapply mb_passes; [lia|exact HB|exact HG|]. rewrite bmem0_eq. apply HP, Rm. reflexivity.
    + split; [exists ch; auto|]. split; [reflexivity|]. split; [lia|]. intros _. exact Gm.
Qed.

(** *** Evaluation *)
Hypothesis H64 : h < 64 / d.
Lemma spec_leaf x : length x = d -> in_box d c l x -> containing_leaf d spec x = Ok (Some (mk (path d c l x h))).
Proof.
  intros Hx HB. destruct (containing_leaf_spec _ _ _ _ _ _ _ _ height_bal x Hc) as (L & PL & NL & Ep & [(_ & _ & HC)|(H & _)]); [|contradiction].
  assert (length L = h). { apply (present_iff d pos c l srcs h Hd Hc Hdim) in PL. rewrite refined_eq in NL. apply Nat.ltb_ge in NL. lia. }
  rewrite <- Ep, H in HC. exact HC.
Qed.
Lemma ofold_ext {A B} (f g : A -> B -> outcome A) xs a : (forall a x, In x xs -> f a x = g a x) -> ofold f xs a = ofold g xs a.
Proof.
  revert a; induction xs as [|x xs IH]; intros a H; [reflexivity|]. cbn [ofold]. rewrite H by (left; reflexivity).
  destruct (g a x); cbn [bind]; try reflexivity. apply IH. intros; apply H; right; assumption.
Qed.
Lemma path_present x : present (path d c l x h).
Proof.
  apply (present_iff d pos c l srcs h Hd Hc Hdim). split; [apply path_valid_all|]. rewrite path_length. lia.
Qed.

Lemma bal_pot_eq f : bal_ok f -> forall grav x, length x = d -> in_half_open d c l x ->
  bal_pot o d grav f x = eval_pot o d grav srcs (Fmm spec lists (b_mem f)) x.
Proof.
  intros ((ch & Hch & Et) & El & _) grav x Hx HI. unfold bal_pot, eval_pot. cbn [f_tree f_lists f_mem].
  rewrite spec_leaf by (try apply half_open_box; assumption). rewrite Et.
  rewrite (bal_containing_leaf_ok d pos c l srcs h Hd Hc Hl Hh Hdh ch x H64 Hx HI). cbn [bind].
  change (an_addr (mk (path d c l x h))) with (path d c l x h).
  destruct (of_option (m_le (b_mem f) (path d c l x h))) as [e| | | | |]; cbn [bind]; try reflexivity.
  destruct (o_lpot o e x) as [v| | | | |]; cbn [bind]; try reflexivity.
  rewrite (final_W_nil _ (path_present x)). cbn [ofold bind]. rewrite El.
  match goal with |- bind ?a _ = bind ?b _ => replace a with b; [reflexivity|] end. apply ofold_ext. intros a q _. rewrite bt_lookup_eq. reflexivity.
Qed.
Lemma bal_force_eq f : bal_ok f -> forall grav eps x, length x = d -> in_half_open d c l x ->
  bal_force o d grav eps f x = eval_force o d grav eps srcs (Fmm spec lists (b_mem f)) x.
Proof.
  intros ((ch & Hch & Et) & El & _) grav eps x Hx HI. unfold bal_force, eval_force. cbn [f_tree f_lists f_mem].
  rewrite spec_leaf by (try apply half_open_box; assumption). rewrite Et.
  rewrite (bal_containing_leaf_ok d pos c l srcs h Hd Hc Hl Hh Hdh ch x H64 Hx HI). cbn [bind].
  change (an_addr (mk (path d c l x h))) with (path d c l x h).
  destruct (of_option (m_le (b_mem f) (path d c l x h))) as [e| | | | |]; cbn [bind]; try reflexivity.
  destruct (o_lforce o e x) as [v| | | | |]; cbn [bind]; try reflexivity.
  rewrite (final_W_nil _ (path_present x)). cbn [ofold bind]. rewrite El.
  match goal with |- bind ?a _ = bind ?b _ => replace a with b; [reflexivity|] end. apply ofold_ext. intros a q _. rewrite bt_lookup_eq. reflexivity.
Qed.

(** The object as one of the adaptive tree's, with height 0. *)
Lemma single_ok f : bal_ok f -> h = 0 -> fmm_ok o d tb0 tb MEof wfLE lval dir E (length srcs) srcs c l (Fmm spec lists (b_mem f)).
Proof.
  intros (_ & _ & Em & _) H0. apply fmm_leaf; [lia| | |]; cbn [f_tree f_lists f_mem].
  - rewrite H0. reflexivity.
  - rewrite H0. reflexivity.
  - rewrite (Em H0). rewrite H0. reflexivity.
Qed.

Notation not_at x := (fun s => negb (is_at x s)).
Definition bal_bound (i : I) : R := if h =? 0 then 0%R else (E i (l / 2 ^ h) * abs_charge srcs)%R.

Section Potential.
Variable ipot : I.
Hypothesis Hlpot : forall c e y, wfLE c e -> length y = d -> o_lpot o e y = Ok (lval ipot e y).
Hypothesis Hmpot : forall c len S e y, MEof c S e -> length c = d -> same_dim d S -> (0 < len)%R ->
  (forall s, In s S -> in_box d c len (ps_pos s)) -> length y = d -> apart d c y (3 / 2 * len) ->
  exists v, o_mpot o e y = Ok v /\ (Rabs (v - rsum (fun s => dir ipot s y) S) <= E ipot len * abs_charge S)%R.
Hypothesis Hdir : forall s y, dir ipot s y = kernel d (ps_q s) (dist (ps_pos s) y).
Hypothesis HE : forall len, (0 < len)%R -> (0 <= E ipot len)%R.

Theorem bal_pot_accurate f : bal_ok f -> forall grav x, length x = d -> in_half_open d c l x ->
  exists v, bal_pot o d grav f x = Ok v /\
    (Rabs (v - direct_potential d grav (filter (not_at x) srcs) x) <= bal_bound ipot)%R.
Proof.
  intros HF grav x Hx HI. rewrite (bal_pot_eq f HF grav x Hx HI).
  assert (Hbox : forall s, In s srcs -> in_box d c l (pos s)) by (intros s Hs; apply half_open_box, Hin, Hs).
  unfold bal_bound. destruct (Nat.eqb_spec h 0) as [H0|H0].
  - destruct (eval_pot_accurate o d tb0 tb MEof wfLE lval dir E SO Hd ipot Hlpot Hmpot Hdir HE (length srcs) srcs c l _ Hdim Hc (single_ok f HF H0) Hbox grav x Hx)
      as (v & Hv & B & _). exists v. split; [exact Hv|]. specialize (B (half_open_box x HI)). unfold tree_bound in B. rewrite Nat.leb_refl in B. exact B.
  - destruct (containing_leaf_spec _ _ _ _ _ _ _ _ height_bal x Hc) as (L & PL & NL & Ep & [(_ & HB & HC)|(H & _)]); [|exfalso; apply H, half_open_box, HI].
    destruct HF as (_ & _ & _ & Em). destruct (Em ltac:(lia)) as (Tm & Mm & Lm).
    apply (eval_pot_good o d MEof wfLE lval dir E (so_E _ _ _ _ _ _ _ _ SO) c l 0 srcs rule h Hc Hl height_bal Hdim Hbox L x PL NL Ep Hx HB HC (b_mem f)) with (ipot := ipot); try assumption.
    + apply Lm; [exact PL|]. right. left. exact NL.
    + intros q Pq Lq. apply Mm; [exact Pq|]. right. exact Lq.
Qed.
End Potential.

Section Force.
Variable ifrc : nat -> I.
(** What a point must satisfy for the expansions about a centre to give a force there. *)
Variable okx : list R -> list R -> Prop.
Hypothesis Hlfrc : forall c e y, wfLE c e -> length y = d -> okx c y -> o_lforce o e y = Ok (map (fun k => lval (ifrc k) e y) (seq 0 d)).
Hypothesis Hmfrc : forall c len S e y, MEof c S e -> length c = d -> same_dim d S -> (0 < len)%R ->
  (forall s, In s S -> in_box d c len (ps_pos s)) -> length y = d -> apart d c y (3 / 2 * len) -> okx c y ->
  exists v, o_mforce o e y = Ok (map v (seq 0 d)) /\ forall k, (k < d)%nat ->
    (Rabs (v k - rsum (fun s => dir (ifrc k) s y) S) <= E (ifrc k) len * abs_charge S)%R.
Hypothesis Hdir : forall k s y, dir (ifrc k) s y = force_on d true 0 s y k.
Hypothesis HE : forall k len, (0 < len)%R -> (0 <= E (ifrc k) len)%R.

Theorem bal_force_accurate f : bal_ok f -> forall grav eps x, length x = d -> in_half_open d c l x -> (0 <= eps)%R ->
  (forall L, bal_containing_leaf d (b_tree f) x = Ok L -> okx (an_center L) x) ->
  exists v, bal_force o d grav eps f x = Ok (map v (seq 0 d)) /\
    exists near far, Permutation (near ++ far) (filter (not_at x) srcs) /\
       (forall s, In s far -> apart d (pos s) x (l / 2 ^ h)) /\
       forall k, (k < d)%nat ->
       (Rabs (v k - (rsum (fun s => force_on d grav eps s x k) near + rsum (fun s => force_on d grav 0 s x k) far)) <= bal_bound (ifrc k))%R.
Proof.
  intros HF grav eps x Hx HI Heps Hbx. rewrite (bal_force_eq f HF grav eps x Hx HI).
  assert (OL : bal_containing_leaf d (b_tree f) x = Ok (mk (path d c l x h))).
  { destruct HF as ((ch & _ & ->) & _). apply (bal_containing_leaf_ok d pos c l srcs h Hd Hc Hl Hh Hdh ch x H64 Hx HI). }
  assert (SL := spec_leaf x Hx (half_open_box x HI)).
  assert (OKS : forall L n, containing_leaf d spec x = Ok (Some L) -> expanded_for spec lists L n -> okx (an_center n) x).
  { intros L n HL Hn. rewrite SL in HL. injection HL as <-. destruct Hn as [->|[_ Hn]]; [apply (Hbx _ OL)|].
    change (an_addr (mk (path d c l x h))) with (path d c l x h) in Hn. rewrite (final_W_nil _ (path_present x)) in Hn. destruct Hn. }
  assert (Hbox : forall s, In s srcs -> in_box d c l (pos s)) by (intros s Hs; apply half_open_box, Hin, Hs).
  unfold bal_bound. destruct (Nat.eqb_spec h 0) as [H0|H0].
  - destruct (eval_force_accurate o d tb0 tb MEof wfLE lval dir E SO Hd ifrc okx Hlfrc Hmfrc Hdir HE (length srcs) srcs c l _ Hdim Hc (single_ok f HF H0) Hbox grav eps x Hx Heps OKS)
      as (v & Hv & B & _). exists v. split; [exact Hv|]. destruct (B (half_open_box x HI)) as (near & far & P1 & P2 & P3). exists near, far.
    split; [exact P1|]. split; [exact P2|]. intros k Hk. specialize (P3 k Hk). unfold tree_bound in P3. rewrite Nat.leb_refl in P3. exact P3.
  - destruct (containing_leaf_spec _ _ _ _ _ _ _ _ height_bal x Hc) as (L & PL & NL & Ep & [(_ & HB & HC)|(H & _)]); [|exfalso; apply H, half_open_box, HI].
    destruct HF as (_ & _ & _ & Em). destruct (Em ltac:(lia)) as (Tm & Mm & Lm).
    destruct (eval_force_good o d MEof wfLE lval dir E (so_E _ _ _ _ _ _ _ _ SO) c l 0 srcs rule h Hc Hl height_bal Hdim Hbox L x PL NL Ep Hx HB HC (b_mem f)) with (ifrc := ifrc) (okx := okx) (grav := grav) (eps := eps)
      as (v & Hv & Bv); try assumption.
    + apply Lm; [exact PL|]. right. left. exact NL.
    + intros q Pq Lq. apply Mm; [exact Pq|]. right. exact Lq.
    + intros q [->|Hq]; [apply (OKS _ (mk L) HC); left; reflexivity|]. rewrite (final_W_nil _ PL) in Hq. destruct Hq.
    + exists v. split; [exact Hv|].
      eexists _, _. split; [|split; [|intros k Hk; exact (Bv k Hk)]].
      * rewrite <- (filter_perm (not_at x) _ _ (far_cover d c l 0 srcs rule h Hc height_bal L PL NL)), filter_app. apply Permutation_app_head.
        rewrite filter_all_away; [reflexivity|]. eapply far_away; try eassumption. apply height_bal.
      * eapply far_apart; try eassumption. apply height_bal.
Qed.

(** Where the local expansion gives no force, neither does the tree. *)
Theorem bal_force_fails f : (forall c e y, wfLE c e -> length c = d -> length y = d -> ~ okx c y -> o_lforce o e y = NonFinite) ->
  bal_ok f -> forall grav eps x L, length x = d -> in_half_open d c l x -> bal_containing_leaf d (b_tree f) x = Ok L -> ~ okx (an_center L) x ->
  bal_force o d grav eps f x = NonFinite.
Proof.
  intros Hlbad HF grav eps x L Hx HI HL Nx.
  assert (OL : bal_containing_leaf d (b_tree f) x = Ok (mk (path d c l x h))).
  { destruct HF as ((ch & _ & ->) & _). apply (bal_containing_leaf_ok d pos c l srcs h Hd Hc Hl Hh Hdh ch x H64 Hx HI). }
  rewrite HL in OL. injection OL as ->. unfold bal_force. rewrite HL. cbn [bind]. change (an_addr (mk (path d c l x h))) with (path d c l x h).
  destruct HF as (_ & _ & Em0 & Em). destruct (Nat.eq_dec h 0) as [H0|H0].
  - assert (EL : m_le (b_mem f) (path d c l x h) = Some (fst (o_zero o tb0 c))).
    { assert (HP := path_length d c l x h). rewrite (Em0 H0). destruct (path d c l x h) as [|i q]; [|simpl in HP; lia].
      cbn [mem0 m_le]. rewrite (lookup_mk d pos c l 0 srcs rule h height_bal [] Logic.I). reflexivity. }
    rewrite EL. cbn [of_option bind]. destruct (so_zero _ _ _ _ _ _ _ _ SO tb0 c Hc) as [Wz _].
    assert (EC : an_center (mk (path d c l x h)) = c).
    { assert (HP := path_length d c l x h). destruct (path d c l x h) as [|i q]; [|simpl in HP; lia]. reflexivity. }
    rewrite EC in Nx. rewrite (Hlbad _ _ _ Wz Hc Hx Nx). reflexivity.
  - destruct (Em ltac:(lia)) as (_ & _ & Lm). destruct (Lm (path d c l x h) (path_present x)) as (e & He & We & _).
    + right. left. rewrite refined_eq. apply Nat.ltb_ge. rewrite path_length. lia.
    + rewrite He. cbn [of_option bind]. rewrite (Hlbad _ _ _ We (len_box_ctr _ _ _ _ Hc) Hx Nx). reflexivity.
Qed.
End Force.
End Reduce.
