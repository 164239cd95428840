(** Accuracy of the evaluation of the tree at a point, given the contents of the memory after the passes. *)
From Coq Require Import List Bool ZArith Arith Lia Lra Reals Permutation Sorted.
From Verif Require Import Num Outcome Vec Orthtree AdaptiveTree TreeSpec VecProofs GeometrySpec GeometryProofs TreeGeometry
  AdaptiveProofs BfsProofs ListProofs ListContents BuildProofs CAux FieldSpec Schedule Fields FieldProofs FmmPasses PassProofs PassSteps PassTree
  PassSpec.
Import ListNotations.

Lemma ofold_err {A} (f : R -> A -> outcome R) (ex bd : A -> R) xs :
  (forall a, In a xs -> exists v, (forall acc, f acc a = Ok (acc + v)%R) /\ (Rabs (v - ex a) <= bd a)%R) ->
  forall z, exists w, ofold f xs z = Ok (z + w)%R /\ (Rabs (w - rsum ex xs) <= rsum bd xs)%R.
Proof.
  induction xs as [|a xs IH]; intros H z.
  - exists 0%R. cbn. split; [f_equal; ring|]. rewrite Rminus_0_r, Rabs_R0. lra.
  - destruct (H a (or_introl eq_refl)) as (v & Hv & Bv). destruct (IH (fun b Hb => H b (or_intror Hb)) (z + v)%R) as (w & Hw & Bw).
    exists (v + w)%R. cbn [ofold]. rewrite Hv. cbn [bind]. rewrite Hw. split; [f_equal; ring|]. rewrite !rsum_cons.
    replace (v + w - (ex a + rsum ex xs))%R with ((v - ex a) + (w - rsum ex xs))%R by ring.
    eapply Rle_trans; [apply Rabs_triang|]. lra.
Qed.
Lemma ofold_err_vec {A} d (f : list R -> A -> outcome (list R)) (ex bd : A -> nat -> R) xs :
  (forall a, In a xs -> exists v, (forall z, f (map z (seq 0 d)) a = Ok (map (fun k => z k + v k)%R (seq 0 d))) /\
     forall k, (k < d)%nat -> (Rabs (v k - ex a k) <= bd a k)%R) ->
  forall z, exists w, ofold f xs (map z (seq 0 d)) = Ok (map (fun k => z k + w k)%R (seq 0 d)) /\
     forall k, (k < d)%nat -> (Rabs (w k - rsum (fun a => ex a k) xs) <= rsum (fun a => bd a k) xs)%R.
Proof.
  induction xs as [|a xs IH]; intros H z.
  - exists (fun _ => 0%R). cbn. split; [f_equal; apply map_ext; intros; ring|]. intros k _. rewrite Rminus_0_r, Rabs_R0. lra.
  - destruct (H a (or_introl eq_refl)) as (v & Hv & Bv).
    destruct (IH (fun b Hb => H b (or_intror Hb)) (fun k => z k + v k)%R) as (w & Hw & Bw).
    exists (fun k => v k + w k)%R. cbn [ofold]. rewrite Hv. cbn [bind]. rewrite Hw. split; [f_equal; apply map_ext; intros; ring|].
    intros k Hk. rewrite !rsum_cons. specialize (Bv k Hk). specialize (Bw k Hk).
    replace (v k + w k - (ex a k + rsum (fun a => ex a k) xs))%R with ((v k - ex a k) + (w k - rsum (fun a => ex a k) xs))%R by ring.
    eapply Rle_trans; [apply Rabs_triang|]. lra.
Qed.

Section Eval.
Context {ME LE Tb I : Type}.
Variable o : ops ME LE Tb.
Variable d : nat.
Variable tb0 tb : Tb.
Variable MEof : list R -> list (psrc R) -> ME -> Prop.
Variable wfLE : list R -> LE -> Prop.
Variable lval : I -> LE -> list R -> R.
Variable dir : I -> psrc R -> list R -> R.
Variable E : I -> R -> R.
Hypothesis HmE : forall i l1 l2, (0 < l1 <= l2 -> E i l2 <= E i l1)%R.
Hypothesis Htb : snd (o_zero o tb0 []) = tb.

Variable c : list R.
Variable l : R.
Variable cap : nat.
Variable srcs : list (psrc R).
Variable rr : rule.
Variable h : nat.
Notation pos := (@ps_pos R).
Notation refined := (refined d pos c l cap srcs rr).
Notation present := (present d pos c l cap srcs rr).
Notation level := (level d pos c l cap srcs rr).
Notation mk := (mk d pos c l cap srcs rr).
Notation sub := (sub d pos c l srcs).
Notation ctr := (box_ctr d c l).
Notation blen := (box_len l).
Notation t := (spec_tree d pos c l cap srcs rr h).
Notation ls := (final d pos c l cap srcs rr h).
Notation far := (far d c l cap srcs rr h).
Notation me_good := (me_good d MEof c l srcs).
Notation le_good := (le_good d wfLE lval dir E c l cap srcs rr h).
Hypothesis Hc : length c = d.
Hypothesis Hl : (0 < l)%R.
Hypothesis Hh : height_ok d pos c l cap srcs rr h.
Hypothesis Hdim : same_dim d srcs.
Hypothesis Hbox : forall s, In s srcs -> in_box d c l (ps_pos s).
Notation mem := (@mem ME LE Tb).

Notation near_srcs L := (flat_map sub (nl_near ls L)).
Notation far_srcs L := (flat_map sub (nl_W ls L) ++ far L).

Lemma far_cover L : present L -> refined L = false ->
  Permutation (near_srcs L ++ far_srcs L) srcs.
Proof.
  intros P N. assert (G := Permutation_flat_map sub (interactions_perm d pos c l cap srcs rr h Hc Hh L P N)).
  rewrite (sub_leaves_perm d pos c l cap srcs rr h Hh) in G.
  unfold interactions in G. rewrite !flat_map_app in G. etransitivity; [|exact G].
  assert (B : forall qs, (forall q, In q qs -> present q) -> Permutation (flat_map sub qs) (flat_map sub (flat_map (leaves_below t) qs))).
  { induction qs as [|q qs IH]; intros Hq; [constructor|]. cbn [flat_map]. rewrite flat_map_app. apply Permutation_app.
    - unfold leaves_below. rewrite leaf_list_eq. symmetry. apply sub_below; [exact Hh|]. apply Hq. left. reflexivity.
    - apply IH. intros; apply Hq; right; assumption. }
  apply Permutation_app_head. apply Permutation_app.
  - apply B. intros q Hq. apply final_W_in in Hq; [|assumption|assumption|assumption]. apply Hq.
  - unfold PassSpec.far. rewrite !flat_map_concat_map, concat_map, map_map.
    assert (PA : forall a, In a (ancestors_or_self L) -> present a) by (intros a Ha; eapply present_suf; eassumption).
    clear G. induction (ancestors_or_self L) as [|a As IH]; [constructor|]. cbn [map concat].
    rewrite concat_app. apply Permutation_app; [|apply IH; intros; apply PA; right; assumption].
    rewrite <- flat_map_concat_map, flat_map_app. unfold own_far. apply Permutation_app; [|reflexivity].
    apply B. intros q Hq. apply final_inter_in in Hq; [apply Hq| | |]; try assumption. apply PA. left. reflexivity.
Qed.

(** The containing leaf, and that no far source is at the point. *)
Variable L : addr.
Variable x : list R.
Hypothesis PL : present L.
Hypothesis NL : refined L = false.
Hypothesis Hpath : path d c l x (length L) = L.
Hypothesis Hx : length x = d.
Hypothesis HxL : in_box d (ctr L) (blen L) x.
Hypothesis Hcl : containing_leaf d t x = Ok (Some (mk L)).

Lemma ancestor_box a : In a (ancestors_or_self L) -> in_box d (ctr a) (blen a) x.
Proof.
  clear PL NL Hpath Hcl Hx. revert HxL. induction L as [|i p IH]; intros HB [<-|Ha]; try assumption; [destruct Ha|].
  apply IH; [|exact Ha]. apply (child_inside d (ctr p) (blen p) i x); [apply len_box_ctr; exact Hc|exact HB].
Qed.
Lemma not_apart a r : in_box d (ctr a) (blen a) x -> (blen a < 2 * r)%R -> apart d (ctr a) x r -> False.
Proof.
  intros Hin Hr (j & Hj & A). specialize (Hin j Hj). revert A. unfold Rabs. destruct (Rcase_abs _); lra.
Qed.
Lemma W_apart q : In q (nl_W ls L) -> present q /\ (2 <= length q)%nat /\ apart d (ctr q) x (3 / 2 * blen q).
Proof.
  intros Hq. apply final_W_in in Hq; [|assumption|assumption|assumption]. destruct Hq as (Pq & _ & V0). unfold wrel in V0.
  apply andb_true_iff in V0. destruct V0 as [V0 NT]. apply andb_true_iff in V0. destruct V0 as [V1 VT]. apply Nat.ltb_lt in V1.
  apply negb_true_iff in NT. split; [exact Pq|]. split.
  - destruct q as [|i [|]]; simpl in *; try lia. destruct L; [|simpl in *; lia]. rewrite touch_sym, touch_root_l in NT. discriminate.
  - apply (apart_gap d c l q L); try assumption. lia.
Qed.
Lemma blen_min q : present q -> (l / 2 ^ h <= blen q)%R.
Proof.
  intros P. rewrite box_len_pow. assert (D := present_depth _ _ _ _ _ _ _ _ Hh q P).
  apply Rmult_le_compat_l; [lra|]. apply Rinv_le_contravar; [apply pow2_pos|]. apply Rle_pow; [lra|exact D].
Qed.
Lemma apart_shift c1 len y z : in_box d c1 len y -> apart d c1 z (3 / 2 * len) -> apart d y z len.
Proof.
  intros B (j & Hj & A). exists j. split; [exact Hj|]. specialize (B j Hj). revert A. unfold Rabs. repeat destruct (Rcase_abs _); lra.
Qed.
Lemma apart_comm y z r : apart d y z r -> apart d z y r.
Proof. intros (j & Hj & A). exists j. split; [exact Hj|]. rewrite Rabs_minus_sym. exact A. Qed.
Lemma apart_le y z r r' : (r' <= r)%R -> apart d y z r -> apart d y z r'.
Proof. intros Hr (j & Hj & A). exists j. split; [exact Hj|lra]. Qed.
(** Far sources are at least a smallest leaf away. *)
Lemma far_apart s : In s (far_srcs L) -> apart d (ps_pos s) x (l / 2 ^ h).
Proof.
  intros Hs. apply in_app_iff in Hs. destruct Hs as [Hs|Hs].
  - apply in_flat_map in Hs. destruct Hs as (q & Hq & Hs). destruct (W_apart q Hq) as (Pq & _ & A).
    assert (B := sub_in_box d c l srcs Hc Hbox q s Hs). eapply apart_le; [apply (blen_min q Pq)|]. eapply apart_shift; eassumption.
  - unfold PassSpec.far in Hs. apply in_flat_map in Hs. destruct Hs as (a & Ha & Hs).
    assert (Pa : present a) by (eapply present_suf; eassumption).
    assert (A : apart d (ctr a) (ps_pos s) (3 / 2 * blen a)).
    { unfold own_far in Hs. apply in_app_iff in Hs. destruct Hs as [Hs|Hs]; apply in_flat_map in Hs; destruct Hs as (q & Hq & Hs).
      - apply final_inter_in in Hq; [|assumption|assumption|assumption]. destruct Hq as [Pq V]. unfold vrel in V.
        apply andb_true_iff in V. destruct V as [V NT]. apply andb_true_iff in V. destruct V as [V _].
        apply andb_true_iff in V. destruct V as [VL VL2]. apply Nat.eqb_eq in VL. apply negb_true_iff in NT.
        apply (apart_gap d c l a q); try assumption; [lia|]. apply (sub_in_box d c l srcs Hc Hbox q s Hs).
      - apply final_X_in in Hq; [|assumption|assumption|assumption]. destruct Hq as (Pq & _ & V0). unfold xrel in V0.
        apply andb_true_iff in V0. destruct V0 as [V0 NT]. apply andb_true_iff in V0. destruct V0 as [V1 _]. apply Nat.ltb_lt in V1.
        apply negb_true_iff in NT. apply (apart_gap d c l a q); try assumption; [lia|].
        apply (sub_in_box d c l srcs Hc Hbox q s Hs). }
    apply apart_comm. eapply apart_le; [apply (blen_min a Pa)|]. eapply apart_shift; [apply ancestor_box; exact Ha|exact A].
Qed.
Lemma far_away s : In s (far_srcs L) -> ps_pos s <> x.
Proof.
  intros Hs Ex. destruct (far_apart s Hs) as (j & _ & A). rewrite Ex, Rminus_diag_eq, Rabs_R0 in A by reflexivity.
  assert (P : (0 < l / 2 ^ h)%R) by (apply Rdiv_lt_0_compat; [exact Hl|apply pow2_pos]). lra.
Qed.
Lemma near_other_away q s : present q -> refined q = false -> q <> L -> In s (sub q) -> ps_pos s <> x.
Proof.
  intros Pq Nq NE Hs Ex. apply sub_path in Hs. destruct Hs as [_ Hs]. rewrite Ex in Hs.
  assert (G : forall a b, present a -> present b -> refined a = false -> a <> b -> path d c l x (length a) = a -> path d c l x (length b) = b ->
     (length a <= length b)%nat -> False).
  { intros a b Pa Pb Na Hne Ea Eb Hlen. assert (X : In a (ancestors_or_self b)).
    { rewrite <- Eb. apply anc_path. exists (length a). auto. }
    apply in_sufs_app in X. destruct X as (r & Er). destruct r as [|i r]; [simpl in Er; congruence|].
    rewrite Er in Pb. cbn [app] in Pb. apply present_app_refined in Pb. congruence. }
  destruct (le_lt_dec (length q) (length L)) as [Hlen|Hlen].
  - apply (G q L); auto.
  - apply (G L q); auto. lia.
Qed.
Lemma E_min i q : present q -> (E i (blen q) <= E i (l / 2 ^ h))%R.
Proof.
  intros P. apply HmE. split; [|apply blen_min; exact P].
  apply Rdiv_lt_0_compat; [exact Hl|apply pow2_pos].
Qed.

(** The sources of the near leaves, except those located at the point. *)
Notation not_at := (fun s => negb (is_at x s)).
Lemma filter_all_away (S : list (psrc R)) : (forall s, In s S -> ps_pos s <> x) -> filter not_at S = S.
Proof.
  induction S as [|s S IH]; intros H; [reflexivity|]. cbn [filter]. rewrite (proj2 (is_at_false x s)) by (apply H; left; reflexivity).
  cbn [negb]. f_equal. apply IH. intros; apply H; right; assumption.
Qed.
Lemma filter_flat {A} (f : A -> list (psrc R)) qs : filter not_at (flat_map f qs) = flat_map (fun q => filter not_at (f q)) qs.
Proof. induction qs as [|q qs IH]; [reflexivity|]. cbn [flat_map]. rewrite filter_app, IH. reflexivity. Qed.

Variable m : mem.
Hypothesis HLE : le_good m L.
Hypothesis HME : forall q, present q -> (2 <= length q)%nat -> me_good m q.

Lemma near_filter s : rsum s (filter not_at srcs) = (rsum s (filter not_at (near_srcs L)) + rsum s (far_srcs L))%R.
Proof.
  assert (G := far_cover L PL NL). rewrite <- (rsum_perm s _ _ (filter_perm not_at _ _ G)), filter_app, rsum_app.
  f_equal. rewrite filter_all_away; [reflexivity|]. exact far_away.
Qed.
Lemma abs_far : (abs_charge (far_srcs L) <= abs_charge srcs)%R.
Proof.
  rewrite <- (abs_charge_perm _ _ (far_cover L PL NL)), (abs_charge_app (near_srcs L)). assert (H := abs_charge_nonneg (near_srcs L)). lra.
Qed.

Section Potential.
Variable ipot : I.
Hypothesis HE : forall len, (0 < len)%R -> (0 <= E ipot len)%R.

(** Only for the near sources need the functional be the direct potential, and only at the point and for the boxes of the
    W list need the expansions be accurate. *)
Theorem eval_pot_near grav :
  (forall c e, wfLE c e -> o_lpot o e x = Ok (lval ipot e x)) ->
  (forall q S e, In q (nl_W ls L) -> MEof (ctr q) S e -> same_dim d S -> (forall s, In s S -> in_box d (ctr q) (blen q) (ps_pos s)) ->
     exists v, o_mpot o e x = Ok v /\ (Rabs (v - rsum (fun s => dir ipot s x) S) <= E ipot (blen q) * abs_charge S)%R) ->
  (forall s, In s (near_srcs L) -> dir ipot s x = kernel d (ps_q s) (dist (ps_pos s) x)) ->
  exists v, eval_pot o d grav srcs (Fmm t ls m) x = Ok v /\
  (Rabs (v - field_sign grav * rsum (fun s => dir ipot s x) (filter not_at srcs)) <= E ipot (l / 2 ^ h) * abs_charge srcs)%R.
Proof.
  intros Hlx Hmx Hdir. assert (LP : (0 < l / 2 ^ h)%R) by (apply Rdiv_lt_0_compat; [exact Hl|apply pow2_pos]).
  unfold eval_pot. cbn [f_tree f_lists f_mem]. rewrite Hcl. cbn [bind]. change (an_addr (mk L)) with L.
  destruct HLE as (e & He & We & Ve). rewrite He. cbn [of_option bind]. rewrite (Hlx _ _ We). cbn [bind].
  specialize (Ve ipot x Hx HxL).
  match goal with |- context [ofold ?f (nl_W ls L) ?z0] =>
    destruct (ofold_err f (fun q => rsum (fun s => dir ipot s x) (sub q)) (fun q => (E ipot (l / 2 ^ h) * abs_charge (sub q))%R)
       (nl_W ls L)) with (z := z0) as (w & Hw & Bw) end.
  { intros q Hq. destruct (W_apart q Hq) as (Pq & Lq & A). destruct (HME q Pq Lq) as (g & S & Hg & PS & MS).
    destruct (Hmx q S g Hq MS) as (v & Hv & Bv).
    - intros s Hs. apply Hdim. eapply sub_incl. eapply Permutation_in; [exact PS|exact Hs].
    - intros s Hs. apply (sub_in_box d c l srcs Hc Hbox). eapply Permutation_in; [exact PS|exact Hs].
    - exists v. split.
      + intros acc. rewrite Hg. cbn [of_option bind]. rewrite Hv. reflexivity.
      + rewrite <- (rsum_perm (fun s => dir ipot s x) _ _ PS). eapply Rle_trans; [exact Bv|].
        rewrite (abs_charge_perm _ _ PS). apply Rmult_le_compat_r; [apply abs_charge_nonneg|]. apply E_min. exact Pq. }
  unfold vec in Hw. rewrite Hw. cbn [bind]. clear Hw.
  match goal with |- context [ofold ?f (nl_near ls L) ?z] =>
    rewrite (ofold_rsum f (fun q => direct_potential d true (filter not_at (sub q)) x) (nl_near ls L) z) end.
  2:{ intros acc q Hq. apply final_near_leaf in Hq; [|assumption|assumption|assumption|assumption]. destruct Hq as (Pq & Nq & _).
    rewrite (lookup_mk d pos c l cap srcs rr h Hh q Pq). cbn [of_option bind].
    replace (an_leaf (mk q)) with true by (unfold AdaptiveProofs.mk; cbn [an_leaf]; rewrite Nq; reflexivity).
    replace (an_srcs (mk q)) with (sub q) by (unfold AdaptiveProofs.mk; cbn [an_srcs]; rewrite Nq; reflexivity).
    assert (DS : same_dim (length x) (sub q)) by (rewrite Hx; apply sub_dim; exact Hdim).
    destruct (addr_eqb q L) eqn:Eq.
    - rewrite potential_sum_safe by exact DS. reflexivity.
    - apply addr_eqb_neq in Eq.
      assert (AW : forall s, In s (sub q) -> ps_pos s <> x) by (intros s Hs; apply (near_other_away q s Pq Nq Eq Hs)).
      rewrite potential_sum_away by (exact DS || exact AW). rewrite filter_all_away by exact AW. reflexivity. }
  cbn [bind]. eexists. split; [reflexivity|].
  assert (EN : rsum (fun q => direct_potential d true (filter not_at (sub q)) x) (nl_near ls L) =
     rsum (fun s => dir ipot s x) (filter not_at (near_srcs L))).
  { rewrite filter_flat, rsum_flat_map. apply rsum_ext. intros q Hq. unfold direct_potential. apply rsum_ext. intros s Hs.
    rewrite Hdir; [unfold field_sign; ring|]. apply in_flat_map. exists q. split; [exact Hq|]. apply filter_In in Hs. apply Hs. }
  rewrite near_filter, rsum_app, EN.
  rewrite <- rsum_flat_map in Bw.
  assert (EB : rsum (fun q => E ipot (l / 2 ^ h) * abs_charge (sub q))%R (nl_W ls L) = (E ipot (l / 2 ^ h) * abs_charge (flat_map sub (nl_W ls L)))%R).
  { rewrite rsum_scal. unfold abs_charge at 2. rewrite rsum_flat_map. reflexivity. }
  rewrite EB in Bw.
  assert (B1 : (Rabs (lval ipot e x - rsum (fun s => dir ipot s x) (far L)) <= E ipot (l / 2 ^ h) * abs_charge (far L))%R).
  { eapply Rle_trans; [exact Ve|]. apply Rmult_le_compat_r; [apply abs_charge_nonneg|]. apply E_min. exact PL. }
  assert (AB := abs_far). rewrite abs_charge_app in AB.
  assert (AE : (E ipot (l / 2 ^ h) * (abs_charge (flat_map sub (nl_W ls L)) + abs_charge (far L)) <= E ipot (l / 2 ^ h) * abs_charge srcs)%R).
  { apply Rmult_le_compat_l; [apply HE; exact LP|exact AB]. }
  set (N := rsum (fun s => dir ipot s x) (filter not_at (near_srcs L))).
  set (FW := rsum (fun s => dir ipot s x) (flat_map sub (nl_W ls L))) in *.
  set (FF := rsum (fun s => dir ipot s x) (far L)) in *.
  eapply Rle_trans; [|exact AE]. rewrite Rmult_plus_distr_l.
  assert (TR := Rabs_triang (w - FW) (lval ipot e x - FF)).
  destruct grav; unfold field_sign.
  - replace (_ - _)%R with ((w - FW) + (lval ipot e x - FF))%R by ring. lra.
  - replace (_ - _)%R with (- ((w - FW) + (lval ipot e x - FF)))%R by ring. rewrite Rabs_Ropp. lra.
Qed.
Hypothesis Hlpot : forall c e y, wfLE c e -> length y = d -> o_lpot o e y = Ok (lval ipot e y).
Hypothesis Hmpot : forall c len S e y, MEof c S e -> length c = d -> same_dim d S -> (0 < len)%R ->
  (forall s, In s S -> in_box d c len (ps_pos s)) -> length y = d -> apart d c y (3 / 2 * len) ->
  exists v, o_mpot o e y = Ok v /\ (Rabs (v - rsum (fun s => dir ipot s y) S) <= E ipot len * abs_charge S)%R.
Hypothesis Hdir : forall s y, dir ipot s y = kernel d (ps_q s) (dist (ps_pos s) y).
Theorem eval_pot_good grav : exists v, eval_pot o d grav srcs (Fmm t ls m) x = Ok v /\
  (Rabs (v - direct_potential d grav (filter not_at srcs) x) <= E ipot (l / 2 ^ h) * abs_charge srcs)%R.
Proof.
  destruct (eval_pot_near grav) as (v & Hv & B).
  { intros c1 e We. apply (Hlpot c1); assumption. }
  { intros q S e Hq MS HS HB. destruct (W_apart q Hq) as (Pq & Lq & A). apply (Hmpot (ctr q)); try assumption.
    - apply len_box_ctr. exact Hc.
    - apply blen_pos. exact Hl. }
  { intros; apply Hdir. }
  exists v. split; [exact Hv|].
  replace (direct_potential d grav (filter not_at srcs) x) with (field_sign grav * rsum (fun s => dir ipot s x) (filter not_at srcs))%R; [exact B|].
  unfold direct_potential. rewrite rsum_scal. f_equal. apply rsum_ext. intros s _. rewrite Hdir. reflexivity.
Qed.
End Potential.

Section Force.
Variable ifrc : nat -> I.
(** What a point must satisfy for the expansions about a centre to give a force there. *)
Variable okx : list R -> list R -> Prop.
Hypothesis Hlfrc : forall c e y, wfLE c e -> length y = d -> okx c y -> o_lforce o e y = Ok (map (fun k => lval (ifrc k) e y) (seq 0 d)).
Hypothesis Hmfrc : forall c len S e y, MEof c S e -> length c = d -> same_dim d S -> (0 < len)%R ->
  (forall s, In s S -> in_box d c len (ps_pos s)) -> length y = d -> apart d c y (3 / 2 * len) -> okx c y ->
  exists v, o_mforce o e y = Ok (map v (seq 0 d)) /\ forall k, (k < d)%nat ->
    (Rabs (v k - rsum (fun s => dir (ifrc k) s y) S) <= E (ifrc k) len * abs_charge S)%R.
Hypothesis Hdir : forall k s y, dir (ifrc k) s y = force_on d true 0 s y k.
Hypothesis HE : forall k len, (0 < len)%R -> (0 <= E (ifrc k) len)%R.

(** The near sources are smoothed, the far ones are not. *)
Theorem eval_force_good grav eps : (0 <= eps)%R -> (forall q, q = L \/ In q (nl_W ls L) -> okx (ctr q) x) -> exists v, eval_force o d grav eps srcs (Fmm t ls m) x = Ok (map v (seq 0 d)) /\
  forall k, (k < d)%nat ->
  (Rabs (v k - (rsum (fun s => force_on d grav eps s x k) (filter not_at (near_srcs L)) + rsum (fun s => force_on d grav 0 s x k) (far_srcs L)))
   <= E (ifrc k) (l / 2 ^ h) * abs_charge srcs)%R.
Proof.
  intros Heps Hokx. assert (LP : (0 < l / 2 ^ h)%R) by (apply Rdiv_lt_0_compat; [exact Hl|apply pow2_pos]).
  unfold eval_force, vec. cbn [f_tree f_lists f_mem]. rewrite Hcl. cbn [bind]. change (an_addr (mk L)) with L.
  destruct HLE as (e & He & We & Ve). rewrite He. cbn [of_option bind]. rewrite (Hlfrc _ _ _ We Hx (Hokx L (or_introl eq_refl))). cbn [bind].
  match goal with |- context [ofold ?f (nl_W ls L) (map ?z0 _)] =>
    destruct (ofold_err_vec d f (fun q k => rsum (fun s => dir (ifrc k) s x) (sub q)) (fun q k => (E (ifrc k) (l / 2 ^ h) * abs_charge (sub q))%R)
       (nl_W ls L)) with (z := z0) as (w & Hw & Bw) end.
  { intros q Hq. destruct (W_apart q Hq) as (Pq & Lq & A). destruct (HME q Pq Lq) as (g & S & Hg & PS & MS).
    destruct (Hmfrc (ctr q) (blen q) S g x MS) as (v & Hv & Bv); try assumption.
    - apply len_box_ctr. exact Hc.
    - intros s Hs. apply Hdim. eapply sub_incl. eapply Permutation_in; [exact PS|exact Hs].
    - apply blen_pos. exact Hl.
    - intros s Hs. apply (sub_in_box d c l srcs Hc Hbox). eapply Permutation_in; [exact PS|exact Hs].
    - apply Hokx. right. exact Hq.
    - exists v. split.
      + intros acc. rewrite Hg. cbn [of_option bind]. rewrite Hv. cbn [bind]. rewrite vadd_map_seq. reflexivity.
      + intros k Hk. rewrite <- (rsum_perm (fun s => dir (ifrc k) s x) _ _ PS). eapply Rle_trans; [apply Bv; exact Hk|].
        rewrite (abs_charge_perm _ _ PS). apply Rmult_le_compat_r; [apply abs_charge_nonneg|]. apply E_min. exact Pq. }
  unfold vec in Hw. rewrite Hw. cbn [bind]. clear Hw.
  match goal with |- context [ofold ?f (nl_near ls L) (map ?z _)] =>
    rewrite (ofold_vadd d f (fun q k => rsum (fun s => force_on d true eps s x k) (filter not_at (sub q))) (nl_near ls L) z) end.
  2:{ intros acc q Hq. apply final_near_leaf in Hq; [|assumption|assumption|assumption|assumption]. destruct Hq as (Pq & Nq & _).
    rewrite (lookup_mk d pos c l cap srcs rr h Hh q Pq). cbn [of_option bind].
    replace (an_leaf (mk q)) with true by (unfold AdaptiveProofs.mk; cbn [an_leaf]; rewrite Nq; reflexivity).
    replace (an_srcs (mk q)) with (sub q) by (unfold AdaptiveProofs.mk; cbn [an_srcs]; rewrite Nq; reflexivity).
    assert (DS : same_dim d (sub q)) by (apply sub_dim; exact Hdim).
    destruct (addr_eqb q L) eqn:Eq.
    - rewrite forcefield_sum_safe by assumption. cbn [bind]. unfold direct_force. rewrite vadd_map_seq. reflexivity.
    - apply addr_eqb_neq in Eq.
      assert (AW : forall s, In s (sub q) -> ps_pos s <> x) by (intros s Hs; apply (near_other_away q s Pq Nq Eq Hs)).
      rewrite forcefield_sum_eval; try assumption.
      + cbn [bind]. unfold direct_force. rewrite vadd_map_seq, filter_all_away by exact AW. reflexivity.
      + intros s Hs. split; [intros; apply AW; exact Hs|]. apply Rgt_not_eq. apply force_den_pos; [|exact Heps].
        apply dist_pos; [rewrite (DS s Hs); congruence|apply AW; exact Hs]. }
  cbn [bind].
  exists (fun k => field_sign grav * (lval (ifrc k) e x + w k + rsum (fun a => rsum (fun s => force_on d true eps s x k) (filter not_at (sub a))) (nl_near ls L)))%R.
  split.
  { f_equal. destruct grav; unfold field_sign.
    - apply map_ext. intros; ring.
    - unfold vneg, vscale. rewrite map_map. apply map_ext. intros. rewrite nneg1_R. cbn [nmul NumR]. ring. }
  intros k Hk. specialize (Ve (ifrc k) x Hx HxL). specialize (Bw k Hk). 
  rewrite <- rsum_flat_map, <- filter_flat.
  rewrite <- rsum_flat_map in Bw.
  assert (EB : rsum (fun q => E (ifrc k) (l / 2 ^ h) * abs_charge (sub q))%R (nl_W ls L) = (E (ifrc k) (l / 2 ^ h) * abs_charge (flat_map sub (nl_W ls L)))%R).
  { rewrite rsum_scal. unfold abs_charge at 2. rewrite rsum_flat_map. reflexivity. }
  rewrite EB in Bw.
  assert (B1 : (Rabs (lval (ifrc k) e x - rsum (fun s => dir (ifrc k) s x) (far L)) <= E (ifrc k) (l / 2 ^ h) * abs_charge (far L))%R).
  { eapply Rle_trans; [exact Ve|]. apply Rmult_le_compat_r; [apply abs_charge_nonneg|]. apply E_min. exact PL. }
  assert (AB := abs_far). rewrite abs_charge_app in AB.
  assert (AE : (E (ifrc k) (l / 2 ^ h) * (abs_charge (flat_map sub (nl_W ls L)) + abs_charge (far L)) <= E (ifrc k) (l / 2 ^ h) * abs_charge srcs)%R).
  { apply Rmult_le_compat_l; [apply HE; exact LP|exact AB]. }
  assert (SG : forall e S, rsum (fun s => force_on d grav e s x k) S = (field_sign grav * rsum (fun s => force_on d true e s x k) S)%R).
  { intros e0 S. rewrite <- rsum_scal. apply rsum_ext. intros s _. unfold force_on, field_sign. ring. }
  rewrite !SG. rewrite rsum_app.
  assert (DD : forall S, rsum (fun s => dir (ifrc k) s x) S = rsum (fun s => force_on d true 0 s x k) S).
  { intros S. apply rsum_ext. intros s _. apply Hdir. }
  rewrite DD in Bw, B1.
  set (N := rsum (fun s => force_on d true eps s x k) (filter not_at (near_srcs L))).
  set (FW := rsum (fun s => force_on d true 0 s x k) (flat_map sub (nl_W ls L))) in *.
  set (FF := rsum (fun s => force_on d true 0 s x k) (far L)) in *.
  eapply Rle_trans; [|exact AE]. rewrite Rmult_plus_distr_l.
  assert (TR := Rabs_triang (w k - FW) (lval (ifrc k) e x - FF)).
  destruct grav; unfold field_sign.
  - replace (_ - _)%R with ((w k - FW) + (lval (ifrc k) e x - FF))%R by ring. lra.
  - replace (_ - _)%R with (- ((w k - FW) + (lval (ifrc k) e x - FF)))%R by ring. rewrite Rabs_Ropp. lra.
Qed.

(** Where the expansions give no force, neither does the tree. *)
Lemma ofold_bad {A S} (f : S -> A -> outcome S) xs : (exists a, In a xs /\ forall z, f z a = NonFinite) ->
  (forall a, In a xs -> (forall z, exists w, f z a = Ok w) \/ (forall z, f z a = NonFinite)) -> forall z, ofold f xs z = NonFinite.
Proof.
  induction xs as [|a xs IH]; intros (b & Hb & Fb) H z; [destruct Hb|]. cbn [ofold]. destruct (H a (or_introl eq_refl)) as [G|G].
  - destruct (G z) as (w & Gw). rewrite Gw. cbn [bind]. apply IH; [|intros; apply H; right; assumption]. destruct Hb as [<-|Hb]; [|eauto].
    rewrite Fb in Gw. discriminate.
  - rewrite G. reflexivity.
Qed.
Theorem eval_force_bad grav eps :
  (forall c e y, wfLE c e -> length c = d -> length y = d -> ~ okx c y -> o_lforce o e y = NonFinite) ->
  (forall c S e y, MEof c S e -> length c = d -> length y = d -> ~ okx c y -> o_mforce o e y = NonFinite) ->
  (forall c y, okx c y \/ ~ okx c y) ->
  (exists q, (q = L \/ In q (nl_W ls L)) /\ ~ okx (ctr q) x) -> eval_force o d grav eps srcs (Fmm t ls m) x = NonFinite.
Proof.
  intros Hlbad Hmbad Hdec (q & Hq & Nq).
  unfold eval_force, vec. cbn [f_tree f_lists f_mem]. rewrite Hcl. cbn [bind]. change (an_addr (mk L)) with L.
  destruct HLE as (e & He & We & Ve). rewrite He. cbn [of_option bind].
  destruct (Hdec (ctr L) x) as [OL|OL]; [|rewrite (Hlbad _ _ _ We (len_box_ctr _ _ _ _ Hc) Hx OL); reflexivity].
  destruct Hq as [->|Hq]; [contradiction|]. rewrite (Hlfrc _ _ _ We Hx OL). cbn [bind].
  match goal with |- context [ofold ?f (nl_W ls L) ?z0] => rewrite (ofold_bad f (nl_W ls L)); [reflexivity| |] end.
  - exists q. split; [exact Hq|]. intros z. destruct (W_apart q Hq) as (Pq & Lq & A). destruct (HME q Pq Lq) as (g & S & Hg & PS & MS).
    rewrite Hg. cbn [of_option bind]. rewrite (Hmbad _ _ _ _ MS (len_box_ctr _ _ _ _ Hc) Hx Nq). reflexivity.
  - intros a Ha. destruct (W_apart a Ha) as (Pq & Lq & A). destruct (HME a Pq Lq) as (g & S & Hg & PS & MS).
    destruct (Hdec (ctr a) x) as [OA|OA].
    + left. intros z. destruct (Hmfrc (ctr a) (blen a) S g x MS) as (v & Hv & _); try assumption.
      * apply len_box_ctr. exact Hc.
      * intros s Hs. apply Hdim. eapply sub_incl. eapply Permutation_in; [exact PS|exact Hs].
      * apply blen_pos. exact Hl.
      * intros s Hs. apply (sub_in_box d c l srcs Hc Hbox). eapply Permutation_in; [exact PS|exact Hs].
      * rewrite Hg. cbn [of_option bind]. rewrite Hv. cbn [bind]. eexists. reflexivity.
    + right. intros z. rewrite Hg. cbn [of_option bind]. rewrite (Hmbad _ _ _ _ MS (len_box_ctr _ _ _ _ Hc) Hx OA). reflexivity.
Qed.
End Force.
End Eval.
