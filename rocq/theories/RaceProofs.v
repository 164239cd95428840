(** The loops of the passes have no data race. *)
From Coq Require Import List Bool Arith ZArith Lia Lra Reals Permutation.
From Verif Require Import Num Outcome Vec Orthtree AdaptiveTree GeometrySpec AdaptiveProofs BuildProofs ListProofs ListContents TreeTheorems
  Schedule Fields FmmPasses FieldSpec PassProofs PassSteps PassTree PassSpec PassAgree RaceSpec
  BalancedTree BalancedSpec BalancedIndex BalancedProofs BalancedFmm BalancedFmmProofs BalancedApiProofs.
Import ListNotations.

Section Races.
Context {ME LE Tb : Type}.
Variable o : ops ME LE Tb.
Variable d : nat.
Variable tb0 tb : Tb.
Variable okM : ME -> Prop.
Variable okL : LE -> Prop.
Hypothesis TA : tame o tb0 tb okM okL.
Notation Im := (PassAgree.Im tb okM okL).
Notation Il := (PassAgree.Il okM okL).
Notation mem := (@mem ME LE Tb).
Notation step := (@step ME LE Tb).
Notation node := (@anode R (psrc R)).

Definition good (Rd Wr : cell -> Prop) (s : step) : Prop := keeps Im Il s /\ writes_only Im Il Wr s /\ reads_only Im Il Rd Wr s.

Lemma cells_me (m : mem) t a e x : x <> Multipole a -> m_tb m = t -> same_cell (set_me (set_tb m t) a e) m x.
Proof.
  intros H E. destruct x as [q|q|]; cbn; try reflexivity; [|congruence]. destruct (addr_eqb q a) eqn:Q; [|reflexivity]. apply addr_eqb_eq in Q. congruence.
Qed.
Lemma cells_le (m : mem) a e x : x <> Local a -> same_cell (set_le m a e) m x.
Proof.
  intros H. destruct x as [q|q|]; cbn; try reflexivity. destruct (addr_eqb q a) eqn:Q; [|reflexivity]. apply addr_eqb_eq in Q. congruence.
Qed.
Lemma same_cell_trans (m m' m'' : mem) x : same_cell m m' x -> same_cell m' m'' x -> same_cell m m'' x.
Proof. destruct x; cbn; congruence. Qed.
Lemma same_tb (m m' : mem) : Im m -> Im m' -> m_tb m' = m_tb m.
Proof. intros [A _] [B _]. congruence. Qed.
Lemma cells_tb (m : mem) t x : m_tb m = t -> same_cell (set_tb m t) m x.
Proof. intros <-. destruct x; reflexivity. Qed.

(** [node.local_expansion += e] *)
Lemma add_same (m m2 : mem) a e : same_cell m m2 (Local a) ->
  omap (fun _ => tt) (add_le o m a e) = omap (fun _ => tt) (add_le o m2 a e) /\
  forall p p2, add_le o m a e = Ok p -> add_le o m2 a e = Ok p2 -> same_cell p p2 (Local a).
Proof.
  intros H. cbn in H. unfold add_le. rewrite <- H. destruct (of_option (m_le m a)) as [own| | | | |]; cbn [bind]; try (split; [reflexivity|discriminate]).
  destruct (o_add o own e) as [s| | | | |]; cbn [bind]; try (split; [reflexivity|discriminate]). split; [reflexivity|].
  intros p p2 X Y. injection X as <-. injection Y as <-. cbn. rewrite addr_eqb_refl. reflexivity.
Qed.
Lemma add_only (m m' : mem) a e x : add_le o m a e = Ok m' -> x <> Local a -> same_cell m' m x.
Proof. intros H N. apply add_le_inv in H. destruct H as (u & s & _ & _ & ->). apply cells_le. exact N. Qed.

Lemma good_read (Rd Wr : cell -> Prop) q : Rd (Multipole q) -> good Rd Wr (@st_read_me ME LE Tb q).
Proof.
  intros HR. split; [exact (inv_read tb okM okL q)|]. split.
  - intros m l m' l' _ _ H x _. unfold st_read_me in H. cbn [fst snd] in H. apply bind_ok in H. destruct H as [e [_ H]]. injection H as <- <-. destruct x; reflexivity.
  - intros m m2 l _ _ _ HS. assert (Q := HS (Multipole q) (or_introl HR)). cbn in Q. unfold st_read_me. cbn [fst snd]. rewrite <- Q.
    destruct (of_option (m_me m q)) as [e| | | | |]; cbn [bind]; try (split; [reflexivity|discriminate]). split; [reflexivity|].
    intros p p2 X Y. injection X as <-. injection Y as <-. intros x Hx. cbn [fst]. apply HS. right. exact Hx.
Qed.
Lemma good_p2m (Rd Wr : cell -> Prop) n : Rd Lookup_table -> (forall x, Wr x <-> x = Multipole (an_addr n)) -> good Rd Wr (st_p2m o n).
Proof.
  intros HT HW. split; [exact (inv_p2m o tb0 tb okM okL TA n)|]. split.
  - intros m l m' l' Hm Hl H x Hx. unfold st_p2m in H. cbn [fst snd] in H. apply bind_ok in H. destruct H as [[e t'] [He H]]. injection H as <- <-. cbn [fst snd].
    rewrite (proj1 Hm) in He. apply (ta_p2m _ _ _ _ _ TA) in He. destruct He as [_ ->]. apply cells_me; [rewrite <- HW; exact Hx|apply Hm].
  - intros m m2 l Hm Hm2 _ HS. unfold st_p2m. cbn [fst snd]. assert (Q := HS Lookup_table (or_introl HT)). cbn in Q. rewrite <- Q.
    destruct (o_p2m o (m_tb m) _ _) as [e| | | | |]; cbn [bind]; try (split; [reflexivity|discriminate]). split; [reflexivity|].
    intros p p2 X Y. injection X as <-. injection Y as <-. intros x Hx. apply HW in Hx. subst x. cbn. rewrite addr_eqb_refl. reflexivity.
Qed.
Lemma good_m2m (Rd Wr : cell -> Prop) n : Rd Lookup_table -> (forall x, Wr x <-> x = Multipole (an_addr n)) -> good Rd Wr (st_m2m o n).
Proof.
  intros HT HW. split; [exact (inv_m2m o tb0 tb okM okL TA n)|]. split.
  - intros m l m' l' Hm Hl H x Hx. unfold st_m2m in H. cbn [fst snd] in H. apply bind_ok in H. destruct H as [[e t'] [He H]]. injection H as <- <-. cbn [fst snd].
    rewrite (proj1 Hm) in He. apply (ta_m2m _ _ _ _ _ TA) in He; [|apply Hl]. destruct He as [_ ->]. apply cells_me; [rewrite <- HW; exact Hx|apply Hm].
  - intros m m2 l Hm Hm2 _ HS. unfold st_m2m. cbn [fst snd]. assert (Q := HS Lookup_table (or_introl HT)). cbn in Q. rewrite <- Q.
    destruct (o_m2m o (m_tb m) _ _) as [e| | | | |]; cbn [bind]; try (split; [reflexivity|discriminate]). split; [reflexivity|].
    intros p p2 X Y. injection X as <-. injection Y as <-. intros x Hx. apply HW in Hx. subst x. cbn. rewrite addr_eqb_refl. reflexivity.
Qed.
Lemma good_l2l (Rd Wr : cell -> Prop) n : Rd Lookup_table -> (forall i q, an_addr n = i :: q -> Rd (Local q)) -> ~ Wr Lookup_table -> good Rd Wr (st_l2l o n).
Proof.
  intros HT HR HW. split; [exact (inv_l2l o tb0 tb okM okL TA n)|]. split.
  - intros m l m' l' Hm Hl H x _. unfold st_l2l in H. destruct (an_addr n) as [|i q]; [discriminate|]. cbn [fst snd] in H. apply bind_ok in H. destruct H as [pe [Hp H]].
    destruct (o_size o pe =? 0); [discriminate|]. apply bind_ok in H. destruct H as [[e t'] [He H]]. injection H as <- <-. cbn [fst snd].
    apply of_option_ok in Hp. rewrite (proj1 Hm) in He. apply (ta_l2l _ _ _ _ _ TA) in He; [|eapply (proj2 (proj2 Hm)); exact Hp]. destruct He as [_ ->].
    apply cells_tb. apply Hm.
  - intros m m2 l Hm Hm2 _ HS. unfold st_l2l. destruct (an_addr n) as [|i q]; [split; [reflexivity|discriminate]|]. cbn [fst snd].
    assert (Q := HS (Local q) (or_introl (HR i q eq_refl))). cbn in Q. rewrite <- Q. rewrite (same_tb m m2 Hm Hm2).
    destruct (of_option (m_le m q)) as [pe| | | | |]; cbn [bind]; try (split; [reflexivity|discriminate]).
    destruct (o_size o pe =? 0); [split; [reflexivity|discriminate]|].
    destruct (o_l2l o (m_tb m) _ _) as [e| | | | |]; cbn [bind]; try (split; [reflexivity|discriminate]). split; [reflexivity|].
    intros p p2 X Y. injection X as <-. injection Y as <-. intros x Hx. cbn [fst]. assert (Z := HS x (or_intror Hx)). destruct x; cbn in *; try exact Z. contradiction.
Qed.
Lemma omap_locals {A B C} (r r' : outcome A) (f f' : A -> B) (c : C) (l : C) : omap (fun _ => tt) r = omap (fun _ => tt) r' ->
  omap snd (do m <- r ;; Ok (f m, l))%outcome = omap snd (do m <- r' ;; Ok (f' m, l))%outcome.
Proof. destruct r, r'; cbn; congruence. Qed.
Lemma good_add (Rd Wr : cell -> Prop) n : (forall x, Wr x <-> x = Local (an_addr n)) -> good Rd Wr (st_add o n).
Proof.
  intros HW. split; [exact (inv_add o tb0 tb okM okL TA n)|]. split.
  - intros m l m' l' Hm Hl H x Hx. unfold st_add in H. cbn [fst snd] in H. apply bind_ok in H. destruct H as [e [He H]]. apply bind_ok in H. destruct H as [m1 [Ha H]].
    injection H as <- <-. eapply add_only; [exact Ha|]. rewrite <- HW. exact Hx.
  - intros m m2 l Hm Hm2 _ HS. unfold st_add. cbn [fst snd]. destruct (of_option (lc_le l)) as [e| | | | |]; cbn [bind]; try (split; [reflexivity|discriminate]).
    destruct (add_same m m2 (an_addr n) e) as [A B]. { apply HS. right. apply HW. reflexivity. }
    destruct (add_le o m (an_addr n) e) as [u| | | | |], (add_le o m2 (an_addr n) e) as [u2| | | | |]; try discriminate A; cbn [bind]; try (split; [exact A||reflexivity|discriminate]).
    split; [reflexivity|]. intros p p2 X Y. injection X as <-. injection Y as <-. intros x Hx. apply HW in Hx. subst x. cbn [fst]. apply B; reflexivity.
Qed.
Lemma good_m2l (Rd Wr : cell -> Prop) n : Rd Lookup_table -> (forall x, Wr x <-> x = Local (an_addr n)) -> good Rd Wr (st_m2l o n).
Proof.
  intros HT HW. split; [exact (inv_m2l o tb0 tb okM okL TA n)|]. split.
  - intros m l m' l' Hm Hl H x Hx. unfold st_m2l in H. cbn [fst snd] in H. destruct (lc_mes l) as [|e0 es] eqn:Ee; [injection H as <- <-; destruct x; reflexivity|].
    apply bind_ok in H. destruct H as [[e t'] [He H]]. cbn [fst snd] in H. apply bind_ok in H. destruct H as [m1 [Ha H]]. injection H as <- <-.
    rewrite (proj1 Hm) in He. apply (ta_m2l _ _ _ _ _ TA) in He; [|rewrite <- Ee; apply Hl]. destruct He as [_ ->].
    eapply same_cell_trans; [eapply add_only; [exact Ha|rewrite <- HW; exact Hx]|apply cells_tb; apply Hm].
  - intros m m2 l Hm Hm2 _ HS. unfold st_m2l. cbn [fst snd]. destruct (lc_mes l) as [|e0 es] eqn:Ee.
    { split; [reflexivity|]. intros p p2 X Y. injection X as <-. injection Y as <-. intros x Hx. cbn [fst]. apply HS. right. exact Hx. }
    rewrite (same_tb m m2 Hm Hm2). destruct (o_m2l o (m_tb m) _ _) as [e| | | | |]; cbn [bind]; try (split; [reflexivity|discriminate]).
    destruct (add_same (set_tb m (snd e)) (set_tb m2 (snd e)) (an_addr n) (fst e)) as [A B].
    { assert (Z := HS (Local (an_addr n)) (or_intror (proj2 (HW _) eq_refl))). exact Z. }
    destruct (add_le o (set_tb m _) (an_addr n) _) as [u| | | | |], (add_le o (set_tb m2 _) (an_addr n) _) as [u2| | | | |]; try discriminate A; cbn [bind]; try (split; [exact A||reflexivity|discriminate]).
    split; [reflexivity|]. intros p p2 X Y. injection X as <-. injection Y as <-. intros x Hx. apply HW in Hx. subst x. cbn [fst]. apply B; reflexivity.
Qed.
Lemma good_p2l (Rd Wr : cell -> Prop) t n q : Rd Lookup_table -> (forall x, Wr x <-> x = Local (an_addr n)) -> good Rd Wr (st_p2l o t n q).
Proof.
  intros HT HW. split; [exact (inv_p2l o tb0 tb okM okL TA t n q)|]. split.
  - intros m l m' l' Hm Hl H x Hx. unfold st_p2l in H. cbn [fst snd] in H. apply bind_ok in H. destruct H as [lf [_ H]]. destruct (an_leaf lf); [|discriminate].
    apply bind_ok in H. destruct H as [[e t'] [He H]]. cbn [fst snd] in H. apply bind_ok in H. destruct H as [m1 [Ha H]]. injection H as <- <-.
    rewrite (proj1 Hm) in He. apply (ta_p2l _ _ _ _ _ TA) in He. destruct He as [_ ->].
    eapply same_cell_trans; [eapply add_only; [exact Ha|rewrite <- HW; exact Hx]|apply cells_tb; apply Hm].
  - intros m m2 l Hm Hm2 _ HS. unfold st_p2l. cbn [fst snd]. destruct (of_option (lookup t q)) as [lf| | | | |]; cbn [bind]; try (split; [reflexivity|discriminate]).
    destruct (an_leaf lf); [|split; [reflexivity|discriminate]].
    rewrite (same_tb m m2 Hm Hm2). destruct (o_p2l o (m_tb m) _ _) as [e| | | | |]; cbn [bind]; try (split; [reflexivity|discriminate]).
    destruct (add_same (set_tb m (snd e)) (set_tb m2 (snd e)) (an_addr n) (fst e)) as [A B].
    { assert (Z := HS (Local (an_addr n)) (or_intror (proj2 (HW _) eq_refl))). exact Z. }
    destruct (add_le o (set_tb m _) (an_addr n) _) as [u| | | | |], (add_le o (set_tb m2 _) (an_addr n) _) as [u2| | | | |]; try discriminate A; cbn [bind]; try (split; [exact A||reflexivity|discriminate]).
    split; [reflexivity|]. intros p p2 X Y. injection X as <-. injection Y as <-. intros x Hx. apply HW in Hx. subst x. cbn [fst]. apply B; reflexivity.
Qed.

(** Loops over nodes with pairwise different addresses. *)
Lemma region_race_free (ns : list node) (it : node -> list step) (Rd Wr : node -> cell -> Prop) :
  (forall i j a b x, nth_error ns i = Some a -> nth_error ns j = Some b -> i <> j -> Wr a x -> ~ Rd b x /\ ~ Wr b x) ->
  (forall n s, In n ns -> In s (it n) -> good (Rd n) (Wr n) s) -> race_free Im Il (map it ns).
Proof.
  intros HX HG.
  exists (fun i x => match nth_error ns i with Some n => Rd n x | None => False end), (fun i x => match nth_error ns i with Some n => Wr n x | None => False end).
  rewrite map_length. split.
  - intros i j x Hi Hj N. destruct (nth_error ns i) as [a|] eqn:Ea; [|intros []]. destruct (nth_error ns j) as [b|] eqn:Eb; [|intros _; split; intros []].
    apply (HX i j); assumption.
  - intros i s Hi Hs. destruct (nth_error ns i) as [n|] eqn:E; [|apply nth_error_None in E; lia].
    assert (E2 : nth i (map it ns) [] = it n). { apply nth_error_nth. rewrite nth_error_map, E. reflexivity. }
    rewrite E2 in Hs. apply HG; [eapply nth_error_In; exact E|exact Hs].
Qed.
Lemma addr_distinct (ns : list node) i j a b : NoDup (map an_addr ns) -> nth_error ns i = Some a -> nth_error ns j = Some b -> i <> j -> an_addr a <> an_addr b.
Proof.
  intros ND Ha Hb N E. apply N. rewrite NoDup_nth_error in ND. apply ND.
  - rewrite map_length. apply nth_error_Some. congruence.
  - rewrite !nth_error_map, Ha, Hb. cbn. congruence.
Qed.
Lemma p2m_race_free ns : NoDup (map an_addr ns) -> race_free Im Il (map (it_p2m o) ns).
Proof.
  intros ND. apply (region_race_free ns (it_p2m o) (fun _ x => x = Lookup_table) (fun n x => x = Multipole (an_addr n))).
  - intros i j a b x Ha Hb N ->. assert (D := addr_distinct ns i j a b ND Ha Hb N). split; congruence.
  - intros n s _ [<-|[]]. apply good_p2m; [reflexivity|intros; reflexivity].
Qed.
Lemma m2m_race_free ns (kids : node -> list addr) k : NoDup (map an_addr ns) -> (forall n, In n ns -> length (an_addr n) = k) ->
  (forall n q, In n ns -> In q (kids n) -> length q = S k) ->
  race_free Im Il (map (fun n => map st_read_me (kids n) ++ [st_m2m o n]) ns).
Proof.
  intros ND HL HK. apply (region_race_free ns _ (fun n x => x = Lookup_table \/ exists q, In q (kids n) /\ x = Multipole q) (fun n x => x = Multipole (an_addr n))).
  - intros i j a b x Ha Hb N ->. assert (D := addr_distinct ns i j a b ND Ha Hb N). split; [|congruence].
    intros [X|(q & Hq & X)]; [discriminate|]. injection X as X. apply nth_error_In in Ha, Hb. apply HK in Hq; [|exact Hb]. apply HL in Ha. rewrite <- X in Hq. lia.
  - intros n s Hn Hs. apply in_app_iff in Hs. destruct Hs as [Hs|[<-|[]]].
    + apply in_map_iff in Hs. destruct Hs as (q & <- & Hq). apply good_read. right. eauto.
    + apply good_m2m; [left; reflexivity|intros; reflexivity].
Qed.
Lemma local_race_free ns t ls k : (1 <= k)%nat -> NoDup (map an_addr ns) -> (forall n, In n ns -> length (an_addr n) = k) ->
  race_free Im Il (map (it_local o t ls) ns).
Proof.
  intros Hk ND HL. apply (region_race_free ns _ (fun n x => x = Lookup_table \/ (exists i q, an_addr n = i :: q /\ x = Local q) \/
     exists q, In q (nl_inter ls (an_addr n)) /\ x = Multipole q) (fun n x => x = Local (an_addr n))).
  - intros i j a b x Ha Hb N ->. assert (D := addr_distinct ns i j a b ND Ha Hb N). split; [|congruence].
    intros [X|[(u & q & E & X)|(q & _ & X)]]; try discriminate. injection X as X. apply nth_error_In in Ha, Hb. apply HL in Ha, Hb. rewrite E in Hb. cbn in Hb. rewrite <- X in Hb. lia.
  - intros n s Hn Hs. unfold it_local in Hs. cbn [app] in Hs. destruct Hs as [<-|[<-|Hs]].
    + apply good_l2l; [left; reflexivity| |discriminate]. intros i q E. right. left. eauto.
    + apply good_add. intros; reflexivity.
    + apply in_app_iff in Hs. destruct Hs as [Hs|[<-|Hs]].
      * apply in_map_iff in Hs. destruct Hs as (q & <- & Hq). apply good_read. right. right. eauto.
      * apply good_m2l; [left; reflexivity|intros; reflexivity].
      * apply in_map_iff in Hs. destruct Hs as (q & <- & Hq). apply good_p2l; [left; reflexivity|intros; reflexivity].
Qed.

Notation pos := (@ps_pos R).
Section Spec.
Variable c : list R.
Variable l : R.
Variable cap : nat.
Variable srcs : list (psrc R).
Variable r : rule.
Variable h : nat.
Hypothesis Hh : height_ok d pos c l cap srcs r h.
Hypothesis H1 : (1 <= h)%nat.
Notation t := (spec_tree d pos c l cap srcs r h).
Theorem regions_race_free ls rg : In rg (regions o d t ls) -> race_free Im Il rg.
Proof.
  assert (NL : forall k, (k <= h)%nat -> nth k (at_leaves t) [] = leaf_level d pos c l cap srcs r k).
  { intros k Hk. unfold spec_tree; cbn [at_leaves].
    rewrite (nth_indep _ [] (leaf_level d pos c l cap srcs r 0)) by (rewrite map_length, seq_length; lia).
    rewrite map_nth, seq_nth by lia. reflexivity. }
  assert (NI : forall k, (k < h)%nat -> nth k (at_nodes t) [] = inner_level d pos c l cap srcs r k).
  { intros k Hk. unfold spec_tree; cbn [at_nodes].
    rewrite (nth_indep _ [] (inner_level d pos c l cap srcs r 0)) by (rewrite map_length, seq_length; lia).
    rewrite map_nth, seq_nth by lia. reflexivity. }
  assert (HH : at_height t = h) by reflexivity.
  unfold regions. rewrite HH. intros Hr. repeat (apply in_app_or in Hr; destruct Hr as [Hr|Hr]).
  - apply in_map_iff in Hr. destruct Hr as (lv & <- & Hlv). unfold spec_tree in Hlv; cbn [at_leaves] in Hlv. apply in_map_iff in Hlv. destruct Hlv as (k & <- & _).
    apply p2m_race_free, leaf_level_NoDup.
  - apply in_map_iff in Hr. destruct Hr as (k & <- & Hk). apply in_rev, in_seq in Hk. rewrite NI by lia.
    apply (m2m_race_free _ (fun n => children d t (an_addr n)) k); [apply inner_level_NoDup| |].
    + intros n Hn. apply inner_level_in in Hn. destruct Hn as (p & -> & _ & X & _). exact X.
    + intros n q Hn Hq. apply inner_level_in in Hn. destruct Hn as (p & -> & P & Hp & Rp).
      change (an_addr (mk d pos c l cap srcs r p)) with p in Hq.
      rewrite (children_eq d pos c l cap srcs r h Hh p P), Rp in Hq. apply kids_inv in Hq. destruct Hq as (i & _ & ->). cbn. lia.
  - apply in_map_iff in Hr. destruct Hr as (k & <- & Hk). apply in_seq in Hk. rewrite NI, NL by lia.
    apply (local_race_free _ t ls k); [lia| |].
    + rewrite map_app. unfold inner_level, leaf_level. rewrite !map_addr_mk. apply NoDup_app_intro.
      * apply NoDup_filter, level_NoDup.
      * apply NoDup_filter, level_NoDup.
      * intros x X1 X2. apply filter_In in X1. apply filter_In in X2. destruct X1 as [_ X1]. destruct X2 as [_ X2].
        rewrite X1 in X2. discriminate.
    + intros n Hn. apply in_app_iff in Hn. rewrite inner_level_in, leaf_level_in in Hn. destruct Hn as [(p & -> & _ & X & _)|(p & -> & _ & X & _)]; exact X.
  - destruct Hr as [<-|[]]. rewrite NL by lia. apply (local_race_free _ t ls h); [lia|apply leaf_level_NoDup|].
    intros n Hn. rewrite leaf_level_in in Hn. destruct Hn as (p & -> & _ & X & _). exact X.
Qed.
Lemma mem0_shared : Im (mem0 o t tb0).
Proof.
  split; [exact (ta_tb _ _ _ _ _ TA)|]. split; intros a e; cbn [mem0 m_me m_le]; destruct (lookup t a); try discriminate; intros X; injection X as <-.
  - exact (ta_default _ _ _ _ _ TA).
  - apply (ta_zero _ _ _ _ _ TA).
Qed.
End Spec.

Theorem adaptive_race_free cap fuel srcs t ls : (1 <= d)%nat -> same_dim d srcs -> build_adaptive d pos cap fuel srcs = Ok t ->
  (cap < length srcs)%nat -> no_data_race (mem0 o t tb0) (regions o d t ls).
Proof.
  intros Hd Hdim HB Hcap. destruct (adaptive_inv d pos cap fuel srcs t Hd Hdim HB) as (c & l & h & HR & Hc & _ & Hh & Et & Hl & _).
  assert (Hhh : (1 <= h)%nat).
  { destruct h as [|h']; [|lia]. destruct Hh as [X _]. cbn in X. unfold rr in X. destruct (Nat.leb_spec (length srcs) cap); [lia|discriminate X]. }
  exists Im, Il. rewrite Et. split; [apply mem0_shared|]. split; [apply Il_no_locals|]. apply regions_race_free; assumption.
Qed.
End Races.

Section Balanced.
Context {ME LE Tb : Type}.
Variable o : ops ME LE Tb.
Variable d : nat.
Variable tb0 tb : Tb.
Variable okM : ME -> Prop.
Variable okL : LE -> Prop.
Hypothesis TA : tame o tb0 tb okM okL.
Notation pos := (@ps_pos R).
Lemma in_omapM_regions {A} (f : A -> outcome (@region ME LE Tb)) (g : A -> @region ME LE Tb) ks rs : (forall k, In k ks -> f k = Ok (g k)) ->
  omapM f ks = Ok rs -> rs = map g ks.
Proof. intros H E. rewrite (omapM_ok f g ks H) in E. congruence. Qed.

Theorem balanced_race_free h srcs t ls : (1 <= d)%nat -> (1 <= h)%nat -> (h < 32)%nat -> (d * h <= 32)%nat -> same_dim d srcs ->
  bal_build d pos h srcs = Ok (t, ls) -> exists rgs, bal_regions o d t ls = Ok rgs /\ no_data_race (bmem0 o t tb0) rgs.
Proof.
  intros Hd H1 Hh Hdh Hdim HB.
  destruct (root_box d (map pos srcs)) as [[c l]|] eqn:HR; [|unfold bal_build in HB; rewrite HR in HB; discriminate].
  destruct (root_len d pos srcs Hd Hdim c l HR) as [Hc _].
  destruct (proj1 (bal_build_iff d pos srcs Hd Hdim h c l H1 Hh Hdh HR) (ex_intro _ _ HB)) as [Hl Hin].
  destruct (bal_in_box_ok d pos c l srcs h Hd Hc Hdim Hl Hh Hdh Hin H1) as (ch & Hch & HBX).
  assert (HB' : bal_build d pos h srcs = Ok (bal_spec d pos c l srcs h ch, final d pos c l 0 srcs (ByDepth h) h)).
  { unfold bal_build. rewrite HR. destruct h as [|h']; [lia|]. exact HBX. }
  rewrite HB in HB'. injection HB' as -> ->.
  destruct (bal_regions_ok o d c l srcs h Hd Hc Hh Hdh Hdim ch Hch H1) as (rgs & HG & _). exists rgs. split; [exact HG|].
  assert (Hk : height_ok d pos c l 0 srcs (ByDepth h) h) by (apply height_bal; assumption).
  exists (PassAgree.Im tb okM okL), (PassAgree.Il okM okL).
  rewrite bmem0_eq by assumption. split; [apply mem0_shared; assumption|]. split; [apply Il_no_locals|]. intros rg Hrg.
  assert (RF := regions_race_free o d tb0 tb okM okL TA c l 0 srcs (ByDepth h) h Hk H1 (final d pos c l 0 srcs (ByDepth h) h)).
  unfold bal_regions in HG. cbn [BalancedProofs.bal_spec bt_height bt_leaves] in HG.
  apply bind_ok in HG. destruct HG as (up & EU & HG). apply bind_ok in HG. destruct HG as (down & ED & HG). injection HG as <-.
  assert (LA : forall k, map (@an_addr R (psrc R)) (map (mk d pos c l 0 srcs (ByDepth h)) (level d pos c l 0 srcs (ByDepth h) k)) = level d pos c l 0 srcs (ByDepth h) k).
  { intros k. rewrite map_map. cbn. apply map_id. }
  assert (LL : forall k n, In n (map (mk d pos c l 0 srcs (ByDepth h)) (level d pos c l 0 srcs (ByDepth h) k)) -> length (an_addr n) = k).
  { intros k n Hn. apply in_map_iff in Hn. destruct Hn as (p & <- & Hp). apply in_level in Hp. apply Hp. }
  assert (LOC : forall k, (1 <= k)%nat -> race_free (PassAgree.Im tb okM okL) (PassAgree.Il okM okL)
    (map (bit_local o (final d pos c l 0 srcs (ByDepth h) h)) (map (mk d pos c l 0 srcs (ByDepth h)) (level d pos c l 0 srcs (ByDepth h) k)))).
  { intros k Hk1. rewrite map_map.
    rewrite (map_ext_in _ (fun p => it_local o (spec_tree d pos c l 0 srcs (ByDepth h) h) (final d pos c l 0 srcs (ByDepth h) h) (mk d pos c l 0 srcs (ByDepth h) p))).
    2:{ intros p Hp. eapply bit_local_eq; eassumption. }
    rewrite <- (map_map (mk d pos c l 0 srcs (ByDepth h))). eapply (local_race_free o tb0 tb okM okL TA); [exact Hk1| |apply LL]. rewrite LA. apply level_NoDup. }
  destruct Hrg as [<-|Hrg]; [|apply in_app_or in Hrg; destruct Hrg as [Hrg|Hrg]; [|apply in_app_or in Hrg; destruct Hrg as [Hrg|[<-|[]]]]].
  - eapply (p2m_race_free o tb0 tb okM okL TA). rewrite LA. apply level_NoDup.
  - eapply in_omapM_regions in EU.
    2:{ intros k Hk2. apply in_rev in Hk2. apply in_seq in Hk2. erewrite (bal_level_ok d c l srcs h Hd Hc) by first [eassumption|lia]. unfold omap; cbn [bind]. reflexivity. }
    rewrite EU in Hrg. apply in_map_iff in Hrg. destruct Hrg as (k & <- & Hk2). apply in_rev in Hk2. apply in_seq in Hk2.
    unfold bit_m2m. apply (m2m_race_free o tb0 tb okM okL TA _ (fun n => bt_children (bal_spec d pos c l srcs h ch) (an_addr n)) k); [rewrite LA; apply level_NoDup|apply LL|].
    intros n q Hn Hq. apply in_map_iff in Hn. destruct Hn as (p & <- & Hp). cbn [AdaptiveProofs.mk an_addr BalancedProofs.bal_spec bt_children] in Hq.
    apply in_level in Hp. destruct Hp as [Lp Pp]. rewrite Hch in Hq by exact Pp. unfold chs in Hq.
    destruct (refined d pos c l 0 srcs (ByDepth h) p); [|destruct Hq]. apply kids_inv in Hq. destruct Hq as (i & _ & ->). cbn. lia.
  - eapply in_omapM_regions in ED.
    2:{ intros k Hk2. apply in_seq in Hk2. erewrite (bal_level_ok d c l srcs h Hd Hc) by first [eassumption|lia]. unfold omap; cbn [bind]. reflexivity. }
    rewrite ED in Hrg. apply in_map_iff in Hrg. destruct Hrg as (k & <- & Hk2). apply in_seq in Hk2. apply LOC. lia.
  - apply LOC. exact H1.
Qed.
End Balanced.

(** Two iterations that change the same object are a race. *)
Definition grow_step : @step unit unit nat := fun ml => Ok (set_tb (fst ml) (S (m_tb (fst ml))), snd ml).
Lemma growing_races : ~ no_data_race (Mem (fun _ => None) (fun _ => None) 0%nat) [[[grow_step]; [grow_step]]].
Proof.
  intros (Sh & Pr & HS & HP & H). destruct (H _ (or_introl eq_refl)) as (Rd & Wr & HX & HG). cbn [length] in *.
  assert (W : forall i, (i < 2)%nat -> ~ ~ Wr i Lookup_table).
  { intros i Hi N. destruct (HG i grow_step Hi) as (_ & HW & _). { destruct i as [|[|i]]; [left; reflexivity|left; reflexivity|lia]. }
    assert (E := HW _ _ _ _ HS HP eq_refl Lookup_table N). cbn in E. discriminate. }
  apply (W 0%nat ltac:(lia)). intros W0. apply (W 1%nat ltac:(lia)). apply (HX 0%nat 1%nat Lookup_table); try lia. exact W0.
Qed.
