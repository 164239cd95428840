(** If one schedule of the passes succeeds, all schedules succeed with the same result: no hypothesis on the geometry. *)
From Coq Require Import List Bool Arith Lia Lra Reals Permutation.
From Verif Require Import Num Outcome Vec Orthtree AdaptiveTree AdaptiveProofs BuildProofs ListProofs ListContents TreeTheorems
  Schedule Fields FmmPasses FieldSpec PassProofs PassSteps PassTree PassSpec.
Import ListNotations.

Section Regions.
Context {ME LE Tb : Type}.
Notation mem := (@mem ME LE Tb).
Notation locals := (@locals ME LE).
Notation step := (@step ME LE Tb).
Variable tb : Tb.
(** An invariant of the memory and of the local variables, which keeps the table. *)
Variable Im : mem -> Prop.
Variable Il : locals -> Prop.
Hypothesis Im_tb : forall m, Im m -> m_tb m = tb.
Definition step_inv (s : step) : Prop := forall m l m' l', Im m -> Il l -> s (m, l) = Ok (m', l') -> Im m' /\ Il l'.

Section Par.
Variable n : nat.
Variable own : nat -> loc.
Variable Rd : nat -> loc -> Prop.
Hypothesis own_inj : forall i j, (i < n)%nat -> (j < n)%nat -> own i = own j -> i = j.
Hypothesis no_race : forall i j, (i < n)%nat -> (j < n)%nat -> i <> j -> ~ Rd i (own j).

Lemma par_converse tg run : interleaving tg run -> forall rem cur m L m' L',
  tg = tag n rem ->
  (forall i, (i < n)%nat -> Forall (step_ok (Rd i) (own i)) (rem i)) ->
  (forall i, (i < n)%nat -> Forall step_inv (rem i)) ->
  (forall i, (i < n)%nat -> m_tb (cur i) = tb) -> Im m ->
  (forall i, (i < n)%nat -> Il (L i)) ->
  (forall i x, (i < n)%nat -> x = own i \/ Rd i x -> same_at x (cur i) m) ->
  ofold exec_step run (m, L) = Ok (m', L') ->
  Im m' /\ forall i, (i < n)%nat -> exists f lf, alone tb (rem i) (cur i, L i) (f, lf).
Proof.
  induction 1 as [its E|before a it after run H IH]; intros rem cur m L m' L' ET Hst Hin Htc Hm HL Hsee Hex.
  - cbn [ofold] in Hex. injection Hex as <- <-. split; [exact Hm|]. intros i Hi. assert (R : rem i = []).
    { assert (I : In (map (pair i) (rem i)) its). { rewrite ET. unfold tag. apply in_map_iff. exists i. split; [reflexivity|]. apply in_seq. lia. }
      specialize (E _ I). destruct (rem i); [reflexivity|discriminate]. }
    rewrite R. exists (cur i), (L i). constructor.
  - destruct a as [i s]. symmetry in ET. destruct (tag_split _ _ _ _ _ _ _ ET) as [Ei [Hi [rest [Er [Eit Etag]]]]].
    assert (Hs : step_ok (Rd i) (own i) s) by (specialize (Hst i Hi); rewrite Er in Hst; inversion Hst; assumption).
    assert (Hv : step_inv s) by (specialize (Hin i Hi); rewrite Er in Hin; inversion Hin; assumption).
    cbn [ofold] in Hex. apply bind_ok in Hex. destruct Hex as [[m1 L1] [Hex1 Hex]]. unfold exec_step in Hex1. cbn [fst snd] in Hex1.
    apply bind_ok in Hex1. destruct Hex1 as [[m2 l2] [Es Eq]]. cbn [fst snd] in Eq. injection Eq as <- <-.
    destruct (Hv _ _ _ _ Hm (HL i Hi) Es) as [Hm2 Hl2].
    destruct (Hs _ _ _ _ Es) as [Hfr Hloc].
    destruct (Hloc (cur i)) as [c2 [Es2 [Et2 Ho2]]].
    { rewrite Htc, (Im_tb m Hm) by exact Hi. reflexivity. }
    { intros x Hx. apply same_at_sym. apply Hsee; tauto. }
    destruct (Hs _ _ _ _ Es2) as [Hfr2 _].
    destruct (IH (fun j => if j =? i then rest else rem j) (fun j => if j =? i then c2 else cur j) m2
      (fun j => if j =? i then l2 else L j) m' L') as [Hm' Hal].
    + exact Etag.
    + intros j Hj. destruct (Nat.eqb_spec j i) as [->|]; [|apply Hst; exact Hj].
      specialize (Hst i Hi). rewrite Er in Hst. inversion Hst; assumption.
    + intros j Hj. destruct (Nat.eqb_spec j i) as [->|]; [|apply Hin; exact Hj].
      specialize (Hin i Hi). rewrite Er in Hin. inversion Hin; assumption.
    + intros j Hj. destruct (Nat.eqb_spec j i) as [->|]; [rewrite Et2; apply Im_tb; exact Hm2|apply Htc; exact Hj].
    + exact Hm2.
    + intros j Hj. destruct (Nat.eqb_spec j i) as [->|]; [exact Hl2|apply HL; exact Hj].
    + intros j x Hj Hx. destruct (Nat.eqb_spec j i) as [->|NE].
      * destruct (loc_eq_dec x (own i)) as [->|NX]; [apply same_at_sym; exact Ho2|].
        eapply same_at_trans; [apply Hfr2; exact NX|]. eapply same_at_trans; [apply Hsee; eauto|]. apply same_at_sym, Hfr. exact NX.
      * eapply same_at_trans; [apply Hsee; eauto|]. apply same_at_sym, Hfr. intros ->. destruct Hx as [Hx|Hx].
        -- apply NE. apply own_inj; auto.
        -- apply (no_race j i Hj Hi NE Hx).
    + exact Hex.
    + split; [exact Hm'|]. intros j Hj. destruct (Hal j Hj) as (f & lf & A). destruct (Nat.eqb_spec j i) as [->|NE].
      * rewrite Er. exists f, lf. econstructor; [exact Es2|cbn [fst]; rewrite Et2; apply Im_tb; exact Hm2|exact A].
      * exists f, lf. exact A.
Qed.
End Par.

(** A region whose iterations have disjoint footprints and keep the invariant. *)
Definition tame_region (rg : @region ME LE Tb) : Prop :=
  exists (B : Type) (bs : list B) (it : B -> list step) (own : B -> loc) (Rd : B -> loc -> Prop),
    rg = map it bs /\ NoDup (map own bs) /\
    (forall a b, In a bs -> In b bs -> own a <> own b -> ~ Rd a (own b)) /\
    (forall b, In b bs -> Forall (step_ok (Rd b) (own b)) (it b)) /\
    (forall b, In b bs -> Forall step_inv (it b)).
Hypothesis Il_none : Il no_locals.

Theorem region_agree rg m m1 : tame_region rg -> Im m -> region_result rg m (Ok m1) ->
  Im m1 /\ forall r, region_result rg m r -> r = Ok m1.
Proof.
  intros (B & bs & it & own & Rd & -> & ND & NR & Hst & Hin) Hm [run [Hi He]].
  unfold exec in He. destruct (ofold exec_step run (m, fun _ => no_locals)) as [[m' L']| | | | |] eqn:Ex; try discriminate. cbn in He. injection He as He. subst m1.
  destruct bs as [|b0 bs0] eqn:Ebs.
  { assert (NIL : forall run', interleaving (tagged (map it [])) run' -> run' = []).
    { intros run' H. inversion H as [its X|before a it0 after run0 H1]; [reflexivity|]. exfalso. destruct before; discriminate. }
    rewrite (NIL _ Hi) in Ex. cbn in Ex. injection Ex as <- <-. split; [exact Hm|]. intros r [run' [Hi' ->]]. rewrite (NIL _ Hi'). reflexivity. }
  rewrite <- Ebs in *. clear Ebs bs0.
  assert (IB : forall i, (i < length bs)%nat -> In (nth i bs b0) bs) by (intros; apply nth_In; assumption).
  assert (OI : forall i j, (i < length bs)%nat -> (j < length bs)%nat -> own (nth i bs b0) = own (nth j bs b0) -> i = j).
  { intros i j Hi' Hj' E. rewrite (NoDup_nth (map own bs) (own b0)) in ND. apply ND; rewrite ?map_length; auto. rewrite !map_nth. exact E. }
  destruct (par_converse (length bs) (fun i => own (nth i bs b0)) (fun i => Rd (nth i bs b0)) OI
     ltac:(intros i j Hi' Hj' NE; apply NR; auto; intros E; apply NE; apply OI; auto)
     _ _ Hi (fun i => it (nth i bs b0)) (fun _ => m) m (fun _ => no_locals) m' L') as [Hm' Hal]; auto.
  - unfold tagged, tag. rewrite map_length. apply map_ext_in. intros i Hi'. apply in_seq in Hi'.
    rewrite (nth_indep _ [] (it b0)) by (rewrite map_length; lia). rewrite map_nth. reflexivity.
  - intros; apply same_at_refl.
  - split; [exact Hm'|].
    destruct (region_deterministic tb bs it own Rd (fun _ _ => True) m ND NR Hst) as (m2 & U & _).
    + intros b Hb. destruct (In_nth bs b b0 Hb) as [i [Hi' <-]]. destruct (Hal i Hi') as (f & lf & A). exists f, lf. split; [exact A|exact I].
    + apply Im_tb. exact Hm.
    + assert (E : Ok m' = Ok m2). { apply U. exists run. split; [exact Hi|]. unfold exec. rewrite Ex. reflexivity. }
      intros r Hr. rewrite E. apply U. exact Hr.
Qed.

Theorem passes_agree rgs m m1 : Forall tame_region rgs -> Im m -> passes_result rgs m (Ok m1) ->
  Im m1 /\ forall r, passes_result rgs m r -> r = Ok m1.
Proof.
  intros HT Hm H. remember (Ok m1) as r1 eqn:E1. revert HT Hm. induction H as [m|rg rgs m m' r Hrg Hp IH|rg rgs m r Hrg Hne]; intros HT Hm.
  - injection E1 as <-. split; [exact Hm|]. intros r H. inversion H. reflexivity.
  - inversion HT as [|? ? T1 T2]; subst. destruct (region_agree _ _ _ T1 Hm Hrg) as [Hm' U]. destruct (IH eq_refl T2 Hm') as [Hm1 U2].
    split; [exact Hm1|]. intros r2 H2. inversion H2 as [|? ? ? mb ? Hb Hp2|? ? ? ? Hb Hne]; subst.
    + apply U in Hb. injection Hb as ->. apply U2. exact Hp2.
    + apply U in Hb. exfalso. eapply Hne. exact Hb.
  - exfalso. eapply Hne. exact E1.
Qed.
End Regions.

(** *** The passes of the tree *)
Section Tree.
Context {ME LE Tb : Type}.
Variable o : ops ME LE Tb.
Variable d : nat.
Variable tb0 tb : Tb.
Variable okM : ME -> Prop.
Variable okL : LE -> Prop.
(** Operations on admissible expansions give admissible expansions and keep the table [tb]. *)
Record tame : Prop := {
  ta_default : okM (o_default o);
  ta_zero : forall c, okL (fst (o_zero o tb0 c));
  ta_tb : snd (o_zero o tb0 []) = tb;
  ta_p2m : forall c S e tb', o_p2m o tb c S = Ok (e, tb') -> okM e /\ tb' = tb;
  ta_m2m : forall c es e tb', Forall okM es -> o_m2m o tb c es = Ok (e, tb') -> okM e /\ tb' = tb;
  ta_m2l : forall c es e tb', Forall okM es -> o_m2l o tb c es = Ok (e, tb') -> okL e /\ tb' = tb;
  ta_l2l : forall c a e tb', okL a -> o_l2l o tb c a = Ok (e, tb') -> okL e /\ tb' = tb;
  ta_p2l : forall c S e tb', o_p2l o tb c S = Ok (e, tb') -> okL e /\ tb' = tb;
  ta_add : forall a b e, okL a -> okL b -> o_add o a b = Ok e -> okL e
}.
Hypothesis TA : tame.
Definition Im (m : @mem ME LE Tb) : Prop :=
  m_tb m = tb /\ (forall a e, m_me m a = Some e -> okM e) /\ (forall a e, m_le m a = Some e -> okL e).
Definition Il (l : @locals ME LE) : Prop := Forall okM (lc_mes l) /\ forall e, lc_le l = Some e -> okL e.
Notation inv := (step_inv Im Il).

Lemma Il_no_locals : Il no_locals.
Proof. split; [constructor|]. intros e X. discriminate X. Qed.
Lemma Im_set_me m a e : Im m -> okM e -> Im (set_me (set_tb m tb) a e).
Proof.
  intros (A & B & D) H. split; [reflexivity|]. split; [|exact D]. intros q u. cbn. destruct (addr_eqb q a); [intros X; injection X as <-; exact H|apply B].
Qed.
Lemma Im_set_le m a e : Im m -> okL e -> Im (set_le m a e).
Proof.
  intros (A & B & D) H. split; [exact A|]. split; [exact B|]. intros q u. cbn. destruct (addr_eqb q a); [intros X; injection X as <-; exact H|apply D].
Qed.
Lemma Im_set_tb m : Im m -> Im (set_tb m tb).
Proof. intros (A & B & D). split; [reflexivity|]. split; assumption. Qed.
Lemma Im_add m a e m' : Im m -> okL e -> add_le o m a e = Ok m' -> Im m'.
Proof.
  intros Hm He H. apply add_le_inv in H. destruct H as (u & s & Hu & Hs & ->). apply Im_set_le; [exact Hm|].
  destruct Hm as (_ & _ & D). eapply ta_add; [exact TA|eapply D; exact Hu|exact He|exact Hs].
Qed.
Lemma inv_read q : inv (st_read_me q).
Proof.
  intros m l m' l' Hm [L1 L2] H. unfold st_read_me in H. cbn [fst snd] in H. apply bind_ok in H. destruct H as [e [He H]]. injection H as <- <-.
  apply of_option_ok in He. split; [exact Hm|]. split; [|exact L2]. cbn. apply Forall_app. split; [exact L1|]. constructor; [|constructor].
  destruct Hm as (_ & B & _). eapply B. exact He.
Qed.
Lemma inv_p2m n : inv (st_p2m o n).
Proof.
  intros m l m' l' Hm Hl H. unfold st_p2m in H. cbn [fst snd] in H. apply bind_ok in H. destruct H as [[e t'] [He H]]. injection H as <- <-. cbn [fst snd].
  rewrite (proj1 Hm) in He. apply (ta_p2m TA) in He. destruct He as [He ->]. split; [apply Im_set_me; assumption|exact Hl].
Qed.
Lemma inv_m2m n : inv (st_m2m o n).
Proof.
  intros m l m' l' Hm Hl H. unfold st_m2m in H. cbn [fst snd] in H. apply bind_ok in H. destruct H as [[e t'] [He H]]. injection H as <- <-. cbn [fst snd].
  rewrite (proj1 Hm) in He. apply (ta_m2m TA) in He; [|apply Hl]. destruct He as [He ->]. split; [apply Im_set_me; assumption|exact Hl].
Qed.
Lemma inv_l2l n : inv (st_l2l o n).
Proof.
  intros m l m' l' Hm Hl H. unfold st_l2l in H. destruct (an_addr n) as [|i q]; [discriminate|]. cbn [fst snd] in H. apply bind_ok in H. destruct H as [pe [Hp H]].
  destruct (o_size o pe =? 0); [discriminate|]. apply bind_ok in H. destruct H as [[e t'] [He H]]. injection H as <- <-. cbn [fst snd].
  apply of_option_ok in Hp. rewrite (proj1 Hm) in He. apply (ta_l2l TA) in He; [|eapply (proj2 (proj2 Hm)); exact Hp]. destruct He as [He ->].
  split; [apply Im_set_tb; exact Hm|]. split; [apply Hl|]. cbn. intros u X. injection X as <-. exact He.
Qed.
Lemma inv_add n : inv (st_add o n).
Proof.
  intros m l m' l' Hm Hl H. unfold st_add in H. cbn [fst snd] in H. apply bind_ok in H. destruct H as [e [He H]]. apply bind_ok in H. destruct H as [m1 [Ha H]].
  injection H as <- <-. apply of_option_ok in He. split; [|exact Hl]. eapply Im_add; [exact Hm|apply (proj2 Hl); exact He|exact Ha].
Qed.
Lemma inv_m2l n : inv (st_m2l o n).
Proof.
  intros m l m' l' Hm Hl H. unfold st_m2l in H. cbn [fst snd] in H. destruct (lc_mes l) as [|e0 es] eqn:Ee; [injection H as <- <-; split; assumption|].
  apply bind_ok in H. destruct H as [[e t'] [He H]]. cbn [fst snd] in H. apply bind_ok in H. destruct H as [m1 [Ha H]]. injection H as <- <-.
  rewrite (proj1 Hm) in He. apply (ta_m2l TA) in He; [|rewrite <- Ee; apply Hl]. destruct He as [He ->]. split; [|exact Hl].
  eapply Im_add; [apply Im_set_tb; exact Hm|exact He|exact Ha].
Qed.
Lemma inv_p2l t n q : inv (st_p2l o t n q).
Proof.
  intros m l m' l' Hm Hl H. unfold st_p2l in H. cbn [fst snd] in H. apply bind_ok in H. destruct H as [lf [_ H]]. destruct (an_leaf lf); [|discriminate].
  apply bind_ok in H. destruct H as [[e t'] [He H]]. cbn [fst snd] in H. apply bind_ok in H. destruct H as [m1 [Ha H]]. injection H as <- <-.
  rewrite (proj1 Hm) in He. apply (ta_p2l TA) in He. destruct He as [He ->]. split; [|exact Hl].
  eapply Im_add; [apply Im_set_tb; exact Hm|exact He|exact Ha].
Qed.
Lemma inv_it_p2m n : Forall inv (it_p2m o n).
Proof. constructor; [apply inv_p2m|constructor]. Qed.
Lemma inv_map_read qs : Forall inv (map (@st_read_me ME LE Tb) qs).
Proof. apply Forall_forall. intros s Hs. apply in_map_iff in Hs. destruct Hs as [q [<- _]]. apply inv_read. Qed.
Lemma inv_it_m2m t n : Forall inv (it_m2m o d t n).
Proof. unfold it_m2m. apply Forall_app. split; [apply inv_map_read|]. constructor; [apply inv_m2m|constructor]. Qed.
Lemma inv_it_local t ls n : Forall inv (it_local o t ls n).
Proof.
  unfold it_local. constructor; [apply inv_l2l|]. constructor; [apply inv_add|]. apply Forall_app. split; [apply inv_map_read|].
  constructor; [apply inv_m2l|]. apply Forall_forall. intros s Hs. apply in_map_iff in Hs. destruct Hs as [q [<- _]]. apply inv_p2l.
Qed.

Notation pos := (@ps_pos R).
Section Spec.
Variable c : list R.
Variable l : R.
Variable cap : nat.
Variable srcs : list (psrc R).
Variable r : bool.
Variable h : nat.
Hypothesis Hh : height_ok d pos c l cap srcs r h.
Hypothesis H1 : (1 <= h)%nat.
Notation t := (spec_tree d pos c l cap srcs r h).
Lemma local_tame ls ns k : (1 <= k)%nat -> NoDup (map an_addr ns) -> (forall n, In n ns -> length (an_addr n) = k) ->
  tame_region Im Il (map (it_local o t ls) ns).
Proof.
  intros Hk ND Hns. exists _, ns, (it_local o t ls), (fun n => LLe (an_addr n)),
     (fun n x => match x with LMe _ => True | LLe q => exists i, an_addr n = i :: q end).
  split; [reflexivity|]. split; [apply NoDup_own_le; exact ND|]. split; [|split].
  - intros a b Ha Hb _ (i & Hq). apply Hns in Ha, Hb. rewrite Hq in Ha. simpl in Ha. lia.
  - intros n Hn. apply Hns in Hn. destruct (an_addr n) as [|i p] eqn:Ea; [simpl in Hn; lia|]. rewrite <- Ea.
    eapply it_local_ok; [exact Ea| |intros; exact Logic.I]. exists i. exact Ea.
  - intros n _. apply inv_it_local.
Qed.
Theorem regions_tame ls : Forall (tame_region Im Il) (regions o d t ls).
Proof.
  assert (NL : forall k, (k <= h)%nat -> nth k (at_leaves t) [] = leaf_level d pos c l cap srcs r k).
  { intros k Hk. unfold spec_tree; cbn [at_leaves].
    rewrite (nth_indep _ [] (leaf_level d pos c l cap srcs r 0)) by (rewrite map_length, seq_length; lia).
    rewrite map_nth, seq_nth by lia. reflexivity. }
  assert (NI : forall k, (k < h)%nat -> nth k (at_nodes t) [] = inner_level d pos c l cap srcs r k).
  { intros k Hk. unfold spec_tree; cbn [at_nodes].
    rewrite (nth_indep _ [] (inner_level d pos c l cap srcs r 0)) by (rewrite map_length, seq_length; lia).
    rewrite map_nth, seq_nth by lia. reflexivity. }
  assert (HH : at_height t = h) by reflexivity.
  unfold regions. rewrite HH. apply Forall_app. split; [|apply Forall_app; split; [|apply Forall_app; split]].
  - apply Forall_forall. intros rg Hr. apply in_map_iff in Hr. destruct Hr as (lv & <- & Hlv).
    unfold spec_tree in Hlv; cbn [at_leaves] in Hlv. apply in_map_iff in Hlv. destruct Hlv as (k & <- & _).
    eexists _, _, (it_p2m o), (fun n => LMe (an_addr n)), (fun _ _ => False). split; [reflexivity|]. split; [apply NoDup_own_me, leaf_level_NoDup|].
    split; [tauto|]. split; [intros n _; apply it_p2m_ok|intros n _; apply inv_it_p2m].
  - apply Forall_forall. intros rg Hr. apply in_map_iff in Hr. destruct Hr as (k & <- & Hk). apply in_rev, in_seq in Hk. rewrite NI by lia.
    eexists _, _, (it_m2m o d t), (fun n => LMe (an_addr n)), (fun n x => exists q, In q (children d t (an_addr n)) /\ x = LMe q).
    split; [reflexivity|]. split; [apply NoDup_own_me, inner_level_NoDup|]. split; [|split; [|intros n _; apply inv_it_m2m]].
    + intros a b Ha Hb _ (q & Hq & Eq). apply inner_level_in in Ha. destruct Ha as (p & -> & P & Hp & Rp).
      apply inner_level_in in Hb. destruct Hb as (p' & -> & P' & Hp' & Rp').
      change (an_addr (mk d pos c l cap srcs r p)) with p in Hq. change (an_addr (mk d pos c l cap srcs r p')) with p' in Eq.
      rewrite (children_eq d pos c l cap srcs r h Hh p P), Rp in Hq. apply kids_inv in Hq. destruct Hq as (i & _ & ->).
      injection Eq as ->. simpl in Hp'. lia.
    + intros n Hn. apply it_m2m_ok. intros q Hq. exists q. auto.
  - apply Forall_forall. intros rg Hr. apply in_map_iff in Hr. destruct Hr as (k & <- & Hk). apply in_seq in Hk. rewrite NI, NL by lia.
    apply (local_tame ls _ k); [lia| |].
    + rewrite map_app. unfold inner_level, leaf_level. rewrite !map_addr_mk. apply NoDup_app_intro.
      * apply NoDup_filter, level_NoDup.
      * apply NoDup_filter, level_NoDup.
      * intros x X1 X2. apply filter_In in X1. apply filter_In in X2. destruct X1 as [_ X1]. destruct X2 as [_ X2].
        rewrite X1 in X2. discriminate.
    + intros n Hn. apply in_app_iff in Hn. rewrite inner_level_in, leaf_level_in in Hn. destruct Hn as [(p & -> & _ & X & _)|(p & -> & _ & X & _)]; exact X.
  - constructor; [|constructor]. rewrite NL by lia. apply (local_tame ls _ h); [lia|apply leaf_level_NoDup|].
    intros n Hn. rewrite leaf_level_in in Hn. destruct Hn as (p & -> & _ & X & _). exact X.
Qed.
Lemma mem0_Im : Im (mem0 o t tb0).
Proof.
  split; [exact (ta_tb TA)|]. split; intros a e; cbn [mem0 m_me m_le]; destruct (lookup t a); try discriminate; intros X; injection X as <-.
  - exact (ta_default TA).
  - apply (ta_zero TA).
Qed.
End Spec.

(** For any source set: if one schedule of the constructor returns an object, every schedule returns that object, and the shared
    table is the one left by the creation of the nodes. *)
Theorem make_fmm_agree cap fuel srcs f : (1 <= d)%nat -> same_dim d srcs -> make_fmm o d cap fuel srcs tb0 (Ok f) ->
  (forall r, make_fmm o d cap fuel srcs tb0 r <-> r = Ok f) /\ m_tb (f_mem f) = tb.
Proof.
  intros Hd Hdim H.
  assert (HB : exists t ls, build_adaptive d pos cap fuel srcs = Ok t /\ all_lists d t = Ok ls).
  { inversion H as [r0 X1 X2 E|t0 r0 X1 X2 X3 E|t0 ls0 X1 X2 X3|t0 ls0 X1 X2 X3 X4|t0 ls0 r0 X1 X2 X3 X4 X5 X6 E].
    - exfalso. destruct r0; try discriminate. eapply X2. reflexivity.
    - exfalso. destruct r0; try discriminate. eapply X3. reflexivity.
    - eauto.
    - eauto. }
  destruct HB as (t & ls & HB & HL).
  destruct (adaptive_inv d pos cap fuel srcs t Hd Hdim HB) as (c & l & h & HR & Hc & _ & Hh & Et & Hl & _).
  assert (G : forall r, make_fmm o d cap fuel srcs tb0 r ->
    ((length srcs <= cap)%nat /\ r = Ok (Fmm t ls (mem0 o t tb0))) \/
    ((cap < length srcs)%nat /\ at_height t = length (at_nodes t) /\ at_height t + 1 = length (at_leaves t) /\
       exists r0, passes_result (regions o d t ls) (mem0 o t tb0) r0 /\ r = omap (fun m => Fmm t ls m) r0)).
  { intros r Hr. inversion Hr as [r0 X1 X2|t0 r0 X1 X2 X3|t0 ls0 X1 X2 X3|t0 ls0 X1 X2 X3 X4|t0 ls0 r0 X1 X2 X3 X4 X5 X6]; subst r.
    - exfalso. apply (X2 t). congruence.
    - exfalso. assert (t0 = t) by congruence. subst t0. apply (X3 ls). congruence.
    - left. assert (t0 = t) by congruence. subst t0. assert (ls0 = ls) by congruence. subst ls0. split; [exact X3|reflexivity].
    - exfalso. assert (t0 = t) by congruence. subst t0. rewrite Et in X4. unfold spec_tree in X4; cbn [at_height at_nodes at_leaves] in X4.
      rewrite !map_length, !seq_length in X4. lia.
    - right. assert (t0 = t) by congruence. subst t0. assert (ls0 = ls) by congruence. subst ls0.
      split; [exact X3|]. split; [exact X4|]. split; [exact X5|]. exists r0. split; [exact X6|reflexivity]. }
  destruct (G _ H) as [(Hcap & Ef)|(Hcap & A1 & A2 & r0 & Hr0 & Ef)].
  - injection Ef as ->. split; [|exact (ta_tb TA)]. intros r. split.
    + intros Hr. destruct (G _ Hr) as [(_ & ->)|(X & _)]; [reflexivity|lia].
    + intros ->. exact H.
  - destruct r0 as [m1| | | | |]; try discriminate. cbn in Ef. injection Ef as ->.
    assert (Hhh : (1 <= h)%nat).
    { destruct h as [|h']; [|lia]. destruct Hh as [X _]. cbn in X. unfold rr in X. destruct (Nat.leb_spec (length srcs) cap); [lia|discriminate X]. }
    destruct (passes_agree tb Im Il (fun m Hm => proj1 Hm) Il_no_locals (regions o d t ls) (mem0 o t tb0) m1) as [Hm U].
    + rewrite Et. apply regions_tame; assumption.
    + rewrite Et. apply mem0_Im.
    + exact Hr0.
    + split; [|exact (proj1 Hm)]. intros r. split.
      * intros Hr. destruct (G _ Hr) as [(X & _)|(_ & _ & _ & r0 & Hr1 & ->)]; [lia|]. apply U in Hr1. subst r0. reflexivity.
      * intros ->. exact H.
Qed.
End Tree.
