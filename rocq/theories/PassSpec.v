(** The contents of the memory after the passes. *)
From Coq Require Import List Bool ZArith Arith Lia Lra Reals Permutation Sorted.
From Verif Require Import Num Outcome Vec Orthtree AdaptiveTree TreeSpec VecProofs GeometrySpec GeometryProofs TreeGeometry
  AdaptiveProofs BfsProofs ListProofs ListContents BuildProofs CAux FieldSpec Schedule Fields FmmPasses PassProofs PassSteps PassTree.
Import ListNotations.

Lemma rev_seq_split a n pre k rest : rev (seq a n) = pre ++ k :: rest -> (a <= k < a + n)%nat /\ forall j, (k < j < a + n)%nat -> In j pre.
Proof.
  intros E. assert (E' : seq a n = rev rest ++ k :: rev pre).
  { rewrite <- (rev_involutive (seq a n)), E, rev_app_distr. simpl. rewrite <- app_assoc. reflexivity. }
  assert (G : forall n a l1 l2, seq a n = l1 ++ k :: l2 -> (a <= k < a + n)%nat /\ forall j, (k < j < a + n)%nat -> In j l2).
  { clear. induction n as [|n IH]; intros a l1 l2 E; [destruct l1; discriminate|]. destruct l1 as [|b l1].
    - simpl in E. injection E as -> <-. split; [lia|]. intros j Hj. apply in_seq. lia.
    - simpl in E. injection E as <- E. destruct (IH _ _ _ E) as [A B]. split; [lia|]. intros j Hj. apply B. lia. }
  destruct (G _ _ _ _ E') as [A B]. split; [exact A|]. intros j Hj. apply in_rev. apply B. exact Hj.
Qed.
Lemma seq_split a n pre k rest : seq a n = pre ++ k :: rest -> (a <= k < a + n)%nat /\ (forall j, In j pre <-> (a <= j < k)%nat).
Proof.
  revert a pre. induction n as [|n IH]; intros a pre E; [destruct pre; discriminate|]. destruct pre as [|b pre].
  - simpl in E. injection E as -> <-. split; [lia|]. intros j. simpl. lia.
  - simpl in E. injection E as <- E. destruct (IH _ _ E) as [A B]. split; [lia|]. intros j. simpl. rewrite B. lia.
Qed.

Lemma NoDup_app_intro {A} (xs ys : list A) : NoDup xs -> NoDup ys -> (forall x, In x xs -> ~ In x ys) -> NoDup (xs ++ ys).
Proof.
  induction 1 as [|x xs Hx H IH]; intros HY D; [exact HY|]. simpl. constructor.
  - rewrite in_app_iff. intros [X|X]; [contradiction|]. apply (D x (or_introl eq_refl) X).
  - apply IH; [exact HY|]. intros y Hy. apply D. right. exact Hy.
Qed.

Section Spec.
Context {ME LE Tb I : Type}.
Variable o : ops ME LE Tb.
Variable d : nat.
Variable tb0 tb : Tb.
Variable MEof : list R -> list (psrc R) -> ME -> Prop.
Variable wfLE : list R -> LE -> Prop.
Variable lval : I -> LE -> list R -> R.
Variable dir : I -> psrc R -> list R -> R.
Variable E : I -> R -> R.
Hypothesis Htb : snd (o_zero o tb0 []) = tb.

Variable c : list R.
Variable l : R.
Variable cap : nat.
Variable srcs : list (psrc R).
Hypothesis SO : sound_in o d tb MEof wfLE lval dir E c l (fun s => In s srcs).
Variable rr : rule.
Variable h : nat.
Notation pos := (@ps_pos R).
Notation refined := (refined d pos c l cap srcs rr).
Notation present := (present d pos c l cap srcs rr).
Notation level := (level d pos c l cap srcs rr).
Notation mk := (mk d pos c l cap srcs rr).
Notation sub := (sub d pos c l srcs).
Notation ctr := (box_ctr d c l).
Notation blen := (box_len l).
Notation t := (spec_tree d pos c l cap srcs rr h).
Notation ls := (final d pos c l cap srcs rr h).
Hypothesis Hc : length c = d.
Hypothesis Hl : (0 < l)%R.
Hypothesis Hh : height_ok d pos c l cap srcs rr h.
Hypothesis Hdim : same_dim d srcs.
Hypothesis Hbox : forall s, In s srcs -> in_box d c l (ps_pos s).
Notation mem := (@mem ME LE Tb).

Lemma sub_dim p : same_dim d (sub p).
Proof. intros s Hs. apply Hdim. eapply sub_incl. exact Hs. Qed.
Lemma sub_in_box p s : In s (sub p) -> in_box d (ctr p) (blen p) (ps_pos s).
Proof.
  intros H. apply sub_path in H. destruct H as [H1 H2]. rewrite <- H2. apply path_in_box; [exact Hc|apply Hbox; exact H1].
Qed.
Lemma blen_pos p : (0 < blen p)%R.
Proof. rewrite box_len_pow. apply Rdiv_lt_0_compat; [exact Hl|apply pow2_pos]. Qed.
Lemma ctr_len p : length (ctr p) = d.
Proof. apply len_box_ctr. exact Hc. Qed.

(** Far sources of a box: those that reach it through the interaction list and the X list. *)
Definition own_far (p : addr) : list (psrc R) := flat_map sub (nl_inter ls p) ++ flat_map sub (nl_X ls p).
Definition far (p : addr) : list (psrc R) := flat_map own_far (ancestors_or_self p).

Definition me_good (m : mem) (p : addr) : Prop :=
  exists e S, m_me m p = Some e /\ Permutation S (sub p) /\ MEof (ctr p) S e.
Definition le_good (m : mem) (p : addr) : Prop :=
  exists e, m_le m p = Some e /\ wfLE (ctr p) e /\ forall i x, length x = d -> in_box d (ctr p) (blen p) x ->
    (Rabs (lval i e x - rsum (fun s => dir i s x) (far p)) <= E i (blen p) * abs_charge (far p))%R.
Definition le_zero (m : mem) (p : addr) : Prop := m_le m p = Some (fst (o_zero o tb0 (ctr p))).

Lemma own_far_shallow p : present p -> (length p <= 1)%nat -> own_far p = [].
Proof.
  intros P Hp. unfold own_far.
  assert (V : nl_inter ls p = []).
  { destruct (nl_inter ls p) as [|q qs] eqn:Ev; [reflexivity|exfalso]. assert (Hq : In q (nl_inter ls p)) by (rewrite Ev; left; reflexivity).
    apply final_inter_in in Hq; [|assumption|assumption|assumption]. destruct Hq as [Pq V]. unfold vrel in V.
    apply andb_true_iff in V. destruct V as [V NT]. apply andb_true_iff in V. destruct V as [V _].
    apply andb_true_iff in V. destruct V as [V1 V2]. apply Nat.eqb_eq in V1. apply Nat.leb_le in V2. apply negb_true_iff in NT.
    destruct p as [|i [|]]; simpl in *; try lia. destruct q as [|j [|]]; simpl in *; try lia.
    rewrite touch_siblings in NT. discriminate. }
  assert (X : nl_X ls p = []).
  { destruct (nl_X ls p) as [|q qs] eqn:Ev; [reflexivity|exfalso]. assert (Hq : In q (nl_X ls p)) by (rewrite Ev; left; reflexivity).
    apply final_X_in in Hq; [|assumption|assumption|assumption]. destruct Hq as (Pq & _ & V0). unfold xrel in V0.
    apply andb_true_iff in V0. destruct V0 as [V0 NT]. apply andb_true_iff in V0. destruct V0 as [V1 _]. apply Nat.ltb_lt in V1.
    apply negb_true_iff in NT. destruct q; [|simpl in *; lia]. rewrite touch_sym, touch_root_l in NT. discriminate. }
  rewrite V, X. reflexivity.
Qed.
Lemma far_shallow p : present p -> (length p <= 1)%nat -> far p = [].
Proof.
  intros P Hp. unfold far. destruct p as [|i [|]]; simpl in Hp; try lia.
  - cbn [ancestors_or_self flat_map]. rewrite own_far_shallow by (simpl; auto). reflexivity.
  - cbn [ancestors_or_self flat_map]. rewrite !own_far_shallow; simpl; auto. 
Qed.
Lemma zero_good m p : present p -> (length p <= 1)%nat -> le_zero m p -> le_good m p.
Proof.
  intros P Hp Z. destruct (si_zero _ _ _ _ _ _ _ _ _ _ _ SO tb0 (ctr p) (ctr_len p)) as [W V]. eexists. split; [exact Z|]. split; [exact W|].
  intros i x _ _. rewrite V, far_shallow by assumption. unfold abs_charge; cbn [rsum fold_right]. rewrite Rminus_0_r, Rabs_R0. lra.
Qed.

(** *** Leaf expansions *)
Definition same_le (m m' : mem) : Prop := forall q, m_le m q = m_le m' q.

Definition P1 (done : list nat) (m : mem) : Prop :=
  m_tb m = tb /\ same_le m (mem0 o t tb0) /\ forall p, present p -> refined p = false -> In (length p) done -> me_good m p.

Lemma leaf_level_in k n : In n (leaf_level d pos c l cap srcs rr k) <-> exists p, n = mk p /\ present p /\ length p = k /\ refined p = false.
Proof.
  unfold leaf_level. rewrite in_map_iff. split.
  - intros (p & <- & H). apply filter_In in H. destruct H as [H N]. apply in_level in H. apply negb_true_iff in N. exists p. tauto.
  - intros (p & -> & P & Hk & N). exists p. split; [reflexivity|]. apply filter_In. split; [apply in_level; auto|]. rewrite N. reflexivity.
Qed.
Lemma inner_level_in k n : In n (inner_level d pos c l cap srcs rr k) <-> exists p, n = mk p /\ present p /\ length p = k /\ refined p = true.
Proof.
  unfold inner_level. rewrite in_map_iff. split.
  - intros (p & <- & H). apply filter_In in H. destruct H as [H N]. apply in_level in H. exists p. tauto.
  - intros (p & -> & P & Hk & N). exists p. split; [reflexivity|]. apply filter_In. split; [apply in_level; auto|]. exact N.
Qed.
Lemma map_addr_mk ps : map an_addr (map mk ps) = ps.
Proof. rewrite map_map. apply map_id. Qed.
Lemma leaf_level_NoDup k : NoDup (map an_addr (leaf_level d pos c l cap srcs rr k)).
Proof. unfold leaf_level. rewrite map_addr_mk. apply NoDup_filter. apply level_NoDup. Qed.
Lemma inner_level_NoDup k : NoDup (map an_addr (inner_level d pos c l cap srcs rr k)).
Proof. unfold inner_level. rewrite map_addr_mk. apply NoDup_filter. apply level_NoDup. Qed.
Lemma NoDup_own_me (ns : list (@anode R (psrc R))) : NoDup (map an_addr ns) -> NoDup (map (fun n => LMe (an_addr n)) ns).
Proof. intros H. rewrite <- (map_map an_addr LMe). apply FinFun.Injective_map_NoDup; [|exact H]. intros a b X. congruence. Qed.
Lemma NoDup_own_le (ns : list (@anode R (psrc R))) : NoDup (map an_addr ns) -> NoDup (map (fun n => LLe (an_addr n)) ns).
Proof. intros H. rewrite <- (map_map an_addr LLe). apply FinFun.Injective_map_NoDup; [|exact H]. intros a b X. congruence. Qed.

Lemma me_good_same m m' p : m_me m p = m_me m' p -> me_good m p -> me_good m' p.
Proof. intros Q (e & S & A & B & D). exists e, S. rewrite <- Q. auto. Qed.
Lemma le_good_same m m' p : m_le m p = m_le m' p -> le_good m p -> le_good m' p.
Proof. intros Q (e & A & B & D). exists e. rewrite <- Q. auto. Qed.

Lemma p2m_region k done m : P1 done m ->
  exists m', (forall r, region_result (map (it_p2m o) (leaf_level d pos c l cap srcs rr k)) m r <-> r = Ok m') /\ P1 (done ++ [k]) m'.
Proof.
  intros (T0 & L0 & G0).
  destruct (region_deterministic tb (leaf_level d pos c l cap srcs rr k) (it_p2m o) (fun n => LMe (an_addr n)) (fun _ _ => False)
     (fun n mf => me_good mf (an_addr n)) m) as [m' (HR & HT & HO & HS)].
  - apply NoDup_own_me, leaf_level_NoDup.
  - tauto.
  - intros n _. apply it_p2m_ok.
  - intros n Hn. apply leaf_level_in in Hn. destruct Hn as (p & -> & P & Hk & N).
    destruct (si_p2m _ _ _ _ _ _ _ _ _ _ _ SO (ctr p) (sub p) (ctr_len p) (sub_dim p)) as [e [He Hme]].
    eexists _, _. split.
    + apply alone_one.
      * unfold st_p2m. cbn [fst snd]. rewrite T0. change (an_center (mk p)) with (ctr p).
        replace (an_srcs (mk p)) with (sub p) by (unfold AdaptiveProofs.mk; cbn [an_srcs]; rewrite N; reflexivity).
        rewrite He. cbn [bind fst snd]. reflexivity.
      * reflexivity.
    + exists e, (sub p). split; [|split; [apply Permutation_refl|exact Hme]].
      cbn [m_me set_me set_tb]. change (an_addr (mk p)) with p. rewrite addr_eqb_refl. reflexivity.
  - exact T0.
  - exists m'. split; [exact HR|]. split; [exact HT|]. split.
    + intros q. rewrite <- L0. apply (HS (LLe q)). intros; discriminate.
    + intros p P N Hp. apply in_app_iff in Hp. destruct (Nat.eq_dec (length p) k) as [Ek|NE].
      * destruct (HO (mk p)) as [mf [Hmf Hs]]; [apply leaf_level_in; exists p; auto|].
        eapply me_good_same; [|exact Hmf]. symmetry. exact Hs.
      * destruct Hp as [Hp|[Hp|[]]]; [|congruence]. eapply me_good_same; [|apply G0; assumption].
        symmetry. apply (HS (LMe p)). intros n Hn. apply leaf_level_in in Hn. destruct Hn as (q & -> & _ & Hq & _).
        change (an_addr (mk q)) with q. congruence.
Qed.

(** *** Merging *)
Definition P2 (done : list nat) (m : mem) : Prop :=
  m_tb m = tb /\ same_le m (mem0 o t tb0) /\ (forall p, present p -> refined p = false -> me_good m p) /\
  forall p, present p -> refined p = true -> In (length p) done -> me_good m p.

Lemma good_parts m qs : (forall q, In q qs -> me_good m q) ->
  exists parts : list (list R * list (psrc R) * ME),
    Forall2 (fun q e => m_me m q = Some e) qs (map snd parts) /\
    map (fun u => fst (fst u)) parts = map ctr qs /\
    Forall2 (fun q u => Permutation (snd (fst u)) (sub q) /\ MEof (fst (fst u)) (snd (fst u)) (snd u) /\ fst (fst u) = ctr q) qs parts.
Proof.
  induction qs as [|q qs IH]; intros H.
  - exists []. split; [constructor|]. split; [reflexivity|constructor].
  - destruct IH as (parts & A & B & D); [intros; apply H; right; assumption|].
    destruct (H q (or_introl eq_refl)) as (e & S & He & HS & Hme).
    exists ((ctr q, S, e) :: parts). split; [constructor; assumption|]. split; [simpl; congruence|].
    constructor; [|exact D]. auto.
Qed.
Lemma parts_perm qs (parts : list (list R * list (psrc R) * ME)) :
  Forall2 (fun q u => Permutation (snd (fst u)) (sub q) /\ MEof (fst (fst u)) (snd (fst u)) (snd u) /\ fst (fst u) = ctr q) qs parts ->
  Permutation (flat_map (fun u => snd (fst u)) parts) (flat_map sub qs).
Proof. induction 1 as [|q u qs parts (A & _) H IH]; [constructor|]. simpl. apply Permutation_app; assumption. Qed.
Lemma Forall2_in_r {A B} (Q : A -> B -> Prop) xs ys y : Forall2 Q xs ys -> In y ys -> exists x, In x xs /\ Q x y.
Proof. induction 1 as [|a b xs ys HQ H IH]; intros I1; [destruct I1|]. destruct I1 as [<-|I1]; [exists a; split; [left; auto|exact HQ]|].
  destruct (IH I1) as [x [X1 X2]]. exists x. split; [right; assumption|assumption]. Qed.

Lemma m2m_region k done m : (2 <= k < h)%nat -> (forall j, (k < j < h)%nat -> In j done) -> P2 done m ->
  exists m', (forall r, region_result (map (it_m2m o d t) (inner_level d pos c l cap srcs rr k)) m r <-> r = Ok m') /\ P2 (done ++ [k]) m'.
Proof.
  intros Hk Hdone (T0 & L0 & G0 & G1).
  assert (CH : forall p, present p -> refined p = true -> length p = k -> children d t p = kids d p).
  { intros p P Rp _. rewrite (children_eq d pos c l cap srcs rr h Hh p P), Rp. reflexivity. }
  destruct (region_deterministic tb (inner_level d pos c l cap srcs rr k) (it_m2m o d t) (fun n => LMe (an_addr n))
     (fun n x => exists q, In q (children d t (an_addr n)) /\ x = LMe q)
     (fun n mf => me_good mf (an_addr n)) m) as [m' (HR & HT & HO & HS)].
  - apply NoDup_own_me, inner_level_NoDup.
  - intros a b Ha Hb _ (q & Hq & Eq). apply inner_level_in in Ha. destruct Ha as (p & -> & P & Hp & Rp).
    apply inner_level_in in Hb. destruct Hb as (p' & -> & P' & Hp' & Rp').
    change (an_addr (mk p)) with p in Hq. change (an_addr (mk p')) with p' in Eq.
    rewrite CH in Hq by assumption. apply kids_inv in Hq. destruct Hq as (i & _ & ->).
    injection Eq as ->. simpl in Hp'. lia.
  - intros n Hn. apply it_m2m_ok. intros q Hq. exists q. auto.
  - intros n Hn. apply inner_level_in in Hn. destruct Hn as (p & -> & P & Hp & Rp).
    assert (KG : forall q, In q (kids d p) -> me_good m q).
    { intros q Hq. apply kids_inv in Hq. destruct Hq as (i & Hi & ->).
      assert (Pq : present (i :: p)) by (simpl; auto).
      destruct (refined (i :: p)) eqn:Rq; [|apply G0; assumption].
      apply G1; [assumption|assumption|]. apply Hdone.
      assert (D := refined_depth _ _ _ _ _ _ _ _ Hh _ Pq Rq). simpl in D |- *. lia. }
    destruct (good_parts m (kids d p) KG) as (parts & A & B & D).
    assert (NEp : parts <> []).
    { intros ->. simpl in B. unfold kids in B. destruct (n_children d) eqn:En; [|discriminate].
      unfold n_children in En. assert (0 < 2 ^ d)%nat by (apply Nat.neq_0_lt_0, Nat.pow_nonzero; lia). lia. }
    destruct (si_m2m _ _ _ _ _ _ _ _ _ _ _ SO (ctr p) parts (ctr_len p) NEp) as [e [He Hme]].
    { intros u Hu. destruct (Forall2_in_r _ _ _ _ D Hu) as (q & _ & (_ & X & _)). exact X. }
    eexists _, _. split.
    + unfold it_m2m. change (an_addr (mk p)) with p. rewrite CH by assumption. eapply alone_app.
      * apply alone_reads; [exact T0|exact A].
      * apply alone_one.
        -- unfold st_m2m. cbn [fst snd lc_mes]. rewrite T0. change (an_center (mk p)) with (ctr p). cbn [no_locals lc_mes app].
           rewrite He. cbn [bind fst snd]. reflexivity.
        -- reflexivity.
    + exists e, (flat_map (fun u => snd (fst u)) parts). split; [|split; [|exact Hme]].
      * cbn [m_me set_me set_tb]. change (an_addr (mk p)) with p. rewrite addr_eqb_refl. reflexivity.
      * change (an_addr (mk p)) with p. etransitivity; [apply (parts_perm _ _ D)|]. apply sub_kids.
  - exact T0.
  - assert (UN : forall p, ~ (present p /\ length p = k /\ refined p = true) -> m_me m' p = m_me m p).
    { intros p Hp. apply (HS (LMe p)). intros n Hn. apply inner_level_in in Hn. destruct Hn as (q & -> & Pq & Hq & Rq).
      change (an_addr (mk q)) with q. intros Ex. injection Ex as ->. apply Hp. auto. }
    exists m'. split; [exact HR|]. split; [exact HT|]. split; [|split].
    + intros q. rewrite <- L0. apply (HS (LLe q)). intros; discriminate.
    + intros p P N. eapply me_good_same; [|apply G0; assumption]. symmetry. apply UN. intros (_ & _ & X). congruence.
    + intros p P Rp Hp. apply in_app_iff in Hp. destruct (Nat.eq_dec (length p) k) as [Ek|NE].
      * destruct (HO (mk p)) as [mf [Hmf Hs]]; [apply inner_level_in; exists p; auto|].
        eapply me_good_same; [|exact Hmf]. symmetry. exact Hs.
      * destruct Hp as [Hp|[Hp|[]]]; [|congruence]. eapply me_good_same; [|apply G1; assumption].
        symmetry. apply UN. tauto.
Qed.

(** *** Local expansions *)
Definition P3 (done : list nat) (m : mem) : Prop :=
  m_tb m = tb /\ (forall p, present p -> refined p = false \/ (2 <= length p)%nat -> me_good m p) /\
  (forall p, present p -> (length p <= 1)%nat \/ In (length p) done -> le_good m p) /\
  (forall p, present p -> ~ In (length p) done -> le_zero m p).

(** The local expansion of [p] accounts for the sources [F]. *)
Definition acc (m : mem) (p : addr) (F : list (psrc R)) : Prop :=
  exists e, m_le m p = Some e /\ wfLE (ctr p) e /\ forall i x, length x = d -> in_box d (ctr p) (blen p) x ->
    (Rabs (lval i e x - rsum (fun s => dir i s x) F) <= E i (blen p) * abs_charge F)%R.
Lemma acc_perm m p F G : Permutation F G -> acc m p F -> acc m p G.
Proof.
  intros HP (e & A & B & D). exists e. split; [exact A|]. split; [exact B|]. intros i x Hx Hin.
  rewrite <- (rsum_perm (fun s => dir i s x) _ _ HP), <- (abs_charge_perm _ _ HP). apply D; assumption.
Qed.
Lemma set_tb_same (m : mem) : m_tb m = tb -> set_tb m tb = m.
Proof. intros H. destruct m; cbn in *. subst. reflexivity. Qed.

Lemma acc_add m p F G e : acc m p F -> wfLE (ctr p) e ->
  (forall i x, length x = d -> in_box d (ctr p) (blen p) x ->
    (Rabs (lval i e x - rsum (fun s => dir i s x) G) <= E i (blen p) * abs_charge G)%R) ->
  exists s, add_le o m p e = Ok (set_le m p s) /\ acc (set_le m p s) p (F ++ G).
Proof.
  intros (u & A & B & D) W V. destruct (si_add _ _ _ _ _ _ _ _ _ _ _ SO (ctr p) u e B W) as (s & Hs & Ws & Vs).
  exists s. split; [apply (add_le_do o m p e u s A Hs)|]. exists s. split; [rewrite le_set_le, addr_eqb_refl; reflexivity|].
  split; [exact Ws|]. intros i x Hx Hin. rewrite Vs, rsum_app, abs_charge_app.
  specialize (D i x Hx Hin). specialize (V i x Hx Hin).
  replace (_ - _)%R with ((lval i u x - rsum (fun s => dir i s x) F) + (lval i e x - rsum (fun s => dir i s x) G))%R by ring.
  eapply Rle_trans; [apply Rabs_triang|]. lra.
Qed.

Lemma p2l_chain p qs m lc F : m_tb m = tb -> present p -> (forall q, In q qs -> In q (nl_X ls p)) -> acc m p F ->
  exists m', alone tb (map (st_p2l o t (mk p)) qs) (m, lc) (m', lc) /\ acc m' p (F ++ flat_map sub qs).
Proof.
  intros T P. revert m F T. induction qs as [|q qs IH]; intros m F T HX HA.
  - exists m. split; [constructor|]. cbn [flat_map]. rewrite app_nil_r. exact HA.
  - assert (Hq : In q (nl_X ls p)) by (apply HX; left; reflexivity).
    apply final_X_in in Hq; [|assumption|assumption|assumption]. destruct Hq as (Pq & Rq & V0). unfold xrel in V0.
    apply andb_true_iff in V0. destruct V0 as [V0 NT]. apply andb_true_iff in V0. destruct V0 as [V1 _]. apply Nat.ltb_lt in V1.
    apply negb_true_iff in NT.
    destruct (si_p2l _ _ _ _ _ _ _ _ _ _ _ SO p q (sub q) V1 NT (sub_dim q)) as (e & He & We & Ve).
    { intros s Hs. split; [eapply sub_incl; exact Hs|]. apply sub_in_box. exact Hs. }
    destruct (acc_add m p F (sub q) e HA We Ve) as (s & Hs & HA2).
    destruct (IH (set_le m p s) (F ++ sub q)) as (m' & Hal & HA3); [exact T|intros; apply HX; right; assumption|exact HA2|].
    exists m'. split; [|cbn [flat_map]; rewrite app_assoc; exact HA3].
    cbn [map]. eapply (al_cons tb _ _ _ (set_le m p s, lc)); [|exact T|exact Hal].
    unfold st_p2l. cbn [fst snd]. rewrite (lookup_mk d pos c l cap srcs rr h Hh q Pq). cbn [of_option bind].
    replace (an_leaf (mk q)) with true by (unfold AdaptiveProofs.mk; cbn [an_leaf]; rewrite Rq; reflexivity).
    replace (an_srcs (mk q)) with (sub q) by (unfold AdaptiveProofs.mk; cbn [an_srcs]; rewrite Rq; reflexivity).
    rewrite T. change (an_center (mk p)) with (ctr p). rewrite He. cbn [bind fst snd].
    change (an_addr (mk p)) with p. rewrite set_tb_same by exact T. rewrite Hs. reflexivity.
Qed.

Lemma local_alone i p m : present (i :: p) -> m_tb m = tb ->
  (forall q, present q -> refined q = false \/ (2 <= length q)%nat -> me_good m q) -> le_good m p -> le_zero m (i :: p) ->
  exists mf lf, alone tb (it_local o t ls (mk (i :: p))) (m, no_locals) (mf, lf) /\ le_good mf (i :: p).
Proof.
  intros P T HM HP HZ. assert (P' := P). destruct P' as (Hi & Pp & Rp).
  destruct HP as (pe & Hpe & Wpe & Vpe).
  destruct (si_l2l _ _ _ _ _ _ _ _ _ _ _ SO (ctr p) (ctr (i :: p)) pe (ctr_len (i :: p)) Wpe) as (e1 & He1 & We1 & Ve1).
  destruct (si_zero _ _ _ _ _ _ _ _ _ _ _ SO tb0 (ctr (i :: p)) (ctr_len (i :: p))) as [Wz Vz].
  assert (A0 : acc m (i :: p) []).
  { eexists. split; [exact HZ|]. split; [exact Wz|]. intros k x _ _. rewrite Vz. unfold abs_charge; cbn [rsum fold_right].
    rewrite Rminus_0_r, Rabs_R0. lra. }
  assert (V1 : forall k x, length x = d -> in_box d (ctr (i :: p)) (blen (i :: p)) x ->
    (Rabs (lval k e1 x - rsum (fun s => dir k s x) (far p)) <= E k (blen (i :: p)) * abs_charge (far p))%R).
  { intros k x Hx Hin. rewrite Ve1. eapply Rle_trans; [apply Vpe; [exact Hx|]|].
    - apply (child_inside d (ctr p) (blen p) i x (ctr_len p)). exact Hin.
    - apply Rmult_le_compat_r; [apply abs_charge_nonneg|]. apply (si_E _ _ _ _ _ _ _ _ _ _ _ SO).
      split; [apply blen_pos|]. rewrite !box_len_pow. cbn [length pow].
      assert (PW := pow2_pos (length p)). apply Rmult_le_compat_l; [lra|]. apply Rinv_le_contravar; lra. }
  destruct (acc_add m (i :: p) [] (far p) e1 A0 We1 V1) as (s1 & Hs1 & A1). cbn [app] in A1.
  set (m1 := set_le m (i :: p) s1) in *.
  assert (T1 : m_tb m1 = tb) by exact T.
  assert (VG : forall q, In q (nl_inter ls (i :: p)) -> me_good m1 q).
  { intros q Hq. apply final_inter_in in Hq; [|assumption|assumption|assumption]. destruct Hq as [Pq V]. unfold vrel in V.
    apply andb_true_iff in V. destruct V as [V NT]. apply andb_true_iff in V. destruct V as [V _].
    apply andb_true_iff in V. destruct V as [VL VL2]. apply Nat.eqb_eq in VL. apply negb_true_iff in NT.
    apply (HM q Pq). right. destruct q as [|j [|]]; simpl in *; try lia.
    destruct p; simpl in *; try lia. rewrite touch_siblings in NT. discriminate. }
  destruct (good_parts m1 _ VG) as (parts & A & B & D).
  assert (MSTEP : exists m2, st_m2l o (mk (i :: p)) (m1, Locals (map snd parts) (Some e1)) = Ok (m2, Locals (map snd parts) (Some e1)) /\
     m_tb m2 = tb /\ acc m2 (i :: p) (far p ++ flat_map sub (nl_inter ls (i :: p)))).
  { destruct (map snd parts) as [|e0 es] eqn:Ep.
    - assert (Ev : nl_inter ls (i :: p) = []) by (inversion A; reflexivity).
      exists m1. split; [reflexivity|]. split; [exact T1|]. rewrite Ev. cbn [flat_map]. rewrite app_nil_r. exact A1.
    - rewrite <- Ep. destruct (si_m2l _ _ _ _ _ _ _ _ _ _ _ SO (i :: p) parts) as (e & He & We & Ve).
      + intros ->. discriminate Ep.
      + intros u Hu. destruct (Forall2_in_r _ _ _ _ D Hu) as (q & Hq & (X1 & X2 & X3)). exists q. split; [exact X3|].
        apply final_inter_in in Hq; [|assumption|assumption|assumption]. destruct Hq as [Pq V]. unfold vrel in V.
        apply andb_true_iff in V. destruct V as [V NT]. apply andb_true_iff in V. destruct V as [V _].
        apply andb_true_iff in V. destruct V as [VL VL2]. apply Nat.eqb_eq in VL. apply negb_true_iff in NT.
        split; [congruence|]. split; [exact NT|]. split; [exact X2|]. split.
        * intros s Hs. apply (sub_dim q). eapply Permutation_in; [exact X1|exact Hs].
        * intros s Hs. assert (Hs' := Permutation_in _ X1 Hs). split; [eapply sub_incl; exact Hs'|]. apply sub_in_box. exact Hs'.
      + assert (PP := parts_perm _ _ D).
        assert (Ve' : forall k x, length x = d -> in_box d (ctr (i :: p)) (blen (i :: p)) x ->
           (Rabs (lval k e x - rsum (fun s => dir k s x) (flat_map sub (nl_inter ls (i :: p)))) <=
            E k (blen (i :: p)) * abs_charge (flat_map sub (nl_inter ls (i :: p))))%R).
        { intros k x Hx Hin. rewrite <- (rsum_perm (fun s => dir k s x) _ _ PP), <- (abs_charge_perm _ _ PP). apply Ve; assumption. }
        destruct (acc_add m1 (i :: p) (far p) _ e A1 We Ve') as (s2 & Hs2 & A2).
        exists (set_le m1 (i :: p) s2). split; [|split; [exact T1|exact A2]].
        unfold st_m2l. cbn [fst snd lc_mes]. rewrite Ep. rewrite <- Ep. rewrite T1. change (an_center (mk (i :: p))) with (ctr (i :: p)).
        rewrite He. cbn [bind fst snd]. rewrite set_tb_same by exact T1. change (an_addr (mk (i :: p))) with (i :: p).
        rewrite Hs2. reflexivity. }
  destruct MSTEP as (m2 & HS2 & T2 & A2).
  destruct (p2l_chain (i :: p) (nl_X ls (i :: p)) m2 (Locals (map snd parts) (Some e1)) _ T2 P (fun q Hq => Hq) A2) as (m3 & HS3 & A3).
  exists m3, (Locals (map snd parts) (Some e1)). split.
  - unfold it_local. eapply alone_app; [|eapply alone_app; [|eapply alone_app]].
    + eapply (al_cons tb _ _ _ (m, Locals [] (Some e1))); [|exact T|apply alone_one].
      * unfold st_l2l. change (an_addr (mk (i :: p))) with (i :: p). cbn [fst snd]. rewrite Hpe. cbn [of_option bind].
        destruct (Nat.eqb_spec (o_size o pe) 0) as [Z|_]; [exfalso; apply (si_size _ _ _ _ _ _ _ _ _ _ _ SO _ _ Wpe Z)|].
        rewrite T. change (an_center (mk (i :: p))) with (ctr (i :: p)). rewrite He1. cbn [bind fst snd]. rewrite set_tb_same by exact T. reflexivity.
      * unfold st_add. cbn [fst snd lc_le of_option bind]. change (an_addr (mk (i :: p))) with (i :: p). rewrite Hs1. cbn [bind]. reflexivity.
      * exact T.
    + apply alone_reads; [exact T1|]. exact A.
    + cbn [lc_mes lc_le app]. apply alone_one; [exact HS2|exact T2].
    + exact HS3.
  - apply (acc_perm _ _ _ (far (i :: p))) in A3; [exact A3|].
    unfold far at 2. cbn [ancestors_or_self flat_map]. fold (far p). unfold own_far.
    rewrite <- app_assoc. apply Permutation_app_comm.
Qed.

Lemma local_region k done ns m : (1 <= k)%nat -> ((k - 1 <= 1)%nat \/ In (k - 1)%nat done) -> ~ In k done ->
  NoDup (map an_addr ns) -> (forall n, In n ns <-> exists p, n = mk p /\ present p /\ length p = k) -> P3 done m ->
  exists m', (forall r, region_result (map (it_local o t ls) ns) m r <-> r = Ok m') /\ P3 (done ++ [k]) m'.
Proof.
  intros Hk Hpar Hnew ND Hns (T0 & M0 & L0 & Z0).
  destruct (region_deterministic tb ns (it_local o t ls) (fun n => LLe (an_addr n))
     (fun n x => match x with LMe _ => True | LLe q => exists i, an_addr n = i :: q end)
     (fun n mf => le_good mf (an_addr n)) m) as [m' (HR & HT & HO & HS)].
  - apply NoDup_own_le. exact ND.
  - intros a b Ha Hb _ (i & Hq). apply Hns in Ha. destruct Ha as (p & -> & P & Hp).
    apply Hns in Hb. destruct Hb as (p' & -> & P' & Hp').
    change (an_addr (mk p)) with p in Hq. change (an_addr (mk p')) with p' in Hq. subst p. simpl in Hp. lia.
  - intros n Hn. apply Hns in Hn. destruct Hn as (p & -> & P & Hp). destruct p as [|i p]; [simpl in Hp; lia|].
    eapply it_local_ok; [reflexivity|exists i; reflexivity|intros; exact Logic.I].
  - intros n Hn. apply Hns in Hn. destruct Hn as (p & -> & P & Hp). destruct p as [|i p]; [simpl in Hp; lia|].
    change (an_addr (mk (i :: p))) with (i :: p). apply local_alone; [exact P|exact T0|exact M0| |].
    + apply L0; [apply P|]. simpl in Hp. replace (length p) with (k - 1)%nat by lia. exact Hpar.
    + apply Z0; [exact P|]. rewrite Hp. exact Hnew.
  - exact T0.
  - assert (UN : forall p, length p <> k -> m_le m' p = m_le m p).
    { intros p Hp. apply (HS (LLe p)). intros n Hn. apply Hns in Hn. destruct Hn as (q & -> & Pq & Hq).
      change (an_addr (mk q)) with q. intros Ex. injection Ex as ->. contradiction. }
    exists m'. split; [exact HR|]. split; [exact HT|]. split; [|split].
    + intros p P Hp. eapply me_good_same; [|apply M0; assumption]. symmetry. apply (HS (LMe p)). intros; discriminate.
    + intros p P Hp. destruct (Nat.eq_dec (length p) k) as [Ek|NE].
      * destruct (HO (mk p)) as [mf [Hmf Hs]]; [apply Hns; exists p; auto|].
        eapply le_good_same; [|exact Hmf]. symmetry. exact Hs.
      * eapply le_good_same; [symmetry; apply UN; exact NE|]. apply L0; [exact P|].
        destruct Hp as [Hp|Hp]; [left; exact Hp|]. apply in_app_iff in Hp. destruct Hp as [Hp|[Hp|[]]]; [right; exact Hp|congruence].
    + intros p P Hp. unfold le_zero. rewrite UN; [apply Z0; [exact P|]|]; intros X; apply Hp; apply in_app_iff; [left; exact X|right; left; auto].
Qed.

(** *** All passes *)
Definition mem_good (m : mem) : Prop :=
  m_tb m = tb /\ (forall p, present p -> refined p = false \/ (2 <= length p)%nat -> me_good m p) /\
  (forall p, present p -> (length p <= 1)%nat \/ refined p = false \/ (length p < h)%nat -> le_good m p).

Theorem passes_good : (1 <= h)%nat ->
  exists m', mem_good m' /\ forall r, passes_result (regions o d t ls) (mem0 o t tb0) r <-> r = Ok m'.
Proof.
  intros Hh1. unfold regions.
  set (g2 := map (fun i => map (it_m2m o d t) (nth i (at_nodes t) [])) (rev (seq 2 (at_height t - 2)))).
  set (g3 := map (fun i => map (it_local o t ls) (nth i (at_nodes t) [] ++ nth i (at_leaves t) [])) (seq 2 (at_height t - 2))).
  set (g4 := [map (it_local o t ls) (nth (at_height t) (at_leaves t) [])]).
  assert (NL : forall k, (k <= h)%nat -> nth k (at_leaves t) [] = leaf_level d pos c l cap srcs rr k).
  { intros k Hk. unfold spec_tree; cbn [at_leaves].
    rewrite (nth_indep _ [] (leaf_level d pos c l cap srcs rr 0)) by (rewrite map_length, seq_length; lia).
    rewrite map_nth, seq_nth by lia. reflexivity. }
  assert (NI : forall k, (k < h)%nat -> nth k (at_nodes t) [] = inner_level d pos c l cap srcs rr k).
  { intros k Hk. unfold spec_tree; cbn [at_nodes].
    rewrite (nth_indep _ [] (inner_level d pos c l cap srcs rr 0)) by (rewrite map_length, seq_length; lia).
    rewrite map_nth, seq_nth by lia. reflexivity. }
  assert (HH : at_height t = h) by reflexivity.
  (* leaf expansions *)
  destruct (passes_chain (fun k => map (it_p2m o) (leaf_level d pos c l cap srcs rr k)) P1 (seq 0 (S h)) (g2 ++ g3 ++ g4) (mem0 o t tb0))
    as (m1 & G1 & R1).
  { intros pre k rest m _ HP. apply p2m_region. exact HP. }
  { split; [exact Htb|]. split; [intros q; reflexivity|]. intros p _ _ []. }
  assert (E1 : map (fun level => map (it_p2m o) level) (at_leaves t) = map (fun k => map (it_p2m o) (leaf_level d pos c l cap srcs rr k)) (seq 0 (S h))).
  { unfold spec_tree; cbn [at_leaves]. rewrite map_map. reflexivity. }
  rewrite E1. clear E1.
  (* merging *)
  destruct (passes_chain (fun k => map (it_m2m o d t) (nth k (at_nodes t) [])) P2 (rev (seq 2 (at_height t - 2))) (g3 ++ g4) m1)
    as (m2 & G2 & R2).
  { intros pre k rest m Ek HP. rewrite HH in Ek. apply rev_seq_split in Ek. destruct Ek as [Ek1 Ek2].
    rewrite NI by lia. apply m2m_region; [lia| |exact HP]. intros j Hj. apply Ek2. lia. }
  { destruct G1 as (T1 & L1 & M1). split; [exact T1|]. split; [exact L1|]. split.
    - intros p P N. apply M1; [exact P|exact N|]. apply in_seq. assert (Dp := present_depth _ _ _ _ _ _ _ _ Hh p P). lia.
    - intros p _ _ []. }
  (* local expansions *)
  destruct (passes_chain (fun k => map (it_local o t ls) (nth k (at_nodes t) [] ++ nth k (at_leaves t) [])) P3 (seq 2 (at_height t - 2)) g4 m2)
    as (m3 & G3 & R3).
  { intros pre k rest m Ek HP. rewrite HH in Ek. apply seq_split in Ek. destruct Ek as [Ek1 Ek2].
    rewrite NI, NL by lia. apply local_region; [lia| | | | |exact HP].
    - destruct (le_lt_dec (k - 1) 1); [left; lia|right; apply Ek2; lia].
    - rewrite Ek2. lia.
    - rewrite map_app. unfold inner_level, leaf_level. rewrite !map_addr_mk. apply NoDup_app_intro.
      + apply NoDup_filter, level_NoDup.
      + apply NoDup_filter, level_NoDup.
      + intros x X1 X2. apply filter_In in X1. apply filter_In in X2. destruct X1 as [_ X1]. destruct X2 as [_ X2].
        rewrite X1 in X2. discriminate.
    - intros n. rewrite in_app_iff, inner_level_in, leaf_level_in. split.
      + intros [(p & X)|(p & X)]; exists p; tauto.
      + intros (p & X). destruct (refined p) eqn:Rp; [left|right]; exists p; tauto. }
  { destruct G2 as (T2 & L2 & M2 & M2'). split; [exact T2|]. split; [|split].
    - intros p P [N|N]; [apply M2; assumption|]. destruct (refined p) eqn:Rp; [|apply M2; assumption].
      apply M2'; [exact P|exact Rp|]. apply -> in_rev. apply in_seq. assert (Dp := refined_depth _ _ _ _ _ _ _ _ Hh p P Rp). lia.
    - intros p P [Hp|[]]. apply zero_good; [exact P|exact Hp|]. unfold le_zero. rewrite L2. cbn [mem0 m_le].
      rewrite (lookup_mk d pos c l cap srcs rr h Hh p P). reflexivity.
    - intros p P _. unfold le_zero. rewrite L2. cbn [mem0 m_le].
      rewrite (lookup_mk d pos c l cap srcs rr h Hh p P). reflexivity. }
  (* last level *)
  destruct (passes_chain (fun k => map (it_local o t ls) (nth k (at_leaves t) [])) (fun done => P3 (seq 2 (at_height t - 2) ++ done)) [h] [] m3)
    as (m4 & G4 & R4).
  { intros pre k rest m Ek HP. destruct pre as [|? [|]]; try discriminate. injection Ek as Ek _. subst k. rewrite app_nil_r in HP. cbn [app].
    rewrite NL by lia. apply local_region; [lia| | | | |exact HP].
    - rewrite HH. destruct (le_lt_dec (h - 1) 1); [left; lia|right; apply in_seq; lia].
    - rewrite HH, in_seq. lia.
    - apply leaf_level_NoDup.
    - intros n. rewrite leaf_level_in. split.
      + intros (p & X). exists p; tauto.
      + intros (p & X1 & X2 & X3). exists p. split; [exact X1|]. split; [exact X2|]. split; [exact X3|].
        destruct (refined p) eqn:Rp; [|reflexivity]. assert (Dp := refined_depth _ _ _ _ _ _ _ _ Hh p X2 Rp). lia. }
  { rewrite app_nil_r. exact G3. }
  exists m4. split.
  - destruct G4 as (T4 & M4 & L4 & _). split; [exact T4|]. split; [exact M4|].
    intros p P Hp. apply L4; [exact P|]. assert (Dp := present_depth _ _ _ _ _ _ _ _ Hh p P).
    destruct (le_lt_dec (length p) 1) as [|G]; [left; assumption|right]. rewrite HH. apply in_app_iff.
    destruct (Nat.eq_dec (length p) h) as [Eh|]; [right; left; auto|left]. apply in_seq. lia.
  - intros r. fold g2 g3 g4. rewrite R1. unfold g2. rewrite R2. unfold g3. rewrite R3. unfold g4. rewrite HH.
    change [map (it_local o t ls) (nth h (at_leaves t) [])] with (map (fun k => map (it_local o t ls) (nth k (at_leaves t) [])) [h]).
    rewrite <- (app_nil_r (map _ [h])), R4. split.
    + intros H. inversion H. reflexivity.
    + intros ->. constructor.
Qed.
End Spec.
