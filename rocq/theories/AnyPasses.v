(** The passes of the adaptive tree for any arithmetic of the tree and any operations on expansions: if every operation keeps
    given predicates on the expansions of the boxes, all schedules end in the same memory, which satisfies them. *)
From Coq Require Import List Bool ZArith Arith Lia Reals Permutation.
From Verif Require Import Num Outcome Vec Orthtree AdaptiveTree TreeSpec GeometryProofs AdaptiveProofs BfsProofs ListProofs ListContents
  BuildProofs Schedule Fields FmmPasses PassProofs PassSteps PassTree PassSpec AnyTree AnyLists.
Import ListNotations.
Local Open Scope nat_scope.

Section Any.
Context {ME LE Tb : Type}.
Variable o : ops ME LE Tb.
Context {NN : Num R}.
Variable d : nat.
Variables tb0 tb : Tb.
Hypothesis Htb : snd (o_zero o tb0 []) = tb.
Variable c : list R.
Variable l : R.
Variable cap : nat.
Variable srcs : list (psrc R).
Variable rr : rule.
Variable h : nat.
(** The positions that decide in which boxes a source is. *)
Variable pos : psrc R -> list R.
Notation refined := (@AnyTree.refined R (psrc R) NN d pos c l cap srcs rr).
Notation present := (@AnyTree.present R (psrc R) NN d pos c l cap srcs rr).
Notation level := (@AnyTree.level R (psrc R) NN d pos c l cap srcs rr).
Notation inner_level := (@AnyTree.inner_level R (psrc R) NN d pos c l cap srcs rr).
Notation leaf_level := (@AnyTree.leaf_level R (psrc R) NN d pos c l cap srcs rr).
Notation mk := (@AnyTree.mk R (psrc R) NN d pos c l cap srcs rr).
Notation sub := (@AnyTree.sub R (psrc R) NN d pos c l srcs).
Notation ctr := (@AnyTree.ctr R NN d c l).
Notation t := (@AnyTree.spec_tree R (psrc R) NN d pos c l cap srcs rr h).
Variable ls : nlists.
Hypothesis Hh : @AnyTree.height_ok R (psrc R) NN d pos c l cap srcs rr h.
Hypothesis Hdeep : forall p q, present p -> In q (nl_inter ls p) -> present q /\ 2 <= length q.
Hypothesis HX : forall p q, present p -> In q (nl_X ls p) -> present q /\ refined q = false.

Notation mem := (@mem ME LE Tb).
Variable MEok : addr -> ME -> Prop.
Variable LEok : addr -> LE -> Prop.
Variable Part : addr -> list addr -> list addr -> LE -> Prop.
Notation zero p := (fst (o_zero o tb0 (ctr p))).
Hypothesis H_p2m : forall p, present p -> refined p = false ->
  exists e, o_p2m o tb (ctr p) (sub p) = Ok (e, tb) /\ MEok p e.
Hypothesis H_m2m : forall p es, present p -> refined p = true -> 2 <= length p -> Forall2 MEok (kids d p) es ->
  exists e, o_m2m o tb (ctr p) es = Ok (e, tb) /\ MEok p e.
Hypothesis H_zero : forall p, present p -> length p <= 1 -> LEok p (zero p).
Hypothesis H_size : forall p e, LEok p e -> o_size o e <> 0.
Hypothesis H_l2l : forall i p pe, present (i :: p) -> LEok p pe ->
  exists e s, o_l2l o tb (ctr (i :: p)) pe = Ok (e, tb) /\ o_add o (zero (i :: p)) e = Ok s /\ Part (i :: p) [] [] s.
Hypothesis H_m2l : forall p es s, present p -> nl_inter ls p <> [] -> Forall2 MEok (nl_inter ls p) es -> Part p [] [] s ->
  exists e s', o_m2l o tb (ctr p) es = Ok (e, tb) /\ o_add o s e = Ok s' /\ Part p (nl_inter ls p) [] s'.
Hypothesis H_p2l : forall p xs q ys s, present p -> nl_X ls p = xs ++ q :: ys -> Part p (nl_inter ls p) xs s ->
  exists e s', o_p2l o tb (ctr p) (sub q) = Ok (e, tb) /\ o_add o s e = Ok s' /\ Part p (nl_inter ls p) (xs ++ [q]) s'.
Hypothesis H_done : forall p s, present p -> Part p (nl_inter ls p) (nl_X ls p) s -> LEok p s.

Definition me_good (m : mem) (p : addr) : Prop := exists e, m_me m p = Some e /\ MEok p e.
Definition le_good (m : mem) (p : addr) : Prop := exists e, m_le m p = Some e /\ LEok p e.
Definition le_zero (m : mem) (p : addr) : Prop := m_le m p = Some (zero p).
Lemma zero_good m p : present p -> length p <= 1 -> le_zero m p -> le_good m p.
Proof. intros P Hp Z. eexists. split; [exact Z|]. apply H_zero; assumption. Qed.

(** *** Leaf expansions *)
Definition same_le (m m' : mem) : Prop := forall q, m_le m q = m_le m' q.

Definition P1 (done : list nat) (m : mem) : Prop :=
  m_tb m = tb /\ same_le m (mem0 o t tb0) /\ forall p, present p -> refined p = false -> In (length p) done -> me_good m p.

Lemma leaf_level_in k n : In n (leaf_level k) <-> exists p, n = mk p /\ present p /\ length p = k /\ refined p = false.
Proof.
  unfold AnyTree.leaf_level. rewrite in_map_iff. split.
  - intros (p & <- & H). apply filter_In in H. destruct H as [H N]. apply AnyTree.in_level in H. apply negb_true_iff in N. exists p. tauto.
  - intros (p & -> & P & Hk & N). exists p. split; [reflexivity|]. apply filter_In. split; [apply AnyTree.in_level; auto|]. rewrite N. reflexivity.
Qed.
Lemma inner_level_in k n : In n (inner_level k) <-> exists p, n = mk p /\ present p /\ length p = k /\ refined p = true.
Proof.
  unfold AnyTree.inner_level. rewrite in_map_iff. split.
  - intros (p & <- & H). apply filter_In in H. destruct H as [H N]. apply AnyTree.in_level in H. exists p. tauto.
  - intros (p & -> & P & Hk & N). exists p. split; [reflexivity|]. apply filter_In. split; [apply AnyTree.in_level; auto|]. exact N.
Qed.
Lemma map_addr_mk ps : map an_addr (map mk ps) = ps.
Proof. rewrite map_map. apply map_id. Qed.
Lemma leaf_level_NoDup k : NoDup (map an_addr (leaf_level k)).
Proof. unfold AnyTree.leaf_level. rewrite map_addr_mk. apply NoDup_filter. apply AnyTree.level_NoDup. Qed.
Lemma inner_level_NoDup k : NoDup (map an_addr (inner_level k)).
Proof. unfold AnyTree.inner_level. rewrite map_addr_mk. apply NoDup_filter. apply AnyTree.level_NoDup. Qed.
Lemma NoDup_own_me (ns : list (@anode R (psrc R))) : NoDup (map an_addr ns) -> NoDup (map (fun n => LMe (an_addr n)) ns).
Proof. intros H. rewrite <- (map_map an_addr LMe). apply FinFun.Injective_map_NoDup; [|exact H]. intros a b X. congruence. Qed.
Lemma NoDup_own_le (ns : list (@anode R (psrc R))) : NoDup (map an_addr ns) -> NoDup (map (fun n => LLe (an_addr n)) ns).
Proof. intros H. rewrite <- (map_map an_addr LLe). apply FinFun.Injective_map_NoDup; [|exact H]. intros a b X. congruence. Qed.

Lemma me_good_same m m' p : m_me m p = m_me m' p -> me_good m p -> me_good m' p.
Proof. intros Q (e & A & B). exists e. rewrite <- Q. auto. Qed.
Lemma le_good_same m m' p : m_le m p = m_le m' p -> le_good m p -> le_good m' p.
Proof. intros Q (e & A & B). exists e. rewrite <- Q. auto. Qed.

Lemma p2m_region k done m : P1 done m ->
  exists m', (forall r, region_result (map (it_p2m o) (leaf_level k)) m r <-> r = Ok m') /\ P1 (done ++ [k]) m'.
Proof.
  intros (T0 & L0 & G0).
  destruct (region_deterministic tb (leaf_level k) (it_p2m o) (fun n => LMe (an_addr n)) (fun _ _ => False)
     (fun n mf => me_good mf (an_addr n)) m) as [m' (HR & HT & HO & HS)].
  - apply NoDup_own_me, leaf_level_NoDup.
  - tauto.
  - intros n _. apply it_p2m_ok.
  - intros n Hn. apply leaf_level_in in Hn. destruct Hn as (p & -> & P & Hk & N).
    destruct (H_p2m p P N) as [e [He Hme]].
    eexists _, _. split.
    + apply alone_one.
      * unfold st_p2m. cbn [fst snd]. rewrite T0. change (an_center (mk p)) with (ctr p).
        replace (an_srcs (mk p)) with (sub p) by (unfold AnyTree.mk; cbn [an_srcs]; rewrite N; reflexivity).
        rewrite He. cbn [bind fst snd]. reflexivity.
      * reflexivity.
    + exists e. split; [|exact Hme].
      cbn [m_me set_me set_tb]. change (an_addr (mk p)) with p. rewrite addr_eqb_refl. reflexivity.
  - exact T0.
  - exists m'. split; [exact HR|]. split; [exact HT|]. split.
    + intros q. rewrite <- L0. apply (HS (LLe q)). intros; discriminate.
    + intros p P N Hp. apply in_app_iff in Hp. destruct (Nat.eq_dec (length p) k) as [Ek|NE].
      * destruct (HO (mk p)) as [mf [Hmf Hs]]; [apply leaf_level_in; exists p; auto|].
        eapply me_good_same; [|exact Hmf]. symmetry. exact Hs.
      * destruct Hp as [Hp|[Hp|[]]]; [|congruence]. eapply me_good_same; [|apply G0; assumption].
        symmetry. apply (HS (LMe p)). intros n Hn. apply leaf_level_in in Hn. destruct Hn as (q & -> & _ & Hq & _).
        change (an_addr (mk q)) with q. congruence.
Qed.

(** *** Merging *)
Definition P2 (done : list nat) (m : mem) : Prop :=
  m_tb m = tb /\ same_le m (mem0 o t tb0) /\ (forall p, present p -> refined p = false -> me_good m p) /\
  forall p, present p -> refined p = true -> In (length p) done -> me_good m p.

Lemma good_list m qs : (forall q, In q qs -> me_good m q) ->
  exists es, Forall2 (fun q e => m_me m q = Some e) qs es /\ Forall2 MEok qs es.
Proof.
  induction qs as [|q qs IH]; intros H.
  - exists []. split; constructor.
  - destruct IH as (es & A & B); [intros; apply H; right; assumption|].
    destruct (H q (or_introl eq_refl)) as (e & He & Hme). exists (e :: es). split; constructor; assumption.
Qed.

Lemma m2m_region k done m : (2 <= k < h)%nat -> (forall j, (k < j < h)%nat -> In j done) -> P2 done m ->
  exists m', (forall r, region_result (map (it_m2m o d t) (inner_level k)) m r <-> r = Ok m') /\ P2 (done ++ [k]) m'.
Proof.
  intros Hk Hdone (T0 & L0 & G0 & G1).
  assert (CH : forall p, present p -> refined p = true -> length p = k -> children d t p = kids d p).
  { intros p P Rp _. rewrite (@AnyTree.children_eq R (psrc R) NN d pos c l cap srcs rr h Hh p P), Rp. reflexivity. }
  destruct (region_deterministic tb (inner_level k) (it_m2m o d t) (fun n => LMe (an_addr n))
     (fun n x => exists q, In q (children d t (an_addr n)) /\ x = LMe q)
     (fun n mf => me_good mf (an_addr n)) m) as [m' (HR & HT & HO & HS)].
  - apply NoDup_own_me, inner_level_NoDup.
  - intros a b Ha Hb _ (q & Hq & Eq). apply inner_level_in in Ha. destruct Ha as (p & -> & P & Hp & Rp).
    apply inner_level_in in Hb. destruct Hb as (p' & -> & P' & Hp' & Rp').
    change (an_addr (mk p)) with p in Hq. change (an_addr (mk p')) with p' in Eq.
    rewrite CH in Hq by assumption. apply kids_inv in Hq. destruct Hq as (i & _ & ->).
    injection Eq as ->. simpl in Hp'. lia.
  - intros n Hn. apply it_m2m_ok. intros q Hq. exists q. auto.
  - intros n Hn. apply inner_level_in in Hn. destruct Hn as (p & -> & P & Hp & Rp).
    assert (KG : forall q, In q (kids d p) -> me_good m q).
    { intros q Hq. apply kids_inv in Hq. destruct Hq as (i & Hi & ->).
      assert (Pq : present (i :: p)) by (simpl; auto).
      destruct (refined (i :: p)) eqn:Rq; [|apply G0; assumption].
      apply G1; [assumption|assumption|]. apply Hdone.
      assert (D := @AnyTree.refined_depth R (psrc R) NN d pos c l cap srcs rr h Hh _ Pq Rq). simpl in D |- *. lia. }
    destruct (good_list m (kids d p) KG) as (es & A & B).
    destruct (H_m2m p es P Rp ltac:(lia) B) as [e [He Hme]].
    eexists _, _. split.
    + unfold it_m2m. change (an_addr (mk p)) with p. rewrite CH by assumption. eapply alone_app.
      * apply alone_reads; [exact T0|exact A].
      * apply alone_one.
        -- unfold st_m2m. cbn [fst snd lc_mes]. rewrite T0. change (an_center (mk p)) with (ctr p). cbn [no_locals lc_mes app].
           rewrite He. cbn [bind fst snd]. reflexivity.
        -- reflexivity.
    + exists e. split; [|exact Hme].
      cbn [m_me set_me set_tb]. change (an_addr (mk p)) with p. rewrite addr_eqb_refl. reflexivity.
  - exact T0.
  - assert (UN : forall p, ~ (present p /\ length p = k /\ refined p = true) -> m_me m' p = m_me m p).
    { intros p Hp. apply (HS (LMe p)). intros n Hn. apply inner_level_in in Hn. destruct Hn as (q & -> & Pq & Hq & Rq).
      change (an_addr (mk q)) with q. intros Ex. injection Ex as ->. apply Hp. auto. }
    exists m'. split; [exact HR|]. split; [exact HT|]. split; [|split].
    + intros q. rewrite <- L0. apply (HS (LLe q)). intros; discriminate.
    + intros p P N. eapply me_good_same; [|apply G0; assumption]. symmetry. apply UN. intros (_ & _ & X). congruence.
    + intros p P Rp Hp. apply in_app_iff in Hp. destruct (Nat.eq_dec (length p) k) as [Ek|NE].
      * destruct (HO (mk p)) as [mf [Hmf Hs]]; [apply inner_level_in; exists p; auto|].
        eapply me_good_same; [|exact Hmf]. symmetry. exact Hs.
      * destruct Hp as [Hp|[Hp|[]]]; [|congruence]. eapply me_good_same; [|apply G1; assumption].
        symmetry. apply UN. tauto.
Qed.

(** *** Local expansions *)
Definition P3 (done : list nat) (m : mem) : Prop :=
  m_tb m = tb /\ (forall p, present p -> refined p = false \/ (2 <= length p)%nat -> me_good m p) /\
  (forall p, present p -> (length p <= 1)%nat \/ In (length p) done -> le_good m p) /\
  (forall p, present p -> ~ In (length p) done -> le_zero m p).

Definition acc (m : mem) (p : addr) (vs xs : list addr) : Prop := exists e, m_le m p = Some e /\ Part p vs xs e.
Lemma set_tb_same (m : mem) : m_tb m = tb -> set_tb m tb = m.
Proof. intros H. destruct m; cbn in *. subst. reflexivity. Qed.

Lemma p2l_chain p qs m lc xs : m_tb m = tb -> present p -> nl_X ls p = xs ++ qs -> acc m p (nl_inter ls p) xs ->
  exists m', alone tb (map (st_p2l o t (mk p)) qs) (m, lc) (m', lc) /\ acc m' p (nl_inter ls p) (nl_X ls p).
Proof.
  intros T P. revert m xs T. induction qs as [|q qs IH]; intros m xs T EX HA.
  - exists m. split; [constructor|]. rewrite app_nil_r in EX. rewrite EX. exact HA.
  - destruct (HX p q P) as [Pq Rq]; [rewrite EX; apply in_or_app; right; left; reflexivity|].
    destruct HA as (u & Hu & Hpart). destruct (H_p2l p xs q qs u P EX Hpart) as (e & s & He & Hs & Hpart').
    destruct (IH (set_le m p s) (xs ++ [q])) as (m' & Hal & HA3); [exact T|rewrite <- app_assoc; exact EX| |].
    { exists s. split; [rewrite le_set_le, addr_eqb_refl; reflexivity|exact Hpart']. }
    exists m'. split; [|exact HA3].
    cbn [map]. eapply (al_cons tb _ _ _ (set_le m p s, lc)); [|exact T|exact Hal].
    unfold st_p2l. cbn [fst snd]. rewrite (@AnyTree.lookup_mk R (psrc R) NN d pos c l cap srcs rr h Hh q Pq). cbn [of_option bind].
    replace (an_leaf (mk q)) with true by (unfold AnyTree.mk; cbn [an_leaf]; rewrite Rq; reflexivity).
    replace (an_srcs (mk q)) with (sub q) by (unfold AnyTree.mk; cbn [an_srcs]; rewrite Rq; reflexivity).
    rewrite T. change (an_center (mk p)) with (ctr p). rewrite He. cbn [bind fst snd].
    change (an_addr (mk p)) with p. rewrite set_tb_same by exact T. rewrite (add_le_do o m p e u s Hu Hs). reflexivity.
Qed.

Lemma local_alone i p m : present (i :: p) -> m_tb m = tb ->
  (forall q, present q -> refined q = false \/ (2 <= length q)%nat -> me_good m q) -> le_good m p -> le_zero m (i :: p) ->
  exists mf lf, alone tb (it_local o t ls (mk (i :: p))) (m, no_locals) (mf, lf) /\ le_good mf (i :: p).
Proof.
  intros P T HM HP HZ. destruct HP as (pe & Hpe & Wpe).
  destruct (H_l2l i p pe P Wpe) as (e1 & s1 & He1 & Hs1 & A1).
  assert (Hs1' := add_le_do o m (i :: p) e1 _ s1 HZ Hs1).
  set (m1 := set_le m (i :: p) s1) in *.
  assert (T1 : m_tb m1 = tb) by exact T.
  assert (L1 : m_le m1 (i :: p) = Some s1) by (unfold m1; rewrite le_set_le, addr_eqb_refl; reflexivity).
  assert (VG : forall q, In q (nl_inter ls (i :: p)) -> me_good m1 q).
  { intros q Hq. destruct (Hdeep _ _ P Hq) as [Pq Dq]. apply (HM q Pq). right. exact Dq. }
  destruct (good_list m1 _ VG) as (es & A & B).
  assert (MSTEP : exists m2, st_m2l o (mk (i :: p)) (m1, Locals es (Some e1)) = Ok (m2, Locals es (Some e1)) /\
     m_tb m2 = tb /\ acc m2 (i :: p) (nl_inter ls (i :: p)) []).
  { destruct es as [|e0 es0] eqn:Ep.
    - assert (Ev : nl_inter ls (i :: p) = []) by (inversion A; reflexivity).
      exists m1. split; [reflexivity|]. split; [exact T1|]. rewrite Ev. exists s1. split; assumption.
    - rewrite <- Ep in *. destruct (H_m2l (i :: p) es s1 P) as (e & s2 & He & Hs2 & A2).
      + intros Z. rewrite Z in A. inversion A. congruence.
      + exact B.
      + exact A1.
      + exists (set_le m1 (i :: p) s2). split; [|split; [exact T1|]].
        * unfold st_m2l. cbn [fst snd lc_mes]. rewrite Ep. rewrite <- Ep. rewrite T1. change (an_center (mk (i :: p))) with (ctr (i :: p)).
          rewrite He. cbn [bind fst snd]. rewrite set_tb_same by exact T1. change (an_addr (mk (i :: p))) with (i :: p).
          rewrite (add_le_do o m1 (i :: p) e s1 s2 L1 Hs2). reflexivity.
        * exists s2. split; [rewrite le_set_le, addr_eqb_refl; reflexivity|exact A2]. }
  destruct MSTEP as (m2 & HS2 & T2 & A2).
  destruct (p2l_chain (i :: p) (nl_X ls (i :: p)) m2 (Locals es (Some e1)) [] T2 P eq_refl A2) as (m3 & HS3 & A3).
  exists m3, (Locals es (Some e1)). split.
  - unfold it_local. eapply alone_app; [|eapply alone_app; [|eapply alone_app]].
    + eapply (al_cons tb _ _ _ (m, Locals [] (Some e1))); [|exact T|apply alone_one].
      * unfold st_l2l. change (an_addr (mk (i :: p))) with (i :: p). cbn [fst snd]. rewrite Hpe. cbn [of_option bind].
        destruct (Nat.eqb_spec (o_size o pe) 0) as [Z|_]; [exfalso; apply (H_size _ _ Wpe Z)|].
        rewrite T. change (an_center (mk (i :: p))) with (ctr (i :: p)). rewrite He1. cbn [bind fst snd]. rewrite set_tb_same by exact T. reflexivity.
      * unfold st_add. cbn [fst snd lc_le of_option bind]. change (an_addr (mk (i :: p))) with (i :: p). rewrite Hs1'. cbn [bind]. reflexivity.
      * exact T.
    + apply alone_reads; [exact T1|]. exact A.
    + cbn [lc_mes lc_le app]. apply alone_one; [exact HS2|exact T2].
    + exact HS3.
  - destruct A3 as (s & Hs & Hp). exists s. split; [exact Hs|]. apply H_done; assumption.
Qed.

Lemma local_region k done ns m : (1 <= k)%nat -> ((k - 1 <= 1)%nat \/ In (k - 1)%nat done) -> ~ In k done ->
  NoDup (map an_addr ns) -> (forall n, In n ns <-> exists p, n = mk p /\ present p /\ length p = k) -> P3 done m ->
  exists m', (forall r, region_result (map (it_local o t ls) ns) m r <-> r = Ok m') /\ P3 (done ++ [k]) m'.
Proof.
  intros Hk Hpar Hnew ND Hns (T0 & M0 & L0 & Z0).
  destruct (region_deterministic tb ns (it_local o t ls) (fun n => LLe (an_addr n))
     (fun n x => match x with LMe _ => True | LLe q => exists i, an_addr n = i :: q end)
     (fun n mf => le_good mf (an_addr n)) m) as [m' (HR & HT & HO & HS)].
  - apply NoDup_own_le. exact ND.
  - intros a b Ha Hb _ (i & Hq). apply Hns in Ha. destruct Ha as (p & -> & P & Hp).
    apply Hns in Hb. destruct Hb as (p' & -> & P' & Hp').
    change (an_addr (mk p)) with p in Hq. change (an_addr (mk p')) with p' in Hq. subst p. simpl in Hp. lia.
  - intros n Hn. apply Hns in Hn. destruct Hn as (p & -> & P & Hp). destruct p as [|i p]; [simpl in Hp; lia|].
    eapply it_local_ok; [reflexivity|exists i; reflexivity|intros; exact Logic.I].
  - intros n Hn. apply Hns in Hn. destruct Hn as (p & -> & P & Hp). destruct p as [|i p]; [simpl in Hp; lia|].
    change (an_addr (mk (i :: p))) with (i :: p). apply local_alone; [exact P|exact T0|exact M0| |].
    + apply L0; [apply P|]. simpl in Hp. replace (length p) with (k - 1)%nat by lia. exact Hpar.
    + apply Z0; [exact P|]. rewrite Hp. exact Hnew.
  - exact T0.
  - assert (UN : forall p, length p <> k -> m_le m' p = m_le m p).
    { intros p Hp. apply (HS (LLe p)). intros n Hn. apply Hns in Hn. destruct Hn as (q & -> & Pq & Hq).
      change (an_addr (mk q)) with q. intros Ex. injection Ex as ->. contradiction. }
    exists m'. split; [exact HR|]. split; [exact HT|]. split; [|split].
    + intros p P Hp. eapply me_good_same; [|apply M0; assumption]. symmetry. apply (HS (LMe p)). intros; discriminate.
    + intros p P Hp. destruct (Nat.eq_dec (length p) k) as [Ek|NE].
      * destruct (HO (mk p)) as [mf [Hmf Hs]]; [apply Hns; exists p; auto|].
        eapply le_good_same; [|exact Hmf]. symmetry. exact Hs.
      * eapply le_good_same; [symmetry; apply UN; exact NE|]. apply L0; [exact P|].
        destruct Hp as [Hp|Hp]; [left; exact Hp|]. apply in_app_iff in Hp. destruct Hp as [Hp|[Hp|[]]]; [right; exact Hp|congruence].
    + intros p P Hp. unfold le_zero. rewrite UN; [apply Z0; [exact P|]|]; intros X; apply Hp; apply in_app_iff; [left; exact X|right; left; auto].
Qed.

(** *** All passes *)
Definition mem_good (m : mem) : Prop :=
  m_tb m = tb /\ (forall p, present p -> refined p = false \/ (2 <= length p)%nat -> me_good m p) /\
  (forall p, present p -> (length p <= 1)%nat \/ refined p = false \/ (length p < h)%nat -> le_good m p).

Theorem passes_good : (1 <= h)%nat ->
  exists m', mem_good m' /\ forall r, passes_result (regions o d t ls) (mem0 o t tb0) r <-> r = Ok m'.
Proof.
  intros Hh1. unfold regions.
  set (g2 := map (fun i => map (it_m2m o d t) (nth i (at_nodes t) [])) (rev (seq 2 (at_height t - 2)))).
  set (g3 := map (fun i => map (it_local o t ls) (nth i (at_nodes t) [] ++ nth i (at_leaves t) [])) (seq 2 (at_height t - 2))).
  set (g4 := [map (it_local o t ls) (nth (at_height t) (at_leaves t) [])]).
  assert (NL : forall k, (k <= h)%nat -> nth k (at_leaves t) [] = leaf_level k).
  { intros k Hk. unfold AnyTree.spec_tree; cbn [at_leaves].
    rewrite (nth_indep _ [] (leaf_level 0)) by (rewrite map_length, seq_length; lia).
    rewrite map_nth, seq_nth by lia. reflexivity. }
  assert (NI : forall k, (k < h)%nat -> nth k (at_nodes t) [] = inner_level k).
  { intros k Hk. unfold AnyTree.spec_tree; cbn [at_nodes].
    rewrite (nth_indep _ [] (inner_level 0)) by (rewrite map_length, seq_length; lia).
    rewrite map_nth, seq_nth by lia. reflexivity. }
  assert (HH : at_height t = h) by reflexivity.
  (* leaf expansions *)
  destruct (passes_chain (fun k => map (it_p2m o) (leaf_level k)) P1 (seq 0 (S h)) (g2 ++ g3 ++ g4) (mem0 o t tb0))
    as (m1 & G1 & R1).
  { intros pre k rest m _ HP. apply p2m_region. exact HP. }
  { split; [exact Htb|]. split; [intros q; reflexivity|]. intros p _ _ []. }
  assert (E1 : map (fun level => map (it_p2m o) level) (at_leaves t) = map (fun k => map (it_p2m o) (leaf_level k)) (seq 0 (S h))).
  { unfold AnyTree.spec_tree; cbn [at_leaves]. rewrite map_map. reflexivity. }
  rewrite E1. clear E1.
  (* merging *)
  destruct (passes_chain (fun k => map (it_m2m o d t) (nth k (at_nodes t) [])) P2 (rev (seq 2 (at_height t - 2))) (g3 ++ g4) m1)
    as (m2 & G2 & R2).
  { intros pre k rest m Ek HP. rewrite HH in Ek. apply rev_seq_split in Ek. destruct Ek as [Ek1 Ek2].
    rewrite NI by lia. apply m2m_region; [lia| |exact HP]. intros j Hj. apply Ek2. lia. }
  { destruct G1 as (T1 & L1 & M1). split; [exact T1|]. split; [exact L1|]. split.
    - intros p P N. apply M1; [exact P|exact N|]. apply in_seq. assert (Dp := @AnyTree.present_depth R (psrc R) NN d pos c l cap srcs rr h Hh p P). lia.
    - intros p _ _ []. }
  (* local expansions *)
  destruct (passes_chain (fun k => map (it_local o t ls) (nth k (at_nodes t) [] ++ nth k (at_leaves t) [])) P3 (seq 2 (at_height t - 2)) g4 m2)
    as (m3 & G3 & R3).
  { intros pre k rest m Ek HP. rewrite HH in Ek. apply seq_split in Ek. destruct Ek as [Ek1 Ek2].
    rewrite NI, NL by lia. apply local_region; [lia| | | | |exact HP].
    - destruct (le_lt_dec (k - 1) 1); [left; lia|right; apply Ek2; lia].
    - rewrite Ek2. lia.
    - rewrite map_app. unfold AnyTree.inner_level, AnyTree.leaf_level. rewrite !map_addr_mk. apply NoDup_app_intro.
      + apply NoDup_filter, AnyTree.level_NoDup.
      + apply NoDup_filter, AnyTree.level_NoDup.
      + intros x X1 X2. apply filter_In in X1. apply filter_In in X2. destruct X1 as [_ X1]. destruct X2 as [_ X2].
        rewrite X1 in X2. discriminate.
    - intros n. rewrite in_app_iff, inner_level_in, leaf_level_in. split.
      + intros [(p & X)|(p & X)]; exists p; tauto.
      + intros (p & X). destruct (refined p) eqn:Rp; [left|right]; exists p; tauto. }
  { destruct G2 as (T2 & L2 & M2 & M2'). split; [exact T2|]. split; [|split].
    - intros p P [N|N]; [apply M2; assumption|]. destruct (refined p) eqn:Rp; [|apply M2; assumption].
      apply M2'; [exact P|exact Rp|]. apply -> in_rev. apply in_seq. assert (Dp := @AnyTree.refined_depth R (psrc R) NN d pos c l cap srcs rr h Hh p P Rp). lia.
    - intros p P [Hp|[]]. apply zero_good; [exact P|exact Hp|]. unfold le_zero. rewrite L2. cbn [mem0 m_le].
      rewrite (@AnyTree.lookup_mk R (psrc R) NN d pos c l cap srcs rr h Hh p P). reflexivity.
    - intros p P _. unfold le_zero. rewrite L2. cbn [mem0 m_le].
      rewrite (@AnyTree.lookup_mk R (psrc R) NN d pos c l cap srcs rr h Hh p P). reflexivity. }
  (* last level *)
  destruct (passes_chain (fun k => map (it_local o t ls) (nth k (at_leaves t) [])) (fun done => P3 (seq 2 (at_height t - 2) ++ done)) [h] [] m3)
    as (m4 & G4 & R4).
  { intros pre k rest m Ek HP. destruct pre as [|? [|]]; try discriminate. injection Ek as Ek _. subst k. rewrite app_nil_r in HP. cbn [app].
    rewrite NL by lia. apply local_region; [lia| | | | |exact HP].
    - rewrite HH. destruct (le_lt_dec (h - 1) 1); [left; lia|right; apply in_seq; lia].
    - rewrite HH, in_seq. lia.
    - apply leaf_level_NoDup.
    - intros n. rewrite leaf_level_in. split.
      + intros (p & X). exists p; tauto.
      + intros (p & X1 & X2 & X3). exists p. split; [exact X1|]. split; [exact X2|]. split; [exact X3|].
        destruct (refined p) eqn:Rp; [|reflexivity]. assert (Dp := @AnyTree.refined_depth R (psrc R) NN d pos c l cap srcs rr h Hh p X2 Rp). lia. }
  { rewrite app_nil_r. exact G3. }
  exists m4. split.
  - destruct G4 as (T4 & M4 & L4 & _). split; [exact T4|]. split; [exact M4|].
    intros p P Hp. apply L4; [exact P|]. assert (Dp := @AnyTree.present_depth R (psrc R) NN d pos c l cap srcs rr h Hh p P).
    destruct (le_lt_dec (length p) 1) as [|G]; [left; assumption|right]. rewrite HH. apply in_app_iff.
    destruct (Nat.eq_dec (length p) h) as [Eh|]; [right; left; auto|left]. apply in_seq. lia.
  - intros r. fold g2 g3 g4. rewrite R1. unfold g2. rewrite R2. unfold g3. rewrite R3. unfold g4. rewrite HH.
    change [map (it_local o t ls) (nth h (at_leaves t) [])] with (map (fun k => map (it_local o t ls) (nth k (at_leaves t) [])) [h]).
    rewrite <- (app_nil_r (map _ [h])), R4. split.
    + intros H. inversion H. reflexivity.
    + intros ->. constructor.
Qed.
End Any.
