(** Every step of the passes writes one location and reads the locations it names. *)
From Coq Require Import List Bool Arith Lia Reals.
From Verif Require Import Outcome Vec AdaptiveTree AdaptiveProofs Schedule FmmPasses PassProofs.
Import ListNotations.

Lemma bind_ok {A B} (x : outcome A) (f : A -> outcome B) b : bind x f = Ok b -> exists a, x = Ok a /\ f a = Ok b.
Proof. destruct x; simpl; intros H; try discriminate. eauto. Qed.
Lemma of_option_ok {A} (x : option A) a : of_option x = Ok a <-> x = Some a.
Proof. destruct x; simpl; split; congruence. Qed.

Section Steps.
Context {ME LE Tb : Type}.
Variable o : ops ME LE Tb.
Variable d : nat.
Notation mem := (@mem ME LE Tb).
Notation step := (@step ME LE Tb).
Notation node := (@anode R (psrc R)).

Lemma me_set_me (m : mem) a e q : m_me (set_me m a e) q = if addr_eqb q a then Some e else m_me m q.
Proof. reflexivity. Qed.
Lemma le_set_le (m : mem) a e q : m_le (set_le m a e) q = if addr_eqb q a then Some e else m_le m q.
Proof. reflexivity. Qed.

Lemma other_me x a (m : mem) e tb : x <> LMe a -> same_at x (set_me (set_tb m tb) a e) m.
Proof.
  intros H. destruct x as [q|q]; simpl; [|reflexivity]. destruct (addr_eqb q a) eqn:E; [|reflexivity].
  apply addr_eqb_eq in E. congruence.
Qed.
Lemma other_le x a (m : mem) e : x <> LLe a -> same_at x (set_le m a e) m.
Proof.
  intros H. destruct x as [q|q]; simpl; [reflexivity|]. destruct (addr_eqb q a) eqn:E; [|reflexivity].
  apply addr_eqb_eq in E. congruence.
Qed.

Lemma ok_read_me (Rd : loc -> Prop) own q : Rd (LMe q) -> step_ok Rd own (@st_read_me ME LE Tb q).
Proof.
  intros HR m l m' l' H. unfold st_read_me in *. cbn [fst snd] in *. apply bind_ok in H. destruct H as [e [He H]].
  assert (m' = m) as -> by congruence. assert (l' = Locals (lc_mes l ++ [e]) (lc_le l)) as -> by congruence.
  split; [intros; apply same_at_refl|]. intros m2 Ht Hs. exists m2.
  pose proof (Hs (LMe q) (or_introl HR)) as Hq. simpl in Hq. rewrite <- Hq, He. simpl. split; [reflexivity|].
  split; [exact Ht|]. apply Hs. right; reflexivity.
Qed.

Lemma ok_p2m (Rd : loc -> Prop) n : step_ok Rd (LMe (an_addr n)) (st_p2m o n).
Proof.
  intros m l m' l' H. unfold st_p2m in *. cbn [fst snd] in *. apply bind_ok in H. destruct H as [[e tb] [He H]]. cbn [fst snd] in *.
  assert (m' = set_me (set_tb m tb) (an_addr n) e) as -> by congruence. assert (l' = l) as -> by congruence.
  split; [intros; apply other_me; assumption|]. intros m2 Ht Hs. rewrite Ht, He. cbn [bind fst snd]. eexists. split; [reflexivity|].
  split; [reflexivity|]. simpl. rewrite addr_eqb_refl. reflexivity.
Qed.
Lemma ok_m2m (Rd : loc -> Prop) n : step_ok Rd (LMe (an_addr n)) (st_m2m o n).
Proof.
  intros m l m' l' H. unfold st_m2m in *. cbn [fst snd] in *. apply bind_ok in H. destruct H as [[e tb] [He H]]. cbn [fst snd] in *.
  assert (m' = set_me (set_tb m tb) (an_addr n) e) as -> by congruence. assert (l' = l) as -> by congruence.
  split; [intros; apply other_me; assumption|]. intros m2 Ht Hs. rewrite Ht, He. cbn [bind fst snd]. eexists. split; [reflexivity|].
  split; [reflexivity|]. simpl. rewrite addr_eqb_refl. reflexivity.
Qed.
Lemma ok_l2l (Rd : loc -> Prop) own n i q : an_addr n = i :: q -> Rd (LLe q) -> step_ok Rd own (st_l2l o n).
Proof.
  intros Ea HR m l m' l' H. unfold st_l2l in *. cbn [fst snd] in *. rewrite Ea in *. apply bind_ok in H. destruct H as [pe [Hpe H]].
  destruct (o_size o pe =? 0) eqn:Es; [discriminate|]. apply bind_ok in H. destruct H as [[e tb] [He H]]. cbn [fst snd] in *.
  assert (m' = set_tb m tb) as -> by congruence. assert (l' = Locals (lc_mes l) (Some e)) as -> by congruence.
  split; [intros x _; destruct x; reflexivity|]. intros m2 Ht Hs.
  pose proof (Hs (LLe q) (or_introl HR)) as Hq. simpl in Hq. rewrite <- Hq, Hpe. cbn [bind]. rewrite Es, Ht, He. cbn [bind fst snd].
  eexists. split; [reflexivity|]. split; [reflexivity|]. specialize (Hs own (or_intror eq_refl)). destruct own; exact Hs.
Qed.
Lemma add_le_inv (m : mem) a e m' : add_le o m a e = Ok m' -> exists u s, m_le m a = Some u /\ o_add o u e = Ok s /\ m' = set_le m a s.
Proof.
  unfold add_le. intros H. apply bind_ok in H. destruct H as [u [Hu H]]. apply bind_ok in H. destruct H as [s [Hs H]].
  apply of_option_ok in Hu. exists u, s. split; [exact Hu|]. split; [exact Hs|]. congruence.
Qed.
Lemma add_le_do (m : mem) a e u s : m_le m a = Some u -> o_add o u e = Ok s -> add_le o m a e = Ok (set_le m a s).
Proof. intros H1 H2. unfold add_le. rewrite H1. cbn [of_option bind]. rewrite H2. reflexivity. Qed.

Lemma ok_add (Rd : loc -> Prop) n : step_ok Rd (LLe (an_addr n)) (st_add o n).
Proof.
  intros m l m' l' H. unfold st_add in *. cbn [fst snd] in *. apply bind_ok in H. destruct H as [e [He H]].
  apply bind_ok in H. destruct H as [m1 [Hm H]]. assert (m' = m1) as -> by congruence. assert (l' = l) as -> by congruence.
  apply add_le_inv in Hm. destruct Hm as [u [s [Hu [Hs ->]]]].
  split; [intros; apply other_le; assumption|]. intros m2 Ht Hsee.
  pose proof (Hsee (LLe (an_addr n)) (or_intror eq_refl)) as Hq. simpl in Hq. rewrite He. cbn [bind].
  rewrite (add_le_do m2 _ e u s) by congruence. cbn [bind]. eexists. split; [reflexivity|]. split; [exact Ht|]. simpl. rewrite addr_eqb_refl. reflexivity.
Qed.
Lemma ok_m2l (Rd : loc -> Prop) n : step_ok Rd (LLe (an_addr n)) (st_m2l o n).
Proof.
  intros m l m' l' H. unfold st_m2l in *. cbn [fst snd] in *. destruct (lc_mes l) as [|e0 es] eqn:El.
  - assert (m' = m) as -> by congruence. assert (l' = l) as -> by congruence. split; [intros; apply same_at_refl|].
    intros m2 Ht Hs. exists m2. split; [reflexivity|]. split; [exact Ht|]. apply Hs. right; reflexivity.
  - apply bind_ok in H. destruct H as [[e tb] [He H]]. cbn [fst snd] in *.
    apply bind_ok in H. destruct H as [m1 [Hm H]]. assert (m' = m1) as -> by congruence. assert (l' = l) as -> by congruence.
    apply add_le_inv in Hm. destruct Hm as [u [s [Hu [Hs ->]]]]. simpl in Hu.
    split; [intros x Hx; eapply same_at_trans; [apply other_le; assumption|destruct x; reflexivity]|]. intros m2 Ht Hsee.
    pose proof (Hsee (LLe (an_addr n)) (or_intror eq_refl)) as Hq. simpl in Hq. rewrite Ht, He. cbn [bind fst snd].
    rewrite (add_le_do (set_tb m2 tb) _ e u s) by (simpl; congruence). cbn [bind]. eexists. split; [reflexivity|].
    split; [reflexivity|]. simpl. rewrite addr_eqb_refl. reflexivity.
Qed.
Lemma ok_p2l (Rd : loc -> Prop) t n q : step_ok Rd (LLe (an_addr n)) (st_p2l o t n q).
Proof.
  intros m l m' l' H. unfold st_p2l in *. cbn [fst snd] in *. apply bind_ok in H. destruct H as [lf [Hlf H]]. rewrite Hlf. cbn [bind].
  destruct (an_leaf lf); [|discriminate]. apply bind_ok in H. destruct H as [[e tb] [He H]]. cbn [fst snd] in *.
  apply bind_ok in H. destruct H as [m1 [Hm H]]. assert (m' = m1) as -> by congruence. assert (l' = l) as -> by congruence.
  apply add_le_inv in Hm. destruct Hm as [u [s [Hu [Hs ->]]]]. simpl in Hu.
  split; [intros x Hx; eapply same_at_trans; [apply other_le; assumption|destruct x; reflexivity]|]. intros m2 Ht Hsee.
  pose proof (Hsee (LLe (an_addr n)) (or_intror eq_refl)) as Hq. simpl in Hq. rewrite Ht, He. cbn [bind fst snd].
  rewrite (add_le_do (set_tb m2 tb) _ e u s) by (simpl; congruence). cbn [bind]. eexists. split; [reflexivity|].
  split; [reflexivity|]. simpl. rewrite addr_eqb_refl. reflexivity.
Qed.

(** Footprints of the iterations. *)
Lemma it_p2m_ok Rd n : Forall (step_ok Rd (LMe (an_addr n))) (it_p2m o n).
Proof. constructor; [apply ok_p2m|constructor]. Qed.
Lemma it_m2m_ok (Rd : loc -> Prop) t n : (forall q, In q (children d t (an_addr n)) -> Rd (LMe q)) ->
  Forall (step_ok Rd (LMe (an_addr n))) (it_m2m o d t n).
Proof.
  intros H. unfold it_m2m. apply Forall_app. split; [|constructor; [apply ok_m2m|constructor]].
  apply Forall_forall. intros s Hs. apply in_map_iff in Hs. destruct Hs as [q [<- Hq]]. apply ok_read_me. apply H. exact Hq.
Qed.
Lemma it_local_ok (Rd : loc -> Prop) t ls n i p : an_addr n = i :: p -> Rd (LLe p) -> (forall q, Rd (LMe q)) ->
  Forall (step_ok Rd (LLe (an_addr n))) (it_local o t ls n).
Proof.
  intros Ea H1 H2. unfold it_local. constructor; [eapply ok_l2l; eauto|]. constructor; [apply ok_add|].
  apply Forall_app. split.
  { apply Forall_forall. intros s Hs. apply in_map_iff in Hs. destruct Hs as [q [<- Hq]]. apply ok_read_me. apply H2. }
  constructor; [apply ok_m2l|]. apply Forall_forall. intros s Hs. apply in_map_iff in Hs. destruct Hs as [q [<- Hq]]. apply ok_p2l.
Qed.

(** Reading a list of multipole expansions. *)
Lemma alone_reads tb (m : mem) qs : m_tb m = tb -> forall l es, (Forall2 (fun q e => m_me m q = Some e) qs es) ->
  alone tb (map (@st_read_me ME LE Tb) qs) (m, l) (m, Locals (lc_mes l ++ es) (lc_le l)).
Proof.
  intros Ht l es H. revert l. induction H as [|q e qs es Hq H IH]; intros l.
  - rewrite app_nil_r. destruct l. constructor.
  - econstructor.
    + unfold st_read_me. cbn [fst snd]. rewrite Hq. reflexivity.
    + exact Ht.
    + specialize (IH (Locals (lc_mes l ++ [e]) (lc_le l))). cbn [lc_mes lc_le] in IH. rewrite <- app_assoc in IH. exact IH.
Qed.
End Steps.
