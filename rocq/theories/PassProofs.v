(** Parallel regions: if every iteration writes only its own location and no iteration reads a location owned by another,
    every interleaving has the same result, namely that of running each iteration alone. *)
From Coq Require Import List Bool Arith Lia Reals FunctionalExtensionality.
From Verif Require Import Outcome Vec AdaptiveTree AdaptiveProofs Schedule FmmPasses.
Import ListNotations.

Inductive loc : Type := LMe (a : addr) | LLe (a : addr).
Lemma loc_eq_dec (x y : loc) : {x = y} + {x <> y}.
Proof. decide equality; apply addr_eq_dec. Qed.

Section Regions.
Context {ME LE Tb : Type}.
Notation mem := (@mem ME LE Tb).
Notation locals := (@locals ME LE).
Notation step := (@step ME LE Tb).

Definition same_at (x : loc) (m m' : mem) : Prop :=
  match x with LMe a => m_me m a = m_me m' a | LLe a => m_le m a = m_le m' a end.
Lemma same_at_refl x m : same_at x m m.
Proof. destruct x; reflexivity. Qed.
Lemma same_at_sym x m m' : same_at x m m' -> same_at x m' m.
Proof. destruct x; simpl; auto. Qed.
Lemma same_at_trans x m m' m'' : same_at x m m' -> same_at x m' m'' -> same_at x m m''.
Proof. destruct x; simpl; intros; congruence. Qed.

(** The step writes at most [own], and its effect depends only on the table, [own], and the locations in [Rd]. *)
Definition step_ok (Rd : loc -> Prop) (own : loc) (s : step) : Prop :=
  forall m l m' l', s (m, l) = Ok (m', l') ->
  (forall x, x <> own -> same_at x m' m) /\
  forall m2, m_tb m2 = m_tb m -> (forall x, Rd x \/ x = own -> same_at x m m2) ->
    exists m2', s (m2, l) = Ok (m2', l') /\ m_tb m2' = m_tb m' /\ same_at own m' m2'.

(** Running an iteration alone, the table keeping the value [tb]. *)
Inductive alone (tb : Tb) : list step -> mem * locals -> mem * locals -> Prop :=
| al_nil ml : alone tb [] ml ml
| al_cons s it ml ml1 ml' : s ml = Ok ml1 -> m_tb (fst ml1) = tb -> alone tb it ml1 ml' -> alone tb (s :: it) ml ml'.

Lemma alone_app tb it1 it2 ml ml1 ml2 : alone tb it1 ml ml1 -> alone tb it2 ml1 ml2 -> alone tb (it1 ++ it2) ml ml2.
Proof. induction 1; intros; [assumption|]. simpl. econstructor; eauto. Qed.
Lemma alone_one tb (s : step) ml ml1 : s ml = Ok ml1 -> m_tb (fst ml1) = tb -> alone tb [s] ml ml1.
Proof. intros. econstructor; eauto. constructor. Qed.

Definition tag (n : nat) (rem : nat -> list step) : list (list (nat * step)) :=
  map (fun i => map (pair i) (rem i)) (seq 0 n).

Lemma tag_split n rem before i s it after : tag n rem = before ++ ((i, s) :: it) :: after ->
  i = length before /\ (i < n)%nat /\ exists rest, rem i = s :: rest /\ it = map (pair i) rest /\
  before ++ it :: after = tag n (fun j => if j =? i then rest else rem j).
Proof.
  intros E. assert (L : (length before < n)%nat).
  { apply (f_equal (@length _)) in E. unfold tag in E. rewrite map_length, seq_length, app_length in E. simpl in E. lia. }
  assert (N : nth (length before) (tag n rem) [] = (i, s) :: it) by (rewrite E, app_nth2, Nat.sub_diag; auto).
  unfold tag in N. rewrite nth_map_seq in N by exact L. destruct (rem (length before)) as [|s' rest] eqn:R; [discriminate|].
  injection N as <- <- <-. split; [reflexivity|]. split; [exact L|]. exists rest. split; [exact R|]. split; [reflexivity|].
  apply (nth_ext _ _ [] []).
  - apply (f_equal (@length _)) in E. unfold tag in *. rewrite !map_length, !seq_length, !app_length in *. simpl in *. lia.
  - intros k Hk. assert (Hk' : (k < n)%nat).
    { apply (f_equal (@length _)) in E. unfold tag in E. rewrite map_length, seq_length, app_length in E.
      rewrite app_length in Hk. simpl in *. lia. }
    unfold tag at 1. rewrite nth_map_seq by exact Hk'.
    destruct (Nat.eqb_spec k (length before)) as [->|NE].
    + rewrite app_nth2, Nat.sub_diag by lia. reflexivity.
    + assert (N2 : nth k (tag n rem) [] = map (pair k) (rem k)) by (unfold tag; rewrite nth_map_seq by exact Hk'; reflexivity).
      rewrite E in N2. destruct (lt_dec k (length before)).
      * rewrite app_nth1 in * by lia. exact N2.
      * rewrite app_nth2 in * by lia. destruct (k - length before) as [|k2] eqn:Ek; [lia|]. exact N2.
Qed.
Lemma tag_ext n rem rem' : (forall i, (i < n)%nat -> rem i = rem' i) -> tag n rem = tag n rem'.
Proof. intros H. unfold tag. apply map_ext_in. intros i Hi. apply in_seq in Hi. rewrite H by lia. reflexivity. Qed.

Section Par.
Variable tb : Tb.
Variable n : nat.
Variable own : nat -> loc.
Variable Rd : nat -> loc -> Prop.
Variable fin : nat -> mem.
Variable m0 : mem.
Hypothesis own_inj : forall i j, (i < n)%nat -> (j < n)%nat -> own i = own j -> i = j.
Hypothesis no_race : forall i j, (i < n)%nat -> (j < n)%nat -> i <> j -> ~ Rd i (own j).

Lemma par_invariant tg run : interleaving tg run -> forall rem cur lc lfin m L,
  tg = tag n rem ->
  (forall i, (i < n)%nat -> Forall (step_ok (Rd i) (own i)) (rem i)) ->
  (forall i, (i < n)%nat -> alone tb (rem i) (cur i, lc i) (fin i, lfin i)) ->
  (forall i, (i < n)%nat -> m_tb (cur i) = tb) -> m_tb m = tb ->
  (forall i, (i < n)%nat -> L i = lc i) ->
  (forall i x, (i < n)%nat -> x = own i \/ Rd i x -> same_at x (cur i) m) ->
  (forall x, (forall i, (i < n)%nat -> x <> own i) -> same_at x m m0) ->
  exists m' L', ofold exec_step run (m, L) = Ok (m', L') /\ m_tb m' = tb /\
    (forall i, (i < n)%nat -> same_at (own i) m' (fin i)) /\
    (forall x, (forall i, (i < n)%nat -> x <> own i) -> same_at x m' m0).
Proof.
  induction 1 as [its E|before a it after run H IH]; intros rem cur lc lfin m L ET Hst Hal Htc Htm HL Hsee Hrest.
  - exists m, L. split; [reflexivity|]. split; [exact Htm|]. split; [|exact Hrest].
    intros i Hi. assert (R : rem i = []).
    { assert (I : In (map (pair i) (rem i)) its). { rewrite ET. unfold tag. apply in_map_iff. exists i. split; [reflexivity|]. apply in_seq. lia. }
      specialize (E _ I). destruct (rem i); [reflexivity|discriminate]. }
    specialize (Hal i Hi). rewrite R in Hal. inversion Hal as [ml E0 E1|]; subst.
    apply same_at_sym. apply Hsee; auto.
  - destruct a as [i s]. symmetry in ET. destruct (tag_split _ _ _ _ _ _ _ ET) as [Ei [Hi [rest [Er [Eit Etag]]]]].
    assert (Hs : step_ok (Rd i) (own i) s) by (specialize (Hst i Hi); rewrite Er in Hst; inversion Hst; assumption).
    pose proof (Hal i Hi) as Hali. rewrite Er in Hali. inversion Hali as [|s0 it0 ml [m1 l1] ml' Es Etb Hrestal]; subst s0 it0 ml ml'.
    destruct (Hs _ _ _ _ Es) as [Hfr Hloc].
    destruct (Hloc m) as [m2 [Es2 [Et2 Ho2]]].
    { rewrite Htm, Htc by exact Hi. reflexivity. }
    { intros x Hx. apply Hsee; tauto. }
    destruct (Hs _ _ _ _ Es2) as [Hfr2 _].
    cbn [ofold]. unfold exec_step at 1. cbn [fst snd]. rewrite HL, Es2 by exact Hi. cbn [bind fst snd].
    apply (IH (fun j => if j =? i then rest else rem j) (fun j => if j =? i then m1 else cur j)
              (fun j => if j =? i then l1 else lc j) lfin m2).
    + exact Etag.
    + intros j Hj. destruct (Nat.eqb_spec j i) as [->|]; [|apply Hst; exact Hj].
      specialize (Hst i Hi). rewrite Er in Hst. inversion Hst; assumption.
    + intros j Hj. destruct (Nat.eqb_spec j i) as [->|]; [exact Hrestal|apply Hal; exact Hj].
    + intros j Hj. destruct (Nat.eqb_spec j i) as [->|]; [exact Etb|apply Htc; exact Hj].
    + rewrite Et2. exact Etb.
    + intros j Hj. destruct (Nat.eqb_spec j i) as [->|]; [reflexivity|apply HL; exact Hj].
    + intros j x Hj Hx. destruct (Nat.eqb_spec j i) as [->|NE].
      * destruct (loc_eq_dec x (own i)) as [->|NX]; [exact Ho2|].
        eapply same_at_trans; [apply Hfr; exact NX|]. eapply same_at_trans; [apply Hsee; eauto|]. apply same_at_sym, Hfr2. exact NX.
      * eapply same_at_trans; [apply Hsee; eauto|]. apply same_at_sym, Hfr2. intros ->. destruct Hx as [Hx|Hx].
        -- apply NE. apply own_inj; auto.
        -- apply (no_race j i Hj Hi NE Hx).
    + intros x Hx. eapply same_at_trans; [apply Hfr2; apply Hx; exact Hi|apply Hrest; exact Hx].
Qed.
End Par.

(** Regions given by a list of boxes. *)
Theorem par_region (tb : Tb) {B : Type} (bs : list B) (it : B -> list step) (own : B -> loc) (Rd : B -> loc -> Prop)
    (fin : B -> mem) (lfin : B -> locals) (m0 : mem) (r : outcome mem) :
  NoDup (map own bs) ->
  (forall a b, In a bs -> In b bs -> own a <> own b -> ~ Rd a (own b)) ->
  (forall b, In b bs -> Forall (step_ok (Rd b) (own b)) (it b)) ->
  (forall b, In b bs -> alone tb (it b) (m0, no_locals) (fin b, lfin b)) ->
  m_tb m0 = tb ->
  region_result (map it bs) m0 r ->
  exists m', r = Ok m' /\ m_tb m' = tb /\
    (forall b, In b bs -> same_at (own b) m' (fin b)) /\
    (forall x, (forall b, In b bs -> x <> own b) -> same_at x m' m0).
Proof.
  intros ND NR Hst Hal Ht [run [Hi ->]].
  destruct bs as [|b0 bs0] eqn:Ebs.
  { simpl in Hi. inversion Hi as [its E|]; subst.
    - exists m0. split; [reflexivity|]. split; [try reflexivity; assumption|]. split; [intros b []|]. intros; apply same_at_refl.
    - match goal with H : ?u = _ ++ _ |- _ => destruct (app_cons_not_nil _ _ _ H) | H : _ ++ _ = ?u |- _ => destruct (app_cons_not_nil _ _ _ (eq_sym H)) end. }
  rewrite <- Ebs in *. clear Ebs bs0.
  assert (IB : forall i, (i < length bs)%nat -> In (nth i bs b0) bs) by (intros; apply nth_In; assumption).
  assert (OI : forall i j, (i < length bs)%nat -> (j < length bs)%nat -> own (nth i bs b0) = own (nth j bs b0) -> i = j).
  { intros i j Hi' Hj' E. rewrite (NoDup_nth (map own bs) (own b0)) in ND. apply ND; rewrite ?map_length; auto. rewrite !map_nth. exact E. }
  destruct (par_invariant tb (length bs) (fun i => own (nth i bs b0)) (fun i => Rd (nth i bs b0)) (fun i => fin (nth i bs b0)) m0 OI
     ltac:(intros i j Hi' Hj' NE; apply NR; auto; intros E; apply NE; apply OI; auto)
     _ _ Hi (fun i => it (nth i bs b0)) (fun _ => m0) (fun _ => no_locals) (fun i => lfin (nth i bs b0)) m0 (fun _ => no_locals))
    as [m' [L' [Er [Etb [Hown Hrest]]]]]; auto.
  - unfold tagged, tag. rewrite map_length. apply map_ext_in. intros i Hi'. apply in_seq in Hi'.
    rewrite (nth_indep _ [] (it b0)) by (rewrite map_length; lia). rewrite map_nth. reflexivity.
  - intros; apply same_at_refl.
  - intros; apply same_at_refl.
  - exists m'. split; [unfold exec; rewrite Er; reflexivity|]. split; [exact Etb|]. split.
    + intros b Hb. destruct (In_nth bs b b0 Hb) as [i [Hi' <-]]. apply Hown. exact Hi'.
    + intros x Hx. apply Hrest. intros i Hi'. apply Hx. apply IB. exact Hi'.
Qed.

(** Some interleaving exists: one iteration after the other. *)
Lemma interleaving_exists {A} (its : list (list A)) : exists run, interleaving its run.
Proof.
  remember (length (concat its)) as n eqn:En. revert its En. induction n as [|n IH]; intros its En.
  - exists []. constructor. intros it Hit. destruct it as [|a it]; [reflexivity|exfalso].
    apply in_split in Hit. destruct Hit as [b [c ->]]. rewrite concat_app, app_length in En. simpl in En. lia.
  - assert (H : exists b a it c, its = b ++ (a :: it) :: c).
    { clear IH. induction its as [|it its IH]; [discriminate|]. destruct it as [|a it].
      - destruct (IH En) as [b [a [it [c ->]]]]. exists ([] :: b), a, it, c. reflexivity.
      - exists [], a, it, its. reflexivity. }
    destruct H as [b [a [it [c ->]]]]. destruct (IH (b ++ it :: c)) as [run H].
    { rewrite concat_app, app_length in *. simpl in *. rewrite app_length in *. lia. }
    exists (a :: run). constructor. exact H.
Qed.

Lemma mem_ext (m m' : mem) : m_tb m = m_tb m' -> (forall x, same_at x m m') -> m = m'.
Proof.
  intros Ht H. destruct m as [f g t], m' as [f' g' t']. simpl in Ht. subst t'. f_equal.
  - apply functional_extensionality. intros a. exact (H (LMe a)).
  - apply functional_extensionality. intros a. exact (H (LLe a)).
Qed.

Lemma alone_fun tb (it : list step) ml ml1 ml2 : alone tb it ml ml1 -> alone tb it ml ml2 -> ml1 = ml2.
Proof.
  intros H. revert ml2. induction H as [|s it ml mla mlb Es Et H IH]; intros ml2 H2; inversion H2; subst; [reflexivity|].
  apply IH. match goal with H : s ml = Ok ?u |- _ => assert (mla = u) as -> by congruence end. assumption.
Qed.

(** All schedules of a region give one and the same memory, in which every owned location has the value computed by its own
    iteration alone. *)
Theorem region_deterministic (tb : Tb) {B : Type} (bs : list B) (it : B -> list step) (own : B -> loc) (Rd : B -> loc -> Prop)
    (Q : B -> mem -> Prop) (m0 : mem) :
  NoDup (map own bs) ->
  (forall a b, In a bs -> In b bs -> own a <> own b -> ~ Rd a (own b)) ->
  (forall b, In b bs -> Forall (step_ok (Rd b) (own b)) (it b)) ->
  (forall b, In b bs -> exists mf lf, alone tb (it b) (m0, no_locals) (mf, lf) /\ Q b mf) ->
  m_tb m0 = tb ->
  exists m', (forall r, region_result (map it bs) m0 r <-> r = Ok m') /\ m_tb m' = tb /\
    (forall b, In b bs -> exists mf, Q b mf /\ same_at (own b) m' mf) /\
    (forall x, (forall b, In b bs -> x <> own b) -> same_at x m' m0).
Proof.
  intros ND NR Hst Hal Ht.
  set (run_it := fun b => ofold (fun ml (s : step) => s ml) (it b) (m0, no_locals)).
  set (fin := fun b => match run_it b with Ok ml => fst ml | _ => m0 end).
  set (lfin := fun b => match run_it b with Ok ml => snd ml | _ => no_locals end).
  assert (RA : forall (l : list step) ml ml', alone tb l ml ml' -> ofold (fun ml (s : step) => s ml) l ml = Ok ml').
  { induction 1 as [|s l' ml mla mlb Es Et H IH]; [reflexivity|]. simpl. rewrite Es. exact IH. }
  assert (Hal' : forall b, In b bs -> alone tb (it b) (m0, no_locals) (fin b, lfin b) /\ Q b (fin b)).
  { intros b Hb. destruct (Hal b Hb) as [mf [lf [H1 H2]]]. unfold fin, lfin, run_it. rewrite (RA _ _ _ H1). split; assumption. }
  destruct (interleaving_exists (tagged (map it bs))) as [run0 Hrun0].
  destruct (par_region tb bs it own Rd fin lfin m0 (exec run0 m0) ND NR Hst (fun b Hb => proj1 (Hal' b Hb)) Ht) as [m' [E0 [T0 [O0 R0]]]].
  { exists run0. split; [exact Hrun0|reflexivity]. }
  exists m'. split; [|split; [exact T0|split; [|exact R0]]].
  - intros r. split.
    + intros H. destruct (par_region tb bs it own Rd fin lfin m0 r ND NR Hst (fun b Hb => proj1 (Hal' b Hb)) Ht H) as [m2 [-> [T2 [O2 R2]]]].
      f_equal. apply mem_ext; [congruence|]. intros x.
      destruct (in_dec loc_eq_dec x (map own bs)) as [I|NI].
      * apply in_map_iff in I. destruct I as [b [<- Hb]]. eapply same_at_trans; [apply O2; exact Hb|]. apply same_at_sym, O0. exact Hb.
      * assert (NX : forall b, In b bs -> x <> own b) by (intros b Hb ->; apply NI; apply in_map; exact Hb).
        eapply same_at_trans; [apply R2; exact NX|]. apply same_at_sym, R0. exact NX.
    + intros ->. exists run0. split; [exact Hrun0|symmetry; exact E0].
  - intros b Hb. exists (fin b). split; [apply Hal'; exact Hb|apply O0; exact Hb].
Qed.

(** Consecutive regions. *)
Theorem passes_chain {K} (f : K -> @region ME LE Tb) (P : list K -> mem -> Prop) ks rgs m :
  (forall pre k rest m, ks = pre ++ k :: rest -> P pre m ->
     exists m', (forall r, region_result (f k) m r <-> r = Ok m') /\ P (pre ++ [k]) m') ->
  P [] m ->
  exists m', P ks m' /\ forall r, passes_result (map f ks ++ rgs) m r <-> passes_result rgs m' r.
Proof.
  intros Hstep H0.
  assert (G : forall rest pre m, ks = pre ++ rest -> P pre m ->
     exists m', P ks m' /\ forall r, passes_result (map f rest ++ rgs) m r <-> passes_result rgs m' r).
  { induction rest as [|k rest IH]; intros pre m1 E HP.
    - exists m1. rewrite app_nil_r in E. subst. split; [exact HP|]. intros r. reflexivity.
    - destruct (Hstep pre k rest m1 E HP) as [m2 [Hr HP2]].
      destruct (IH (pre ++ [k]) m2) as [m3 [HP3 H3]]; [rewrite <- app_assoc; exact E|exact HP2|].
      exists m3. split; [exact HP3|]. intros r. rewrite <- H3. cbn [map app]. split.
      + intros H. inversion H as [|rg rgs' ma mb r' Hrg Hp|rg rgs' ma r' Hrg Hne]; subst.
        * apply Hr in Hrg. assert (mb = m2) as -> by congruence. exact Hp.
        * apply Hr in Hrg. exfalso. eapply Hne. exact Hrg.
      + intros H. eapply pr_ok; [apply Hr; reflexivity|exact H]. }
  apply (G ks [] m); [reflexivity|exact H0].
Qed.
End Regions.
