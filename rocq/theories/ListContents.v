(** Contents of the four neighbour lists, and the exactly-once coverage. *)
From Coq Require Import List Bool ZArith Arith Reals Lra Lia Permutation.
From Verif Require Import Num Outcome Vec Orthtree AdaptiveTree TreeSpec VecProofs GeometrySpec GeometryProofs TreeGeometry
  AdaptiveProofs BfsProofs ListProofs.
Import ListNotations.

(** *** Telescoping sums over ancestor chains *)
Lemma sufs_length p : length (ancestors_or_self p) = S (length p).
Proof. induction p; simpl in *; auto. Qed.
Lemma in_sufs_length q p : In q (ancestors_or_self p) -> length q <= length p.
Proof.
  induction p as [|i p IH]; simpl; intros [<-|H]; simpl; auto; try (destruct H; fail).
Qed.
Lemma sufs_NoDup p : NoDup (ancestors_or_self p).
Proof.
  induction p as [|i p IH]; simpl; constructor; auto; try constructor.
  intros H. apply in_sufs_length in H. simpl in H. lia.
Qed.
Lemma in_sufs_app q p : In q (ancestors_or_self p) <-> exists r, p = r ++ q.
Proof.
  induction p as [|i p IH]; simpl.
  - split; [intros [<-|[]]; exists []; reflexivity|]. intros (r & E). symmetry in E. apply app_eq_nil in E. left. symmetry. apply E.
  - split.
    + intros [<-|H]; [exists []; reflexivity|]. apply IH in H. destruct H as (r & ->). exists (i :: r). reflexivity.
    + intros (r & E). destruct r as [|j r]; simpl in E; [left; congruence|]. right. apply IH. exists r. congruence.
Qed.

Definition nsum {A} (f : A -> nat) (xs : list A) : nat := fold_right (fun x a => f x + a) 0 xs.
Lemma nsum_app {A} (f : A -> nat) xs ys : nsum f (xs ++ ys) = nsum f xs + nsum f ys.
Proof. induction xs; simpl; lia. Qed.
Lemma nsum_ext {A} (f g : A -> nat) xs : (forall x, In x xs -> f x = g x) -> nsum f xs = nsum g xs.
Proof. induction xs as [|x xs IH]; intros H; [reflexivity|]. simpl. rewrite H, IH; auto with datatypes. Qed.
Lemma nsum_zero {A} (f : A -> nat) xs : (forall x, In x xs -> f x = 0) -> nsum f xs = 0.
Proof. intros H. rewrite (nsum_ext f (fun _ => 0)) by assumption. induction xs; simpl; auto with datatypes. Qed.
Lemma nsum_add {A} (f g : A -> nat) xs : nsum (fun x => f x + g x) xs = nsum f xs + nsum g xs.
Proof. induction xs; simpl; lia. Qed.
Lemma nsum_filter {A} (f : A -> bool) xs : nsum (fun x => Nat.b2n (f x)) xs = length (filter f xs).
Proof. induction xs as [|x xs IH]; simpl; [reflexivity|]. destruct (f x); simpl; lia. Qed.
Lemma count_flat_map {A} (f : A -> list addr) xs m :
  count_occ addr_eq_dec (flat_map f xs) m = nsum (fun x => count_occ addr_eq_dec (f x) m) xs.
Proof. induction xs; simpl; [reflexivity|]. rewrite count_occ_app. lia. Qed.
Lemma count_NoDup xs m : NoDup xs -> count_occ addr_eq_dec xs m = Nat.b2n (existsb (addr_eqb m) xs).
Proof.
  intros ND. destruct (existsb (addr_eqb m) xs) eqn:E; simpl.
  - apply existsb_exists in E. destruct E as (y & Hy & E). apply addr_eqb_eq in E. subst y.
    apply NoDup_count_occ'; assumption.
  - apply count_occ_not_In. intros H. rewrite <- not_true_iff_false in E. apply E. apply existsb_exists.
    exists m. split; [assumption|]. apply addr_eqb_refl.
Qed.
Lemma existsb_addr m xs : existsb (addr_eqb m) xs = true <-> In m xs.
Proof.
  rewrite existsb_exists. split.
  - intros (y & Hy & E). apply addr_eqb_eq in E. congruence.
  - intros H. exists m. split; [assumption|apply addr_eqb_refl].
Qed.

(** Number of members of a duplicate-free list that are ancestors-or-self of [m] = number of ancestors of [m] in it. *)
Lemma double_count q m : NoDup q ->
  nsum (fun x => Nat.b2n (is_above x m)) q = nsum (fun s => Nat.b2n (existsb (addr_eqb s) q)) (ancestors_or_self m).
Proof.
  intros ND. rewrite !nsum_filter. apply Permutation_length. apply NoDup_Permutation.
  - apply NoDup_filter. assumption.
  - apply NoDup_filter. apply sufs_NoDup.
  - intros x. rewrite !filter_In. unfold is_above. rewrite !existsb_addr. tauto.
Qed.

Section Chains.
Variable d : nat.
Notation T := (touch d).
Notation b2n := Nat.b2n.

Definition wrel (L s : addr) : bool :=
  (Nat.ltb (length L) (length s)) && T (tl s) L && negb (T s L).
Definition vrel (a s : addr) : bool :=
  Nat.eqb (length a) (length s) && Nat.leb 1 (length a) && T (tl a) (tl s) && negb (T a s).
Definition xrel (a M : addr) : bool :=
  (Nat.ltb (length M) (length a)) && T (tl a) M && negb (T a M).

Definition Wsum L M := nsum (fun s => b2n (wrel L s)) (ancestors_or_self M).
Definition Xsum L M := nsum (fun a => b2n (xrel a M)) (ancestors_or_self L).
Definition Vsum L M := nsum (fun a => nsum (fun s => b2n (vrel a s)) (ancestors_or_self M)) (ancestors_or_self L).

Lemma Wsum_short L M : length M <= length L -> Wsum L M = 0.
Proof.
  intros H. apply nsum_zero. intros s Hs. apply in_sufs_length in Hs. unfold wrel.
  destruct (Nat.ltb_spec (length L) (length s)); [lia|]. reflexivity.
Qed.
Lemma Xsum_short L M : length L <= length M -> Xsum L M = 0.
Proof.
  intros H. apply nsum_zero. intros s Hs. apply in_sufs_length in Hs. unfold xrel.
  destruct (Nat.ltb_spec (length M) (length s)); [lia|]. reflexivity.
Qed.
Lemma Wsum_cons L i M : length L <= length M -> Wsum L (i :: M) + b2n (T L (i :: M)) = Wsum L M + b2n (T L M).
Proof.
  intros H. unfold Wsum at 1. cbn [ancestors_or_self nsum fold_right]. fold (nsum (fun s => b2n (wrel L s)) (ancestors_or_self M)). fold (Wsum L M).
  unfold wrel. destruct (Nat.ltb_spec (length L) (length (i :: M))) as [_|G]; [|simpl in G; lia].
  cbn [tl andb]. rewrite (touch_sym d M L), (touch_sym d (i :: M) L).
  destruct (T L (i :: M)) eqn:E; [rewrite (touch_up_r _ _ _ _ E); simpl; lia|].
  destruct (T L M); simpl; lia.
Qed.
Lemma Xsum_cons i L M : length M <= length L -> Xsum (i :: L) M + b2n (T (i :: L) M) = Xsum L M + b2n (T L M).
Proof.
  intros H. unfold Xsum at 1. cbn [ancestors_or_self nsum fold_right]. fold (nsum (fun s => b2n (xrel s M)) (ancestors_or_self L)). fold (Xsum L M).
  unfold xrel. destruct (Nat.ltb_spec (length M) (length (i :: L))) as [_|G]; [|simpl in G; lia].
  cbn [tl andb].
  destruct (T (i :: L) M) eqn:E; [rewrite (touch_up_l _ _ _ _ E); simpl; lia|].
  destruct (T L M); simpl; lia.
Qed.
Lemma vrel_len a s : length a <> length s -> vrel a s = false.
Proof. intros H. unfold vrel. apply Nat.eqb_neq in H. rewrite H. reflexivity. Qed.
Lemma Vsum_cons_r L i M : length L <= length M -> Vsum L (i :: M) = Vsum L M.
Proof.
  intros H. unfold Vsum. apply nsum_ext. intros a Ha. apply in_sufs_length in Ha. cbn [ancestors_or_self nsum fold_right].
  rewrite vrel_len by (simpl; lia). reflexivity.
Qed.
Lemma Vsum_cons_l i L M : length M <= length L -> Vsum (i :: L) M = Vsum L M.
Proof.
  intros H. unfold Vsum at 1. cbn [ancestors_or_self nsum fold_right]. fold (Vsum L M).
  fold (nsum (fun s => b2n (vrel (i :: L) s)) (ancestors_or_self M)).
  rewrite nsum_zero; [reflexivity|]. intros s Hs. apply in_sufs_length in Hs. rewrite vrel_len by (simpl; lia). reflexivity.
Qed.
Lemma Vsum_eqlen L M : length L = length M -> Vsum L M + b2n (T L M) = 1.
Proof.
  revert M; induction L as [|i L IH]; intros M H; destruct M as [|j M]; try discriminate.
  - unfold Vsum. cbn [ancestors_or_self nsum fold_right]. unfold vrel. rewrite !touch_refl. reflexivity.
  - simpl in H. injection H as H. specialize (IH M H).
    assert (U : Vsum (i :: L) (j :: M) = b2n (vrel (i :: L) (j :: M)) + nsum (fun s => b2n (vrel (i :: L) s)) (ancestors_or_self M) + Vsum L (j :: M))
      by reflexivity. rewrite U. clear U.
    rewrite Vsum_cons_r by lia.
    rewrite (nsum_zero _ (ancestors_or_self M)).
    2:{ intros s Hs. apply in_sufs_length in Hs. rewrite vrel_len by (simpl; lia). reflexivity. }
    assert (E : b2n (vrel (i :: L) (j :: M)) + b2n (T (i :: L) (j :: M)) = b2n (T L M)).
    { unfold vrel. cbn [length tl]. rewrite H, Nat.eqb_refl. cbn [Nat.leb andb].
      destruct (T (i :: L) (j :: M)) eqn:E.
      - rewrite (touch_up_l _ _ _ _ (touch_up_r _ _ _ _ E)). reflexivity.
      - destruct (T L M); reflexivity. }
    lia.
Qed.

Theorem chain_total L M : b2n (T L M) + Wsum L M + Vsum L M + Xsum L M = 1.
Proof.
  destruct (le_lt_dec (length L) (length M)) as [H|H].
  - rewrite Xsum_short by assumption.
    remember (length M - length L) as n eqn:E. revert M H E. induction n; intros M H E.
    + rewrite Wsum_short by lia. assert (V := Vsum_eqlen L M ltac:(lia)). lia.
    + destruct M as [|i M]; [simpl in *; lia|]. cbn [length] in H, E.
      assert (W := Wsum_cons L i M ltac:(lia)). rewrite Vsum_cons_r by lia.
      specialize (IHn M ltac:(lia) ltac:(lia)). lia.
  - rewrite Wsum_short by lia.
    remember (length L - length M) as n eqn:E. revert L H E. induction n; intros L H E; [lia|].
    destruct L as [|i L]; [simpl in *; lia|]. cbn [length] in H, E.
    assert (X := Xsum_cons i L M ltac:(lia)). rewrite Vsum_cons_l by lia.
    destruct (Nat.eq_dec (length L) (length M)) as [EQ|NE].
    + rewrite (Xsum_short L M) in X by lia. assert (V := Vsum_eqlen L M EQ). lia.
    + specialize (IHn L ltac:(lia) ltac:(lia)). lia.
Qed.
End Chains.

Lemma kids_inv d p q : In q (kids d p) -> exists i, i < n_children d /\ q = i :: p.
Proof. unfold kids. intros H. apply in_map_iff in H. destruct H as (i & <- & H). apply in_seq in H. exists i. split; [lia|reflexivity]. Qed.
Lemma kids_in d i p : i < n_children d -> In (i :: p) (kids d p).
Proof. intros H. unfold kids. apply in_map_iff. exists i. split; [reflexivity|]. apply in_seq. lia. Qed.

Section Contents.
Context {Src : Type}.
Variable d : nat.
Variable pos : Src -> list R.
Variable c : list R.
Variable l : R.
Variable cap : nat.
Variable srcs : list Src.
Variable root_refined : rule.
Variable h : nat.

Notation refined := (refined d pos c l cap srcs root_refined).
Notation present := (present d pos c l cap srcs root_refined).
Notation level := (level d pos c l cap srcs root_refined).
Notation mk := (mk d pos c l cap srcs root_refined).
Notation kids := (kids d).
Notation t := (spec_tree d pos c l cap srcs root_refined h).
Notation order := (order d pos c l cap srcs root_refined h).
Notation events := (events d pos c l cap srcs root_refined).
Notation own_near := (own_near d pos c l cap srcs root_refined).
Notation near_rel := (near_rel d pos c l cap srcs root_refined).
Notation leaf := (leaf d pos c l cap srcs root_refined).
Notation neighbour_events := (neighbour_events d pos c l cap srcs root_refined).
Notation child_events := (child_events d pos c l cap srcs root_refined).
Notation final := (final d pos c l cap srcs root_refined h).
Hypothesis Hc : length c = d.
Hypothesis Hh : height_ok d pos c l cap srcs root_refined h.

Lemma order_iff p : In p order <-> present p.
Proof. clear Hc.  apply in_order. assumption. Qed.

Lemma present_tl i p : present (i :: p) -> present p /\ refined p = true.
Proof. clear Hc Hh.  simpl. tauto. Qed.
Lemma present_suf p s : present p -> In s (ancestors_or_self p) -> present s.
Proof. clear Hc Hh. 
  induction p as [|i p IH]; simpl; intros P [<-|H]; auto; [destruct H|]. apply IH; [apply P|assumption].
Qed.

(** *** near lists *)
Lemma hits_near_inv x p y : present x -> p <> x -> In y (hits KNear p (events x)) ->
  y = x /\ exists i q, x = i :: q /\ In p (own_near q) /\ leaf p = true /\ touch d x p = true /\ leaf x = true.
Proof.
  intros P NE H. rewrite (hits_near_events d pos c l cap srcs root_refined Hc h Hh) in H by assumption. apply addr_eqb_neq in NE. rewrite NE in H.
  destruct x as [|i q]; [destruct H|]. destruct (leaf (i :: q)) eqn:E; [|destruct H].
  apply in_flat_map in H. destruct H as (pn & Hpn & H).
  destruct (addr_eqb p pn) eqn:E1; [|destruct H]. apply addr_eqb_eq in E1. subst pn.
  destruct (leaf p) eqn:E2; [|destruct H]. destruct (touch d (i :: q) p) eqn:E3; [|destruct H].
  destruct H as [<-|[]]. split; [reflexivity|]. exists i, q. auto.
Qed.

Lemma final_near_leaf p q : present p -> refined p = false ->
  (In q (nl_near final p) <-> present q /\ refined q = false /\ touch d p q = true).
Proof.
  intros P Rp. change (nl_near final p) with (get KNear final p). rewrite final_get. rewrite in_flat_map. split.
  - intros (x & Hx & H). apply order_iff in Hx. destruct (addr_eq_dec p x) as [<-|NE].
    + rewrite (hits_near_events d pos c l cap srcs root_refined Hc h Hh), addr_eqb_refl in H by assumption. apply (own_near_in d pos c l cap srcs root_refined Hc) in H; [|assumption].
      destruct H as (Pq & T & D). rewrite Rp in D. tauto.
    + apply hits_near_inv in H; [|assumption|assumption]. destruct H as (-> & i & y & -> & _ & _ & T & Lx).
      split; [assumption|]. split; [apply negb_true_iff; assumption|]. rewrite touch_sym. assumption.
  - intros (Pq & Rq & T). destruct (le_lt_dec (length q) (length p)) as [D|D].
    + exists p. split; [apply order_iff; assumption|]. rewrite (hits_near_events d pos c l cap srcs root_refined Hc h Hh), addr_eqb_refl by assumption.
      apply (own_near_in d pos c l cap srcs root_refined Hc); [assumption|]. split; [assumption|]. split; [assumption|]. rewrite Rp. auto.
    + exists q. split; [apply order_iff; assumption|]. rewrite (hits_near_events d pos c l cap srcs root_refined Hc h Hh) by assumption.
      destruct (addr_eqb p q) eqn:E; [apply addr_eqb_eq in E; subst; lia|].
      destruct q as [|i q]; [simpl in D; lia|]. unfold ListProofs.leaf at 1. rewrite Rq. cbn [negb].
      apply in_flat_map. exists p. split.
      * apply (own_near_in d pos c l cap srcs root_refined Hc); [apply (present_tl i); assumption|]. destruct Pq as (_ & Pq & Rqq).
        split; [assumption|]. split; [rewrite touch_sym; apply touch_up_r in T; assumption|]. rewrite Rqq.
        simpl in D. destruct (Nat.eq_dec (length p) (length q)); [left; assumption|right; split; [lia|assumption]].
      * rewrite addr_eqb_refl. unfold ListProofs.leaf. rewrite Rp, touch_sym, T. simpl. auto.
Qed.

Lemma final_near_inner p : present p -> refined p = true -> nl_near final p = own_near p.
Proof.
  intros P Rp. eapply near_inner_after; eauto.
  - apply order_NoDup.
  - intros x Hx. apply order_iff. assumption.
  - apply order_iff. assumption.
Qed.

Lemma final_near_leaf_NoDup p : present p -> refined p = false -> NoDup (nl_near final p).
Proof.
  intros P Rp. change (nl_near final p) with (get KNear final p). rewrite final_get. apply NoDup_flat_map.
  - apply order_NoDup.
  - intros x Hx. apply order_iff in Hx. rewrite (hits_near_events d pos c l cap srcs root_refined Hc h Hh) by assumption.
    destruct (addr_eqb p x) eqn:E; [apply (own_near_NoDup d pos c l cap srcs root_refined Hc); assumption|].
    destruct x as [|i q]; [constructor|]. destruct (leaf (i :: q)); [|constructor].
    assert (ND : NoDup (own_near q)) by (apply (own_near_NoDup d pos c l cap srcs root_refined Hc); apply (present_tl i); assumption).
    assert (G : flat_map (fun pn => if addr_eqb p pn && leaf pn && touch d (i :: q) pn then [i :: q] else []) (own_near q) =
       if existsb (addr_eqb p) (own_near q) then (if leaf p && touch d (i :: q) p then [i :: q] else []) else []).
    { clear - ND. induction (own_near q) as [|y ys IH]; [reflexivity|]. inversion ND; subst. cbn [flat_map existsb].
      destruct (addr_eqb p y) eqn:E; cbn [andb orb].
      - apply addr_eqb_eq in E. subst y. rewrite flat_map_nil; [apply app_nil_r|].
        intros z Hz. destruct (addr_eqb p z) eqn:E; [|reflexivity]. apply addr_eqb_eq in E. subst. contradiction.
      - apply IH. assumption. }
    refine (eq_ind_r (fun z => NoDup z) _ G). destruct (existsb _ _); [|constructor]. destruct (leaf p && touch d (i :: q) p); [|constructor].
    constructor; [intros []|constructor].
  - intros x y q Hx Hy Qx Qy. apply order_iff in Hx, Hy.
    destruct (addr_eq_dec p x) as [<-|NEx]; destruct (addr_eq_dec p y) as [<-|NEy]; auto.
    + exfalso. apply hits_near_inv in Qy; [|assumption|assumption]. destruct Qy as (-> & i & z & -> & Hz & _).
      rewrite (hits_near_events d pos c l cap srcs root_refined Hc h Hh), addr_eqb_refl in Qx by assumption. apply (own_near_in d pos c l cap srcs root_refined Hc) in Qx; [|assumption].
      destruct Qx as (_ & _ & D). rewrite Rp in D. apply (own_near_in d pos c l cap srcs root_refined Hc) in Hz; [|apply (present_tl i); assumption].
      destruct Hz as (_ & _ & Dz). destruct Hy as (_ & _ & Rz). rewrite Rz in Dz. simpl in D. lia.
    + exfalso. apply hits_near_inv in Qx; [|assumption|assumption]. destruct Qx as (-> & i & z & -> & Hz & _).
      rewrite (hits_near_events d pos c l cap srcs root_refined Hc h Hh), addr_eqb_refl in Qy by assumption. apply (own_near_in d pos c l cap srcs root_refined Hc) in Qy; [|assumption].
      destruct Qy as (_ & _ & D). rewrite Rp in D. apply (own_near_in d pos c l cap srcs root_refined Hc) in Hz; [|apply (present_tl i); assumption].
      destruct Hz as (_ & _ & Dz). destruct Hx as (_ & _ & Rz). rewrite Rz in Dz. simpl in D. lia.
    + apply hits_near_inv in Qx; [|assumption|assumption]. apply hits_near_inv in Qy; [|assumption|assumption].
      destruct Qx as [-> _]. destruct Qy as [-> _]. reflexivity.
Qed.

(** *** interaction, X and W lists *)
Definition own_inter (p : addr) : list addr :=
  match p with
  | [] => []
  | _ :: q => flat_map (fun pn => if leaf pn then [] else filter (fun y => negb (touch d p y)) (kids pn)) (own_near q)
  end.
Definition own_X (p : addr) : list addr :=
  match p with
  | [] => []
  | _ :: q => filter (fun pn => leaf pn && negb (touch d p pn)) (own_near q)
  end.

Lemma hits_inter x p : hits KInter p (events x) = if addr_eqb p x then own_inter x else [].
Proof.
  destruct x as [|i q]; [cbn; destruct (addr_eqb p []); reflexivity|].
  cbn [ListProofs.events own_inter]. rewrite hits_flat_map.
  destruct (addr_eqb p (i :: q)) eqn:E.
  - apply flat_map_ext_in. intros pn _. unfold ListProofs.neighbour_events. destruct (leaf pn).
    + destruct (touch d (i :: q) pn); [destruct (leaf (i :: q))|]; reflexivity.
    + rewrite hits_flat_map. rewrite <- flat_map_single. apply flat_map_ext_in. intros y _.
      unfold ListProofs.child_events. destruct (touch d (i :: q) y).
      * destruct (negb (leaf (i :: q)) || leaf y); reflexivity.
      * cbn [hits flat_map kind_eqb andb negb]. rewrite E. reflexivity.
  - apply flat_map_nil. intros pn _. unfold ListProofs.neighbour_events. destruct (leaf pn).
    + destruct (touch d (i :: q) pn); [destruct (leaf (i :: q))|]; reflexivity.
    + rewrite hits_flat_map. apply flat_map_nil. intros y _.
      unfold ListProofs.child_events. destruct (touch d (i :: q) y).
      * destruct (negb (leaf (i :: q)) || leaf y); reflexivity.
      * cbn [hits flat_map kind_eqb andb negb]. rewrite E. reflexivity.
Qed.

Lemma hits_X x p : hits KX p (events x) = if addr_eqb p x then own_X x else [].
Proof.
  destruct x as [|i q]; [cbn; destruct (addr_eqb p []); reflexivity|].
  cbn [ListProofs.events own_X]. rewrite hits_flat_map. rewrite <- flat_map_single.
  destruct (addr_eqb p (i :: q)) eqn:E.
  - apply flat_map_ext_in. intros pn _. unfold ListProofs.neighbour_events. destruct (leaf pn); cbn [andb].
    + destruct (touch d (i :: q) pn); [destruct (leaf (i :: q)); reflexivity|].
      cbn [hits flat_map kind_eqb andb negb app]. rewrite E. reflexivity.
    + rewrite hits_flat_map. apply flat_map_nil. intros y _.
      unfold ListProofs.child_events. destruct (touch d (i :: q) y); [destruct (negb (leaf (i :: q)) || leaf y)|]; reflexivity.
  - apply flat_map_nil. intros pn _. unfold ListProofs.neighbour_events. destruct (leaf pn).
    + destruct (touch d (i :: q) pn); [destruct (leaf (i :: q)); reflexivity|].
      cbn [hits flat_map kind_eqb andb negb app]. rewrite E. reflexivity.
    + rewrite hits_flat_map. apply flat_map_nil. intros y _.
      unfold ListProofs.child_events. destruct (touch d (i :: q) y); [destruct (negb (leaf (i :: q)) || leaf y)|]; reflexivity.
Qed.

Lemma hits_W x p : hits KW p (events x)
  = match x with [] => [] | _ :: q => flat_map (fun pn => if addr_eqb p pn && leaf pn && negb (touch d x pn) then [x] else []) (own_near q) end.
Proof.
  destruct x as [|i q]; [reflexivity|].
  cbn [ListProofs.events]. rewrite hits_flat_map. apply flat_map_ext_in. intros pn _.
  unfold ListProofs.neighbour_events. destruct (leaf pn).
  - rewrite andb_true_r. destruct (touch d (i :: q) pn); [destruct (leaf (i :: q)); rewrite andb_false_r; reflexivity|].
    cbn [hits flat_map kind_eqb andb negb app]. rewrite andb_true_r, app_nil_r. reflexivity.
  - rewrite andb_false_r. cbn [andb]. rewrite hits_flat_map. apply flat_map_nil. intros y _.
    unfold ListProofs.child_events. destruct (touch d (i :: q) y); [destruct (negb (leaf (i :: q)) || leaf y)|]; reflexivity.
Qed.

Lemma final_inter p : present p -> nl_inter final p = own_inter p.
Proof.
  intros P. change (nl_inter final p) with (get KInter final p). rewrite final_get.
  rewrite (flat_map_ext_in _ (fun x => if addr_eqb p x then own_inter x else [])) by (intros; apply hits_inter).
  apply flat_map_pick; [apply order_NoDup|apply order_iff; assumption].
Qed.
Lemma final_X p : present p -> nl_X final p = own_X p.
Proof.
  intros P. change (nl_X final p) with (get KX final p). rewrite final_get.
  rewrite (flat_map_ext_in _ (fun x => if addr_eqb p x then own_X x else [])) by (intros; apply hits_X).
  apply flat_map_pick; [apply order_NoDup|apply order_iff; assumption].
Qed.

Lemma final_inter_in p q : present p -> (In q (nl_inter final p) <-> present q /\ vrel d p q = true).
Proof.
  intros P. rewrite final_inter by assumption. destruct p as [|i p].
  - simpl. split; [tauto|]. intros [_ H]. unfold vrel in H. simpl in H. rewrite !andb_false_r in H. discriminate.
  - assert (P' := P). destruct P' as (Hi & Pp & Rp). cbn [own_inter]. rewrite in_flat_map. unfold vrel. split.
    + intros (pn & Hpn & H). apply (own_near_in d pos c l cap srcs root_refined Hc) in Hpn; [|assumption]. destruct Hpn as (Ppn & Tpn & D). rewrite Rp in D.
      unfold ListProofs.leaf in H. destruct (refined pn) eqn:Rpn; cbn [negb] in H; [|destruct H].
      apply filter_In in H. destruct H as [K T]. apply kids_inv in K. destruct K as (j & Hj & ->).
      split; [simpl; auto|]. cbn [length tl]. destruct D as [D|[_ F]]; [|discriminate].
      rewrite D, Nat.eqb_refl, Tpn, T. reflexivity.
    + intros [Pq H]. apply andb_true_iff in H. destruct H as [H T]. apply andb_true_iff in H. destruct H as [H Tp].
      apply andb_true_iff in H. destruct H as [H _]. apply Nat.eqb_eq in H.
      destruct q as [|j q]; [discriminate|]. simpl in H. injection H as H. cbn [tl] in Tp.
      destruct Pq as (Hj & Pq & Rq). exists q. split.
      * apply (own_near_in d pos c l cap srcs root_refined Hc); [assumption|]. split; [assumption|]. split; [assumption|]. rewrite Rp. left. auto.
      * unfold ListProofs.leaf. rewrite Rq. cbn [negb]. apply filter_In. split; [apply kids_in; assumption|assumption].
Qed.
Lemma final_inter_NoDup p : present p -> NoDup (nl_inter final p).
Proof.
  intros P. rewrite final_inter by assumption. destruct p as [|i p]; [constructor|].
  destruct P as (Hi & Pp & Rp). cbn [own_inter]. apply NoDup_flat_map.
  - apply (own_near_NoDup d pos c l cap srcs root_refined Hc). assumption.
  - intros pn _. destruct (leaf pn); [constructor|]. apply NoDup_filter. apply kids_NoDup.
  - intros x y q _ _ Qx Qy. destruct (leaf x); [destruct Qx|]. destruct (leaf y); [destruct Qy|].
    apply filter_In in Qx. destruct Qx as [Kx _]. apply filter_In in Qy. destruct Qy as [Ky _].
    apply kids_inv in Kx. destruct Kx as (a & _ & ->). apply kids_inv in Ky. destruct Ky as (b & _ & E). congruence.
Qed.

Lemma final_X_in p q : present p -> (In q (nl_X final p) <-> present q /\ refined q = false /\ xrel d p q = true).
Proof.
  intros P. rewrite final_X by assumption. destruct p as [|i p].
  - simpl. split; [tauto|]. intros (_ & _ & H). unfold xrel in H. simpl in H. discriminate.
  - assert (P' := P). destruct P' as (Hi & Pp & Rp). cbn [own_X]. rewrite filter_In. unfold xrel. split.
    + intros [Hq H]. apply (own_near_in d pos c l cap srcs root_refined Hc) in Hq; [|assumption]. destruct Hq as (Pq & T & D). rewrite Rp in D.
      apply andb_true_iff in H. destruct H as [Lq NT]. apply negb_true_iff in Lq.
      split; [assumption|]. split; [assumption|]. cbn [length tl]. rewrite T, NT.
      destruct (Nat.ltb_spec (length q) (S (length p))); [reflexivity|lia].
    + intros (Pq & Rq & H). apply andb_true_iff in H. destruct H as [H NT]. apply andb_true_iff in H. destruct H as [Lq T].
      apply Nat.ltb_lt in Lq. cbn [length tl] in *. split.
      * apply (own_near_in d pos c l cap srcs root_refined Hc); [assumption|]. split; [assumption|]. split; [assumption|]. rewrite Rp.
        destruct (Nat.eq_dec (length q) (length p)); [left; assumption|right; split; [lia|assumption]].
      * unfold ListProofs.leaf. rewrite Rq, NT. reflexivity.
Qed.
Lemma final_X_NoDup p : present p -> NoDup (nl_X final p).
Proof.
  intros P. rewrite final_X by assumption. destruct p as [|i p]; [constructor|].
  apply NoDup_filter. apply (own_near_NoDup d pos c l cap srcs root_refined Hc). apply (present_tl i). assumption.
Qed.

Lemma final_W_in p q : present p -> (In q (nl_W final p) <-> present q /\ refined p = false /\ wrel d p q = true).
Proof.
  intros P. change (nl_W final p) with (get KW final p). rewrite final_get, in_flat_map. unfold wrel. split.
  - intros (x & Hx & H). apply order_iff in Hx. rewrite hits_W in H. destruct x as [|i x]; [destruct H|].
    apply in_flat_map in H. destruct H as (pn & Hpn & H).
    destruct (addr_eqb p pn) eqn:E1; [|destruct H]. apply addr_eqb_eq in E1. subst pn.
    destruct (leaf p) eqn:E2; [|destruct H]. apply negb_true_iff in E2.
    destruct (touch d (i :: x) p) eqn:E3; [destruct H|]. destruct H as [<-|[]].
    split; [assumption|]. split; [assumption|]. destruct Hx as (Hi & Px & Rx).
    apply (own_near_in d pos c l cap srcs root_refined Hc) in Hpn; [|assumption]. destruct Hpn as (_ & T & D). rewrite Rx in D.
    cbn [length tl]. rewrite T, E3. destruct (Nat.ltb_spec (length p) (S (length x))); [reflexivity|lia].
  - intros (Pq & Rp & H). apply andb_true_iff in H. destruct H as [H NT]. apply andb_true_iff in H. destruct H as [Lq T].
    apply Nat.ltb_lt in Lq. destruct q as [|i q]; [simpl in Lq; lia|]. cbn [tl length] in *.
    exists (i :: q). split; [apply order_iff; assumption|]. rewrite hits_W. apply in_flat_map. exists p.
    destruct Pq as (Hi & Pq & Rq). split.
    + apply (own_near_in d pos c l cap srcs root_refined Hc); [assumption|]. split; [assumption|]. split; [assumption|]. rewrite Rq.
      destruct (Nat.eq_dec (length p) (length q)); [left; assumption|right; split; [lia|assumption]].
    + rewrite addr_eqb_refl. unfold ListProofs.leaf. rewrite Rp, NT. left. reflexivity.
Qed.
Lemma final_W_NoDup p : present p -> NoDup (nl_W final p).
Proof.
  intros P. change (nl_W final p) with (get KW final p). rewrite final_get. apply NoDup_flat_map.
  - apply order_NoDup.
  - intros x Hx. apply order_iff in Hx. rewrite hits_W. destruct x as [|i q]; [constructor|].
    assert (ND : NoDup (own_near q)) by (apply (own_near_NoDup d pos c l cap srcs root_refined Hc); apply (present_tl i); assumption).
    assert (G : flat_map (fun pn => if addr_eqb p pn && leaf pn && negb (touch d (i :: q) pn) then [i :: q] else []) (own_near q) =
       if existsb (addr_eqb p) (own_near q) then (if leaf p && negb (touch d (i :: q) p) then [i :: q] else []) else []).
    { clear - ND. induction (own_near q) as [|y ys IH]; [reflexivity|]. inversion ND; subst. cbn [flat_map existsb].
      destruct (addr_eqb p y) eqn:E; cbn [andb orb].
      - apply addr_eqb_eq in E. subst y. rewrite flat_map_nil; [apply app_nil_r|].
        intros z Hz. destruct (addr_eqb p z) eqn:E; [|reflexivity]. apply addr_eqb_eq in E. subst. contradiction.
      - apply IH. assumption. }
    refine (eq_ind_r (fun z => NoDup z) _ G). destruct (existsb _ _); [|constructor]. destruct (leaf p && negb (touch d (i :: q) p)); [|constructor].
    constructor; [intros []|constructor].
  - intros x y q _ _ Qx Qy. rewrite hits_W in Qx, Qy.
    destruct x as [|i x]; [destruct Qx|]. destruct y as [|j y]; [destruct Qy|].
    apply in_flat_map in Qx. destruct Qx as (a & _ & Qx). apply in_flat_map in Qy. destruct Qy as (b & _ & Qy).
    destruct (_ && _ && _) in Qx; [|destruct Qx]. destruct Qx as [<-|[]].
    destruct (_ && _ && _) in Qy; [|destruct Qy]. destruct Qy as [<-|[]]. reflexivity.
Qed.

(** *** Coverage *)
Definition leaf_addrs : list addr := flat_map (fun k => filter (fun p => negb (refined p)) (level k)) (seq 0 (S h)).
Lemma in_leaf_addrs p : In p leaf_addrs <-> present p /\ refined p = false.
Proof. clear Hc. 
  unfold leaf_addrs. rewrite in_flat_map. split.
  - intros (k & _ & H). apply filter_In in H. destruct H as [H N]. apply in_level in H. apply negb_true_iff in N. tauto.
  - intros [P N]. exists (length p). split.
    + apply in_seq. assert (D := present_depth _ _ _ _ _ _ _ _ Hh p P). lia.
    + apply filter_In. split; [apply in_level; auto|]. rewrite N. reflexivity.
Qed.
Lemma leaf_addrs_NoDup : NoDup leaf_addrs.
Proof. clear Hc Hh. 
  unfold leaf_addrs. apply NoDup_flat_map.
  - apply seq_NoDup.
  - intros. apply NoDup_filter. apply level_NoDup.
  - intros x y b _ _ Hx Hy. apply filter_In in Hx. destruct Hx as [Hx _]. apply filter_In in Hy. destruct Hy as [Hy _].
    apply in_level in Hx, Hy. lia.
Qed.
Lemma leaves_of_tree : map an_addr (concat (at_leaves t)) = leaf_addrs.
Proof. clear Hc Hh. 
  unfold spec_tree, leaf_addrs; cbn [at_leaves]. rewrite concat_map, map_map, flat_map_concat_map. f_equal.
  apply map_ext. intros k. unfold leaf_level. rewrite map_map. apply map_id.
Qed.

Lemma leaf_list_eq : leaf_list t = leaf_addrs.
Proof. clear Hc Hh.  apply leaves_of_tree. Qed.

Notation leaves_below := (leaves_below t).

Lemma count_below M q : In M leaf_addrs -> count_occ addr_eq_dec (leaves_below q) M = Nat.b2n (is_above q M).
Proof.
  intros HM. unfold TreeSpec.leaves_below. rewrite leaf_list_eq. rewrite count_NoDup by (apply NoDup_filter, leaf_addrs_NoDup). f_equal.
  apply eq_true_iff_eq. rewrite existsb_addr. rewrite filter_In. tauto.
Qed.

Lemma interactions_perm L : present L -> refined L = false -> Permutation (interactions t final L) leaf_addrs.
Proof.
  intros P R. apply (Permutation_count_occ addr_eq_dec). intros M.
  destruct (in_dec addr_eq_dec M leaf_addrs) as [HM|HM].
  - rewrite (count_NoDup leaf_addrs) by apply leaf_addrs_NoDup.
    rewrite (proj2 (existsb_addr _ _) HM). cbn [Nat.b2n].
    assert (HM' := HM). apply in_leaf_addrs in HM'. destruct HM' as [PM RM].
    rewrite <- (chain_total d L M). unfold interactions. rewrite !count_occ_app, !count_flat_map.
    assert (A1 : count_occ addr_eq_dec (nl_near final L) M = Nat.b2n (touch d L M)).
    { rewrite count_NoDup by (apply final_near_leaf_NoDup; assumption). f_equal. apply eq_true_iff_eq.
      rewrite existsb_addr, final_near_leaf by assumption. tauto. }
    assert (A2 : nsum (fun x => count_occ addr_eq_dec (leaves_below x) M) (nl_W final L) = Wsum d L M).
    { rewrite (nsum_ext _ (fun x => Nat.b2n (is_above x M))) by (intros; apply count_below; assumption).
      rewrite double_count by (apply final_W_NoDup; assumption). unfold Wsum. apply nsum_ext. intros s Hs.
      f_equal. apply eq_true_iff_eq. rewrite existsb_addr, final_W_in by assumption.
      assert (present s) by (eapply present_suf; eassumption). tauto. }
    assert (A3 : nsum (fun x => count_occ addr_eq_dec (flat_map leaves_below (nl_inter final x) ++ nl_X final x) M) (ancestors_or_self L)
                 = Vsum d L M + Xsum d L M).
    { unfold Vsum, Xsum. rewrite <- nsum_add. apply nsum_ext. intros a Ha.
      assert (Pa : present a) by (apply (present_suf L); assumption).
      rewrite count_occ_app, count_flat_map. f_equal.
      - rewrite (nsum_ext _ (fun x => Nat.b2n (is_above x M))) by (intros; apply count_below; assumption).
        rewrite double_count by (apply final_inter_NoDup; assumption). apply nsum_ext. intros s Hs.
        f_equal. apply eq_true_iff_eq. rewrite existsb_addr, final_inter_in by assumption.
        assert (present s) by (apply (present_suf M); assumption). tauto.
      - rewrite count_NoDup by (apply final_X_NoDup; assumption). f_equal. apply eq_true_iff_eq.
        rewrite existsb_addr, final_X_in by assumption. tauto. }
    rewrite A1, A2, A3. lia.
  - rewrite (proj1 (count_occ_not_In addr_eq_dec leaf_addrs M) HM). apply count_occ_not_In.
    intros H. apply HM. unfold interactions in H. rewrite !in_app_iff in H. destruct H as [H|[H|H]].
    + apply final_near_leaf in H; [|assumption|assumption]. apply in_leaf_addrs. tauto.
    + apply in_flat_map in H. destruct H as (q & _ & H). apply filter_In in H. rewrite leaf_list_eq in H. apply H.
    + apply in_flat_map in H. destruct H as (a & Ha & H). apply in_app_iff in H. destruct H as [H|H].
      * apply in_flat_map in H. destruct H as (q & _ & H). apply filter_In in H. rewrite leaf_list_eq in H. apply H.
      * apply final_X_in in H; [|eapply present_suf; eassumption]. apply in_leaf_addrs. tauto.
Qed.

End Contents.
