(** Neighbour lists of the adaptive tree in any arithmetic in which [adjacent] is symmetric on the boxes of the tree.
    Nothing is assumed about which boxes are adjacent: two boxes count as near ([tch]) if the test succeeded on them and on
    every pair of their ancestors met on the way down. *)
From Coq Require Import List Bool ZArith Arith Lia Permutation.
From Verif Require Import Num Outcome Vec Orthtree AdaptiveTree TreeSpec GeometryProofs AdaptiveProofs BfsProofs ListProofs ListContents
  BuildProofs AnyTree.
Import ListNotations.

Definition gate {A} (b : bool) (x : A) : outcome A := if b then Throw else Ok x.
Lemma ofold_gate {A} (f : nlists -> A -> outcome nlists) (b : A -> bool) (g : A -> list event) xs ls :
  (forall x ls, In x xs -> f ls x = gate (b x) (apply_events (g x) ls)) ->
  ofold f xs ls = gate (existsb b xs) (apply_events (flat_map g xs) ls).
Proof.
  revert ls; induction xs as [|x xs IH]; intros ls H; [reflexivity|].
  cbn [ofold flat_map existsb]. rewrite H by (left; reflexivity). destruct (b x); [reflexivity|]. cbn [gate bind orb].
  rewrite IH by (intros; apply H; right; assumption). rewrite apply_events_app. reflexivity.
Qed.

(** The ancestor of [p] at depth [k] ([p] itself if it is less deep). *)
Definition anc (k : nat) (p : addr) : addr := skipn (length p - k) p.
Lemma anc_self k p : length p <= k -> anc k p = p.
Proof. intros H. unfold anc. replace (length p - k) with 0 by lia. reflexivity. Qed.
Lemma anc_cons k i p : k <= length p -> anc k (i :: p) = anc k p.
Proof. intros H. unfold anc. cbn [length]. replace (S (length p) - k) with (S (length p - k)) by lia. reflexivity. Qed.

Section Lists.
Context {Nu Src : Type} {NNu : Num Nu} {DNu : Dist Nu}.
Variable d : nat.
Variable pos : Src -> list Nu.
Variable c : list Nu.
Variable l : Nu.
Variable cap : nat.
Variable srcs : list Src.
Variable root_refined : rule.

Notation refined := (refined d pos c l cap srcs root_refined).
Notation present := (present d pos c l cap srcs root_refined).
Notation level := (level d pos c l cap srcs root_refined).
Notation mk := (mk d pos c l cap srcs root_refined).
Notation kids := (kids d).

Definition adjb (p q : addr) : bool := nodes_adjacent d (mk p) (mk q).
Hypothesis adjb_sym : forall p q, adjb p q = adjb q p.

(** Boxes the construction of the lists treats as near each other. *)
Definition tch (p q : addr) : bool :=
  forallb (fun k => adjb (anc k p) (anc k q)) (seq 1 (max (length p) (length q))).

Lemma tch_sym p q : tch p q = tch q p.
Proof.
  unfold tch. rewrite (Nat.max_comm (length q)). induction (seq _ _) as [|k ks IH]; [reflexivity|].
  cbn [forallb]. rewrite adjb_sym, IH. reflexivity.
Qed.
Lemma tch_root : tch [] [] = true.
Proof. reflexivity. Qed.
Lemma forallb_app_one f a n : forallb f (seq a (S n)) = forallb f (seq a n) && f (a + n).
Proof. rewrite seq_S, forallb_app. cbn [forallb]. rewrite andb_true_r. reflexivity. Qed.
Lemma forallb_eq {A} (f g : A -> bool) xs : (forall x, In x xs -> f x = g x) -> forallb f xs = forallb g xs.
Proof. induction xs as [|x xs IH]; intros H; [reflexivity|]. cbn [forallb]. rewrite H, IH; auto with datatypes. Qed.
Lemma tch_cons_l i p q : length q <= length p -> tch (i :: p) q = tch p q && adjb (i :: p) q.
Proof.
  intros H. unfold tch. cbn [length]. replace (max (S (length p)) (length q)) with (S (length p)) by lia.
  replace (max (length p) (length q)) with (length p) by lia. rewrite forallb_app_one. f_equal.
  - apply forallb_eq. intros k Hk. apply in_seq in Hk. rewrite anc_cons by lia. reflexivity.
  - cbn [plus]. rewrite !anc_self by (simpl; lia). reflexivity.
Qed.
Lemma tch_cons i p j q : length p = length q -> tch (i :: p) (j :: q) = tch p q && adjb (i :: p) (j :: q).
Proof.
  intros H. unfold tch. cbn [length]. rewrite H. cbn [Nat.max]. rewrite !Nat.max_id.
  rewrite forallb_app_one. f_equal.
  - apply forallb_eq. intros k Hk. apply in_seq in Hk. rewrite !anc_cons by lia. reflexivity.
  - cbn [plus]. rewrite !anc_self by (simpl; lia). reflexivity.
Qed.
Lemma tch_up_l i p q : length q <= length p -> tch (i :: p) q = true -> tch p q = true.
Proof. intros H. rewrite tch_cons_l by assumption. intros E. apply andb_true_iff in E. apply E. Qed.
Lemma tch_up_r i p q : length p <= length q -> tch p (i :: q) = true -> tch p q = true.
Proof. intros H. rewrite (tch_sym p q), (tch_sym p (i :: q)). apply tch_up_l. assumption. Qed.
Lemma tch_up i p j q : length p = length q -> tch (i :: p) (j :: q) = true -> tch p q = true.
Proof. intros H. rewrite tch_cons by assumption. intros E. apply andb_true_iff in E. apply E. Qed.

Definition leaf (p : addr) : bool := negb (refined p).

Definition child_events (p q : addr) : list event :=
  if tch p q then (if negb (leaf p) || leaf q then [(KNear, p, q)] else []) else [(KInter, p, q)].
Definition neighbour_events (p pn : addr) : list event :=
  if leaf pn then
    if tch p pn then (KNear, p, pn) :: (if leaf p then [(KNear, pn, p)] else [])
    else [(KX, p, pn); (KW, pn, p)]
  else flat_map (child_events p) (kids pn).

Definition step_near (p pn : addr) : list addr :=
  if leaf pn then (if tch p pn then [pn] else [])
  else filter (fun q => tch p q && (negb (leaf p) || leaf q)) (kids pn).
(** The part of the near list of [p] filled while [p] itself is processed. *)
Fixpoint own_near (p : addr) : list addr :=
  match p with
  | [] => [[]]
  | _ :: q => flat_map (step_near p) (own_near q)
  end.

Definition events (p : addr) : list event :=
  match p with
  | [] => [(KNear, [], [])]
  | _ :: q => flat_map (neighbour_events p) (own_near q)
  end.

(** The constructor's sanity check fails on this pair / while processing this box. *)
Definition bad_child (p q : addr) : bool := negb (tch p q) && too_close (mk p) (mk q).
Definition bad_neighbour (p pn : addr) : bool := if leaf pn then false else existsb (bad_child p) (kids pn).
Definition bad (p : addr) : bool := match p with [] => false | _ :: q => existsb (bad_neighbour p) (own_near q) end.

Section Given.
Variable h : nat.
Notation t := (spec_tree d pos c l cap srcs root_refined h).
Notation order := (order d pos c l cap srcs root_refined h).
Hypothesis Hh : height_ok d pos c l cap srcs root_refined h.

(** *** The model's step applies exactly these events *)
Lemma nbhd_child_events p q ls : present q -> nodes_adjacent d (mk p) (mk q) = tch p q ->
  nbhd_child d t (mk p) ls q = gate (bad_child p q) (apply_events (child_events p q) ls).
Proof.
  intros Q HA. unfold nbhd_child. rewrite (lookup_mk _ _ _ _ _ _ _ _ Hh) by assumption.
  rewrite HA. unfold bad_child, child_events, leaf. cbn [an_leaf AnyTree.mk an_addr].
  destruct (tch p q) eqn:E.
  - destruct (negb (negb (refined p)) || negb (refined q)); reflexivity.
  - cbn [negb andb]. destruct (too_close (mk p) (mk q)); reflexivity.
Qed.

Lemma nbhd_neighbour_events i p pn ls : present pn -> tch p pn = true ->
  (if refined pn then length pn = length p else length pn <= length p) ->
  nbhd_neighbour d t (mk (i :: p)) ls pn = gate (bad_neighbour (i :: p) pn) (apply_events (neighbour_events (i :: p) pn) ls).
Proof.
  intros P HT HL. unfold nbhd_neighbour. rewrite (lookup_mk _ _ _ _ _ _ _ _ Hh) by assumption.
  unfold bad_neighbour, neighbour_events, leaf. cbn [an_leaf AnyTree.mk an_addr].
  destruct (refined pn) eqn:E; cbn [negb].
  - rewrite (children_eq _ _ _ _ _ _ _ _ Hh) by assumption. rewrite E. apply ofold_gate.
    intros q ls' Hq. apply kids_inv in Hq. destruct Hq as (j & Hj & ->). apply nbhd_child_events.
    + simpl. repeat split; auto.
    + rewrite tch_cons by auto. rewrite HT. reflexivity.
  - change (nodes_adjacent d _ _) with (adjb (i :: p) pn). rewrite tch_cons_l, HT by assumption. cbn [andb].
    destruct (adjb (i :: p) pn); [|reflexivity]. destruct (refined (i :: p)); reflexivity.
Qed.

(** *** Contents of own_near *)
Lemma refined_present_kids p q : In q (kids p) -> exists i, i < n_children d /\ q = i :: p.
Proof.
  unfold AdaptiveProofs.kids. intros H. apply in_map_iff in H. destruct H as (i & <- & Hi). apply in_seq in Hi.
  exists i. split; [lia|reflexivity].
Qed.
Lemma in_kids i p : i < n_children d -> In (i :: p) (kids p).
Proof. intros. unfold AdaptiveProofs.kids. apply in_map_iff. exists i. split; [reflexivity|]. apply in_seq. lia. Qed.

(** For a present box [p]: which boxes are in own_near p. *)
Definition near_rel (p q : addr) : Prop :=
  present q /\ tch p q = true /\
  (if refined p then length q = length p \/ (length q < length p /\ refined q = false)
   else length q <= length p /\ refined q = false).

Lemma own_near_in p q : present p -> (In q (own_near p) <-> near_rel p q).
Proof.
  revert q; induction p as [|i p IH]; intros q P.
  - cbn [own_near]. unfold near_rel. split.
    + intros [<-|[]]. split; [exact I|]. split; [apply tch_root|]. destruct (refined []); auto.
    + intros (Pq & _ & H). left. destruct (refined []); destruct q; auto; simpl in *; lia.
  - assert (P' := P). cbn [AnyTree.present] in P'. destruct P' as (Hi & Pp & Rp).
    cbn [own_near]. rewrite in_flat_map. split.
    + intros (pn & Hpn & Hq). apply IH in Hpn; [|assumption]. destruct Hpn as (Ppn & Tpn & Dpn). rewrite Rp in Dpn.
      unfold step_near, leaf in Hq. destruct (refined pn) eqn:Rpn; cbn [negb] in Hq.
      * apply filter_In in Hq. destruct Hq as [Hk Hq]. apply andb_true_iff in Hq. destruct Hq as [HT HL].
        apply refined_present_kids in Hk. destruct Hk as (i' & Hi' & ->).
        split; [simpl; auto|]. split; [assumption|].
        assert (length pn = length p) as L by (destruct Dpn as [|[_ F]]; [assumption|discriminate]).
        destruct (refined (i :: p)); cbn [negb orb] in HL; simpl length; rewrite L; [left; reflexivity|].
        split; [lia|]. apply negb_true_iff in HL. assumption.
      * destruct (tch (i :: p) pn) eqn:T; [|destruct Hq]. destruct Hq as [<-|[]].
        split; [assumption|]. split; [assumption|]. simpl length.
        destruct (refined (i :: p)).
        -- right. split; [|assumption]. destruct Dpn as [->|[]]; lia.
        -- split; [|assumption]. destruct Dpn as [->|[]]; lia.
    + intros (Pq & T & D).
      destruct (Nat.eq_dec (length q) (S (length p))) as [E|NE].
      * destruct q as [|i' q]; [discriminate|]. simpl in E. injection E as E.
        cbn [AnyTree.present] in Pq. destruct Pq as (Hi' & Pq & Rq).
        exists q. split.
        -- apply IH; [assumption|]. split; [assumption|]. split.
           ++ apply tch_up in T; auto.
           ++ rewrite Rp. left. assumption.
        -- unfold step_near, leaf. rewrite Rq. cbn [negb]. apply filter_In. split; [apply in_kids; assumption|].
           rewrite T. cbn [andb]. destruct (refined (i :: p)); cbn [negb orb]; [reflexivity|].
           destruct D as [_ ->]. reflexivity.
      * assert (length q <= length p /\ refined q = false) as [Lq Rq].
        { simpl length in D. destruct (refined (i :: p)); [destruct D as [D|[D F]]; [lia|split; [lia|assumption]]|destruct D; split; [lia|assumption]]. }
        exists q. split.
        -- apply IH; [assumption|]. split; [assumption|]. split; [apply tch_up_l in T; [assumption|lia]|]. rewrite Rp.
           destruct (Nat.eq_dec (length q) (length p)); [left; assumption|right; split; [lia|assumption]].
        -- unfold step_near, leaf. rewrite Rq. cbn [negb]. rewrite T. left. reflexivity.
Qed.

Lemma own_near_NoDup p : present p -> NoDup (own_near p).
Proof.
  induction p as [|i p IH]; intros P.
  - simpl. constructor; [intros []|constructor].
  - assert (P' := P). cbn [AnyTree.present] in P'. destruct P' as (Hi & Pp & Rp).
    cbn [own_near]. apply NoDup_flat_map.
    + apply IH. assumption.
    + intros pn _. unfold step_near. destruct (leaf pn).
      * destruct (tch (i :: p) pn); [constructor; [intros []|constructor]|constructor].
      * apply NoDup_filter. apply kids_NoDup.
    + intros x y q Hx Hy Qx Qy. apply own_near_in in Hx; [|assumption]. apply own_near_in in Hy; [|assumption].
      destruct Hx as (Px & Tx & Dx). destruct Hy as (Py & Ty & Dy). rewrite Rp in Dx, Dy.
      unfold step_near, leaf in Qx, Qy.
      destruct (refined x) eqn:Rx; destruct (refined y) eqn:Ry; cbn [negb] in Qx, Qy.
      * apply filter_In in Qx. destruct Qx as [Kx _]. apply filter_In in Qy. destruct Qy as [Ky _].
        apply refined_present_kids in Kx. destruct Kx as (a & _ & ->). apply refined_present_kids in Ky. destruct Ky as (b & _ & E). congruence.
      * apply filter_In in Qx. destruct Qx as [Kx _]. apply refined_present_kids in Kx. destruct Kx as (a & _ & ->).
        destruct (tch (i :: p) y); [|destruct Qy]. destruct Qy as [->|[]].
        destruct Dx as [Dx|[_ F]]; [|discriminate]. simpl in Dy. lia.
      * apply filter_In in Qy. destruct Qy as [Ky _]. apply refined_present_kids in Ky. destruct Ky as (a & _ & ->).
        destruct (tch (i :: p) x); [|destruct Qx]. destruct Qx as [->|[]].
        destruct Dy as [Dy|[_ F]]; [|discriminate]. simpl in Dx. lia.
      * destruct (tch (i :: p) x); [|destruct Qx]. destruct Qx as [<-|[]].
        destruct (tch (i :: p) y); [|destruct Qy]. destruct Qy as [<-|[]]. reflexivity.
Qed.

(** Hits of the events of [x] on near lists. *)
Lemma hits_near_neighbour x p pn : x <> pn ->
  hits KNear p (neighbour_events x pn)
  = (if addr_eqb p x then step_near x pn else if addr_eqb p pn && leaf pn && tch x pn && leaf x then [x] else []).
Proof.
  intros NE. unfold neighbour_events, step_near. destruct (leaf pn).
  - destruct (tch x pn).
    + destruct (leaf x); cbn [hits flat_map kind_eqb andb app];
      destruct (addr_eqb p x) eqn:E.
      * apply addr_eqb_eq in E. subst. apply addr_eqb_neq in NE. rewrite NE. reflexivity.
      * rewrite !andb_true_r. destruct (addr_eqb p pn); reflexivity.
      * reflexivity.
      * rewrite !andb_false_r. reflexivity.
    + cbn [hits flat_map kind_eqb andb app]. rewrite andb_false_r. cbn. destruct (addr_eqb p x); reflexivity.
  - rewrite hits_flat_map. rewrite !andb_false_r. cbn [andb].
    rewrite (flat_map_ext_in _ (fun q => if addr_eqb p x && (tch x q && (negb (leaf x) || leaf q)) then [q] else [])).
    + destruct (addr_eqb p x); cbn [andb]; [apply flat_map_single|]. apply flat_map_nil. reflexivity.
    + intros q _. unfold child_events. destruct (tch x q); cbn [andb].
      * destruct (negb (leaf x) || leaf q); cbn [hits flat_map kind_eqb andb app]; rewrite ?andb_true_r, ?andb_false_r; [|reflexivity].
        destruct (addr_eqb p x); reflexivity.
      * cbn. rewrite andb_false_r. reflexivity.
Qed.

Lemma near_not_self i x pn : present (i :: x) -> In pn (own_near x) -> i :: x <> pn.
Proof.
  intros P H E. subst pn. destruct P as (_ & Px & Rx). apply own_near_in in H; [|assumption].
  destruct H as (_ & _ & H). rewrite Rx in H. simpl in H. lia.
Qed.

Lemma hits_near_events x p : present x ->
  hits KNear p (events x) = (if addr_eqb p x then own_near x else
     match x with [] => [] | _ :: q => if leaf x then flat_map (fun pn => if addr_eqb p pn && leaf pn && tch x pn then [x] else []) (own_near q) else [] end).
Proof.
  intros P. destruct x as [|i x].
  - simpl. destruct (addr_eqb p []); reflexivity.
  - cbn [events]. rewrite hits_flat_map.
    rewrite (flat_map_ext_in _ (fun pn => if addr_eqb p (i :: x) then step_near (i :: x) pn
       else if addr_eqb p pn && leaf pn && tch (i :: x) pn && leaf (i :: x) then [i :: x] else [])).
    2:{ intros pn Hpn. apply hits_near_neighbour. eapply near_not_self; eassumption. }
    destruct (addr_eqb p (i :: x)) eqn:E; [reflexivity|].
    destruct (leaf (i :: x)).
    + apply flat_map_ext_in. intros pn _. rewrite andb_true_r. reflexivity.
    + apply flat_map_nil. intros pn _. rewrite andb_false_r. reflexivity.
Qed.

(** For an inner box only its own events matter. *)
Lemma hits_near_inner x p : present x -> refined p = true ->
  hits KNear p (events x) = if addr_eqb p x then own_near x else [].
Proof.
  intros P Rp. rewrite hits_near_events by assumption. destruct (addr_eqb p x); [reflexivity|].
  destruct x as [|i x]; [reflexivity|]. destruct (leaf (i :: x)); [|reflexivity].
  apply flat_map_nil. intros pn _. destruct (addr_eqb p pn) eqn:E; [|reflexivity].
  apply addr_eqb_eq in E. subst. unfold leaf. rewrite Rp. reflexivity.
Qed.

(** Before [x] is processed, the near list of its parent is complete. *)

Lemma near_inner_after done p : NoDup done -> (forall x, In x done -> present x) -> In p done -> refined p = true ->
  nl_near (apply_events (flat_map events done) nl_empty) p = own_near p.
Proof.
  intros ND HP Hp Rp. change (nl_near ?ls p) with (get KNear ls p). rewrite get_apply_events. cbn [get nl_empty nl_near app].
  rewrite hits_flat_map. rewrite (flat_map_ext_in _ (fun x => if addr_eqb p x then own_near x else [])).
  - apply flat_map_pick; assumption.
  - intros x Hx. apply hits_near_inner; auto.
Qed.

Lemma nbhd_events done x : NoDup done -> (forall y, In y done -> present y) -> present x ->
  (forall i q, x = i :: q -> In q done) ->
  nbhd d t x (apply_events (flat_map events done) nl_empty)
  = gate (bad x) (apply_events (flat_map events (done ++ [x])) nl_empty).
Proof.
  intros ND HP P HD. rewrite flat_map_app, apply_events_app. cbn [flat_map]. rewrite app_nil_r.
  unfold nbhd. rewrite (lookup_mk _ _ _ _ _ _ _ _ Hh) by assumption. destruct x as [|i q].
  - reflexivity.
  - assert (P' := P). destruct P' as (Hi & Pq & Rq).
    rewrite near_inner_after; [|assumption|assumption|eapply HD; reflexivity|assumption].
    cbn [events bad]. apply ofold_gate. intros pn ls Hpn. apply own_near_in in Hpn; [|assumption].
    destruct Hpn as (Ppn & Tpn & D). rewrite Rq in D. apply nbhd_neighbour_events; [assumption|assumption|].
    destruct (refined pn) eqn:Rpn; [destruct D as [->|[_ F]]; [reflexivity|congruence]|lia].
Qed.

(** *** The traversal *)
Lemma bfs_level_level k : bfs_level (children d t) k [[]] = level k.
Proof.
  induction k as [|k IH]; [reflexivity|]. rewrite bfs_level_S, IH. cbn [AnyTree.level].
  apply flat_map_children; try assumption. intros p Hp. apply in_level in Hp. apply Hp.
Qed.

(** Every box occurs in [order] after its parent. *)
Lemma order_parent_before done x rest i q : order = done ++ x :: rest -> x = i :: q -> In q done.
Proof.
  intros E ->.
  assert (X : In (i :: q) order) by (rewrite E; apply in_elt).
  apply (in_order _ _ _ _ _ _ _ _ Hh) in X. destruct X as (Hi & Pq & Rq).
  assert (Q : In q order) by (apply in_order; assumption).
  (* q lies in an earlier level *)
  assert (S : forall m s done rest, flat_map level (seq s m) = done ++ (i :: q) :: rest -> In q (flat_map level (seq s m)) -> In q done).
  { clear E Q. induction m; intros s dn rs E Q; cbn [seq flat_map] in *; [destruct Q|].
    apply in_app_iff in Q. destruct Q as [Q|Q].
    - assert (Lq : length q = s) by (apply in_level in Q; apply Q).
      (* i::q is not in level s, so level s is a prefix of done *)
      revert dn E Q. assert (NI : ~ In (i :: q) (level s)).
      { intros X. apply in_level in X. simpl in X. lia. }
      revert NI. generalize (level s). intros L. induction L as [|y L IHL]; intros NI dn E Q; [destruct Q|].
      destruct dn as [|z dn]; cbn [app] in E.
      + injection E as -> _. exfalso. apply NI. left. reflexivity.
      + injection E as -> E. destruct Q as [->|Q]; [left; reflexivity|]. right.
        apply IHL; auto. intros X. apply NI. right. assumption.
    - (* i::q deeper too *)
      assert (Lq : s < length q).
      { apply in_flat_map in Q. destruct Q as (k & Hk & Q). apply in_seq in Hk. apply in_level in Q. lia. }
      assert (NI : ~ In (i :: q) (level s)).
      { intros X. apply in_level in X. simpl in X. lia. }
      revert dn E. revert NI. generalize (level s). intros L. induction L as [|y L IHL]; intros NI dn E.
      + eapply IHm; eassumption.
      + destruct dn as [|z dn]; cbn [app] in E.
        * injection E as -> _. exfalso. apply NI. left. reflexivity.
        * injection E as -> E. right. apply IHL; auto. intros X. apply NI. right. assumption. }
  eapply S; [exact E|exact Q].
Qed.

Lemma all_lists_events : all_lists d t = gate (existsb bad order) (apply_events (flat_map events order) nl_empty).
Proof.
  unfold all_lists. rewrite (bfs_levels (children d t) (nbhd d t) (S h)).
  - rewrite (flat_map_ext_in _ level) by (intros; apply bfs_level_level). fold order.
    assert (G : forall rest done, order = done ++ rest ->
      ofold (fun s p => nbhd d t p s) rest (apply_events (flat_map events done) nl_empty)
      = gate (existsb bad rest) (apply_events (flat_map events order) nl_empty)).
    { induction rest as [|x rest IH]; intros done E.
      - rewrite app_nil_r in E. subst. reflexivity.
      - cbn [ofold existsb]. assert (ND := order_NoDup d pos c l cap srcs root_refined h).
        rewrite nbhd_events.
        + destruct (bad x); [reflexivity|]. cbn [gate bind orb]. apply IH. rewrite <- app_assoc. assumption.
        + rewrite E in ND. clear - ND. induction done; simpl in *; [constructor|]. inversion ND; subst. constructor; auto.
          intros X. apply H1. apply in_or_app. left. assumption.
        + intros y Hy. apply (in_order _ _ _ _ _ _ _ _ Hh). rewrite E. apply in_or_app. left. assumption.
        + apply (in_order _ _ _ _ _ _ _ _ Hh). rewrite E. apply in_elt.
        + intros i q Ex. eapply order_parent_before; eassumption. }
    apply (G order []). reflexivity.
  - rewrite bfs_level_level. apply (level_ext_empty _ _ _ _ _ _ _ h); [apply Hh|lia].
  - rewrite (flat_map_ext_in _ level) by (intros; apply bfs_level_level). fold order.
    rewrite (heap_length _ _ _ _ _ _ _ _ Hh). lia.
Qed.

Definition final : nlists := apply_events (flat_map events order) nl_empty.

Lemma final_get k p : get k final p = flat_map (fun x => hits k p (events x)) order.
Proof.
  unfold final. rewrite get_apply_events, hits_flat_map. destruct k; reflexivity.
Qed.

Definition wrel (L s : addr) : bool :=
  (Nat.ltb (length L) (length s)) && tch (tl s) L && negb (tch s L).
Definition vrel (a s : addr) : bool :=
  Nat.eqb (length a) (length s) && Nat.leb 1 (length a) && tch (tl a) (tl s) && negb (tch a s).
Definition xrel (a M : addr) : bool :=
  (Nat.ltb (length M) (length a)) && tch (tl a) M && negb (tch a M).

Definition Wsum L M := nsum (fun s => Nat.b2n (wrel L s)) (ancestors_or_self M).
Definition Xsum L M := nsum (fun a => Nat.b2n (xrel a M)) (ancestors_or_self L).
Definition Vsum L M := nsum (fun a => nsum (fun s => Nat.b2n (vrel a s)) (ancestors_or_self M)) (ancestors_or_self L).

Lemma Wsum_short L M : length M <= length L -> Wsum L M = 0.
Proof.
  intros H. apply nsum_zero. intros s Hs. apply in_sufs_length in Hs. unfold wrel.
  destruct (Nat.ltb_spec (length L) (length s)); [lia|]. reflexivity.
Qed.
Lemma Xsum_short L M : length L <= length M -> Xsum L M = 0.
Proof.
  intros H. apply nsum_zero. intros s Hs. apply in_sufs_length in Hs. unfold xrel.
  destruct (Nat.ltb_spec (length M) (length s)); [lia|]. reflexivity.
Qed.
Lemma Wsum_cons L i M : length L <= length M -> Wsum L (i :: M) + Nat.b2n (tch L (i :: M)) = Wsum L M + Nat.b2n (tch L M).
Proof.
  intros H. unfold Wsum at 1. cbn [ancestors_or_self nsum fold_right]. fold (nsum (fun s => Nat.b2n (wrel L s)) (ancestors_or_self M)). fold (Wsum L M).
  unfold wrel. destruct (Nat.ltb_spec (length L) (length (i :: M))) as [_|G]; [|simpl in G; lia].
  cbn [tl andb]. rewrite (tch_sym M L), (tch_sym (i :: M) L).
  destruct (tch L (i :: M)) eqn:E; [rewrite (tch_up_r _ _ _ H E); simpl; lia|].
  destruct (tch L M); simpl; lia.
Qed.
Lemma Xsum_cons i L M : length M <= length L -> Xsum (i :: L) M + Nat.b2n (tch (i :: L) M) = Xsum L M + Nat.b2n (tch L M).
Proof.
  intros H. unfold Xsum at 1. cbn [ancestors_or_self nsum fold_right]. fold (nsum (fun s => Nat.b2n (xrel s M)) (ancestors_or_self L)). fold (Xsum L M).
  unfold xrel. destruct (Nat.ltb_spec (length M) (length (i :: L))) as [_|G]; [|simpl in G; lia].
  cbn [tl andb].
  destruct (tch (i :: L) M) eqn:E; [rewrite (tch_up_l _ _ _ H E); simpl; lia|].
  destruct (tch L M); simpl; lia.
Qed.
Lemma vrel_len a s : length a <> length s -> vrel a s = false.
Proof. intros H. unfold vrel. apply Nat.eqb_neq in H. rewrite H. reflexivity. Qed.
Lemma Vsum_cons_r L i M : length L <= length M -> Vsum L (i :: M) = Vsum L M.
Proof.
  intros H. unfold Vsum. apply nsum_ext. intros a Ha. apply in_sufs_length in Ha. cbn [ancestors_or_self nsum fold_right].
  rewrite vrel_len by (simpl; lia). reflexivity.
Qed.
Lemma Vsum_cons_l i L M : length M <= length L -> Vsum (i :: L) M = Vsum L M.
Proof.
  intros H. unfold Vsum at 1. cbn [ancestors_or_self nsum fold_right]. fold (Vsum L M).
  fold (nsum (fun s => Nat.b2n (vrel (i :: L) s)) (ancestors_or_self M)).
  rewrite nsum_zero; [reflexivity|]. intros s Hs. apply in_sufs_length in Hs. rewrite vrel_len by (simpl; lia). reflexivity.
Qed.
Lemma Vsum_eqlen L M : length L = length M -> Vsum L M + Nat.b2n (tch L M) = 1.
Proof.
  revert M; induction L as [|i L IH]; intros M H; destruct M as [|j M]; try discriminate.
  - unfold Vsum. cbn [ancestors_or_self nsum fold_right]. unfold vrel. rewrite !tch_root. reflexivity.
  - simpl in H. injection H as H. specialize (IH M H).
    assert (U : Vsum (i :: L) (j :: M) = Nat.b2n (vrel (i :: L) (j :: M)) + nsum (fun s => Nat.b2n (vrel (i :: L) s)) (ancestors_or_self M) + Vsum L (j :: M))
      by reflexivity. rewrite U. clear U.
    rewrite Vsum_cons_r by lia.
    rewrite (nsum_zero _ (ancestors_or_self M)).
    2:{ intros s Hs. apply in_sufs_length in Hs. rewrite vrel_len by (simpl; lia). reflexivity. }
    assert (E : Nat.b2n (vrel (i :: L) (j :: M)) + Nat.b2n (tch (i :: L) (j :: M)) = Nat.b2n (tch L M)).
    { unfold vrel. cbn [length tl]. rewrite H, Nat.eqb_refl. cbn [Nat.leb andb].
      destruct (tch (i :: L) (j :: M)) eqn:E.
      - rewrite (tch_up _ _ _ _ H E). reflexivity.
      - destruct (tch L M); reflexivity. }
    lia.
Qed.

Theorem chain_total L M : Nat.b2n (tch L M) + Wsum L M + Vsum L M + Xsum L M = 1.
Proof.
  destruct (le_lt_dec (length L) (length M)) as [H|H].
  - rewrite Xsum_short by assumption.
    remember (length M - length L) as n eqn:E. revert M H E. induction n; intros M H E.
    + rewrite Wsum_short by lia. assert (V := Vsum_eqlen L M ltac:(lia)). lia.
    + destruct M as [|i M]; [simpl in *; lia|]. cbn [length] in H, E.
      assert (W := Wsum_cons L i M ltac:(lia)). rewrite Vsum_cons_r by lia.
      specialize (IHn M ltac:(lia) ltac:(lia)). lia.
  - rewrite Wsum_short by lia.
    remember (length L - length M) as n eqn:E. revert L H E. induction n; intros L H E; [lia|].
    destruct L as [|i L]; [simpl in *; lia|]. cbn [length] in H, E.
    assert (X := Xsum_cons i L M ltac:(lia)). rewrite Vsum_cons_l by lia.
    destruct (Nat.eq_dec (length L) (length M)) as [EQ|NE].
    + rewrite (Xsum_short L M) in X by lia. assert (V := Vsum_eqlen L M EQ). lia.
    + specialize (IHn L ltac:(lia) ltac:(lia)). lia.
Qed.
Lemma order_iff p : In p order <-> present p.
Proof.   apply in_order. assumption. Qed.

Lemma present_tl i p : present (i :: p) -> present p /\ refined p = true.
Proof.   simpl. tauto. Qed.
Lemma present_suf p s : present p -> In s (ancestors_or_self p) -> present s.
Proof.  
  induction p as [|i p IH]; simpl; intros P [<-|H]; auto; [destruct H|]. apply IH; [apply P|assumption].
Qed.

(** *** near lists *)
Lemma hits_near_inv x p y : present x -> p <> x -> In y (hits KNear p (events x)) ->
  y = x /\ exists i q, x = i :: q /\ In p (own_near q) /\ leaf p = true /\ tch x p = true /\ leaf x = true.
Proof.
  intros P NE H. rewrite (hits_near_events) in H by assumption. apply addr_eqb_neq in NE. rewrite NE in H.
  destruct x as [|i q]; [destruct H|]. destruct (leaf (i :: q)) eqn:E; [|destruct H].
  apply in_flat_map in H. destruct H as (pn & Hpn & H).
  destruct (addr_eqb p pn) eqn:E1; [|destruct H]. apply addr_eqb_eq in E1. subst pn.
  destruct (leaf p) eqn:E2; [|destruct H]. destruct (tch (i :: q) p) eqn:E3; [|destruct H].
  destruct H as [<-|[]]. split; [reflexivity|]. exists i, q. auto.
Qed.

Lemma final_near_leaf p q : present p -> refined p = false ->
  (In q (nl_near final p) <-> present q /\ refined q = false /\ tch p q = true).
Proof.
  intros P Rp. change (nl_near final p) with (get KNear final p). rewrite final_get. rewrite in_flat_map. split.
  - intros (x & Hx & H). apply order_iff in Hx. destruct (addr_eq_dec p x) as [<-|NE].
    + rewrite (hits_near_events), addr_eqb_refl in H by assumption. apply (own_near_in) in H; [|assumption].
      destruct H as (Pq & T & D). rewrite Rp in D. tauto.
    + apply hits_near_inv in H; [|assumption|assumption]. destruct H as (-> & i & y & -> & _ & _ & T & Lx).
      split; [assumption|]. split; [apply negb_true_iff; assumption|]. rewrite tch_sym. assumption.
  - intros (Pq & Rq & T). destruct (le_lt_dec (length q) (length p)) as [D|D].
    + exists p. split; [apply order_iff; assumption|]. rewrite (hits_near_events), addr_eqb_refl by assumption.
      apply (own_near_in); [assumption|]. split; [assumption|]. split; [assumption|]. rewrite Rp. auto.
    + exists q. split; [apply order_iff; assumption|]. rewrite (hits_near_events) by assumption.
      destruct (addr_eqb p q) eqn:E; [apply addr_eqb_eq in E; subst; lia|].
      destruct q as [|i q]; [simpl in D; lia|]. unfold leaf at 1. rewrite Rq. cbn [negb].
      apply in_flat_map. exists p. split.
      * apply (own_near_in); [apply (present_tl i); assumption|]. destruct Pq as (_ & Pq & Rqq).
        split; [assumption|]. split; [rewrite tch_sym; apply tch_up_r in T; [assumption|simpl in D; lia]|]. rewrite Rqq.
        simpl in D. destruct (Nat.eq_dec (length p) (length q)); [left; assumption|right; split; [lia|assumption]].
      * rewrite addr_eqb_refl. unfold leaf. rewrite Rp, tch_sym, T. simpl. auto.
Qed.

Lemma final_near_inner p : present p -> refined p = true -> nl_near final p = own_near p.
Proof.
  intros P Rp. eapply near_inner_after; eauto.
  - apply order_NoDup.
  - intros x Hx. apply order_iff. assumption.
  - apply order_iff. assumption.
Qed.

Lemma final_near_leaf_NoDup p : present p -> refined p = false -> NoDup (nl_near final p).
Proof.
  intros P Rp. change (nl_near final p) with (get KNear final p). rewrite final_get. apply NoDup_flat_map.
  - apply order_NoDup.
  - intros x Hx. apply order_iff in Hx. rewrite (hits_near_events) by assumption.
    destruct (addr_eqb p x) eqn:E; [apply (own_near_NoDup); assumption|].
    destruct x as [|i q]; [constructor|]. destruct (leaf (i :: q)); [|constructor].
    assert (ND : NoDup (own_near q)) by (apply (own_near_NoDup); apply (present_tl i); assumption).
    assert (G : flat_map (fun pn => if addr_eqb p pn && leaf pn && tch (i :: q) pn then [i :: q] else []) (own_near q) =
       if existsb (addr_eqb p) (own_near q) then (if leaf p && tch (i :: q) p then [i :: q] else []) else []).
    { clear - ND. induction (own_near q) as [|y ys IH]; [reflexivity|]. inversion ND; subst. cbn [flat_map existsb].
      destruct (addr_eqb p y) eqn:E; cbn [andb orb].
      - apply addr_eqb_eq in E. subst y. rewrite flat_map_nil; [apply app_nil_r|].
        intros z Hz. destruct (addr_eqb p z) eqn:E; [|reflexivity]. apply addr_eqb_eq in E. subst. contradiction.
      - apply IH. assumption. }
    refine (eq_ind_r (fun z => NoDup z) _ G). destruct (existsb _ _); [|constructor]. destruct (leaf p && tch (i :: q) p); [|constructor].
    constructor; [intros []|constructor].
  - intros x y q Hx Hy Qx Qy. apply order_iff in Hx, Hy.
    destruct (addr_eq_dec p x) as [<-|NEx]; destruct (addr_eq_dec p y) as [<-|NEy]; auto.
    + exfalso. apply hits_near_inv in Qy; [|assumption|assumption]. destruct Qy as (-> & i & z & -> & Hz & _).
      rewrite (hits_near_events), addr_eqb_refl in Qx by assumption. apply (own_near_in) in Qx; [|assumption].
      destruct Qx as (_ & _ & D). rewrite Rp in D. apply (own_near_in) in Hz; [|apply (present_tl i); assumption].
      destruct Hz as (_ & _ & Dz). destruct Hy as (_ & _ & Rz). rewrite Rz in Dz. simpl in D. lia.
    + exfalso. apply hits_near_inv in Qx; [|assumption|assumption]. destruct Qx as (-> & i & z & -> & Hz & _).
      rewrite (hits_near_events), addr_eqb_refl in Qy by assumption. apply (own_near_in) in Qy; [|assumption].
      destruct Qy as (_ & _ & D). rewrite Rp in D. apply (own_near_in) in Hz; [|apply (present_tl i); assumption].
      destruct Hz as (_ & _ & Dz). destruct Hx as (_ & _ & Rz). rewrite Rz in Dz. simpl in D. lia.
    + apply hits_near_inv in Qx; [|assumption|assumption]. apply hits_near_inv in Qy; [|assumption|assumption].
      destruct Qx as [-> _]. destruct Qy as [-> _]. reflexivity.
Qed.

(** *** interaction, X and W lists *)
Definition own_inter (p : addr) : list addr :=
  match p with
  | [] => []
  | _ :: q => flat_map (fun pn => if leaf pn then [] else filter (fun y => negb (tch p y)) (kids pn)) (own_near q)
  end.
Definition own_X (p : addr) : list addr :=
  match p with
  | [] => []
  | _ :: q => filter (fun pn => leaf pn && negb (tch p pn)) (own_near q)
  end.

Lemma hits_inter x p : hits KInter p (events x) = if addr_eqb p x then own_inter x else [].
Proof.
  destruct x as [|i q]; [cbn; destruct (addr_eqb p []); reflexivity|].
  cbn [events own_inter]. rewrite hits_flat_map.
  destruct (addr_eqb p (i :: q)) eqn:E.
  - apply flat_map_ext_in. intros pn _. unfold neighbour_events. destruct (leaf pn).
    + destruct (tch (i :: q) pn); [destruct (leaf (i :: q))|]; reflexivity.
    + rewrite hits_flat_map. rewrite <- flat_map_single. apply flat_map_ext_in. intros y _.
      unfold child_events. destruct (tch (i :: q) y).
      * destruct (negb (leaf (i :: q)) || leaf y); reflexivity.
      * cbn [hits flat_map kind_eqb andb negb]. rewrite E. reflexivity.
  - apply flat_map_nil. intros pn _. unfold neighbour_events. destruct (leaf pn).
    + destruct (tch (i :: q) pn); [destruct (leaf (i :: q))|]; reflexivity.
    + rewrite hits_flat_map. apply flat_map_nil. intros y _.
      unfold child_events. destruct (tch (i :: q) y).
      * destruct (negb (leaf (i :: q)) || leaf y); reflexivity.
      * cbn [hits flat_map kind_eqb andb negb]. rewrite E. reflexivity.
Qed.

Lemma hits_X x p : hits KX p (events x) = if addr_eqb p x then own_X x else [].
Proof.
  destruct x as [|i q]; [cbn; destruct (addr_eqb p []); reflexivity|].
  cbn [events own_X]. rewrite hits_flat_map. rewrite <- flat_map_single.
  destruct (addr_eqb p (i :: q)) eqn:E.
  - apply flat_map_ext_in. intros pn _. unfold neighbour_events. destruct (leaf pn); cbn [andb].
    + destruct (tch (i :: q) pn); [destruct (leaf (i :: q)); reflexivity|].
      cbn [hits flat_map kind_eqb andb negb app]. rewrite E. reflexivity.
    + rewrite hits_flat_map. apply flat_map_nil. intros y _.
      unfold child_events. destruct (tch (i :: q) y); [destruct (negb (leaf (i :: q)) || leaf y)|]; reflexivity.
  - apply flat_map_nil. intros pn _. unfold neighbour_events. destruct (leaf pn).
    + destruct (tch (i :: q) pn); [destruct (leaf (i :: q)); reflexivity|].
      cbn [hits flat_map kind_eqb andb negb app]. rewrite E. reflexivity.
    + rewrite hits_flat_map. apply flat_map_nil. intros y _.
      unfold child_events. destruct (tch (i :: q) y); [destruct (negb (leaf (i :: q)) || leaf y)|]; reflexivity.
Qed.

Lemma hits_W x p : hits KW p (events x)
  = match x with [] => [] | _ :: q => flat_map (fun pn => if addr_eqb p pn && leaf pn && negb (tch x pn) then [x] else []) (own_near q) end.
Proof.
  destruct x as [|i q]; [reflexivity|].
  cbn [events]. rewrite hits_flat_map. apply flat_map_ext_in. intros pn _.
  unfold neighbour_events. destruct (leaf pn).
  - rewrite andb_true_r. destruct (tch (i :: q) pn); [destruct (leaf (i :: q)); rewrite andb_false_r; reflexivity|].
    cbn [hits flat_map kind_eqb andb negb app]. rewrite andb_true_r, app_nil_r. reflexivity.
  - rewrite andb_false_r. cbn [andb]. rewrite hits_flat_map. apply flat_map_nil. intros y _.
    unfold child_events. destruct (tch (i :: q) y); [destruct (negb (leaf (i :: q)) || leaf y)|]; reflexivity.
Qed.

Lemma final_inter p : present p -> nl_inter final p = own_inter p.
Proof.
  intros P. change (nl_inter final p) with (get KInter final p). rewrite final_get.
  rewrite (flat_map_ext_in _ (fun x => if addr_eqb p x then own_inter x else [])) by (intros; apply hits_inter).
  apply flat_map_pick; [apply order_NoDup|apply order_iff; assumption].
Qed.
Lemma final_X p : present p -> nl_X final p = own_X p.
Proof.
  intros P. change (nl_X final p) with (get KX final p). rewrite final_get.
  rewrite (flat_map_ext_in _ (fun x => if addr_eqb p x then own_X x else [])) by (intros; apply hits_X).
  apply flat_map_pick; [apply order_NoDup|apply order_iff; assumption].
Qed.

Lemma final_inter_in p q : present p -> (In q (nl_inter final p) <-> present q /\ vrel p q = true).
Proof.
  intros P. rewrite final_inter by assumption. destruct p as [|i p].
  - simpl. split; [tauto|]. intros [_ H]. unfold vrel in H. simpl in H. rewrite !andb_false_r in H. discriminate.
  - assert (P' := P). destruct P' as (Hi & Pp & Rp). cbn [own_inter]. rewrite in_flat_map. unfold vrel. split.
    + intros (pn & Hpn & H). apply (own_near_in) in Hpn; [|assumption]. destruct Hpn as (Ppn & Tpn & D). rewrite Rp in D.
      unfold leaf in H. destruct (refined pn) eqn:Rpn; cbn [negb] in H; [|destruct H].
      apply filter_In in H. destruct H as [K T]. apply kids_inv in K. destruct K as (j & Hj & ->).
      split; [simpl; auto|]. cbn [length tl]. destruct D as [D|[_ F]]; [|discriminate].
      rewrite D, Nat.eqb_refl, Tpn, T. reflexivity.
    + intros [Pq H]. apply andb_true_iff in H. destruct H as [H T]. apply andb_true_iff in H. destruct H as [H Tp].
      apply andb_true_iff in H. destruct H as [H _]. apply Nat.eqb_eq in H.
      destruct q as [|j q]; [discriminate|]. simpl in H. injection H as H. cbn [tl] in Tp.
      destruct Pq as (Hj & Pq & Rq). exists q. split.
      * apply (own_near_in); [assumption|]. split; [assumption|]. split; [assumption|]. rewrite Rp. left. auto.
      * unfold leaf. rewrite Rq. cbn [negb]. apply filter_In. split; [apply kids_in; assumption|assumption].
Qed.
Lemma final_inter_NoDup p : present p -> NoDup (nl_inter final p).
Proof.
  intros P. rewrite final_inter by assumption. destruct p as [|i p]; [constructor|].
  destruct P as (Hi & Pp & Rp). cbn [own_inter]. apply NoDup_flat_map.
  - apply (own_near_NoDup). assumption.
  - intros pn _. destruct (leaf pn); [constructor|]. apply NoDup_filter. apply kids_NoDup.
  - intros x y q _ _ Qx Qy. destruct (leaf x); [destruct Qx|]. destruct (leaf y); [destruct Qy|].
    apply filter_In in Qx. destruct Qx as [Kx _]. apply filter_In in Qy. destruct Qy as [Ky _].
    apply kids_inv in Kx. destruct Kx as (a & _ & ->). apply kids_inv in Ky. destruct Ky as (b & _ & E). congruence.
Qed.

Lemma final_X_in p q : present p -> (In q (nl_X final p) <-> present q /\ refined q = false /\ xrel p q = true).
Proof.
  intros P. rewrite final_X by assumption. destruct p as [|i p].
  - simpl. split; [tauto|]. intros (_ & _ & H). unfold xrel in H. simpl in H. discriminate.
  - assert (P' := P). destruct P' as (Hi & Pp & Rp). cbn [own_X]. rewrite filter_In. unfold xrel. split.
    + intros [Hq H]. apply (own_near_in) in Hq; [|assumption]. destruct Hq as (Pq & T & D). rewrite Rp in D.
      apply andb_true_iff in H. destruct H as [Lq NT]. apply negb_true_iff in Lq.
      split; [assumption|]. split; [assumption|]. cbn [length tl]. rewrite T, NT.
      destruct (Nat.ltb_spec (length q) (S (length p))); [reflexivity|lia].
    + intros (Pq & Rq & H). apply andb_true_iff in H. destruct H as [H NT]. apply andb_true_iff in H. destruct H as [Lq T].
      apply Nat.ltb_lt in Lq. cbn [length tl] in *. split.
      * apply (own_near_in); [assumption|]. split; [assumption|]. split; [assumption|]. rewrite Rp.
        destruct (Nat.eq_dec (length q) (length p)); [left; assumption|right; split; [lia|assumption]].
      * unfold leaf. rewrite Rq, NT. reflexivity.
Qed.
Lemma final_X_NoDup p : present p -> NoDup (nl_X final p).
Proof.
  intros P. rewrite final_X by assumption. destruct p as [|i p]; [constructor|].
  apply NoDup_filter. apply (own_near_NoDup). apply (present_tl i). assumption.
Qed.

Lemma final_W_in p q : present p -> (In q (nl_W final p) <-> present q /\ refined p = false /\ wrel p q = true).
Proof.
  intros P. change (nl_W final p) with (get KW final p). rewrite final_get, in_flat_map. unfold wrel. split.
  - intros (x & Hx & H). apply order_iff in Hx. rewrite hits_W in H. destruct x as [|i x]; [destruct H|].
    apply in_flat_map in H. destruct H as (pn & Hpn & H).
    destruct (addr_eqb p pn) eqn:E1; [|destruct H]. apply addr_eqb_eq in E1. subst pn.
    destruct (leaf p) eqn:E2; [|destruct H]. apply negb_true_iff in E2.
    destruct (tch (i :: x) p) eqn:E3; [destruct H|]. destruct H as [<-|[]].
    split; [assumption|]. split; [assumption|]. destruct Hx as (Hi & Px & Rx).
    apply (own_near_in) in Hpn; [|assumption]. destruct Hpn as (_ & T & D). rewrite Rx in D.
    cbn [length tl]. rewrite T, E3. destruct (Nat.ltb_spec (length p) (S (length x))); [reflexivity|lia].
  - intros (Pq & Rp & H). apply andb_true_iff in H. destruct H as [H NT]. apply andb_true_iff in H. destruct H as [Lq T].
    apply Nat.ltb_lt in Lq. destruct q as [|i q]; [simpl in Lq; lia|]. cbn [tl length] in *.
    exists (i :: q). split; [apply order_iff; assumption|]. rewrite hits_W. apply in_flat_map. exists p.
    destruct Pq as (Hi & Pq & Rq). split.
    + apply (own_near_in); [assumption|]. split; [assumption|]. split; [assumption|]. rewrite Rq.
      destruct (Nat.eq_dec (length p) (length q)); [left; assumption|right; split; [lia|assumption]].
    + rewrite addr_eqb_refl. unfold leaf. rewrite Rp, NT. left. reflexivity.
Qed.
Lemma final_W_NoDup p : present p -> NoDup (nl_W final p).
Proof.
  intros P. change (nl_W final p) with (get KW final p). rewrite final_get. apply NoDup_flat_map.
  - apply order_NoDup.
  - intros x Hx. apply order_iff in Hx. rewrite hits_W. destruct x as [|i q]; [constructor|].
    assert (ND : NoDup (own_near q)) by (apply (own_near_NoDup); apply (present_tl i); assumption).
    assert (G : flat_map (fun pn => if addr_eqb p pn && leaf pn && negb (tch (i :: q) pn) then [i :: q] else []) (own_near q) =
       if existsb (addr_eqb p) (own_near q) then (if leaf p && negb (tch (i :: q) p) then [i :: q] else []) else []).
    { clear - ND. induction (own_near q) as [|y ys IH]; [reflexivity|]. inversion ND; subst. cbn [flat_map existsb].
      destruct (addr_eqb p y) eqn:E; cbn [andb orb].
      - apply addr_eqb_eq in E. subst y. rewrite flat_map_nil; [apply app_nil_r|].
        intros z Hz. destruct (addr_eqb p z) eqn:E; [|reflexivity]. apply addr_eqb_eq in E. subst. contradiction.
      - apply IH. assumption. }
    refine (eq_ind_r (fun z => NoDup z) _ G). destruct (existsb _ _); [|constructor]. destruct (leaf p && negb (tch (i :: q) p)); [|constructor].
    constructor; [intros []|constructor].
  - intros x y q _ _ Qx Qy. rewrite hits_W in Qx, Qy.
    destruct x as [|i x]; [destruct Qx|]. destruct y as [|j y]; [destruct Qy|].
    apply in_flat_map in Qx. destruct Qx as (a & _ & Qx). apply in_flat_map in Qy. destruct Qy as (b & _ & Qy).
    destruct (_ && _ && _) in Qx; [|destruct Qx]. destruct Qx as [<-|[]].
    destruct (_ && _ && _) in Qy; [|destruct Qy]. destruct Qy as [<-|[]]. reflexivity.
Qed.

Notation leaf_addrs := (leaf_addrs d pos c l cap srcs root_refined h).
Lemma leaf_list_eq : leaf_list t = leaf_addrs.
Proof. apply leaves_of_tree. Qed.
Notation leaves_below := (leaves_below t).

Lemma count_below M q : In M leaf_addrs -> count_occ addr_eq_dec (leaves_below q) M = Nat.b2n (is_above q M).
Proof.
  intros HM. unfold TreeSpec.leaves_below. rewrite leaf_list_eq. rewrite count_NoDup by (apply NoDup_filter, leaf_addrs_NoDup). f_equal.
  apply eq_true_iff_eq. rewrite existsb_addr. rewrite filter_In. tauto.
Qed.

Lemma interactions_perm L : present L -> refined L = false -> Permutation (interactions t final L) leaf_addrs.
Proof.
  intros P R. apply (Permutation_count_occ addr_eq_dec). intros M.
  destruct (in_dec addr_eq_dec M leaf_addrs) as [HM|HM].
  - rewrite (count_NoDup leaf_addrs) by apply leaf_addrs_NoDup.
    rewrite (proj2 (existsb_addr _ _) HM). cbn [Nat.b2n].
    assert (HM' := HM). apply (in_leaf_addrs _ _ _ _ _ _ _ _ Hh) in HM'. destruct HM' as [PM RM].
    rewrite <- (chain_total L M). unfold interactions. rewrite !count_occ_app, !count_flat_map.
    assert (A1 : count_occ addr_eq_dec (nl_near final L) M = Nat.b2n (tch L M)).
    { rewrite count_NoDup by (apply final_near_leaf_NoDup; assumption). f_equal. apply eq_true_iff_eq.
      rewrite existsb_addr, final_near_leaf by assumption. tauto. }
    assert (A2 : nsum (fun x => count_occ addr_eq_dec (leaves_below x) M) (nl_W final L) = Wsum L M).
    { rewrite (nsum_ext _ (fun x => Nat.b2n (is_above x M))) by (intros; apply count_below; assumption).
      rewrite double_count by (apply final_W_NoDup; assumption). unfold Wsum. apply nsum_ext. intros s Hs.
      f_equal. apply eq_true_iff_eq. rewrite existsb_addr, final_W_in by assumption.
      assert (present s) by (eapply present_suf; eassumption). tauto. }
    assert (A3 : nsum (fun x => count_occ addr_eq_dec (flat_map leaves_below (nl_inter final x) ++ nl_X final x) M) (ancestors_or_self L)
                 = Vsum L M + Xsum L M).
    { unfold Vsum, Xsum. rewrite <- nsum_add. apply nsum_ext. intros a Ha.
      assert (Pa : present a) by (apply (present_suf L); assumption).
      rewrite count_occ_app, count_flat_map. f_equal.
      - rewrite (nsum_ext _ (fun x => Nat.b2n (is_above x M))) by (intros; apply count_below; assumption).
        rewrite double_count by (apply final_inter_NoDup; assumption). apply nsum_ext. intros s Hs.
        f_equal. apply eq_true_iff_eq. rewrite existsb_addr, final_inter_in by assumption.
        assert (present s) by (apply (present_suf M); assumption). tauto.
      - rewrite count_NoDup by (apply final_X_NoDup; assumption). f_equal. apply eq_true_iff_eq.
        rewrite existsb_addr, final_X_in by assumption. tauto. }
    rewrite A1, A2, A3. lia.
  - rewrite (proj1 (count_occ_not_In addr_eq_dec leaf_addrs M) HM). apply count_occ_not_In.
    intros H. apply HM. unfold interactions in H. rewrite !in_app_iff in H. destruct H as [H|[H|H]].
    + apply final_near_leaf in H; [|assumption|assumption]. apply (in_leaf_addrs _ _ _ _ _ _ _ _ Hh). tauto.
    + apply in_flat_map in H. destruct H as (q & _ & H). apply filter_In in H. rewrite leaf_list_eq in H. apply H.
    + apply in_flat_map in H. destruct H as (a & Ha & H). apply in_app_iff in H. destruct H as [H|H].
      * apply in_flat_map in H. destruct H as (q & _ & H). apply filter_In in H. rewrite leaf_list_eq in H. apply H.
      * apply final_X_in in H; [|eapply present_suf; eassumption]. apply (in_leaf_addrs _ _ _ _ _ _ _ _ Hh). tauto.
Qed.

End Given.
End Lists.
