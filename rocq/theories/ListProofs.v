(** Neighbour lists of the adaptive tree: exact contents after the traversal. *)
From Coq Require Import List Bool ZArith Arith Reals Lra Lia Permutation.
From Verif Require Import Num Outcome Vec Orthtree AdaptiveTree VecProofs GeometrySpec GeometryProofs TreeGeometry
  AdaptiveProofs BfsProofs.
Import ListNotations.

Lemma flat_map_nil {A B} (f : A -> list B) xs : (forall x, In x xs -> f x = []) -> flat_map f xs = [].
Proof. induction xs as [|x xs IH]; intros H; [reflexivity|]. simpl. rewrite H, IH; auto with datatypes. Qed.
Lemma flat_map_ext_in {A B} (f g : A -> list B) xs : (forall x, In x xs -> f x = g x) -> flat_map f xs = flat_map g xs.
Proof. induction xs as [|x xs IH]; intros H; [reflexivity|]. simpl. rewrite H, IH; auto with datatypes. Qed.
Lemma flat_map_single {A} (f : A -> bool) xs : flat_map (fun x => if f x then [x] else []) xs = filter f xs.
Proof. induction xs as [|x xs IH]; [reflexivity|]. simpl. rewrite IH. destruct (f x); reflexivity. Qed.
Lemma flat_map_pick {B} (f : addr -> list B) xs p : NoDup xs -> In p xs ->
  flat_map (fun x => if addr_eqb p x then f x else []) xs = f p.
Proof.
  induction xs as [|x xs IH]; intros ND H; [destruct H|].
  inversion ND; subst. cbn [flat_map]. destruct (addr_eq_dec p x) as [->|NE].
  - rewrite addr_eqb_refl. rewrite flat_map_nil; [apply app_nil_r|].
    intros y Hy. destruct (addr_eqb x y) eqn:E; [|reflexivity]. apply addr_eqb_eq in E. subst. contradiction.
  - apply addr_eqb_neq in NE. rewrite NE. cbn [app]. apply IH; [assumption|].
    destruct H as [->|H]; [rewrite addr_eqb_refl in NE; discriminate|assumption].
Qed.

Section Lists.
Context {Src : Type}.
Variable d : nat.
Variable pos : Src -> list R.
Variable c : list R.
Variable l : R.
Variable cap : nat.
Variable srcs : list Src.
Variable root_refined : rule.
Hypothesis Hc : length c = d.
Hypothesis Hl : (0 < l)%R.
Variable h : nat.

Notation refined := (refined d pos c l cap srcs root_refined).
Notation present := (present d pos c l cap srcs root_refined).
Notation level := (level d pos c l cap srcs root_refined).
Notation mk := (mk d pos c l cap srcs root_refined).
Notation kids := (kids d).
Notation t := (spec_tree d pos c l cap srcs root_refined h).
Notation order := (order d pos c l cap srcs root_refined h).
Hypothesis Hh : height_ok d pos c l cap srcs root_refined h.

Lemma nodes_adjacent_touch p q : nodes_adjacent d (mk p) (mk q) = touch d p q.
Proof. unfold nodes_adjacent. simpl. apply adjacent_touch; assumption. Qed.

Lemma too_close_false p q : length p = length q -> touch d p q = false -> too_close (mk p) (mk q) = false.
Proof.
  intros HL HT. unfold too_close. apply Rltb_false. cbn [an_len an_center AdaptiveProofs.mk].
  assert (D := center_distance d c l p q Hc ltac:(lra) HL HT).
  assert (B : (0 <= box_len l p)%R) by (clear - Hl; induction p as [|i p IH]; [exact (Rlt_le _ _ Hl)|unfold box_len in *; simpl in *; unfold nhalf; cbn; lra]).
  rewrite <- (R_sqrt.sqrt_Rsqr (nmul (nlit 199 100) (box_len l p))) by (cbn; lra).
  apply R_sqrt.sqrt_le_1_alt. eapply Rle_trans; [|exact D]. unfold Rsqr; simpl.
  assert (0 <= box_len l p * box_len l p)%R by apply Rle_0_sqr. lra.
Qed.

Definition leaf (p : addr) : bool := negb (refined p).

(** *** Push events *)
Inductive kind := KNear | KInter | KX | KW.
Definition event := (kind * addr * addr)%type.
Definition apply_event (ls : nlists) (e : event) : nlists :=
  match e with
  | (KNear, p, x) => push_near ls p x
  | (KInter, p, x) => push_inter ls p x
  | (KX, p, x) => push_X ls p x
  | (KW, p, x) => push_W ls p x
  end.
Definition apply_events (es : list event) (ls : nlists) : nlists := fold_left apply_event es ls.

Definition child_events (p q : addr) : list event :=
  if touch d p q then (if negb (leaf p) || leaf q then [(KNear, p, q)] else []) else [(KInter, p, q)].
Definition neighbour_events (p pn : addr) : list event :=
  if leaf pn then
    if touch d p pn then (KNear, p, pn) :: (if leaf p then [(KNear, pn, p)] else [])
    else [(KX, p, pn); (KW, pn, p)]
  else flat_map (child_events p) (kids pn).

Definition step_near (p pn : addr) : list addr :=
  if leaf pn then (if touch d p pn then [pn] else [])
  else filter (fun q => touch d p q && (negb (leaf p) || leaf q)) (kids pn).
(** The part of the near list of [p] filled while [p] itself is processed. *)
Fixpoint own_near (p : addr) : list addr :=
  match p with
  | [] => [[]]
  | _ :: q => flat_map (step_near p) (own_near q)
  end.

Definition events (p : addr) : list event :=
  match p with
  | [] => [(KNear, [], [])]
  | _ :: q => flat_map (neighbour_events p) (own_near q)
  end.

Lemma apply_events_app es es' ls : apply_events (es ++ es') ls = apply_events es' (apply_events es ls).
Proof. apply fold_left_app. Qed.

(** *** The model's step applies exactly these events *)
Lemma nbhd_child_events p q ls : present q -> length p = length q ->
  nbhd_child d t (mk p) ls q = Ok (apply_events (child_events p q) ls).
Proof.
  intros Q HL. unfold nbhd_child. rewrite lookup_mk by assumption.
  rewrite nodes_adjacent_touch. unfold child_events, leaf. cbn [an_leaf AdaptiveProofs.mk an_addr].
  destruct (touch d p q) eqn:E.
  - destruct (negb (negb (refined p)) || negb (refined q)); reflexivity.
  - rewrite too_close_false by assumption. reflexivity.
Qed.

Lemma ofold_events {A} (f : nlists -> A -> outcome nlists) (g : A -> list event) xs ls :
  (forall x ls, In x xs -> f ls x = Ok (apply_events (g x) ls)) ->
  ofold f xs ls = Ok (apply_events (flat_map g xs) ls).
Proof.
  revert ls; induction xs as [|x xs IH]; intros ls H; [reflexivity|].
  cbn [ofold flat_map]. rewrite H by (left; reflexivity). cbn [bind]. rewrite IH by (intros; apply H; right; assumption).
  rewrite apply_events_app. reflexivity.
Qed.

Lemma nbhd_neighbour_events p pn ls : present pn -> (refined pn = true -> S (length pn) = length p) ->
  nbhd_neighbour d t (mk p) ls pn = Ok (apply_events (neighbour_events p pn) ls).
Proof.
  intros P HL. unfold nbhd_neighbour. rewrite lookup_mk by assumption. rewrite nodes_adjacent_touch.
  unfold neighbour_events, leaf. cbn [an_leaf AdaptiveProofs.mk an_addr].
  destruct (refined pn) eqn:E; cbn [negb].
  - rewrite children_eq by assumption. rewrite E. apply ofold_events.
    intros q ls' Hq. apply nbhd_child_events.
    + unfold AdaptiveProofs.kids in Hq. apply in_map_iff in Hq. destruct Hq as (i & <- & Hi). apply in_seq in Hi.
      simpl. repeat split; auto; lia.
    + unfold AdaptiveProofs.kids in Hq. apply in_map_iff in Hq. destruct Hq as (i & <- & Hi). simpl. symmetry. auto.
  - destruct (touch d p pn); [|reflexivity]. destruct (refined p); reflexivity.
Qed.

(** *** Contents of own_near *)
Lemma refined_present_kids p q : In q (kids p) -> exists i, i < n_children d /\ q = i :: p.
Proof.
  unfold AdaptiveProofs.kids. intros H. apply in_map_iff in H. destruct H as (i & <- & Hi). apply in_seq in Hi.
  exists i. split; [lia|reflexivity].
Qed.
Lemma in_kids i p : i < n_children d -> In (i :: p) (kids p).
Proof. intros. unfold AdaptiveProofs.kids. apply in_map_iff. exists i. split; [reflexivity|]. apply in_seq. lia. Qed.

(** For a present box [p]: which boxes are in own_near p. *)
Definition near_rel (p q : addr) : Prop :=
  present q /\ touch d p q = true /\
  (if refined p then length q = length p \/ (length q < length p /\ refined q = false)
   else length q <= length p /\ refined q = false).

Lemma own_near_in p q : present p -> (In q (own_near p) <-> near_rel p q).
Proof.
  revert q; induction p as [|i p IH]; intros q P.
  - cbn [own_near]. unfold near_rel. split.
    + intros [<-|[]]. split; [exact I|]. split; [apply touch_refl|]. destruct (refined []); auto.
    + intros (Pq & _ & H). left. destruct (refined []); destruct q; auto; simpl in *; lia.
  - assert (P' := P). cbn [AdaptiveProofs.present] in P'. destruct P' as (Hi & Pp & Rp).
    cbn [own_near]. rewrite in_flat_map. split.
    + intros (pn & Hpn & Hq). apply IH in Hpn; [|assumption]. destruct Hpn as (Ppn & Tpn & Dpn). rewrite Rp in Dpn.
      unfold step_near, leaf in Hq. destruct (refined pn) eqn:Rpn; cbn [negb] in Hq.
      * apply filter_In in Hq. destruct Hq as [Hk Hq]. apply andb_true_iff in Hq. destruct Hq as [HT HL].
        apply refined_present_kids in Hk. destruct Hk as (i' & Hi' & ->).
        split; [simpl; auto|]. split; [assumption|].
        assert (length pn = length p) as L by (destruct Dpn as [|[_ F]]; [assumption|discriminate]).
        destruct (refined (i :: p)); cbn [negb orb] in HL; simpl length; rewrite L; [left; reflexivity|].
        split; [lia|]. apply negb_true_iff in HL. assumption.
      * destruct (touch d (i :: p) pn) eqn:T; [|destruct Hq]. destruct Hq as [<-|[]].
        split; [assumption|]. split; [assumption|]. simpl length.
        destruct (refined (i :: p)).
        -- right. split; [|assumption]. destruct Dpn as [->|[]]; lia.
        -- split; [|assumption]. destruct Dpn as [->|[]]; lia.
    + intros (Pq & T & D).
      destruct (Nat.eq_dec (length q) (S (length p))) as [E|NE].
      * destruct q as [|i' q]; [discriminate|]. simpl in E. injection E as E.
        cbn [AdaptiveProofs.present] in Pq. destruct Pq as (Hi' & Pq & Rq).
        exists q. split.
        -- apply IH; [assumption|]. split; [assumption|]. split.
           ++ apply touch_up_l in T. apply touch_up_r in T. assumption.
           ++ rewrite Rp. left. assumption.
        -- unfold step_near, leaf. rewrite Rq. cbn [negb]. apply filter_In. split; [apply in_kids; assumption|].
           rewrite T. cbn [andb]. destruct (refined (i :: p)); cbn [negb orb]; [reflexivity|].
           destruct D as [_ ->]. reflexivity.
      * assert (length q <= length p /\ refined q = false) as [Lq Rq].
        { simpl length in D. destruct (refined (i :: p)); [destruct D as [D|[D F]]; [lia|split; [lia|assumption]]|destruct D; split; [lia|assumption]]. }
        exists q. split.
        -- apply IH; [assumption|]. split; [assumption|]. split; [apply touch_up_l in T; assumption|]. rewrite Rp.
           destruct (Nat.eq_dec (length q) (length p)); [left; assumption|right; split; [lia|assumption]].
        -- unfold step_near, leaf. rewrite Rq. cbn [negb]. rewrite T. left. reflexivity.
Qed.

Lemma own_near_NoDup p : present p -> NoDup (own_near p).
Proof.
  induction p as [|i p IH]; intros P.
  - simpl. constructor; [intros []|constructor].
  - assert (P' := P). cbn [AdaptiveProofs.present] in P'. destruct P' as (Hi & Pp & Rp).
    cbn [own_near]. apply NoDup_flat_map.
    + apply IH. assumption.
    + intros pn _. unfold step_near. destruct (leaf pn).
      * destruct (touch d (i :: p) pn); [constructor; [intros []|constructor]|constructor].
      * apply NoDup_filter. apply kids_NoDup.
    + intros x y q Hx Hy Qx Qy. apply own_near_in in Hx; [|assumption]. apply own_near_in in Hy; [|assumption].
      destruct Hx as (Px & Tx & Dx). destruct Hy as (Py & Ty & Dy). rewrite Rp in Dx, Dy.
      unfold step_near, leaf in Qx, Qy.
      destruct (refined x) eqn:Rx; destruct (refined y) eqn:Ry; cbn [negb] in Qx, Qy.
      * apply filter_In in Qx. destruct Qx as [Kx _]. apply filter_In in Qy. destruct Qy as [Ky _].
        apply refined_present_kids in Kx. destruct Kx as (a & _ & ->). apply refined_present_kids in Ky. destruct Ky as (b & _ & E). congruence.
      * apply filter_In in Qx. destruct Qx as [Kx _]. apply refined_present_kids in Kx. destruct Kx as (a & _ & ->).
        destruct (touch d (i :: p) y); [|destruct Qy]. destruct Qy as [->|[]].
        destruct Dx as [Dx|[_ F]]; [|discriminate]. simpl in Dy. lia.
      * apply filter_In in Qy. destruct Qy as [Ky _]. apply refined_present_kids in Ky. destruct Ky as (a & _ & ->).
        destruct (touch d (i :: p) x); [|destruct Qx]. destruct Qx as [->|[]].
        destruct Dy as [Dy|[_ F]]; [|discriminate]. simpl in Dx. lia.
      * destruct (touch d (i :: p) x); [|destruct Qx]. destruct Qx as [<-|[]].
        destruct (touch d (i :: p) y); [|destruct Qy]. destruct Qy as [<-|[]]. reflexivity.
Qed.

(** *** Reading a list after events *)
Definition kind_eqb (a b : kind) : bool :=
  match a, b with KNear, KNear | KInter, KInter | KX, KX | KW, KW => true | _, _ => false end.
Definition get (k : kind) (ls : nlists) : addr -> list addr :=
  match k with KNear => nl_near ls | KInter => nl_inter ls | KX => nl_X ls | KW => nl_W ls end.
Definition hits (k : kind) (p : addr) (es : list event) : list addr :=
  flat_map (fun e : event => let '(k', p', x) := e in if kind_eqb k k' && addr_eqb p p' then [x] else []) es.

Lemma get_apply_events k p es ls : get k (apply_events es ls) p = get k ls p ++ hits k p es.
Proof.
  unfold apply_events. revert ls; induction es as [|[[k' p'] x] es IH]; intros ls.
  - simpl. rewrite app_nil_r. reflexivity.
  - cbn [fold_left hits flat_map]. fold (hits k p es). rewrite IH.
    assert (E : get k (apply_event ls (k', p', x)) p = get k ls p ++ (if kind_eqb k k' && addr_eqb p p' then [x] else [])).
    { destruct k, k'; cbn [kind_eqb andb apply_event get push_near push_inter push_X push_W nl_near nl_inter nl_X nl_W];
        unfold push; rewrite ?app_nil_r; try reflexivity; destruct (addr_eqb p p'); rewrite ?app_nil_r; reflexivity. }
    rewrite E, <- app_assoc. reflexivity.
Qed.

Lemma hits_app k p es es' : hits k p (es ++ es') = hits k p es ++ hits k p es'.
Proof. apply flat_map_app. Qed.
Lemma hits_flat_map {A} k p (g : A -> list event) xs : hits k p (flat_map g xs) = flat_map (fun x => hits k p (g x)) xs.
Proof. induction xs as [|x xs IH]; [reflexivity|]. simpl. rewrite hits_app, IH. reflexivity. Qed.


(** Hits of the events of [x] on near lists. *)
Lemma hits_near_neighbour x p pn : x <> pn ->
  hits KNear p (neighbour_events x pn)
  = (if addr_eqb p x then step_near x pn else if addr_eqb p pn && leaf pn && touch d x pn && leaf x then [x] else []).
Proof.
  intros NE. unfold neighbour_events, step_near. destruct (leaf pn).
  - destruct (touch d x pn).
    + destruct (leaf x); cbn [hits flat_map kind_eqb andb app];
      destruct (addr_eqb p x) eqn:E.
      * apply addr_eqb_eq in E. subst. apply addr_eqb_neq in NE. rewrite NE. reflexivity.
      * rewrite !andb_true_r. destruct (addr_eqb p pn); reflexivity.
      * reflexivity.
      * rewrite !andb_false_r. reflexivity.
    + cbn [hits flat_map kind_eqb andb app]. rewrite andb_false_r. cbn. destruct (addr_eqb p x); reflexivity.
  - rewrite hits_flat_map. rewrite !andb_false_r. cbn [andb].
    rewrite (flat_map_ext_in _ (fun q => if addr_eqb p x && (touch d x q && (negb (leaf x) || leaf q)) then [q] else [])).
    + destruct (addr_eqb p x); cbn [andb]; [apply flat_map_single|]. apply flat_map_nil. reflexivity.
    + intros q _. unfold child_events. destruct (touch d x q); cbn [andb].
      * destruct (negb (leaf x) || leaf q); cbn [hits flat_map kind_eqb andb app]; rewrite ?andb_true_r, ?andb_false_r; [|reflexivity].
        destruct (addr_eqb p x); reflexivity.
      * cbn. rewrite andb_false_r. reflexivity.
Qed.

Lemma near_not_self i x pn : present (i :: x) -> In pn (own_near x) -> i :: x <> pn.
Proof.
  intros P H E. subst pn. destruct P as (_ & Px & Rx). apply own_near_in in H; [|assumption].
  destruct H as (_ & _ & H). rewrite Rx in H. simpl in H. lia.
Qed.

Lemma hits_near_events x p : present x ->
  hits KNear p (events x) = (if addr_eqb p x then own_near x else
     match x with [] => [] | _ :: q => if leaf x then flat_map (fun pn => if addr_eqb p pn && leaf pn && touch d x pn then [x] else []) (own_near q) else [] end).
Proof.
  intros P. destruct x as [|i x].
  - simpl. destruct (addr_eqb p []); reflexivity.
  - cbn [events]. rewrite hits_flat_map.
    rewrite (flat_map_ext_in _ (fun pn => if addr_eqb p (i :: x) then step_near (i :: x) pn
       else if addr_eqb p pn && leaf pn && touch d (i :: x) pn && leaf (i :: x) then [i :: x] else [])).
    2:{ intros pn Hpn. apply hits_near_neighbour. eapply near_not_self; eassumption. }
    destruct (addr_eqb p (i :: x)) eqn:E; [reflexivity|].
    destruct (leaf (i :: x)).
    + apply flat_map_ext_in. intros pn _. rewrite andb_true_r. reflexivity.
    + apply flat_map_nil. intros pn _. rewrite andb_false_r. reflexivity.
Qed.

(** For an inner box only its own events matter. *)
Lemma hits_near_inner x p : present x -> refined p = true ->
  hits KNear p (events x) = if addr_eqb p x then own_near x else [].
Proof.
  intros P Rp. rewrite hits_near_events by assumption. destruct (addr_eqb p x); [reflexivity|].
  destruct x as [|i x]; [reflexivity|]. destruct (leaf (i :: x)); [|reflexivity].
  apply flat_map_nil. intros pn _. destruct (addr_eqb p pn) eqn:E; [|reflexivity].
  apply addr_eqb_eq in E. subst. unfold leaf. rewrite Rp. reflexivity.
Qed.

(** Before [x] is processed, the near list of its parent is complete. *)

Lemma near_inner_after done p : NoDup done -> (forall x, In x done -> present x) -> In p done -> refined p = true ->
  nl_near (apply_events (flat_map events done) nl_empty) p = own_near p.
Proof.
  intros ND HP Hp Rp. change (nl_near ?ls p) with (get KNear ls p). rewrite get_apply_events. cbn [get nl_empty nl_near app].
  rewrite hits_flat_map. rewrite (flat_map_ext_in _ (fun x => if addr_eqb p x then own_near x else [])).
  - apply flat_map_pick; assumption.
  - intros x Hx. apply hits_near_inner; auto.
Qed.

Lemma nbhd_events done x : NoDup done -> (forall y, In y done -> present y) -> present x ->
  (forall i q, x = i :: q -> In q done) ->
  nbhd d t x (apply_events (flat_map events done) nl_empty)
  = Ok (apply_events (flat_map events (done ++ [x])) nl_empty).
Proof.
  intros ND HP P HD. rewrite flat_map_app, apply_events_app. cbn [flat_map]. rewrite app_nil_r.
  unfold nbhd. rewrite lookup_mk by assumption. destruct x as [|i q].
  - reflexivity.
  - assert (P' := P). destruct P' as (Hi & Pq & Rq).
    rewrite near_inner_after; [|assumption|assumption|eapply HD; reflexivity|assumption].
    cbn [events]. apply ofold_events. intros pn ls Hpn. apply own_near_in in Hpn; [|assumption].
    destruct Hpn as (Ppn & _ & D). rewrite Rq in D. apply nbhd_neighbour_events; [assumption|].
    intros Rpn. simpl. destruct D as [->|[_ F]]; [reflexivity|congruence].
Qed.

(** *** The traversal *)
Lemma bfs_level_level k : bfs_level (children d t) k [[]] = level k.
Proof.
  induction k as [|k IH]; [reflexivity|]. rewrite bfs_level_S, IH. cbn [AdaptiveProofs.level].
  apply flat_map_children; try assumption. intros p Hp. apply in_level in Hp. apply Hp.
Qed.

(** Every box occurs in [order] after its parent. *)
Lemma order_parent_before done x rest i q : order = done ++ x :: rest -> x = i :: q -> In q done.
Proof.
  intros E ->.
  assert (X : In (i :: q) order) by (rewrite E; apply in_elt).
  apply (in_order _ _ _ _ _ _ _ _ Hh) in X. destruct X as (Hi & Pq & Rq).
  assert (Q : In q order) by (apply in_order; assumption).
  (* q lies in an earlier level *)
  assert (S : forall m s done rest, flat_map level (seq s m) = done ++ (i :: q) :: rest -> In q (flat_map level (seq s m)) -> In q done).
  { clear E Q. induction m; intros s dn rs E Q; cbn [seq flat_map] in *; [destruct Q|].
    apply in_app_iff in Q. destruct Q as [Q|Q].
    - assert (Lq : length q = s) by (apply in_level in Q; apply Q).
      (* i::q is not in level s, so level s is a prefix of done *)
      revert dn E Q. assert (NI : ~ In (i :: q) (level s)).
      { intros X. apply in_level in X. simpl in X. lia. }
      revert NI. generalize (level s). intros L. induction L as [|y L IHL]; intros NI dn E Q; [destruct Q|].
      destruct dn as [|z dn]; cbn [app] in E.
      + injection E as -> _. exfalso. apply NI. left. reflexivity.
      + injection E as -> E. destruct Q as [->|Q]; [left; reflexivity|]. right.
        apply IHL; auto. intros X. apply NI. right. assumption.
    - (* i::q deeper too *)
      assert (Lq : s < length q).
      { apply in_flat_map in Q. destruct Q as (k & Hk & Q). apply in_seq in Hk. apply in_level in Q. lia. }
      assert (NI : ~ In (i :: q) (level s)).
      { intros X. apply in_level in X. simpl in X. lia. }
      revert dn E. revert NI. generalize (level s). intros L. induction L as [|y L IHL]; intros NI dn E.
      + eapply IHm; eassumption.
      + destruct dn as [|z dn]; cbn [app] in E.
        * injection E as -> _. exfalso. apply NI. left. reflexivity.
        * injection E as -> E. right. apply IHL; auto. intros X. apply NI. right. assumption. }
  eapply S; [exact E|exact Q].
Qed.

Lemma all_lists_events : all_lists d t = Ok (apply_events (flat_map events order) nl_empty).
Proof.
  unfold all_lists. rewrite (bfs_levels (children d t) (nbhd d t) (S h)).
  - rewrite (flat_map_ext_in _ level) by (intros; apply bfs_level_level). fold order.
    assert (G : forall rest done, order = done ++ rest ->
      ofold (fun s p => nbhd d t p s) rest (apply_events (flat_map events done) nl_empty)
      = Ok (apply_events (flat_map events order) nl_empty)).
    { induction rest as [|x rest IH]; intros done E.
      - rewrite app_nil_r in E. subst. reflexivity.
      - cbn [ofold]. assert (ND := order_NoDup d pos c l cap srcs root_refined h).
        rewrite nbhd_events.
        + cbn [bind]. apply IH. rewrite <- app_assoc. assumption.
        + rewrite E in ND. clear - ND. induction done; simpl in *; [constructor|]. inversion ND; subst. constructor; auto.
          intros X. apply H1. apply in_or_app. left. assumption.
        + intros y Hy. apply (in_order _ _ _ _ _ _ _ _ Hh). rewrite E. apply in_or_app. left. assumption.
        + apply (in_order _ _ _ _ _ _ _ _ Hh). rewrite E. apply in_elt.
        + intros i q Ex. eapply order_parent_before; eassumption. }
    apply (G order []). reflexivity.
  - rewrite bfs_level_level. apply (level_ext_empty _ _ _ _ _ _ _ h); [apply Hh|lia].
  - rewrite (flat_map_ext_in _ level) by (intros; apply bfs_level_level). fold order.
    rewrite heap_length by assumption. lia.
Qed.

Definition final : nlists := apply_events (flat_map events order) nl_empty.

Lemma final_get k p : get k final p = flat_map (fun x => hits k p (events x)) order.
Proof.
  unfold final. rewrite get_apply_events, hits_flat_map. destruct k; reflexivity.
Qed.

End Lists.
