(** Facts about the tree built by the adaptive constructor: partition of sources and space, termination, descent. *)
From Coq Require Import List Bool ZArith Arith Reals Lra Lia Permutation.
From Verif Require Import Num Outcome Vec Orthtree AdaptiveTree TreeSpec VecProofs GeometrySpec GeometryProofs TreeGeometry
  AdaptiveProofs BfsProofs ListProofs ListContents.
Import ListNotations.

Lemma partition_perm {A} (key : A -> nat) n (xs : list A) : (forall x, In x xs -> key x < n) ->
  Permutation (flat_map (fun i => filter (fun x => Nat.eqb (key x) i) xs) (seq 0 n)) xs.
Proof.
  intros H.
  assert (G : forall n, Permutation (flat_map (fun i => filter (fun x => Nat.eqb (key x) i) xs) (seq 0 n))
                                    (filter (fun x => Nat.ltb (key x) n) xs)).
  { clear. induction n.
    - simpl. induction xs; simpl; auto.
    - rewrite seq_S, flat_map_app. cbn [flat_map plus]. rewrite app_nil_r.
      eapply perm_trans; [apply Permutation_app_tail; exact IHn|].
      clear. induction xs as [|x xs IH]; [constructor|]. cbn [filter].
      destruct (Nat.ltb_spec (key x) n), (Nat.eqb_spec (key x) n), (Nat.ltb_spec (key x) (S n)); try lia.
      + cbn [app]. constructor. assumption.
      + rewrite <- Permutation_middle. constructor. assumption.
      + assumption. }
  rewrite G. replace (filter (fun x => Nat.ltb (key x) n) xs) with xs; [reflexivity|].
  clear G. induction xs as [|x xs IH]; [reflexivity|]. cbn [filter].
  destruct (Nat.ltb_spec (key x) n) as [L|L].
  - f_equal. apply IH. intros y Hy. apply H. right. assumption.
  - specialize (H x (or_introl eq_refl)). lia.
Qed.

Lemma perm_flat_map {A B} (f g : A -> list B) xs : (forall x, In x xs -> Permutation (f x) (g x)) ->
  Permutation (flat_map f xs) (flat_map g xs).
Proof.
  induction xs as [|x xs IH]; intros H; [constructor|]. cbn [flat_map].
  apply Permutation_app; [apply H; left; reflexivity|]. apply IH. intros. apply H. right. assumption.
Qed.
Lemma perm_flat_map_split {A B} (f : A -> list B) (g : A -> bool) xs :
  Permutation (flat_map f xs) (flat_map f (filter (fun x => negb (g x)) xs) ++ flat_map f (filter g xs)).
Proof.
  induction xs as [|x xs IH]; [constructor|]. cbn [flat_map filter]. destruct (g x); cbn [negb flat_map].
  - rewrite IH. rewrite !app_assoc. apply Permutation_app_tail. apply Permutation_app_comm.
  - rewrite <- app_assoc. apply Permutation_app_head. assumption.
Qed.
Lemma flat_map_flat_map {A B C} (f : B -> list C) (g : A -> list B) xs :
  flat_map f (flat_map g xs) = flat_map (fun x => flat_map f (g x)) xs.
Proof. induction xs; simpl; [reflexivity|]. rewrite flat_map_app, IHxs. reflexivity. Qed.

Section Build.
Context {Src : Type}.
Variable d : nat.
Variable pos : Src -> list R.
Variable c : list R.
Variable l : R.
Variable cap : nat.
Variable srcs : list Src.
Variable root_refined : rule.

Notation refined := (refined d pos c l cap srcs root_refined).
Notation present := (present d pos c l cap srcs root_refined).
Notation level := (level d pos c l cap srcs root_refined).
Notation mk := (mk d pos c l cap srcs root_refined).
Notation sub := (sub d pos c l srcs).
Notation kids := (kids d).
Notation ctr := (box_ctr d c l).
Notation blen := (box_len l).

(** *** Sources *)
Lemma sub_kids p : Permutation (flat_map sub (kids p)) (sub p).
Proof.
  unfold AdaptiveProofs.kids. rewrite flat_map_concat_map, map_map, <- flat_map_concat_map. cbn [AdaptiveProofs.sub].
  apply (partition_perm (fun s => get_orthant d (ctr p) (pos s))). intros s _. apply get_orthant_lt.
Qed.

Lemma sources_split k : Permutation srcs
  (flat_map sub (flat_map (fun i => filter (fun p => negb (refined p)) (level i)) (seq 0 k)) ++ flat_map sub (level k)).
Proof.
  induction k.
  - cbn [seq flat_map app AdaptiveProofs.level AdaptiveProofs.sub]. rewrite app_nil_r. reflexivity.
  - rewrite IHk at 1. rewrite seq_S. cbn [plus]. rewrite !flat_map_app. cbn [flat_map]. rewrite app_nil_r, <- app_assoc.
    apply Permutation_app_head.
    rewrite (perm_flat_map_split sub refined (level k)) at 1. apply Permutation_app_head.
    cbn [AdaptiveProofs.level]. rewrite flat_map_flat_map. symmetry. apply perm_flat_map. intros p _. apply sub_kids.
Qed.

Lemma sub_incl p s : In s (sub p) -> In s srcs.
Proof. induction p as [|i p IH]; cbn [AdaptiveProofs.sub]; [auto|]. intros H. apply filter_In in H. apply IH. apply H. Qed.

(** The boxes a point passes through. *)
Fixpoint path (x : list R) (k : nat) : addr :=
  match k with O => [] | S k' => get_orthant d (ctr (path x k')) x :: path x k' end.

Lemma path_length x k : length (path x k) = k.
Proof. induction k; simpl; auto. Qed.

Lemma sub_path p s : In s (sub p) <-> In s srcs /\ path (pos s) (length p) = p.
Proof.
  induction p as [|i p IH]; cbn [AdaptiveProofs.sub length path]; [tauto|].
  rewrite filter_In, IH, Nat.eqb_eq. split.
  - intros ((A & B) & E). split; [assumption|]. rewrite B, E. reflexivity.
  - intros (A & E). injection E as E1 E2. rewrite E2 in E1. auto.
Qed.

Lemma anc_path x m a : In a (ancestors_or_self (path x m)) <-> exists j, j <= m /\ a = path x j.
Proof.
  induction m; cbn [path ancestors_or_self].
  - split; [intros [<-|[]]; exists 0; auto|]. intros (j & Hj & ->). replace j with 0 by lia. left. reflexivity.
  - split.
    + intros [<-|H]; [exists (S m); auto|]. apply IHm in H. destruct H as (j & Hj & ->). exists j. auto.
    + intros (j & Hj & ->). destruct (Nat.eq_dec j (S m)) as [->|]; [left; reflexivity|]. right. apply IHm. exists j. split; [lia|reflexivity].
Qed.
Lemma filter_filter {A} (f g : A -> bool) xs : filter f (filter g xs) = filter (fun x => g x && f x) xs.
Proof. induction xs as [|x xs IH]; [reflexivity|]. cbn [filter]. destruct (g x); cbn [filter andb]; rewrite IH; reflexivity. Qed.
Lemma sub_filter p : sub p = filter (fun s => addr_eqb (path (pos s) (length p)) p) srcs.
Proof.
  induction p as [|i p IH].
  - cbn. induction srcs as [|s ss IH']; [reflexivity|]. cbn. f_equal. exact IH'.
  - cbn [AdaptiveProofs.sub length path]. rewrite IH, filter_filter. apply filter_ext. intros s.
    apply eq_true_iff_eq. rewrite andb_true_iff, Nat.eqb_eq, !addr_eqb_eq. split.
    + intros [E1 E2]. rewrite E1, E2. reflexivity.
    + intros E. injection E as E1 E2. rewrite E2 in E1. auto.
Qed.

Lemma path_in_box x k : length c = d -> in_box d c l x -> in_box d (ctr (path x k)) (blen (path x k)) x.
Proof.
  intros Hc H. induction k; [assumption|]. cbn [path box_ctr box_len]. apply child_contains; [|assumption].
  apply len_box_ctr. assumption.
Qed.

Lemma path_valid x k p i : path x k = i :: p -> i < n_children d.
Proof. destruct k; [discriminate|]. cbn [path]. intros H. injection H as <- _. apply get_orthant_lt. Qed.

(** *** Boxes *)
Lemma interior_up i p x : length c = d -> in_interior d (ctr (i :: p)) (blen (i :: p)) x -> in_interior d (ctr p) (blen p) x.
Proof.
  intros Hc H j Hj. specialize (H j Hj). cbn [box_ctr box_len] in H.
  assert (E := vget_child_center d (ctr p) (blen p / 2) i j (len_box_ctr d c l p Hc) Hj).
  unfold vget in E; cbn [n0 NumR] in E. rewrite E in H. destruct (Nat.testbit i (d - 1 - j)); lra.
Qed.
Lemma interior_anc r p x : length c = d -> in_interior d (ctr (r ++ p)) (blen (r ++ p)) x -> in_interior d (ctr p) (blen p) x.
Proof. intros Hc. induction r as [|i r IH]; cbn [app]; intros H; [assumption|]. apply IH. apply interior_up in H; assumption. Qed.
Lemma interior_same_level p q x : length c = d -> Forall (fun i => i < n_children d) p -> Forall (fun i => i < n_children d) q ->
  length p = length q -> in_interior d (ctr p) (blen p) x -> in_interior d (ctr q) (blen q) x -> p = q.
Proof.
  intros Hc. revert q; induction p as [|i p IH]; intros q Fp Fq HL Hp Hq; destruct q as [|j q]; try discriminate; [reflexivity|].
  assert (Fp1 := Forall_inv Fp). assert (Fp2 := Forall_inv_tail Fp). assert (Fq1 := Forall_inv Fq). assert (Fq2 := Forall_inv_tail Fq).
  injection HL as HL.
  assert (E : p = q). { apply IH; auto; eapply interior_up; eassumption. } subst q. f_equal.
  cbn [box_ctr box_len] in Hp, Hq. eapply child_disjoint; [apply (len_box_ctr d c l p Hc)| | |eassumption|eassumption]; assumption.
Qed.
Lemma present_forall p : present p -> Forall (fun i => i < n_children d) p.
Proof. induction p; simpl; [constructor|]. intros (A & B & _). constructor; auto. Qed.
Lemma present_app_refined i r p : present (i :: r ++ p) -> refined p = true.
Proof.
  revert i; induction r as [|j r IH]; intros i; simpl; [tauto|]. intros (_ & H & _). apply (IH j). exact H.
Qed.
Lemma leaves_disjoint p q x : length c = d -> present p -> refined p = false -> present q -> refined q = false ->
  in_interior d (ctr p) (blen p) x -> in_interior d (ctr q) (blen q) x -> p = q.
Proof.
  intros Hc.
  assert (G : forall p q, length p <= length q -> present p -> refined p = false -> present q ->
    in_interior d (ctr p) (blen p) x -> in_interior d (ctr q) (blen q) x -> p = q).
  { clear p q. intros p q HL Pp Rp Pq Ip Iq.
    set (r := firstn (length q - length p) q). set (q' := skipn (length q - length p) q).
    assert (E : q = r ++ q') by (symmetry; apply firstn_skipn).
    assert (L' : length q' = length p) by (unfold q'; rewrite skipn_length; lia).
    assert (Iq' : in_interior d (ctr q') (blen q') x) by (apply (interior_anc r); [assumption|rewrite <- E; assumption]).
    assert (Fq : Forall (fun i => i < n_children d) q') by (assert (F := present_forall q Pq); rewrite E in F; apply Forall_app in F; apply F).
    assert (EQ : p = q') by (apply (interior_same_level p q' x); auto using present_forall).
    destruct r as [|i r]; [rewrite EQ, E; reflexivity|]. exfalso.
    rewrite E in Pq. cbn [app] in Pq. apply present_app_refined in Pq. rewrite <- EQ in Pq. congruence. }
  intros. destruct (le_ge_dec (length p) (length q)).
  - apply G; assumption.
  - symmetry. apply G; assumption.
Qed.

(** *** Descent *)
Lemma present_path x k : (forall j, j < k -> refined (path x j) = true) -> present (path x k).
Proof.
  induction k; intros H; [exact I|]. cbn [path AdaptiveProofs.present]. split; [apply get_orthant_lt|]. split.
  - apply IHk. intros. apply H. lia.
  - apply H. lia.
Qed.

Section Given.
Variable h : nat.
Hypothesis Hh : height_ok d pos c l cap srcs root_refined h.
Notation t := (spec_tree d pos c l cap srcs root_refined h).

Lemma descend_path x k fuel : (forall j, j < k -> refined (path x j) = true) -> h <= k + fuel ->
  exists m, k <= m /\ descend d t fuel (path x k) x = Ok (mk (path x m)) /\ refined (path x m) = false /\ present (path x m).
Proof.
  revert k; induction fuel as [|fuel IH]; intros k Hk HF.
  - assert (P := present_path x k Hk).
    assert (NR : refined (path x k) = false).
    { destruct (refined (path x k)) eqn:E; [|reflexivity].
      apply (refined_depth _ _ _ _ _ _ _ _ Hh) in E; [|assumption]. rewrite path_length in E. lia. }
    exists k. split; [lia|]. cbn [descend]. rewrite (lookup_mk _ _ _ _ _ _ _ _ Hh) by assumption.
    unfold AdaptiveProofs.mk. rewrite NR. auto.
  - assert (P := present_path x k Hk).
    cbn [descend]. rewrite (lookup_mk _ _ _ _ _ _ _ _ Hh) by assumption.
    cbn [AdaptiveProofs.mk an_leaf]. destruct (refined (path x k)) eqn:E; cbn [negb].
    + cbn [an_center]. destruct (IH (S k)) as (m & Hm & D & NR & Pm).
      * intros j Hj. destruct (Nat.eq_dec j k) as [->|]; [assumption|]. apply Hk. lia.
      * lia.
      * exists m. split; [lia|]. split; [exact D|]. auto.
    + exists k. split; [lia|]. unfold AdaptiveProofs.mk. rewrite E. auto.
Qed.

Lemma descend_root x : exists p, descend d t (at_height t) [] x = Ok (mk p) /\ refined p = false /\ present p /\ path x (length p) = p.
Proof.
  destruct (descend_path x 0 h) as (m & _ & D & NR & P); [intros; lia|lia|].
  exists (path x m). rewrite path_length. auto.
Qed.

Lemma filter_flat_map {A B} (f : B -> bool) (g : A -> list B) xs :
  filter f (flat_map g xs) = flat_map (fun x => filter f (g x)) xs.
Proof. induction xs; cbn [flat_map]; [reflexivity|]. rewrite filter_app, IHxs. reflexivity. Qed.
Lemma filter_all {A} (f : A -> bool) xs : (forall x, In x xs -> f x = true) -> filter f xs = xs.
Proof. induction xs as [|x xs IH]; intros H; [reflexivity|]. cbn [filter]. rewrite H by (left; reflexivity). f_equal. apply IH. intros. apply H. right. assumption. Qed.
Lemma filter_none {A} (f : A -> bool) xs : (forall x, In x xs -> f x = false) -> filter f xs = [].
Proof. induction xs as [|x xs IH]; intros H; [reflexivity|]. cbn [filter]. rewrite H by (left; reflexivity). apply IH. intros. apply H. right. assumption. Qed.
Lemma filter_perm {A} (f : A -> bool) xs ys : Permutation xs ys -> Permutation (filter f xs) (filter f ys).
Proof.
  induction 1 as [|x xs ys H IH|x y xs|xs ys zs H1 IH1 H2 IH2]; cbn [filter]; auto.
  - destruct (f x); auto.
  - destruct (f x), (f y); auto. constructor.
  - etransitivity; eassumption.
Qed.
Lemma flat_map_filter {A B} (f : A -> list B) (g : A -> bool) xs : flat_map f (filter g xs) = flat_map (fun x => if g x then f x else []) xs.
Proof. induction xs as [|x xs IH]; [reflexivity|]. cbn [filter flat_map]. destruct (g x); cbn [flat_map]; rewrite IH; reflexivity. Qed.

Lemma sub_leaves_perm : Permutation (flat_map sub (leaf_addrs d pos c l cap srcs root_refined h)) srcs.
Proof.
  assert (G := sources_split (S h)).
  rewrite (level_ext_empty _ _ _ _ _ _ _ h) in G by (try apply Hh; lia). cbn [flat_map] in G. rewrite app_nil_r in G.
  symmetry. exact G.
Qed.

Lemma sub_below p : present p ->
  Permutation (flat_map sub (filter (is_above p) (leaf_addrs d pos c l cap srcs root_refined h))) (sub p).
Proof.
  intros P. rewrite (sub_filter p). etransitivity; [|apply (filter_perm _ _ _ sub_leaves_perm)].
  rewrite filter_flat_map, flat_map_filter.
  assert (E : forall q, In q (leaf_addrs d pos c l cap srcs root_refined h) ->
    (if is_above p q then sub q else []) = filter (fun s => addr_eqb (path (pos s) (length p)) p) (sub q)).
  { intros q Hq. apply (in_leaf_addrs _ _ _ _ _ _ _ _ Hh) in Hq. destruct Hq as [Pq Nq]. destruct (is_above p q) eqn:A.
    - symmetry. apply filter_all. intros s Hs. apply sub_path in Hs. destruct Hs as [_ E]. apply addr_eqb_eq.
      unfold is_above in A. apply existsb_addr in A. rewrite <- E in A. apply anc_path in A. destruct A as (j & Hj & ->).
      rewrite path_length. reflexivity.
    - symmetry. apply filter_none. intros s Hs. apply sub_path in Hs. destruct Hs as [_ E].
      apply addr_eqb_neq. intros E2. destruct (le_lt_dec (length p) (length q)) as [L|L].
      + assert (X : is_above p q = true); [|congruence]. unfold is_above. apply existsb_addr. rewrite <- E.
        apply anc_path. exists (length p). auto.
      + assert (X : In q (ancestors_or_self p)).
        { rewrite <- E2. apply anc_path. exists (length q). split; [lia|auto]. }
        apply in_sufs_app in X. destruct X as (r & Er). destruct r as [|i r]; [simpl in Er; subst; lia|].
        rewrite Er in P. cbn [app] in P. apply present_app_refined in P. congruence. }
  rewrite (flat_map_ext_in _ _ _ E). reflexivity.
Qed.

Lemma leaf_box_in_root p x : length c = d -> in_box d (ctr p) (blen p) x -> in_box d c l x.
Proof.
  intros Hc. induction p as [|i p IH]; [auto|]. intros H. apply IH. cbn [box_ctr box_len] in H.
  eapply child_inside; [|eassumption]. apply len_box_ctr. assumption.
Qed.

Lemma containing_leaf_spec x : length c = d ->
  exists p, present p /\ refined p = false /\ path x (length p) = p /\
  ((in_box d c l x /\ in_box d (ctr p) (blen p) x /\ containing_leaf d t x = Ok (Some (mk p))) \/
   (~ in_box d c l x /\ containing_leaf d t x = Ok None)).
Proof.
  intros Hc. destruct (descend_root x) as (p & D & NR & P & E). exists p. split; [assumption|]. split; [assumption|].
  split; [assumption|]. unfold containing_leaf. rewrite D. unfold omap; cbn [bind].
  change (an_center (mk p)) with (ctr p). change (an_len (mk p)) with (blen p).
  assert (C := contains_iff d (ctr p) (blen p) x (len_box_ctr d c l p Hc)).
  destruct (contains d (ctr p) (blen p) x).
  - left. assert (B : in_box d (ctr p) (blen p) x) by (apply C; reflexivity).
    split; [apply (leaf_box_in_root p); assumption|]. split; [assumption|]. reflexivity.
  - right. split; [|reflexivity]. intros B. apply (path_in_box x (length p) Hc) in B. rewrite E in B. apply C in B. discriminate.
Qed.

End Given.

(** *** Termination *)
Definition list_R_eq_dec : forall x y : list R, {x = y} + {x <> y} := list_eq_dec Req_EM_T.
Definition mult (x : list R) : nat := count_occ list_R_eq_dec (map pos srcs) x.

Lemma count_filter (key : Src -> bool) x ss : (forall s, In s ss -> pos s = x -> key s = true) ->
  count_occ list_R_eq_dec (map pos (filter key ss)) x = count_occ list_R_eq_dec (map pos ss) x.
Proof.
  induction ss as [|s ss IH]; intros H; [reflexivity|]. cbn [filter map].
  assert (IH' := IH (fun s' Hs' => H s' (or_intror Hs'))).
  destruct (key s) eqn:K; cbn [map count_occ]; destruct (list_R_eq_dec (pos s) x) as [E|E]; rewrite ?IH'; auto.
  rewrite (H s) in K; [discriminate|left; reflexivity|assumption].
Qed.
Lemma count_path x k : count_occ list_R_eq_dec (map pos (sub (path x k))) x = mult x.
Proof.
  induction k; [reflexivity|]. cbn [path AdaptiveProofs.sub]. rewrite count_filter; [assumption|].
  intros s _ E. rewrite E. apply Nat.eqb_refl.
Qed.
Lemma count_occ_length {A} dec (xs : list A) x : count_occ dec xs x <= length xs.
Proof. induction xs as [|y xs IH]; simpl; [lia|]. destruct (dec y x); lia. Qed.

Lemma many_coincident_refined x k : root_refined = true -> cap < mult x -> refined (path x k) = true.
Proof.
  intros HR H. unfold AdaptiveProofs.refined. rewrite HR. destruct (path x k) as [|i p] eqn:E; [reflexivity|]. apply Nat.ltb_lt.
  assert (C := count_path x k). rewrite E in C.
  assert (L := count_occ_length list_R_eq_dec (map pos (sub (i :: p))) x). rewrite map_length in L. lia.
Qed.
Lemma many_coincident_level x k : root_refined = true -> cap < mult x -> filter refined (level k) <> [].
Proof.
  intros HR H E. assert (In (path x k) (filter refined (level k))) as I.
  { apply filter_In. split; [|apply many_coincident_refined; assumption].
    apply in_level. split; [apply path_length|]. apply present_path. intros. apply many_coincident_refined; assumption. }
  rewrite E in I. destruct I.
Qed.

(** Distinct positions are separated. *)
Lemma separation (pts : list (list R)) : (forall x, In x pts -> length x = d) ->
  exists delta, (0 < delta)%R /\ forall x y, In x pts -> In y pts ->
    (forall j, j < d -> (Rabs (nth j x 0 - nth j y 0) < delta)%R) -> x = y.
Proof.
  intros HL.
  assert (G1 : forall x y : list R, length x = d -> length y = d -> exists delta, (0 < delta)%R /\
     ((forall j, j < d -> (Rabs (nth j x 0 - nth j y 0) < delta)%R) -> x = y)).
  { clear. intros x y Hx Hy. destruct (list_R_eq_dec x y) as [E|NE].
    - exists 1%R. split; [lra|]. auto.
    - assert (J : exists j, j < d /\ nth j x 0%R <> nth j y 0%R).
      { revert x y Hx Hy NE. induction d as [|n IH]; intros [|a x] [|b y] Hx Hy NE; try discriminate; [congruence|].
        destruct (Req_EM_T a b) as [->|NE'].
        - destruct (IH x y) as (j & Hj & D); [auto|auto|congruence|]. exists (S j). split; [lia|assumption].
        - exists 0. split; [lia|assumption]. }
      destruct J as (j & Hj & D). exists (Rabs (nth j x 0 - nth j y 0))%R. split; [apply Rabs_pos_lt; lra|].
      intros H. specialize (H j Hj). lra. }
  assert (G2 : forall x ys, length x = d -> (forall y, In y ys -> length y = d) -> exists delta, (0 < delta)%R /\
     forall y, In y ys -> (forall j, j < d -> (Rabs (nth j x 0 - nth j y 0) < delta)%R) -> x = y).
  { intros x ys Hx. induction ys as [|y ys IH]; intros Hy.
    - exists 1%R. split; [lra|]. intros y [].
    - destruct IH as (d1 & P1 & H1); [intros; apply Hy; right; assumption|].
      destruct (G1 x y Hx (Hy y (or_introl eq_refl))) as (d2 & P2 & H2).
      exists (Rmin d1 d2). split; [apply Rmin_glb_lt; assumption|].
      intros z [<-|Hz] B.
      + apply H2. intros j Hj. eapply Rlt_le_trans; [apply B; assumption|apply Rmin_r].
      + apply H1; [assumption|]. intros j Hj. eapply Rlt_le_trans; [apply B; assumption|apply Rmin_l]. }
  assert (G3 : forall xs, (forall x, In x xs -> length x = d) -> exists delta, (0 < delta)%R /\
     forall x y, In x xs -> In y pts -> (forall j, j < d -> (Rabs (nth j x 0 - nth j y 0) < delta)%R) -> x = y).
  { induction xs as [|x xs IH]; intros Hx.
    - exists 1%R. split; [lra|]. intros y ? [].
    - destruct IH as (d1 & P1 & H1); [intros; apply Hx; right; assumption|].
      destruct (G2 x pts (Hx x (or_introl eq_refl)) HL) as (d2 & P2 & H2).
      exists (Rmin d1 d2). split; [apply Rmin_glb_lt; assumption|].
      intros z y [<-|Hz] Hy B.
      + apply H2; [assumption|]. intros j Hj. eapply Rlt_le_trans; [apply B; assumption|apply Rmin_r].
      + apply H1; [assumption|assumption|]. intros j Hj. eapply Rlt_le_trans; [apply B; assumption|apply Rmin_l]. }
  apply G3. assumption.
Qed.

Lemma small_power (b delta : R) : (0 < delta)%R -> exists k, 1 <= k /\ (b / 2 ^ k < delta)%R.
Proof.
  intros HD. destruct (Pow_x_infinity 2) with (b := (Rabs b / delta + 1)%R) as (N & HN).
  { rewrite Rabs_pos_eq; lra. }
  exists (S N). split; [lia|]. specialize (HN (S N) ltac:(lia)).
  rewrite Rabs_pos_eq in HN by (apply pow_le; lra).
  assert (P := pow2_pos (S N)). assert (B := Rle_abs b).
  apply Rmult_lt_reg_r with (2 ^ S N)%R; [assumption|].
  unfold Rdiv. rewrite Rmult_assoc, Rinv_l, Rmult_1_r by lra.
  assert (X : (Rabs b / delta * delta = Rabs b)%R) by (field; lra). nra.
Qed.

Lemma all_equal_count (ss : list Src) x : (forall s, In s ss -> pos s = x) ->
  length ss = count_occ list_R_eq_dec (map pos ss) x.
Proof.
  induction ss as [|s ss IH]; intros H; [reflexivity|]. cbn [map count_occ length].
  destruct (list_R_eq_dec (pos s) x) as [_|N]; [|destruct N; apply H; left; reflexivity].
  f_equal. apply IH. intros. apply H. right. assumption.
Qed.
Lemma count_sub_le p x : count_occ list_R_eq_dec (map pos (sub p)) x <= mult x.
Proof.
  unfold mult. induction p as [|i p IH]; [apply le_n|]. cbn [AdaptiveProofs.sub]. eapply Nat.le_trans; [|exact IH].
  generalize (sub p) as ss. induction ss as [|s ss IHs]; [apply le_n|]. cbn [filter].
  destruct (Nat.eqb _ _); cbn [map count_occ]; destruct (list_R_eq_dec (pos s) x); lia.
Qed.

Lemma terminates_level : by_count root_refined -> length c = d -> (forall s, In s srcs -> length (pos s) = d) ->
  (forall s, In s srcs -> in_box d c l (pos s)) -> (forall x, mult x <= cap) ->
  exists k, 1 <= k /\ filter refined (level k) = [].
Proof.
  intros [r Hr] Hc Hpos Hbox Hm.
  destruct (separation (map pos srcs)) as (delta & HD & Sep).
  { intros x Hx. apply in_map_iff in Hx. destruct Hx as (s & <- & Hs). auto. }
  destruct (small_power l delta HD) as (k & Hk1 & Hk). exists k. split; [assumption|].
  destruct (filter refined (level k)) as [|p ps] eqn:E; [reflexivity|]. exfalso.
  assert (I : In p (filter refined (level k))) by (rewrite E; left; reflexivity).
  apply filter_In in I. destruct I as [I Rp]. apply in_level in I. destruct I as [Lp Pp].
  destruct p as [|i q]; [simpl in Lp; lia|]. unfold AdaptiveProofs.refined in Rp. rewrite Hr in Rp. apply Nat.ltb_lt in Rp.
  remember (i :: q) as p eqn:Ep. clear Ep.
  destruct (sub p) as [|s0 ss] eqn:Es; [simpl in Rp; lia|]. rewrite <- Es in Rp.
  assert (In0 : In s0 (sub p)) by (rewrite Es; left; reflexivity).
  assert (Inb : forall s, In s (sub p) -> In s srcs /\ in_box d (ctr p) (blen p) (pos s)).
  { intros s Hs. apply sub_path in Hs. destruct Hs as [A B]. split; [assumption|]. rewrite <- B.
    apply path_in_box; auto. }
  assert (EQ : forall s, In s (sub p) -> pos s = pos s0).
  { intros s Hs. destruct (Inb s Hs) as [A B]. destruct (Inb s0 In0) as [A0 B0].
    apply Sep; [apply in_map; assumption|apply in_map; assumption|].
    intros j Hj. specialize (B j Hj). specialize (B0 j Hj). rewrite box_len_pow, Lp in B, B0.
    eapply Rle_lt_trans; [|exact Hk]. apply Rabs_le. lra. }
  assert (C := all_equal_count (sub p) (pos s0) EQ). assert (C2 := count_sub_le p (pos s0)). specialize (Hm (pos s0)). lia.
Qed.

End Build.

(** *** The constructor *)
Section Constructor.
Context {Src : Type}.
Variable d : nat.
Variable pos : Src -> list R.

Definition rr (cap : nat) (srcs : list Src) : bool := negb (Nat.leb (length srcs) cap).

Lemma build_in_box_spec cap fuel c l srcs t : build_in_box d pos cap fuel c l srcs = Some t ->
  exists h, height_ok d pos c l cap srcs (rr cap srcs) h /\ t = spec_tree d pos c l cap srcs (rr cap srcs) h /\ h <= fuel.
Proof.
  unfold build_in_box, rr. destruct (Nat.leb (length srcs) cap) eqn:E; cbn [negb].
  - intros H. injection H as <-. exists 0. split; [split|split]; [reflexivity|intros; lia|reflexivity|lia].
  - intros H. apply (build_from_root d pos c l cap srcs true) in H; [|reflexivity].
    destruct H as (h & Hh & HO & ->). exists h. split; [assumption|]. split; [reflexivity|lia].
Qed.

Lemma build_in_box_terminates cap c l srcs : length c = d -> (forall s, In s srcs -> length (pos s) = d) ->
  (forall s, In s srcs -> in_box d c l (pos s)) ->
  ((exists fuel t, build_in_box d pos cap fuel c l srcs = Some t) <->
   (forall x, count_occ list_R_eq_dec (map pos srcs) x <= cap)).
Proof.
  intros Hc Hpos Hbox. split.
  - intros (fuel & t & H) x. destruct (le_lt_dec (count_occ list_R_eq_dec (map pos srcs) x) cap) as [L|L]; [assumption|].
    exfalso. apply build_in_box_spec in H. destruct H as (h & [HE _] & _).
    apply (many_coincident_level d pos c l cap srcs (rr cap srcs) x h) in HE; auto.
    unfold rr. destruct (Nat.leb_spec (length srcs) cap) as [L2|L2]; [|reflexivity].
    assert (C := count_occ_length list_R_eq_dec (map pos srcs) x). rewrite map_length in C. lia.
  - intros H. unfold build_in_box. destruct (Nat.leb (length srcs) cap) eqn:E.
    + exists 0. eexists. reflexivity.
    + destruct (terminates_level d pos c l cap srcs true (ex_intro _ true eq_refl) Hc Hpos Hbox H) as (k & Hk & Hl).
      assert (T := build_from_root_complete d pos c l cap srcs true k k eq_refl ltac:(lia) Hl).
      exists k. match goal with |- exists t, ?b = _ => change (b <> None) in T; destruct b as [t|] eqn:EB end.
      * exists t. reflexivity.
      * exfalso. apply T. reflexivity.
Qed.
End Constructor.
