(** The adaptive tree in any arithmetic: the construction characterised without any law of the arithmetic, so that the
    results hold for IEEE doubles.  Mirrors AdaptiveProofs, ListProofs, ListContents and BuildProofs. *)
From Coq Require Import List Bool ZArith Arith Lia Permutation.
From Verif Require Import Num Outcome Vec Orthtree AdaptiveTree TreeSpec GeometryProofs AdaptiveProofs BfsProofs ListProofs ListContents BuildProofs.
Import ListNotations.

Lemma any_orthant_lt {T} {N : Num T} d (c x : list T) : get_orthant d c x < n_children d.
Proof. exact (horner_lt (fun i => ngeb (vget x i) (vget c i)) d). Qed.

Section Tree.
Context {T Src : Type} {NT : Num T}.
Variable d : nat.
Variable pos : Src -> list T.
Variable c : list T.
Variable l : T.
Variable cap : nat.
Variable srcs : list Src.
Variable root_refined : rule.

Notation nc := (n_children d).
(** Side length and centre of the box with address [p]. *)
Fixpoint blen (p : addr) : T := match p with [] => l | _ :: q => nhalf (blen q) end.
Fixpoint ctr (p : addr) : list T := match p with [] => c | i :: q => child_center d (ctr q) (nhalf (blen q)) i end.
Notation kids := (kids d).

Lemma refine_orthant_eq cc ss :
  refine_orthant d pos cc ss = map (fun i => filter (fun s => Nat.eqb (get_orthant d cc (pos s)) i) ss) (seq 0 nc).
Proof.
  unfold refine_orthant. rewrite (bucket_fold (fun s => get_orthant d cc (pos s)) nc) by apply repeat_length.
  apply map_ext. intros i.
  assert (E : nth i (repeat (@nil Src) nc) [] = []).
  { generalize nc. intros n. revert i. induction n; intros [|i]; simpl; auto. }
  rewrite E. reflexivity.
Qed.

(** Sources whose orthant descent passes through box [p]. *)
Fixpoint sub (p : addr) : list Src :=
  match p with
  | [] => srcs
  | i :: q => filter (fun s => Nat.eqb (get_orthant d (ctr q) (pos s)) i) (sub q)
  end.

Definition refined (p : addr) : bool :=
  match root_refined with
  | ByCount r => match p with [] => r | _ => Nat.ltb cap (length (sub p)) end
  | ByDepth k => Nat.ltb (length p) k
  end.

Definition mk (p : addr) : anode :=
  ANode p (ctr p) (blen p) (length p) (negb (refined p)) (if refined p then [] else sub p).


Fixpoint level (k : nat) : list addr :=
  match k with
  | O => [[]]
  | S k' => flat_map kids (filter refined (level k'))
  end.

Fixpoint present (p : addr) : Prop :=
  match p with
  | [] => True
  | i :: q => i < nc /\ present q /\ refined q = true
  end.

Lemma in_level k p : In p (level k) <-> length p = k /\ present p.
Proof.
  revert p; induction k as [|k IH]; intros p; cbn [level].
  - split.
    + intros [<-|[]]. simpl. auto.
    + intros [H _]. destruct p; [left; reflexivity|discriminate].
  - rewrite in_flat_map. split.
    + intros (q & Hq & Hp). apply filter_In in Hq. destruct Hq as [Hq R]. apply IH in Hq.
      unfold AdaptiveProofs.kids in Hp. apply in_map_iff in Hp. destruct Hp as (i & <- & Hi). apply in_seq in Hi.
      simpl. intuition lia.
    + intros [H P]. destruct p as [|i q]; [discriminate|]. simpl in *. destruct P as (Hi & Hq & Hr).
      exists q. split.
      * apply filter_In. split; [|assumption]. apply IH. split; [lia|assumption].
      * unfold AdaptiveProofs.kids. apply in_map_iff. exists i. split; [reflexivity|]. apply in_seq. lia.
Qed.



Lemma level_NoDup k : NoDup (level k).
Proof.
  induction k as [|k IH]; cbn [level].
  - constructor; [intros []|constructor].
  - apply NoDup_flat_map.
    + apply NoDup_filter; assumption.
    + intros. apply kids_NoDup.
    + intros x y b _ _ Hx Hy. unfold AdaptiveProofs.kids in *. apply in_map_iff in Hx, Hy.
      destruct Hx as (i & <- & _). destruct Hy as (i' & E & _). congruence.
Qed.

Lemma level_ext_empty k m : filter refined (level k) = [] -> k < m -> level m = [].
Proof.
  intros H Hm. induction m as [|m IH]; [lia|]. cbn [level].
  destruct (Nat.eq_dec k m) as [->|]; [rewrite H; reflexivity|]. rewrite IH by lia. reflexivity.
Qed.

(** *** Sources *)
Lemma sub_kids p : Permutation (flat_map sub (kids p)) (sub p).
Proof.
  unfold AdaptiveProofs.kids. rewrite flat_map_concat_map, map_map, <- flat_map_concat_map. cbn [sub].
  apply (partition_perm (fun s => get_orthant d (ctr p) (pos s))). intros s _. apply any_orthant_lt.
Qed.

Lemma sources_split k : Permutation srcs
  (flat_map sub (flat_map (fun i => filter (fun p => negb (refined p)) (level i)) (seq 0 k)) ++ flat_map sub (level k)).
Proof.
  induction k.
  - cbn [seq flat_map app level sub]. rewrite app_nil_r. reflexivity.
  - rewrite IHk at 1. rewrite seq_S. cbn [plus]. rewrite !flat_map_app. cbn [flat_map]. rewrite app_nil_r, <- app_assoc.
    apply Permutation_app_head.
    rewrite (perm_flat_map_split sub refined (level k)) at 1. apply Permutation_app_head.
    cbn [level]. rewrite flat_map_flat_map. symmetry. apply perm_flat_map. intros p _. apply sub_kids.
Qed.

Lemma sub_incl p s : In s (sub p) -> In s srcs.
Proof. induction p as [|i p IH]; cbn [sub]; [auto|]. intros H. apply filter_In in H. apply IH. apply H. Qed.

(** The boxes a point passes through. *)
Fixpoint path (x : list T) (k : nat) : addr :=
  match k with O => [] | S k' => get_orthant d (ctr (path x k')) x :: path x k' end.

Lemma path_length x k : length (path x k) = k.
Proof. induction k; simpl; auto. Qed.

Lemma sub_path p s : In s (sub p) <-> In s srcs /\ path (pos s) (length p) = p.
Proof.
  induction p as [|i p IH]; cbn [sub length path]; [tauto|].
  rewrite filter_In, IH, Nat.eqb_eq. split.
  - intros ((A & B) & E). split; [assumption|]. rewrite B, E. reflexivity.
  - intros (A & E). injection E as E1 E2. rewrite E2 in E1. auto.
Qed.

Lemma anc_path x m a : In a (ancestors_or_self (path x m)) <-> exists j, j <= m /\ a = path x j.
Proof.
  induction m; cbn [path ancestors_or_self].
  - split; [intros [<-|[]]; exists 0; auto|]. intros (j & Hj & ->). replace j with 0 by lia. left. reflexivity.
  - split.
    + intros [<-|H]; [exists (S m); auto|]. apply IHm in H. destruct H as (j & Hj & ->). exists j. auto.
    + intros (j & Hj & ->). destruct (Nat.eq_dec j (S m)) as [->|]; [left; reflexivity|]. right. apply IHm. exists j. split; [lia|reflexivity].
Qed.
Lemma sub_filter p : sub p = filter (fun s => addr_eqb (path (pos s) (length p)) p) srcs.
Proof.
  induction p as [|i p IH].
  - cbn. induction srcs as [|s ss IH']; [reflexivity|]. cbn. f_equal. exact IH'.
  - cbn [sub length path]. rewrite IH, filter_filter. apply filter_ext. intros s.
    apply eq_true_iff_eq. rewrite andb_true_iff, Nat.eqb_eq, !addr_eqb_eq. split.
    + intros [E1 E2]. rewrite E1, E2. reflexivity.
    + intros E. injection E as E1 E2. rewrite E2 in E1. auto.
Qed.

Lemma path_valid x k p i : path x k = i :: p -> i < n_children d.
Proof. destruct k; [discriminate|]. cbn [path]. intros H. injection H as <- _. apply any_orthant_lt. Qed.

Lemma present_forall p : present p -> Forall (fun i => i < n_children d) p.
Proof. induction p; simpl; [constructor|]. intros (A & B & _). constructor; auto. Qed.
Lemma present_app_refined i r p : present (i :: r ++ p) -> refined p = true.
Proof.
  revert i; induction r as [|j r IH]; intros i; simpl; [tauto|]. intros (_ & H & _). apply (IH j). exact H.
Qed.
(** *** Descent *)
Lemma present_path x k : (forall j, j < k -> refined (path x j) = true) -> present (path x k).
Proof.
  induction k; intros H; [exact I|]. cbn [path present]. split; [apply any_orthant_lt|]. split.
  - apply IHk. intros. apply H. lia.
  - apply H. lia.
Qed.

(** *** One level of the construction *)
Definition entry (p : addr) : anode * list Src := (mk p, if refined p then sub p else []).

Definition by_count : Prop := exists r : bool, root_refined = r.
Lemma make_child_entry q i : by_count ->
  make_child d cap (mk q) i (sub (i :: q)) = entry (i :: q).
Proof.
  intros [r Hr]. unfold make_child, entry, mk. cbn [an_len an_center an_addr an_depth].
  unfold refined. rewrite Hr.
  destruct (cap <? length (sub (i :: q))); cbn [negb]; rewrite Nat.add_1_r; reflexivity.
Qed.

Lemma refine_node_entry q : by_count ->
  refine_node d pos cap (mk q, sub q) = map entry (kids q).
Proof.
  intros Hq. unfold refine_node. rewrite refine_orthant_eq. cbn [an_center mk].
  unfold AdaptiveProofs.kids. rewrite map_map.
  rewrite <- (map_id (seq 0 nc)) at 1. 
  assert (G : forall (A B : Type) (f : nat -> A) (g : nat -> B) s, combine (map f s) (map g s) = map (fun i => (f i, g i)) s).
  { intros A B f g s. induction s; simpl; congruence. }
  rewrite G, map_map. apply map_ext_in. intros i Hi. cbn [fst snd]. apply (make_child_entry q i Hq).
Qed.

Lemma refine_level_entry qs : by_count ->
  refine_level d pos cap (map (fun q => (mk q, sub q)) qs) = map entry (flat_map kids qs).
Proof.
  intros HC. unfold refine_level. induction qs as [|q qs IH]; [reflexivity|].
  cbn [map flat_map]. rewrite refine_node_entry by assumption. rewrite IH, map_app. reflexivity.
Qed.

Definition inner_level k := map mk (filter refined (level k)).
Definition leaf_level k := map mk (filter (fun p => negb (refined p)) (level k)).

Lemma filter_entry (ps : list addr) :
  filter (fun ns => negb (an_leaf (fst ns))) (map entry ps) = map (fun q => (mk q, sub q)) (filter refined ps).
Proof.
  induction ps as [|p ps IH]; [reflexivity|]. cbn [map filter]. unfold entry at 1. cbn [fst mk an_leaf].
  destruct (refined p) eqn:E; cbn [negb map]; rewrite IH; [|reflexivity].
  unfold entry. rewrite E. reflexivity.
Qed.
Lemma filter_entry_leaf (ps : list addr) :
  map fst (filter (fun ns => an_leaf (fst ns)) (map entry ps)) = map mk (filter (fun p => negb (refined p)) ps).
Proof.
  induction ps as [|p ps IH]; [reflexivity|]. cbn [map filter]. unfold entry at 1. cbn [fst mk an_leaf].
  destruct (refined p) eqn:E; cbn [negb map]; rewrite IH; reflexivity.
Qed.

Lemma build_step fuel depth nodes leaves : by_count ->
  build_loop d pos cap (S fuel) depth (map (fun q => (mk q, sub q)) (filter refined (level depth))) nodes leaves
  = match filter refined (level (S depth)) with
    | [] => Some (ATree nodes (leaves ++ [leaf_level (S depth)]) (S depth))
    | _ => build_loop d pos cap fuel (S depth) (map (fun q => (mk q, sub q)) (filter refined (level (S depth))))
             (nodes ++ [inner_level (S depth)]) (leaves ++ [leaf_level (S depth)])
    end.
Proof.
  intros HC. cbn [build_loop]. rewrite refine_level_entry by exact HC.
  rewrite filter_entry, filter_entry_leaf.
  change (flat_map kids (filter refined (level depth))) with (level (S depth)).
  unfold leaf_level, inner_level.
  destruct (filter refined (level (S depth))) as [|q qs] eqn:E; [reflexivity|].
  cbn [map]. f_equal. rewrite map_map. reflexivity.
Qed.

(** The loop stops at the first level without a refined box. *)
Lemma build_loop_spec fuel depth nodes leaves t : by_count ->
  build_loop d pos cap fuel depth (map (fun q => (mk q, sub q)) (filter refined (level depth))) nodes leaves = Some t ->
  exists n, n < fuel /\ filter refined (level (depth + S n)) = [] /\
    (forall k, depth < k < depth + S n -> filter refined (level k) <> []) /\
    t = ATree (nodes ++ map inner_level (seq (S depth) n)) (leaves ++ map leaf_level (seq (S depth) (S n))) (depth + S n).
Proof.
  intros HC. revert depth nodes leaves; induction fuel as [|fuel IH]; intros depth nodes leaves H; [discriminate|].
  rewrite build_step in H by exact HC. destruct (filter refined (level (S depth))) as [|q qs] eqn:E.
  - injection H as <-. exists 0. split; [lia|]. rewrite Nat.add_1_r. split; [assumption|]. split; [intros; lia|].
    cbn [seq map]. rewrite app_nil_r. reflexivity.
  - rewrite <- E in H. apply IH in H. destruct H as (n & Hn & He & Hne & ->).
    exists (S n). split; [lia|]. rewrite Nat.add_succ_r in *. cbn [plus] in *. rewrite <- Nat.add_succ_r in *.
    replace (depth + S (S n)) with (S (depth + S n)) in * by lia.
    split; [rewrite Nat.add_succ_r in *; assumption|]. split.
    + intros k Hk. destruct (Nat.eq_dec k (S depth)) as [->|]; [rewrite E; discriminate|]. apply Hne. lia.
    + cbn [seq map]. rewrite <- !app_assoc. cbn [app]. f_equal; lia.
Qed.

Lemma build_loop_complete fuel depth nodes leaves n : by_count ->
  n < fuel -> filter refined (level (depth + S n)) = [] ->
  build_loop d pos cap fuel depth (map (fun q => (mk q, sub q)) (filter refined (level depth))) nodes leaves <> None.
Proof.
  intros HC. revert depth nodes leaves n; induction fuel as [|fuel IH]; intros depth nodes leaves n Hn E; [lia|].
  rewrite build_step by exact HC. destruct (filter refined (level (S depth))) as [|q qs] eqn:E'; [discriminate|].
  rewrite <- E'. destruct n as [|n].
  - rewrite Nat.add_1_r in E. congruence.
  - apply (IH _ _ _ n); [lia|]. replace (S depth + S n) with (depth + S (S n)) by lia. assumption.
Qed.

(** The tree with height [h]. *)
Definition spec_tree (h : nat) : atree :=
  ATree (map inner_level (seq 0 h)) (map leaf_level (seq 0 (S h))) h.
Definition height_ok (h : nat) : Prop :=
  filter refined (level h) = [] /\ forall k, k < h -> filter refined (level k) <> [].

Lemma height_ok_unique h h' : height_ok h -> height_ok h' -> h = h'.
Proof.
  intros [A B] [A' B']. destruct (lt_eq_lt_dec h h') as [[H|H]|H]; auto.
  - exfalso. apply (B' h); assumption.
  - exfalso. apply (B h'); assumption.
Qed.

Definition root_entry := (mk [], srcs).

Lemma build_from_root fuel t : root_refined = true ->
  build_loop d pos cap fuel 0 [root_entry] [[mk []]] [[]] = Some t ->
  exists h, 1 <= h <= fuel /\ height_ok h /\ t = spec_tree h.
Proof.
  intros HR H.
  assert (L0 : filter refined (level 0) = [[]]) by (simpl; unfold refined; rewrite HR; reflexivity).
  assert (E : [root_entry] = map (fun q => (mk q, sub q)) (filter refined (level 0))) by (rewrite L0; reflexivity).
  rewrite E in H. apply build_loop_spec in H; [|exists true; exact HR]. destruct H as (n & Hn & He & Hne & ->).
  exists (S n). split; [lia|]. split; [split|].
  - assumption.
  - intros k Hk. destruct k; [rewrite L0; discriminate|]. apply Hne. lia.
  - unfold spec_tree. cbn [plus]. f_equal.
    + cbn [seq map]. unfold inner_level at 2. rewrite L0. reflexivity.
    + cbn [seq map app]. f_equal. unfold leaf_level, refined. cbn [level filter]. rewrite HR. reflexivity.
Qed.

Lemma build_from_root_complete fuel h : root_refined = true -> 1 <= h <= fuel -> filter refined (level h) = [] ->
  build_loop d pos cap fuel 0 [root_entry] [[mk []]] [[]] <> None.
Proof.
  intros HR Hh He.
  assert (L0 : filter refined (level 0) = [[]]) by (simpl; unfold refined; rewrite HR; reflexivity).
  assert (E : [root_entry] = map (fun q => (mk q, sub q)) (filter refined (level 0))) by (rewrite L0; reflexivity).
  rewrite E. apply (build_loop_complete _ _ _ _ (h - 1)); [exists true; exact HR|lia|]. replace (0 + S (h - 1)) with h by lia. assumption.
Qed.

(** *** The tree object *)
Section Given.
Variable h : nat.
Hypothesis Hh : height_ok h.
Notation t := (spec_tree h).

Lemma present_depth p : present p -> length p <= h.
Proof.
  intros P. destruct (le_lt_dec (length p) h) as [|G]; [assumption|exfalso].
  assert (I : In p (level (length p))) by (apply in_level; auto).
  rewrite (level_ext_empty h) in I by (apply Hh || assumption). destruct I.
Qed.

Lemma refined_depth p : present p -> refined p = true -> length p < h.
Proof.
  intros P Rp. assert (present (0 :: p)).
  { simpl. split; [|auto]. unfold n_children. assert (2 ^ d <> 0) by (apply Nat.pow_nonzero; lia). lia. }
  apply present_depth in H. simpl in H. lia.
Qed.

Lemma in_heap n : In n (heap t) <-> exists p, present p /\ n = mk p.
Proof.
  unfold heap, spec_tree; cbn [at_nodes at_leaves]. rewrite in_app_iff, !in_concat. split.
  - intros [(x & Hx & Hn)|(x & Hx & Hn)]; apply in_map_iff in Hx; destruct Hx as (k & <- & Hk);
      apply in_map_iff in Hn; destruct Hn as (p & <- & Hp); apply filter_In in Hp; destruct Hp as [Hp _];
      apply in_level in Hp; exists p; intuition.
  - intros (p & P & ->). assert (D := present_depth p P). destruct (refined p) eqn:E.
    + left. exists (inner_level (length p)). split.
      * apply in_map. apply in_seq. assert (F := refined_depth p P E). lia.
      * apply in_map. apply filter_In. split; [apply in_level; auto|assumption].
    + right. exists (leaf_level (length p)). split.
      * apply in_map. apply in_seq. lia.
      * apply in_map. apply filter_In. split; [apply in_level; auto|]. rewrite E. reflexivity.
Qed.

Lemma lookup_mk p : present p -> lookup t p = Some (mk p).
Proof.
  intros P. unfold lookup. destruct (find _ (heap t)) as [n|] eqn:F.
  - apply find_some in F. destruct F as [I E]. apply in_heap in I. destruct I as (q & _ & ->).
    apply addr_eqb_eq in E. simpl in E. subst. reflexivity.
  - exfalso. assert (I : In (mk p) (heap t)) by (apply in_heap; eauto).
    apply (find_none _ _ F) in I. simpl in I. rewrite addr_eqb_refl in I. discriminate.
Qed.
Lemma lookup_None p : ~ present p -> lookup t p = None.
Proof.
  intros P. unfold lookup. destruct (find _ (heap t)) as [n|] eqn:F; [|reflexivity].
  apply find_some in F. destruct F as [I E]. apply in_heap in I. destruct I as (q & Pq & ->).
  apply addr_eqb_eq in E. simpl in E. subst. contradiction.
Qed.

Lemma children_eq p : present p -> children d t p = if refined p then kids p else [].
Proof. intros P. unfold children. rewrite lookup_mk by assumption. simpl. destruct (refined p); reflexivity. Qed.

Lemma flat_map_children ps : (forall p, In p ps -> present p) ->
  flat_map (children d t) ps = flat_map kids (filter refined ps).
Proof.
  induction ps as [|p ps IH]; intros H; [reflexivity|]. simpl.
  rewrite children_eq by (apply H; left; reflexivity). rewrite IH by (intros; apply H; right; assumption).
  destruct (refined p); reflexivity.
Qed.

(** All addresses in level order. *)
Definition order : list addr := flat_map level (seq 0 (S h)).

Lemma in_order p : In p order <-> present p.
Proof.
  unfold order. rewrite in_flat_map. split.
  - intros (k & _ & H). apply in_level in H. apply H.
  - intros P. exists (length p). split; [|apply in_level; auto]. apply in_seq. assert (D := present_depth p P). lia.
Qed.

Lemma order_NoDup : NoDup order.
Proof.
  unfold order. apply NoDup_flat_map.
  - apply seq_NoDup.
  - intros. apply level_NoDup.
  - intros x y b _ _ Hx Hy. apply in_level in Hx, Hy. lia.
Qed.


Lemma heap_length : length (heap t) = length order.
Proof.
  unfold heap, spec_tree, order; cbn [at_nodes at_leaves]. rewrite app_length.
  assert (G : forall m s, length (concat (map inner_level (seq s m))) + length (concat (map leaf_level (seq s m))) = length (flat_map level (seq s m))).
  { induction m; intros s; [reflexivity|]. cbn [seq map concat flat_map]. rewrite !app_length.
    specialize (IHm (S s)). unfold inner_level at 1, leaf_level at 1. rewrite !map_length.
    assert (F := filter_split_length refined (level s)). lia. }
  rewrite (seq_S h 0), !map_app, !concat_app, !flat_map_app, !app_length.
  specialize (G h 0). cbn [plus]. cbn [map concat flat_map]. rewrite !app_nil_r.
  assert (E : length (leaf_level h) = length (level h)).
  { unfold leaf_level. rewrite map_length. assert (F := filter_split_length refined (level h)).
    rewrite (proj1 Hh) in F. simpl in F. lia. }
  lia.
Qed.

(** *** Coverage *)
Definition leaf_addrs : list addr := flat_map (fun k => filter (fun p => negb (refined p)) (level k)) (seq 0 (S h)).
Lemma in_leaf_addrs p : In p leaf_addrs <-> present p /\ refined p = false.
Proof.  
  unfold leaf_addrs. rewrite in_flat_map. split.
  - intros (k & _ & H). apply filter_In in H. destruct H as [H N]. apply in_level in H. apply negb_true_iff in N. tauto.
  - intros [P N]. exists (length p). split.
    + apply in_seq. assert (D := present_depth p P). lia.
    + apply filter_In. split; [apply in_level; auto|]. rewrite N. reflexivity.
Qed.
Lemma leaf_addrs_NoDup : NoDup leaf_addrs.
Proof.  
  unfold leaf_addrs. apply NoDup_flat_map.
  - apply seq_NoDup.
  - intros. apply NoDup_filter. apply level_NoDup.
  - intros x y b _ _ Hx Hy. apply filter_In in Hx. destruct Hx as [Hx _]. apply filter_In in Hy. destruct Hy as [Hy _].
    apply in_level in Hx, Hy. lia.
Qed.
Lemma leaves_of_tree : map an_addr (concat (at_leaves t)) = leaf_addrs.
Proof.  
  unfold spec_tree, leaf_addrs; cbn [at_leaves]. rewrite concat_map, map_map, flat_map_concat_map. f_equal.
  apply map_ext. intros k. unfold leaf_level. rewrite map_map. apply map_id.
Qed.


Lemma descend_path x k fuel : (forall j, j < k -> refined (path x j) = true) -> h <= k + fuel ->
  exists m, k <= m /\ descend d t fuel (path x k) x = Ok (mk (path x m)) /\ refined (path x m) = false /\ present (path x m).
Proof.
  revert k; induction fuel as [|fuel IH]; intros k Hk HF.
  - assert (P := present_path x k Hk).
    assert (NR : refined (path x k) = false).
    { destruct (refined (path x k)) eqn:E; [|reflexivity].
      apply (refined_depth) in E; [|assumption]. rewrite path_length in E. lia. }
    exists k. split; [lia|]. cbn [descend]. rewrite (lookup_mk) by assumption.
    unfold mk. rewrite NR. auto.
  - assert (P := present_path x k Hk).
    cbn [descend]. rewrite (lookup_mk) by assumption.
    cbn [mk an_leaf]. destruct (refined (path x k)) eqn:E; cbn [negb].
    + cbn [an_center]. destruct (IH (S k)) as (m & Hm & D & NR & Pm).
      * intros j Hj. destruct (Nat.eq_dec j k) as [->|]; [assumption|]. apply Hk. lia.
      * lia.
      * exists m. split; [lia|]. split; [exact D|]. auto.
    + exists k. split; [lia|]. unfold mk. rewrite E. auto.
Qed.

Lemma descend_root x : exists p, descend d t (at_height t) [] x = Ok (mk p) /\ refined p = false /\ present p /\ path x (length p) = p.
Proof.
  destruct (descend_path x 0 h) as (m & _ & D & NR & P); [intros; lia|lia|].
  exists (path x m). rewrite path_length. auto.
Qed.

Lemma sub_leaves_perm : Permutation (flat_map sub (leaf_addrs)) srcs.
Proof.
  assert (G := sources_split (S h)).
  rewrite (level_ext_empty h) in G by (try apply Hh; lia). cbn [flat_map] in G. rewrite app_nil_r in G.
  symmetry. exact G.
Qed.

Lemma sub_below p : present p ->
  Permutation (flat_map sub (filter (is_above p) (leaf_addrs))) (sub p).
Proof.
  intros P. rewrite (sub_filter p). etransitivity; [|apply (filter_perm _ _ _ sub_leaves_perm)].
  rewrite filter_flat_map, flat_map_filter.
  assert (E : forall q, In q (leaf_addrs) ->
    (if is_above p q then sub q else []) = filter (fun s => addr_eqb (path (pos s) (length p)) p) (sub q)).
  { intros q Hq. apply (in_leaf_addrs) in Hq. destruct Hq as [Pq Nq]. destruct (is_above p q) eqn:A.
    - symmetry. apply filter_all. intros s Hs. apply sub_path in Hs. destruct Hs as [_ E]. apply addr_eqb_eq.
      unfold is_above in A. apply existsb_addr in A. rewrite <- E in A. apply anc_path in A. destruct A as (j & Hj & ->).
      rewrite path_length. reflexivity.
    - symmetry. apply filter_none. intros s Hs. apply sub_path in Hs. destruct Hs as [_ E].
      apply addr_eqb_neq. intros E2. destruct (le_lt_dec (length p) (length q)) as [L|L].
      + assert (X : is_above p q = true); [|congruence]. unfold is_above. apply existsb_addr. rewrite <- E.
        apply anc_path. exists (length p). auto.
      + assert (X : In q (ancestors_or_self p)).
        { rewrite <- E2. apply anc_path. exists (length q). split; [lia|auto]. }
        apply in_sufs_app in X. destruct X as (r & Er). destruct r as [|i r]; [simpl in Er; subst; lia|].
        rewrite Er in P. cbn [app] in P. apply present_app_refined in P. congruence. }
  rewrite (flat_map_ext_in _ _ _ E). reflexivity.
Qed.


End Given.
End Tree.
