(** The adaptive tree: characterisation of the result of the level-by-level construction. *)
From Coq Require Import List Bool ZArith Arith Reals Lra Lia Permutation.
From Verif Require Import Num Outcome Vec Orthtree AdaptiveTree VecProofs GeometrySpec GeometryProofs TreeGeometry.
Import ListNotations.

Lemma addr_eqb_eq a b : addr_eqb a b = true <-> a = b.
Proof.
  revert b; induction a as [|x a IH]; intros [|y b]; simpl; split; intros H; try discriminate; auto.
  - apply andb_true_iff in H. destruct H as [H1 H2]. apply Nat.eqb_eq in H1. apply IH in H2. congruence.
  - injection H as -> ->. rewrite Nat.eqb_refl. apply IH. reflexivity.
Qed.
Lemma addr_eqb_refl a : addr_eqb a a = true.
Proof. apply addr_eqb_eq. reflexivity. Qed.
Lemma addr_eqb_neq a b : addr_eqb a b = false <-> a <> b.
Proof. rewrite <- addr_eqb_eq. destruct (addr_eqb a b); split; congruence. Qed.
Definition addr_eq_dec (a b : addr) : {a = b} + {a <> b} := list_eq_dec Nat.eq_dec a b.

(** *** update_nth / refineOrthant *)
Lemma length_update_nth {A} n f (l : list A) : length (update_nth n f l) = length l.
Proof. unfold update_nth. rewrite map_length, combine_length, seq_length. lia. Qed.

Lemma nth_update_nth {A} n f (l : list A) j da : j < length l ->
  nth j (update_nth n f l) da = if Nat.eqb j n then f (nth j l da) else nth j l da.
Proof.
  intros H. unfold update_nth.
  rewrite (nth_map_lt _ _ _ (0, da)) by (rewrite combine_length, seq_length; lia).
  rewrite combine_nth by (rewrite seq_length; reflexivity). rewrite seq_nth by assumption. reflexivity.
Qed.

Lemma list_as_map_seq {A} (l : list A) n da : length l = n -> l = map (fun i => nth i l da) (seq 0 n).
Proof.
  intros H. apply (nth_ext _ _ da da).
  - rewrite map_length, seq_length. assumption.
  - intros j Hj. rewrite (nth_map_lt _ _ _ 0) by (rewrite seq_length; lia). rewrite seq_nth by lia. reflexivity.
Qed.

Lemma nth_map_seq {A} (f : nat -> A) n i da : i < n -> nth i (map f (seq 0 n)) da = f i.
Proof.
  intros. rewrite (nth_map_lt _ _ _ 0) by (rewrite seq_length; lia). rewrite seq_nth by lia. reflexivity.
Qed.

Lemma bucket_fold {S} (key : S -> nat) n srcs acc : length acc = n -> 
  fold_left (fun acc s => update_nth (key s) (fun l => l ++ [s]) acc) srcs acc
  = map (fun i => nth i acc [] ++ filter (fun s => Nat.eqb (key s) i) srcs) (seq 0 n).
Proof.
  revert acc; induction srcs as [|s r IH]; intros acc H.
  - cbn [fold_left filter]. rewrite (list_as_map_seq acc n []) at 1 by assumption.
    apply map_ext. intros i. symmetry; apply app_nil_r.
  - cbn [fold_left filter]. rewrite IH by (rewrite length_update_nth; assumption).
    apply map_ext_in. intros i Hi. apply in_seq in Hi.
    rewrite nth_update_nth by lia. rewrite (Nat.eqb_sym (key s)). destruct (Nat.eqb_spec i (key s)).
    + rewrite <- app_assoc. reflexivity.
    + reflexivity.
Qed.

(** Which boxes are refined: those with more than [cap] sources (the root separately), or those above a given depth (the
    balanced tree). *)
Inductive rule : Type := ByCount (root : bool) | ByDepth (h : nat).
Coercion ByCount : bool >-> rule.

Section Tree.
Context {Src : Type}.
Variable d : nat.
Variable pos : Src -> list R.
Variable c : list R.
Variable l : R.
Variable cap : nat.
Variable srcs : list Src.
Variable root_refined : rule.

Notation nc := (n_children d).
Notation ctr := (box_ctr d c l).
Notation blen := (box_len l).

Lemma refine_orthant_eq cc ss :
  refine_orthant d pos cc ss = map (fun i => filter (fun s => Nat.eqb (get_orthant d cc (pos s)) i) ss) (seq 0 nc).
Proof.
  unfold refine_orthant. rewrite (bucket_fold (fun s => get_orthant d cc (pos s)) nc) by apply repeat_length.
  apply map_ext. intros i.
  assert (E : nth i (repeat (@nil Src) nc) [] = []).
  { generalize nc. intros n. revert i. induction n; intros [|i]; simpl; auto. }
  rewrite E. reflexivity.
Qed.

(** Sources whose orthant descent passes through box [p]. *)
Fixpoint sub (p : addr) : list Src :=
  match p with
  | [] => srcs
  | i :: q => filter (fun s => Nat.eqb (get_orthant d (ctr q) (pos s)) i) (sub q)
  end.

Definition refined (p : addr) : bool :=
  match root_refined with
  | ByCount r => match p with [] => r | _ => Nat.ltb cap (length (sub p)) end
  | ByDepth k => Nat.ltb (length p) k
  end.

Definition mk (p : addr) : anode :=
  ANode p (ctr p) (blen p) (length p) (negb (refined p)) (if refined p then [] else sub p).

Definition kids (p : addr) : list addr := map (fun i => i :: p) (seq 0 nc).

Fixpoint level (k : nat) : list addr :=
  match k with
  | O => [[]]
  | S k' => flat_map kids (filter refined (level k'))
  end.

Fixpoint present (p : addr) : Prop :=
  match p with
  | [] => True
  | i :: q => i < nc /\ present q /\ refined q = true
  end.

Lemma in_level k p : In p (level k) <-> length p = k /\ present p.
Proof.
  revert p; induction k as [|k IH]; intros p; cbn [level].
  - split.
    + intros [<-|[]]. simpl. auto.
    + intros [H _]. destruct p; [left; reflexivity|discriminate].
  - rewrite in_flat_map. split.
    + intros (q & Hq & Hp). apply filter_In in Hq. destruct Hq as [Hq R]. apply IH in Hq.
      unfold kids in Hp. apply in_map_iff in Hp. destruct Hp as (i & <- & Hi). apply in_seq in Hi.
      simpl. intuition lia.
    + intros [H P]. destruct p as [|i q]; [discriminate|]. simpl in *. destruct P as (Hi & Hq & Hr).
      exists q. split.
      * apply filter_In. split; [|assumption]. apply IH. split; [lia|assumption].
      * unfold kids. apply in_map_iff. exists i. split; [reflexivity|]. apply in_seq. lia.
Qed.

Lemma kids_NoDup p : NoDup (kids p).
Proof.
  unfold kids. apply FinFun.Injective_map_NoDup; [|apply seq_NoDup]. intros a b H. congruence.
Qed.

Lemma NoDup_flat_map {A B} (f : A -> list B) xs :
  NoDup xs -> (forall x, In x xs -> NoDup (f x)) ->
  (forall x y b, In x xs -> In y xs -> In b (f x) -> In b (f y) -> x = y) -> NoDup (flat_map f xs).
Proof.
  induction xs as [|x xs IH]; intros ND Hf Hd; simpl; [constructor|].
  inversion ND; subst.
  assert (G : NoDup (flat_map f xs)).
  { apply IH; auto with datatypes. intros; eapply Hd; eauto with datatypes. }
  clear IH. assert (Hx := Hf x (or_introl eq_refl)).
  assert (D : forall b, In b (f x) -> ~ In b (flat_map f xs)).
  { intros b Hb Hb'. apply in_flat_map in Hb'. destruct Hb' as (y & Hy & Hb').
    assert (x = y) by (eapply Hd; eauto with datatypes). subst. contradiction. }
  revert Hx D. generalize (f x). intros fx. induction fx as [|b fx IHf]; intros Hx D; simpl; [assumption|].
  inversion Hx; subst. constructor.
  - rewrite in_app_iff. intros [|Hb]; [contradiction|]. apply (D b); [left; reflexivity|assumption].
  - apply IHf; [assumption|]. intros b' Hb'. apply D. right; assumption.
Qed.

Lemma level_NoDup k : NoDup (level k).
Proof.
  induction k as [|k IH]; cbn [level].
  - constructor; [intros []|constructor].
  - apply NoDup_flat_map.
    + apply NoDup_filter; assumption.
    + intros. apply kids_NoDup.
    + intros x y b _ _ Hx Hy. unfold kids in *. apply in_map_iff in Hx, Hy.
      destruct Hx as (i & <- & _). destruct Hy as (i' & E & _). congruence.
Qed.

Lemma level_ext_empty k m : filter refined (level k) = [] -> k < m -> level m = [].
Proof.
  intros H Hm. induction m as [|m IH]; [lia|]. cbn [level].
  destruct (Nat.eq_dec k m) as [->|]; [rewrite H; reflexivity|]. rewrite IH by lia. reflexivity.
Qed.

(** *** One level of the construction *)
Definition entry (p : addr) : anode * list Src := (mk p, if refined p then sub p else []).

Definition by_count : Prop := exists r : bool, root_refined = r.
Lemma make_child_entry q i : by_count ->
  make_child d cap (mk q) i (sub (i :: q)) = entry (i :: q).
Proof.
  intros [r Hr]. unfold make_child, entry, mk. rewrite nhalf_R. cbn [an_len an_center an_addr an_depth].
  unfold refined. rewrite Hr.
  destruct (cap <? length (sub (i :: q))); cbn [negb]; rewrite Nat.add_1_r; reflexivity.
Qed.

Lemma refine_node_entry q : by_count ->
  refine_node d pos cap (mk q, sub q) = map entry (kids q).
Proof.
  intros Hq. unfold refine_node. rewrite refine_orthant_eq. cbn [an_center mk].
  unfold kids. rewrite map_map.
  rewrite <- (map_id (seq 0 nc)) at 1. 
  assert (G : forall (A B : Type) (f : nat -> A) (g : nat -> B) s, combine (map f s) (map g s) = map (fun i => (f i, g i)) s).
  { intros A B f g s. induction s; simpl; congruence. }
  rewrite G, map_map. apply map_ext_in. intros i Hi. cbn [fst snd]. apply (make_child_entry q i Hq).
Qed.

Lemma refine_level_entry qs : by_count ->
  refine_level d pos cap (map (fun q => (mk q, sub q)) qs) = map entry (flat_map kids qs).
Proof.
  intros HC. unfold refine_level. induction qs as [|q qs IH]; [reflexivity|].
  cbn [map flat_map]. rewrite refine_node_entry by assumption. rewrite IH, map_app. reflexivity.
Qed.

Definition inner_level k := map mk (filter refined (level k)).
Definition leaf_level k := map mk (filter (fun p => negb (refined p)) (level k)).

Lemma filter_entry (ps : list addr) :
  filter (fun ns => negb (an_leaf (fst ns))) (map entry ps) = map (fun q => (mk q, sub q)) (filter refined ps).
Proof.
  induction ps as [|p ps IH]; [reflexivity|]. cbn [map filter]. unfold entry at 1. cbn [fst mk an_leaf].
  destruct (refined p) eqn:E; cbn [negb map]; rewrite IH; [|reflexivity].
  unfold entry. rewrite E. reflexivity.
Qed.
Lemma filter_entry_leaf (ps : list addr) :
  map fst (filter (fun ns => an_leaf (fst ns)) (map entry ps)) = map mk (filter (fun p => negb (refined p)) ps).
Proof.
  induction ps as [|p ps IH]; [reflexivity|]. cbn [map filter]. unfold entry at 1. cbn [fst mk an_leaf].
  destruct (refined p) eqn:E; cbn [negb map]; rewrite IH; reflexivity.
Qed.

Lemma build_step fuel depth nodes leaves : by_count ->
  build_loop d pos cap (S fuel) depth (map (fun q => (mk q, sub q)) (filter refined (level depth))) nodes leaves
  = match filter refined (level (S depth)) with
    | [] => Some (ATree nodes (leaves ++ [leaf_level (S depth)]) (S depth))
    | _ => build_loop d pos cap fuel (S depth) (map (fun q => (mk q, sub q)) (filter refined (level (S depth))))
             (nodes ++ [inner_level (S depth)]) (leaves ++ [leaf_level (S depth)])
    end.
Proof.
  intros HC. cbn [build_loop]. rewrite refine_level_entry by exact HC.
  rewrite filter_entry, filter_entry_leaf.
  change (flat_map kids (filter refined (level depth))) with (level (S depth)).
  unfold leaf_level, inner_level.
  destruct (filter refined (level (S depth))) as [|q qs] eqn:E; [reflexivity|].
  cbn [map]. f_equal. rewrite map_map. reflexivity.
Qed.

(** The loop stops at the first level without a refined box. *)
Lemma build_loop_spec fuel depth nodes leaves t : by_count ->
  build_loop d pos cap fuel depth (map (fun q => (mk q, sub q)) (filter refined (level depth))) nodes leaves = Some t ->
  exists n, n < fuel /\ filter refined (level (depth + S n)) = [] /\
    (forall k, depth < k < depth + S n -> filter refined (level k) <> []) /\
    t = ATree (nodes ++ map inner_level (seq (S depth) n)) (leaves ++ map leaf_level (seq (S depth) (S n))) (depth + S n).
Proof.
  intros HC. revert depth nodes leaves; induction fuel as [|fuel IH]; intros depth nodes leaves H; [discriminate|].
  rewrite build_step in H by exact HC. destruct (filter refined (level (S depth))) as [|q qs] eqn:E.
  - injection H as <-. exists 0. split; [lia|]. rewrite Nat.add_1_r. split; [assumption|]. split; [intros; lia|].
    cbn [seq map]. rewrite app_nil_r. reflexivity.
  - rewrite <- E in H. apply IH in H. destruct H as (n & Hn & He & Hne & ->).
    exists (S n). split; [lia|]. rewrite Nat.add_succ_r in *. cbn [plus] in *. rewrite <- Nat.add_succ_r in *.
    replace (depth + S (S n)) with (S (depth + S n)) in * by lia.
    split; [rewrite Nat.add_succ_r in *; assumption|]. split.
    + intros k Hk. destruct (Nat.eq_dec k (S depth)) as [->|]; [rewrite E; discriminate|]. apply Hne. lia.
    + cbn [seq map]. rewrite <- !app_assoc. cbn [app]. f_equal; lia.
Qed.

Lemma build_loop_complete fuel depth nodes leaves n : by_count ->
  n < fuel -> filter refined (level (depth + S n)) = [] ->
  build_loop d pos cap fuel depth (map (fun q => (mk q, sub q)) (filter refined (level depth))) nodes leaves <> None.
Proof.
  intros HC. revert depth nodes leaves n; induction fuel as [|fuel IH]; intros depth nodes leaves n Hn E; [lia|].
  rewrite build_step by exact HC. destruct (filter refined (level (S depth))) as [|q qs] eqn:E'; [discriminate|].
  rewrite <- E'. destruct n as [|n].
  - rewrite Nat.add_1_r in E. congruence.
  - apply (IH _ _ _ n); [lia|]. replace (S depth + S n) with (depth + S (S n)) by lia. assumption.
Qed.

(** The tree with height [h]. *)
Definition spec_tree (h : nat) : atree :=
  ATree (map inner_level (seq 0 h)) (map leaf_level (seq 0 (S h))) h.
Definition height_ok (h : nat) : Prop :=
  filter refined (level h) = [] /\ forall k, k < h -> filter refined (level k) <> [].

Lemma height_ok_unique h h' : height_ok h -> height_ok h' -> h = h'.
Proof.
  intros [A B] [A' B']. destruct (lt_eq_lt_dec h h') as [[H|H]|H]; auto.
  - exfalso. apply (B' h); assumption.
  - exfalso. apply (B h'); assumption.
Qed.

Definition root_entry := (mk [], srcs).

Lemma build_from_root fuel t : root_refined = true ->
  build_loop d pos cap fuel 0 [root_entry] [[mk []]] [[]] = Some t ->
  exists h, 1 <= h <= fuel /\ height_ok h /\ t = spec_tree h.
Proof.
  intros HR H.
  assert (L0 : filter refined (level 0) = [[]]) by (simpl; unfold refined; rewrite HR; reflexivity).
  assert (E : [root_entry] = map (fun q => (mk q, sub q)) (filter refined (level 0))) by (rewrite L0; reflexivity).
  rewrite E in H. apply build_loop_spec in H; [|exists true; exact HR]. destruct H as (n & Hn & He & Hne & ->).
  exists (S n). split; [lia|]. split; [split|].
  - assumption.
  - intros k Hk. destruct k; [rewrite L0; discriminate|]. apply Hne. lia.
  - unfold spec_tree. cbn [plus]. f_equal.
    + cbn [seq map]. unfold inner_level at 2. rewrite L0. reflexivity.
    + cbn [seq map app]. f_equal. unfold leaf_level, refined. cbn [level filter]. rewrite HR. reflexivity.
Qed.

Lemma build_from_root_complete fuel h : root_refined = true -> 1 <= h <= fuel -> filter refined (level h) = [] ->
  build_loop d pos cap fuel 0 [root_entry] [[mk []]] [[]] <> None.
Proof.
  intros HR Hh He.
  assert (L0 : filter refined (level 0) = [[]]) by (simpl; unfold refined; rewrite HR; reflexivity).
  assert (E : [root_entry] = map (fun q => (mk q, sub q)) (filter refined (level 0))) by (rewrite L0; reflexivity).
  rewrite E. apply (build_loop_complete _ _ _ _ (h - 1)); [exists true; exact HR|lia|]. replace (0 + S (h - 1)) with h by lia. assumption.
Qed.

(** *** The tree object *)
Section Given.
Variable h : nat.
Hypothesis Hh : height_ok h.
Notation t := (spec_tree h).

Lemma present_depth p : present p -> length p <= h.
Proof.
  intros P. destruct (le_lt_dec (length p) h) as [|G]; [assumption|exfalso].
  assert (I : In p (level (length p))) by (apply in_level; auto).
  rewrite (level_ext_empty h) in I by (apply Hh || assumption). destruct I.
Qed.

Lemma refined_depth p : present p -> refined p = true -> length p < h.
Proof.
  intros P Rp. assert (present (0 :: p)).
  { simpl. split; [|auto]. unfold n_children. assert (2 ^ d <> 0) by (apply Nat.pow_nonzero; lia). lia. }
  apply present_depth in H. simpl in H. lia.
Qed.

Lemma in_heap n : In n (heap t) <-> exists p, present p /\ n = mk p.
Proof.
  unfold heap, spec_tree; cbn [at_nodes at_leaves]. rewrite in_app_iff, !in_concat. split.
  - intros [(x & Hx & Hn)|(x & Hx & Hn)]; apply in_map_iff in Hx; destruct Hx as (k & <- & Hk);
      apply in_map_iff in Hn; destruct Hn as (p & <- & Hp); apply filter_In in Hp; destruct Hp as [Hp _];
      apply in_level in Hp; exists p; intuition.
  - intros (p & P & ->). assert (D := present_depth p P). destruct (refined p) eqn:E.
    + left. exists (inner_level (length p)). split.
      * apply in_map. apply in_seq. assert (F := refined_depth p P E). lia.
      * apply in_map. apply filter_In. split; [apply in_level; auto|assumption].
    + right. exists (leaf_level (length p)). split.
      * apply in_map. apply in_seq. lia.
      * apply in_map. apply filter_In. split; [apply in_level; auto|]. rewrite E. reflexivity.
Qed.

Lemma lookup_mk p : present p -> lookup t p = Some (mk p).
Proof.
  intros P. unfold lookup. destruct (find _ (heap t)) as [n|] eqn:F.
  - apply find_some in F. destruct F as [I E]. apply in_heap in I. destruct I as (q & _ & ->).
    apply addr_eqb_eq in E. simpl in E. subst. reflexivity.
  - exfalso. assert (I : In (mk p) (heap t)) by (apply in_heap; eauto).
    apply (find_none _ _ F) in I. simpl in I. rewrite addr_eqb_refl in I. discriminate.
Qed.
Lemma lookup_None p : ~ present p -> lookup t p = None.
Proof.
  intros P. unfold lookup. destruct (find _ (heap t)) as [n|] eqn:F; [|reflexivity].
  apply find_some in F. destruct F as [I E]. apply in_heap in I. destruct I as (q & Pq & ->).
  apply addr_eqb_eq in E. simpl in E. subst. contradiction.
Qed.

Lemma children_eq p : present p -> children d t p = if refined p then kids p else [].
Proof. intros P. unfold children. rewrite lookup_mk by assumption. simpl. destruct (refined p); reflexivity. Qed.

Lemma flat_map_children ps : (forall p, In p ps -> present p) ->
  flat_map (children d t) ps = flat_map kids (filter refined ps).
Proof.
  induction ps as [|p ps IH]; intros H; [reflexivity|]. simpl.
  rewrite children_eq by (apply H; left; reflexivity). rewrite IH by (intros; apply H; right; assumption).
  destruct (refined p); reflexivity.
Qed.

(** All addresses in level order. *)
Definition order : list addr := flat_map level (seq 0 (S h)).

Lemma in_order p : In p order <-> present p.
Proof.
  unfold order. rewrite in_flat_map. split.
  - intros (k & _ & H). apply in_level in H. apply H.
  - intros P. exists (length p). split; [|apply in_level; auto]. apply in_seq. assert (D := present_depth p P). lia.
Qed.

Lemma order_NoDup : NoDup order.
Proof.
  unfold order. apply NoDup_flat_map.
  - apply seq_NoDup.
  - intros. apply level_NoDup.
  - intros x y b _ _ Hx Hy. apply in_level in Hx, Hy. lia.
Qed.

Lemma filter_split_length {A} (f : A -> bool) xs :
  length (filter f xs) + length (filter (fun x => negb (f x)) xs) = length xs.
Proof. induction xs as [|x xs IH]; simpl; [reflexivity|]. destruct (f x); simpl; lia. Qed.

Lemma heap_length : length (heap t) = length order.
Proof.
  unfold heap, spec_tree, order; cbn [at_nodes at_leaves]. rewrite app_length.
  assert (G : forall m s, length (concat (map inner_level (seq s m))) + length (concat (map leaf_level (seq s m))) = length (flat_map level (seq s m))).
  { induction m; intros s; [reflexivity|]. cbn [seq map concat flat_map]. rewrite !app_length.
    specialize (IHm (S s)). unfold inner_level at 1, leaf_level at 1. rewrite !map_length.
    assert (F := filter_split_length refined (level s)). lia. }
  rewrite (seq_S h 0), !map_app, !concat_app, !flat_map_app, !app_length.
  specialize (G h 0). cbn [plus]. cbn [map concat flat_map]. rewrite !app_nil_r.
  assert (E : length (leaf_level h) = length (level h)).
  { unfold leaf_level. rewrite map_length. assert (F := filter_split_length refined (level h)).
    rewrite (proj1 Hh) in F. simpl in F. lia. }
  lia.
Qed.

End Given.
End Tree.
