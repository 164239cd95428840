(** Sizes of the lists of the trees, and the number of interactions they cause. *)
From Coq Require Import List Bool ZArith Arith Lia Lra Reals Permutation.
From Verif Require Import Num Outcome Vec Orthtree AdaptiveTree TreeSpec GeometrySpec TreeGeometry AdaptiveProofs BfsProofs ListProofs ListContents RootBoxProofs BuildProofs TreeTheorems
  BalancedTree BalancedSpec BalancedIndex BalancedAddr BalancedProofs BalancedTheorems PassSpec TreeTheorems2 ListCounts.
Import ListNotations.

Lemma present_valid' {Src} d (pos : Src -> list R) c l cap srcs r p : present d pos c l cap srcs r p -> valid d p.
Proof. induction p as [|i p IH]; intros H; [constructor|]. destruct H as (Hi & P & _). constructor; [exact Hi|apply IH; exact P]. Qed.
Lemma list_sum_nsum {A} (f : A -> nat) xs : list_sum (map f xs) = nsum f xs.
Proof. induction xs as [|x xs IH]; [reflexivity|]. cbn [map list_sum fold_right nsum]. unfold list_sum, nsum in IH. rewrite IH. reflexivity. Qed.
Lemma nsum_le {A} (f g : A -> nat) xs : (forall x, In x xs -> f x <= g x) -> nsum f xs <= nsum g xs.
Proof. induction xs as [|x xs IH]; intros H; [apply le_n|]. cbn [nsum fold_right]. assert (f x <= g x) by (apply H; left; reflexivity). assert (nsum f xs <= nsum g xs) by (apply IH; intros; apply H; right; assumption). unfold nsum in *. lia. Qed.
Lemma nsum_const {A} k (xs : list A) : nsum (fun _ => k) xs = k * length xs.
Proof. induction xs as [|x xs IH]; [cbn; lia|]. cbn [nsum fold_right length]. unfold nsum in IH. rewrite IH. lia. Qed.
Lemma nsum_scale {A} k (f : A -> nat) xs : nsum (fun x => k * f x) xs = k * nsum f xs.
Proof. induction xs as [|x xs IH]; [cbn; lia|]. cbn [nsum fold_right]. unfold nsum in IH. rewrite IH. lia. Qed.
Lemma nsum_perm {A} (f : A -> nat) xs ys : Permutation xs ys -> nsum f xs = nsum f ys.
Proof. induction 1; cbn [nsum fold_right] in *; unfold nsum in *; lia. Qed.
Lemma nsum_map {A B} (g : A -> B) (f : B -> nat) xs : nsum f (map g xs) = nsum (fun x => f (g x)) xs.
Proof. induction xs as [|x xs IH]; [reflexivity|]. cbn [map nsum fold_right]. unfold nsum in IH. rewrite IH. reflexivity. Qed.
Lemma nsum_swap {A B} (f : A -> B -> nat) xs ys : nsum (fun x => nsum (f x) ys) xs = nsum (fun y => nsum (fun x => f x y) xs) ys.
Proof.
  induction xs as [|x xs IH]; [symmetry; apply nsum_zero; reflexivity|]. cbn [nsum fold_right]. fold (nsum (fun x => nsum (f x) ys) xs). rewrite IH.
  rewrite <- nsum_add. reflexivity.
Qed.
Lemma nsum_filter_if {A} (f : A -> nat) (b : A -> bool) xs : nsum (fun x => if b x then f x else 0) xs = nsum f (filter b xs).
Proof. induction xs as [|x xs IH]; [reflexivity|]. cbn [filter]. destruct (b x) eqn:E; cbn [nsum fold_right]; rewrite E; unfold nsum in *; lia. Qed.
(** A duplicate-free list as a selection from another one. *)
Lemma nsum_select {A} (f : A -> nat) (b : A -> bool) xs ys : NoDup xs -> NoDup ys -> (forall y, In y ys <-> In y xs /\ b y = true) ->
  nsum f ys = nsum (fun x => if b x then f x else 0) xs.
Proof.
  intros NX NY H. rewrite (nsum_perm f ys (filter b xs)).
  - clear. induction xs as [|x xs IH]; [reflexivity|]. cbn [filter]. destruct (b x) eqn:E; cbn [nsum fold_right]; rewrite E; unfold nsum in *; lia.
  - apply NoDup_Permutation; [exact NY|apply NoDup_filter; exact NX|]. intros y. rewrite filter_In. apply H.
Qed.
Lemma nsum_length {A} (xs : list A) : length xs = nsum (fun _ => 1) xs.
Proof. rewrite nsum_const. lia. Qed.

Section Adaptive.
Context {Src : Type}.
Variable d : nat.
Variable pos : Src -> list R.
Variable c : list R.
Variable l : R.
Variable cap : nat.
Variable srcs : list Src.
Variable r : rule.
Variable h : nat.
Notation refined := (refined d pos c l cap srcs r).
Notation present := (present d pos c l cap srcs r).
Notation final := (final d pos c l cap srcs r h).
Notation leaves := (leaf_addrs d pos c l cap srcs r h).
Notation order := (order d pos c l cap srcs r h).
Hypothesis Hc : length c = d.
Hypothesis Hh : height_ok d pos c l cap srcs r h.

Lemma leaf_above p q : present q -> refined p = false -> is_above p q = true -> p = q.
Proof.
  intros Pq Np H. unfold is_above in H. apply existsb_addr in H. apply in_sufs_app in H. destruct H as (s & ->).
  induction s as [|i s IH] in Pq |- *; [reflexivity|]. exfalso. cbn [app] in Pq. destruct Pq as (_ & P & Rf). assert (E := IH P). rewrite <- E in Rf. congruence.
Qed.
Lemma vrel_inv p q : ListContents.vrel d p q = true -> length q = length p /\ 1 <= length p /\ touch d (tl p) (tl q) = true /\ touch d p q = false.
Proof.
  unfold ListContents.vrel. intros H. apply andb_true_iff in H. destruct H as [H N]. apply andb_true_iff in H. destruct H as [H T]. apply andb_true_iff in H. destruct H as [E L].
  apply Nat.eqb_eq in E. apply Nat.leb_le in L. apply negb_true_iff in N. auto.
Qed.
Lemma six d0 : 3 ^ d0 <= 6 ^ d0.
Proof. apply Nat.pow_le_mono_l. lia. Qed.
Lemma inter_size p : present p -> length (nl_inter final p) + 3 ^ d <= 6 ^ d.
Proof.
  intros P. destruct p as [|i p].
  - rewrite (ListContents.final_inter d pos c l cap srcs r h Hh [] P). cbn [ListContents.own_inter length]. apply six.
  - apply (count_interaction d (i :: p)); [eapply present_valid'; exact P|cbn [length]; lia|apply (ListContents.final_inter_NoDup d pos c l cap srcs r h Hc Hh); exact P|].
    intros q Hq. apply (ListContents.final_inter_in d pos c l cap srcs r h Hc Hh _ q P) in Hq. destruct Hq as [Pq V]. apply vrel_inv in V.
    split; [eapply present_valid'; exact Pq|]. tauto.
Qed.
Lemma X_size p : present p -> length (nl_X final p) <= 3 ^ d.
Proof.
  intros P. destruct p as [|i p].
  - rewrite (ListContents.final_X d pos c l cap srcs r h Hh [] P). cbn [ListContents.own_X length]. lia.
  - apply (count_larger d p).
    + eapply present_valid'. apply (present_tl d pos c l cap srcs r i p P).
    + apply (ListContents.final_X_NoDup d pos c l cap srcs r h Hc Hh). exact P.
    + intros q q' Hq Hq'. apply (ListContents.final_X_in d pos c l cap srcs r h Hc Hh _ _ P) in Hq. apply (ListContents.final_X_in d pos c l cap srcs r h Hc Hh _ _ P) in Hq'.
      apply leaf_above; tauto.
    + intros q Hq. apply (ListContents.final_X_in d pos c l cap srcs r h Hc Hh _ _ P) in Hq. destruct Hq as (Pq & _ & X). split; [eapply present_valid'; exact Pq|].
      unfold ListContents.xrel in X. apply andb_true_iff in X. destruct X as [X _]. apply andb_true_iff in X. destruct X as [L T]. apply Nat.ltb_lt in L. cbn [tl length] in *. split; [lia|exact T].
Qed.
Lemma XW p q : present p -> present q -> In q (nl_X final p) <-> In p (nl_W final q).
Proof.
  intros P Q. rewrite (ListContents.final_X_in d pos c l cap srcs r h Hc Hh _ _ P), (ListContents.final_W_in d pos c l cap srcs r h Hc Hh _ _ Q).
  change (ListContents.xrel d p q) with (ListContents.wrel d q p). tauto.
Qed.
Lemma VV p q : present p -> present q -> In q (nl_inter final p) <-> In p (nl_inter final q).
Proof.
  intros P Q. rewrite (ListContents.final_inter_in d pos c l cap srcs r h Hc Hh _ _ P), (ListContents.final_inter_in d pos c l cap srcs r h Hc Hh _ _ Q).
  assert (E : ListContents.vrel d p q = ListContents.vrel d q p); [|rewrite E; tauto]. unfold ListContents.vrel. rewrite (touch_sym d (tl p)), (touch_sym d p), (Nat.eqb_sym (length p)).
  destruct (Nat.eqb_spec (length q) (length p)) as [<-|N]; [reflexivity|reflexivity].
Qed.
Lemma NN p q : present p -> refined p = false -> present q -> refined q = false -> In q (nl_near final p) <-> In p (nl_near final q).
Proof.
  intros P Np Q Nq. rewrite (final_near_leaf d pos c l cap srcs r h Hc Hh _ _ P Np), (final_near_leaf d pos c l cap srcs r h Hc Hh _ _ Q Nq). rewrite (touch_sym d p). tauto.
Qed.
Lemma order_nodup : NoDup order.
Proof. apply order_NoDup. Qed.
Lemma inO p : In p order <-> present p.
Proof. apply order_iff. exact Hh. Qed.
Lemma W_total : nsum (fun p => length (nl_W final p)) order = nsum (fun p => length (nl_X final p)) order.
Proof.
  set (b := fun p q : addr => existsb (addr_eqb q) (nl_X final p)).
  assert (Ib : forall p q, b p q = true <-> In q (nl_X final p)) by (intros p q; apply existsb_addr).
  rewrite (nsum_ext _ (fun p => nsum (fun q => if b q p then 1 else 0) order)).
  2:{ intros p Hp. apply inO in Hp. rewrite nsum_length. apply (nsum_select (fun _ => 1) (fun q => b q p)); [apply order_nodup|apply (ListContents.final_W_NoDup d pos c l cap srcs r h Hc Hh); exact Hp|].
    intros q. rewrite inO, Ib. split.
    - intros I. assert (I' := I). apply (ListContents.final_W_in d pos c l cap srcs r h Hc Hh _ _ Hp) in I'. split; [apply I'|]. apply XW; tauto.
    - intros [Q I]. apply XW in I; assumption. }
  rewrite nsum_swap. apply nsum_ext. intros p Hp. apply inO in Hp. rewrite nsum_length. symmetry.
  apply (nsum_select (fun _ => 1) (b p)); [apply order_nodup|apply (ListContents.final_X_NoDup d pos c l cap srcs r h Hc Hh); exact Hp|].
  intros q. rewrite inO, Ib. split; [|tauto]. intros I. split; [|exact I]. apply (ListContents.final_X_in d pos c l cap srcs r h Hc Hh _ _ Hp) in I. apply I.
Qed.
(** Pairs of neighbouring leaves, weighted. *)
Lemma near_weighted (w : addr -> nat) m : (forall p, In p leaves -> w p <= m) ->
  nsum (fun p => w p * nsum w (nl_near final p)) leaves <= 2 * 3 ^ d * m * nsum w leaves.
Proof.
  intros Hw. assert (IL : forall p, In p leaves <-> present p /\ refined p = false) by (intros p; apply in_leaf_addrs; exact Hh).
  assert (ND : NoDup leaves) by apply leaf_addrs_NoDup.
  set (b := fun p q : addr => touch d p q). set (le := fun p q : addr => (length q <=? length p)).
  assert (SEL : forall p f, In p leaves -> nsum f (nl_near final p) = nsum (fun q => if b p q then f q else 0) leaves).
  { intros p f Hp. apply IL in Hp. destruct Hp as [P Np]. apply nsum_select; [exact ND|apply final_near_leaf_NoDup; assumption|].
    intros q. rewrite (final_near_leaf d pos c l cap srcs r h Hc Hh _ _ P Np), IL. tauto. }
  set (g := fun p q => if b p q && le p q then w p * w q else 0).
  assert (H1 : nsum (fun p => w p * nsum w (nl_near final p)) leaves <= nsum (fun p => nsum (g p) leaves) leaves + nsum (fun p => nsum (fun q => g q p) leaves) leaves).
  { rewrite <- nsum_add. apply nsum_le. intros p Hp. rewrite SEL by exact Hp. rewrite <- nsum_scale, <- nsum_add. apply nsum_le. intros q _.
    unfold g, b. rewrite (touch_sym d q p). destruct (touch d p q); cbn [andb]; [|lia]. unfold le.
    destruct (Nat.leb_spec (length q) (length p)), (Nat.leb_spec (length p) (length q)); lia. }
  rewrite (nsum_swap (fun p q => g q p)) in H1. change (nsum (fun y => nsum (fun x => g y x) leaves) leaves) with (nsum (fun p => nsum (g p) leaves) leaves) in H1.
  assert (H2 : nsum (fun p => nsum (g p) leaves) leaves <= nsum (fun p => 3 ^ d * m * w p) leaves).
  { apply nsum_le. intros p Hp. assert (Hp' := proj1 (IL p) Hp). destruct Hp' as [P Np].
    set (zs := filter (fun q => b p q && le p q) leaves).
    assert (E : nsum (g p) leaves = nsum (fun q => w p * w q) zs).
    { apply (nsum_filter_if (fun q => w p * w q) (fun q => b p q && le p q)). }
    rewrite E. apply (Nat.le_trans _ (nsum (fun _ => w p * m) zs)).
    - apply nsum_le. intros q Hq. apply filter_In in Hq. apply Nat.mul_le_mono_l. apply Hw. apply Hq.
    - rewrite nsum_const. assert (L : length zs <= 3 ^ d); [|apply (Nat.le_trans _ (w p * m * 3 ^ d)); [apply Nat.mul_le_mono_l; exact L|apply Nat.eq_le_incl; ring]]. apply (count_larger d p); [eapply present_valid'; exact P|apply NoDup_filter; exact ND| |].
      + intros q q' Hq Hq'. apply filter_In in Hq, Hq'. destruct Hq as [Hq _]. destruct Hq' as [Hq' _]. apply IL in Hq, Hq'. apply leaf_above; tauto.
      + intros q Hq. apply filter_In in Hq. destruct Hq as [Hq B]. apply IL in Hq. apply andb_true_iff in B. destruct B as [B L]. apply Nat.leb_le in L.
        split; [eapply present_valid'; apply Hq|]. split; assumption. }
  rewrite nsum_scale in H2. eapply Nat.le_trans; [exact H1|]. eapply Nat.le_trans; [apply Nat.add_le_mono; exact H2|]. apply Nat.eq_le_incl. ring.
Qed.
End Adaptive.

Section Theorems.
Context {Src : Type}.
Variable d : nat.
Variable pos : Src -> list R.
Notation spec := (spec_tree d pos).

Section Given.
Variables (cap fuel : nat) (srcs : list Src) (t : @atree R Src) (ls : nlists).
Hypothesis Hd : 1 <= d.
Hypothesis Hpos : forall s, In s srcs -> length (pos s) = d.
Hypothesis HB : build_adaptive d pos cap fuel srcs = Ok t.
Hypothesis HL : all_lists d t = Ok ls.

Lemma setup : exists c l h, length c = d /\ height_ok d pos c l cap srcs (rr cap srcs) h /\ t = spec c l cap srcs (rr cap srcs) h /\
  ls = final d pos c l cap srcs (rr cap srcs) h.
Proof.
  destruct (adaptive_inv d pos cap fuel srcs t Hd Hpos HB) as (c & l & h & _ & Hc & _ & Hh & E & HP & _). exists c, l, h. split; [exact Hc|]. split; [exact Hh|]. split; [exact E|].
  rewrite E in HL. rewrite (lists_final d pos) in HL by assumption. congruence.
Qed.
Theorem adaptive_sizes n : In n (heap t) -> length (nl_inter ls (an_addr n)) + 3 ^ d <= 6 ^ d /\ length (nl_X ls (an_addr n)) <= 3 ^ d.
Proof.
  destruct setup as (c & l & h & Hc & Hh & -> & ->). intros Hn. apply (in_heap _ _ _ _ _ _ _ _ Hh) in Hn. destruct Hn as (p & P & ->).
  split; [apply inter_size|apply X_size]; assumption.
Qed.
Theorem adaptive_dual n m : In n (heap t) -> In m (heap t) ->
  (In (an_addr m) (nl_inter ls (an_addr n)) <-> In (an_addr n) (nl_inter ls (an_addr m))) /\
  (In (an_addr m) (nl_X ls (an_addr n)) <-> In (an_addr n) (nl_W ls (an_addr m))) /\
  (an_leaf n = true -> an_leaf m = true -> (In (an_addr m) (nl_near ls (an_addr n)) <-> In (an_addr n) (nl_near ls (an_addr m)))).
Proof.
  destruct setup as (c & l & h & Hc & Hh & -> & ->). intros Hn Hm. apply (in_heap _ _ _ _ _ _ _ _ Hh) in Hn, Hm. destruct Hn as (p & P & ->). destruct Hm as (q & Q & ->).
  split; [apply VV; assumption|]. split; [apply XW; assumption|]. intros Lp Lq. apply NN; try assumption; apply negb_true_iff; assumption.
Qed.
Lemma heap_perm c l h : height_ok d pos c l cap srcs (rr cap srcs) h -> t = spec c l cap srcs (rr cap srcs) h ->
  Permutation (map an_addr (heap t)) (order d pos c l cap srcs (rr cap srcs) h).
Proof.
  intros Hh E. apply NoDup_Permutation.
  - apply (adaptive_children d pos cap fuel srcs t Hd Hpos HB).
  - apply order_NoDup.
  - intros p. rewrite (order_iff d pos c l cap srcs (rr cap srcs) h Hh). rewrite in_map_iff, E. split.
    + intros (n & <- & Hn). apply (in_heap _ _ _ _ _ _ _ _ Hh) in Hn. destruct Hn as (q & Q & ->). exact Q.
    + intros P. exists (mk d pos c l cap srcs (rr cap srcs) p). split; [reflexivity|]. apply in_heap; [exact Hh|]. exists p. auto.
Qed.
Theorem adaptive_total :
  list_sum (map (fun n => length (nl_inter ls (an_addr n)) + length (nl_X ls (an_addr n)) + length (nl_W ls (an_addr n))) (heap t)) <= (6 ^ d + 3 ^ d) * length (heap t).
Proof.
  destruct setup as (c & l & h & Hc & Hh & Et & El). assert (HP := heap_perm c l h Hh Et). rewrite list_sum_nsum.
  rewrite <- (nsum_map an_addr (fun p => length (nl_inter ls p) + length (nl_X ls p) + length (nl_W ls p))), (nsum_perm _ _ _ HP), nsum_add, El.
  rewrite (W_total d pos c l cap srcs (rr cap srcs) h Hc Hh), <- El, <- nsum_add, <- (map_length an_addr (heap t)), (Permutation_length HP), <- nsum_const.
  apply nsum_le. intros p Hp. apply (inO d pos c l cap srcs (rr cap srcs) h Hh) in Hp. rewrite El.
  assert (A := inter_size d pos c l cap srcs (rr cap srcs) h Hc Hh p Hp). assert (B := X_size d pos c l cap srcs (rr cap srcs) h Hc Hh p Hp). lia.
Qed.
Theorem adaptive_near_total : list_sum (map (fun n => length (nl_near ls (an_addr n))) (leaf_nodes t)) <= 2 * 3 ^ d * length (leaf_nodes t).
Proof.
  destruct setup as (c & l & h & Hc & Hh & Et & El). rewrite list_sum_nsum, <- (nsum_map an_addr (fun p => length (nl_near ls p))), <- (map_length an_addr (leaf_nodes t)).
  change (map an_addr (leaf_nodes t)) with (leaf_list t). rewrite Et, leaf_list_eq, El.
  assert (A := near_weighted d pos c l cap srcs (rr cap srcs) h Hc Hh (fun _ => 1) 1 ltac:(intros; apply le_n)). rewrite <- nsum_length in A.
  rewrite (nsum_ext _ (fun p => length (nl_near (final d pos c l cap srcs (rr cap srcs) h) p))) in A; [lia|]. intros p _. rewrite <- nsum_length. lia.
Qed.
Theorem adaptive_pairs :
  list_sum (map (fun n => length (an_srcs n) * length (flat_map (leaf_sources t) (nl_near ls (an_addr n)))) (leaf_nodes t)) <= 2 * 3 ^ d * cap * length srcs.
Proof.
  destruct (adaptive_partition d pos cap fuel srcs t Hd Hpos HB) as (HP & HC & _).
  destruct setup as (c & l & h & Hc & Hh & Et & El).
  assert (LS : forall p, In p (leaf_addrs d pos c l cap srcs (rr cap srcs) h) -> leaf_sources t p = sub d pos c l srcs p) by (intros p Hp; rewrite Et; apply leaf_sources_eq; assumption).
  assert (IL := in_leaf_addrs d pos c l cap srcs (rr cap srcs) h Hh).
  assert (FL : forall (f : addr -> list Src) xs, length (flat_map f xs) = nsum (fun x => length (f x)) xs).
  { intros f xs. induction xs as [|x xs IH]; [reflexivity|]. cbn [flat_map nsum fold_right]. rewrite app_length, IH. reflexivity. }
  assert (NL : forall p, In p (leaf_addrs d pos c l cap srcs (rr cap srcs) h) -> an_srcs (mk d pos c l cap srcs (rr cap srcs) p) = sub d pos c l srcs p).
  { intros p Hp. apply IL in Hp. unfold mk. cbn [an_srcs]. rewrite (proj2 Hp). reflexivity. }
  assert (A := near_weighted d pos c l cap srcs (rr cap srcs) h Hc Hh (fun p => length (sub d pos c l srcs p)) cap).
  assert (T0 : nsum (fun p => length (sub d pos c l srcs p)) (leaf_addrs d pos c l cap srcs (rr cap srcs) h) = length srcs).
  { rewrite <- FL. apply Permutation_length. apply leaf_sources_perm. exact Hh. }
  rewrite T0 in A. rewrite list_sum_nsum. eapply Nat.le_trans; [|apply A].
  - rewrite Et at 1. rewrite leaf_nodes_eq, nsum_map. apply nsum_le. intros p Hp. change (an_addr (mk d pos c l cap srcs (rr cap srcs) p)) with p. rewrite (NL p Hp), FL, El.
    apply Nat.mul_le_mono_l. apply nsum_le. intros q Hq. apply IL in Hp. apply (final_near_leaf d pos c l cap srcs (rr cap srcs) h Hc Hh _ _ (proj1 Hp) (proj2 Hp)) in Hq.
    rewrite LS; [apply le_n|]. apply IL. tauto.
  - intros p Hp. rewrite <- (NL p Hp). apply HC. rewrite Et, leaf_nodes_eq. apply in_map. exact Hp.
Qed.
(** The number of boxes. *)
Lemma level_count c l k : length (level d pos c l cap srcs (rr cap srcs) (S k)) = 2 ^ d * length (filter (refined d pos c l cap srcs (rr cap srcs)) (level d pos c l cap srcs (rr cap srcs) k)).
Proof.
  cbn [level]. generalize (filter (refined d pos c l cap srcs (rr cap srcs)) (level d pos c l cap srcs (rr cap srcs) k)). intros xs. induction xs as [|x xs IH]; [cbn; lia|].
  cbn [flat_map length]. rewrite app_length, IH. unfold kids. rewrite map_length, seq_length. unfold n_children. lia.
Qed.
Lemma level_sources c l k : nsum (fun p => length (sub d pos c l srcs p)) (level d pos c l cap srcs (rr cap srcs) k) <= length srcs.
Proof.
  induction k as [|k IH]; [cbn [level nsum fold_right]; cbn [AdaptiveProofs.sub]; lia|]. eapply Nat.le_trans; [|exact IH]. cbn [level].
  generalize (level d pos c l cap srcs (rr cap srcs) k). intros xs. clear IH. induction xs as [|x xs IH]; [apply le_n|]. cbn [filter].
  destruct (refined d pos c l cap srcs (rr cap srcs) x); [|cbn [nsum fold_right]; unfold nsum in *; lia].
  cbn [flat_map]. rewrite nsum_app. assert (E : nsum (fun p => length (sub d pos c l srcs p)) (kids d x) = length (sub d pos c l srcs x)).
  { rewrite <- (Permutation_length (sub_kids d pos c l srcs x)). generalize (kids d x). induction l0 as [|y ys IHy]; [reflexivity|]. cbn [flat_map nsum fold_right]. rewrite app_length. unfold nsum in IHy. lia. }
  rewrite E. apply Nat.add_le_mono_l. exact IH.
Qed.
Theorem adaptive_boxes : length (heap t) = 1 + 2 ^ d * length (concat (at_nodes t)) /\ (cap + 1) * length (concat (at_nodes t)) <= at_height t * length srcs.
Proof.
  destruct setup as (c & l & h & Hc & Hh & Et & El). set (lv := level d pos c l cap srcs (rr cap srcs)). set (rf := refined d pos c l cap srcs (rr cap srcs)).
  assert (EI : length (concat (at_nodes t)) = nsum (fun k => length (filter rf (lv k))) (seq 0 h)).
  { rewrite Et. unfold spec_tree. cbn [at_nodes]. generalize (seq 0 h). induction l0 as [|k ks IH]; [reflexivity|]. cbn [map concat nsum fold_right]. rewrite app_length, IH.
    unfold inner_level. rewrite map_length. reflexivity. }
  assert (EO : length (heap t) = nsum (fun k => length (lv k)) (seq 0 (S h))).
  { rewrite <- (map_length an_addr), (Permutation_length (heap_perm c l h Hh Et)). unfold order. generalize (seq 0 (S h)). induction l0 as [|k ks IH]; [reflexivity|].
    cbn [flat_map nsum fold_right]. rewrite app_length, IH. reflexivity. }
  split.
  - rewrite EO, EI, <- nsum_scale. cbn [seq nsum fold_right]. fold (nsum (fun k => length (lv k)) (seq 1 h)). rewrite <- seq_shift, nsum_map. cbn [level length lv].
    f_equal. apply nsum_ext. intros k _. apply level_count.
  - rewrite EI, <- nsum_scale. assert (EH : at_height t = h) by (rewrite Et; reflexivity). rewrite EH.
    replace (h * length srcs) with (nsum (fun _ => length srcs) (seq 0 h)) by (rewrite nsum_const, seq_length; lia).
    apply nsum_le. intros k _. eapply Nat.le_trans; [|apply (level_sources c l k)]. fold lv.
    assert (X : forall p, In p (lv k) -> rf p = true -> cap + 1 <= length (sub d pos c l srcs p)).
    { intros p Hp Rp. unfold rf, refined, rr in Rp. destruct p as [|i p]; [apply negb_true_iff, Nat.leb_gt in Rp; cbn [AdaptiveProofs.sub]; lia|]. apply Nat.ltb_lt in Rp. lia. }
    revert X. generalize (lv k). intros xs. induction xs as [|x xs IH]; intros X; [cbn; lia|]. cbn [filter]. assert (IH' := IH ltac:(intros; apply X; [right|]; assumption)).
    destruct (rf x) eqn:E; cbn [length nsum fold_right]; [assert (cap + 1 <= length (sub d pos c l srcs x)) by (apply X; [left; reflexivity|exact E])|]; unfold nsum in *; lia.
Qed.
End Given.

Theorem balanced_sizes h srcs t ls : 1 <= d -> (forall s, In s srcs -> length (pos s) = d) -> 1 <= h -> h < 32 -> d * h <= 32 -> bal_build d pos h srcs = Ok (t, ls) ->
  forall n, In n (boxes t) -> length (nl_near ls (an_addr n)) <= 3 ^ d /\ length (nl_inter ls (an_addr n)) + 3 ^ d <= 6 ^ d.
Proof.
  intros Hd Hpos H1 H2 H3 HB n Hn. destruct (box_inv d pos h srcs t ls Hd Hpos H1 H2 H3 HB n Hn) as (c & l & p & HR & Hc & Hl & P & E).
  destruct (near_exact d pos h srcs t ls Hd Hpos H1 H2 H3 HB n Hn) as [ND NE]. split.
  - apply (count_larger d p); [eapply present_valid'; exact P|exact ND| |].
    + intros q q' Hq Hq' A. apply NE in Hq, Hq'. destruct Hq as (m & Im & <- & Dm & _). destruct Hq' as (m' & Im' & <- & Dm' & _).
      destruct (box_inv d pos h srcs t ls Hd Hpos H1 H2 H3 HB m Im) as (? & ? & q & _ & _ & _ & _ & ->). destruct (box_inv d pos h srcs t ls Hd Hpos H1 H2 H3 HB m' Im') as (? & ? & q' & _ & _ & _ & _ & ->).
      unfold mk in *. cbn [an_addr an_depth] in *. apply existsb_addr in A. apply in_sufs_app in A. destruct A as (s & A). assert (length q' = length s + length q) by (rewrite A, app_length; reflexivity).
      destruct s; [symmetry; exact A|cbn [length] in *; lia].
    + intros q Hq. apply NE in Hq. destruct Hq as (m & Im & <- & Dm & T). destruct (box_inv d pos h srcs t ls Hd Hpos H1 H2 H3 HB m Im) as (c2 & l2 & q & HR2 & _ & _ & Q & ->).
      rewrite HR in HR2. injection HR2 as <- <-. rewrite E in *. unfold mk in *. cbn [an_addr an_depth an_center an_len] in *.
      split; [eapply present_valid'; exact Q|]. split; [lia|]. apply (touch_boxes d c l); assumption.
  - destruct (bal_inv d pos h srcs t ls Hd Hpos H1 H2 H3 HB) as (c' & l' & ch & HR' & _ & _ & _ & _ & _ & El). rewrite HR in HR'. injection HR' as <- <-.
    rewrite El, E. unfold mk. cbn [an_addr]. apply inter_size; [exact Hc|apply height_ok_bal; assumption|exact P].
Qed.
End Theorems.
