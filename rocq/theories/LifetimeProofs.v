(** Allocation and release of the blocks of the tree objects. *)
From Coq Require Import List Bool ZArith Arith Reals Lra Lia Permutation.
From Verif Require Import Num Outcome Vec Orthtree AdaptiveTree TreeSpec VecProofs GeometrySpec GeometryProofs TreeGeometry
  AdaptiveProofs BfsProofs ListProofs BuildProofs TreeTheorems BalancedTree BalancedSpec BalancedIndex BalancedAddr BalancedProofs
  BalancedTheorems PointTree Lifetime.
Import ListNotations.

Section Blocks.
Context {B : Type}.
Variable eqb : B -> B -> bool.
Hypothesis eqb_eq : forall a b, eqb a b = true <-> a = b.
Notation mh := (@mheap B).

Lemma alloc_fold (bs : list B) : forall h : mh, NoDup bs -> (forall b, In b bs -> h b = false) ->
  exists h', ofold (fun h b => alloc eqb b h) bs h = Ok h' /\ (forall b, In b bs -> h' b = true) /\ (forall b, ~ In b bs -> h' b = h b).
Proof.
  induction bs as [|b bs IH]; intros h ND F; [exists h; repeat split; [intros ? []]|].
  inversion ND as [|? ? N1 N2]; subst. cbn [ofold]. unfold alloc at 1. rewrite (F b) by (left; reflexivity). cbn [bind].
  destruct (IH (fun x => eqb x b || h x)) as (h' & E & A & C); [exact N2| |].
  - intros x Hx. rewrite (F x) by (right; exact Hx). rewrite orb_false_r. apply not_true_iff_false. intros K. apply eqb_eq in K. subst. contradiction.
  - exists h'. split; [exact E|]. split.
    + intros x [->|Hx]; [|auto]. rewrite C by exact N1. rewrite (proj2 (eqb_eq x x) eq_refl). reflexivity.
    + intros x Hx. rewrite C by (intros K; apply Hx; right; exact K).
      destruct (eqb x b) eqn:K; [|reflexivity]. apply eqb_eq in K. subst. exfalso. apply Hx. left. reflexivity.
Qed.
Lemma release_fold (bs : list B) : forall h : mh, NoDup bs -> (forall b, In b bs -> h b = true) ->
  exists h', ofold (fun h b => release eqb b h) bs h = Ok h' /\ (forall b, In b bs -> h' b = false) /\ (forall b, ~ In b bs -> h' b = h b).
Proof.
  induction bs as [|b bs IH]; intros h ND F; [exists h; repeat split; [intros ? []]|].
  inversion ND as [|? ? N1 N2]; subst. cbn [ofold]. unfold release at 1. rewrite (F b) by (left; reflexivity). cbn [bind].
  destruct (IH (fun x => negb (eqb x b) && h x)) as (h' & E & A & C); [exact N2| |].
  - intros x Hx. rewrite (F x) by (right; exact Hx). rewrite andb_true_r. apply negb_true_iff, not_true_iff_false. intros K. apply eqb_eq in K. subst. contradiction.
  - exists h'. split; [exact E|]. split.
    + intros x [->|Hx]; [|auto]. rewrite C by exact N1. rewrite (proj2 (eqb_eq x x) eq_refl). reflexivity.
    + intros x Hx. rewrite C by (intros K; apply Hx; right; exact K).
      destruct (eqb x b) eqn:K; [|reflexivity]. apply eqb_eq in K. subst. exfalso. apply Hx. left. reflexivity.
Qed.
Lemma alloc1 b (h : mh) : h b = false -> exists h', alloc eqb b h = Ok h' /\ h' b = true /\ forall x, x <> b -> h' x = h x.
Proof.
  intros F. destruct (alloc_fold [b] h) as (h' & E & A & C); [repeat constructor; intros []|intros x [<-|[]]; exact F|].
  exists h'. cbn [ofold] in E. destruct (alloc eqb b h); cbn [bind] in E; try discriminate E. injection E as ->. split; [reflexivity|].
  split; [apply A; left; reflexivity|]. intros x Hx. apply C. intros [->|[]]. apply Hx. reflexivity.
Qed.
Lemma release1 b (h : mh) : h b = true -> exists h', release eqb b h = Ok h' /\ h' b = false /\ forall x, x <> b -> h' x = h x.
Proof.
  intros F. destruct (release_fold [b] h) as (h' & E & A & C); [repeat constructor; intros []|intros x [<-|[]]; exact F|].
  exists h'. cbn [ofold] in E. destruct (release eqb b h); cbn [bind] in E; try discriminate E. injection E as ->. split; [reflexivity|].
  split; [apply A; left; reflexivity|]. intros x Hx. apply C. intros [->|[]]. apply Hx. reflexivity.
Qed.
End Blocks.

Lemma ablock_eqb_eq a b : ablock_eqb a b = true <-> a = b.
Proof.
  unfold ablock_eqb. rewrite andb_true_iff, Nat.eqb_eq, addr_eqb_eq. destruct a, b; cbn. split; [intros [-> ->]; reflexivity|intros E; injection E; auto].
Qed.
Lemma obblock_eqb_eq a b : obblock_eqb a b = true <-> a = b.
Proof.
  unfold obblock_eqb. rewrite andb_true_iff, Nat.eqb_eq. destruct a as [i a], b as [j b]; cbn [fst snd]. split.
  - intros [-> E]. f_equal. destruct a, b; try discriminate E; try reflexivity. apply Nat.eqb_eq in E. subst. reflexivity.
  - intros E. injection E as -> ->. split; [reflexivity|]. destruct b; try reflexivity. apply Nat.eqb_refl.
Qed.

(** *** Adaptive trees *)
Section Adaptive.
Context {Src : Type}.
Variable d : nat.
Variable pos : Src -> list R.
Variable c : list R.
Variable l : R.
Variable cap : nat.
Variable srcs : list Src.
Variable r : rule.
Variable h : nat.
Hypothesis Hh : height_ok d pos c l cap srcs r h.
Notation t := (spec_tree d pos c l cap srcs r h).
Notation present := (present d pos c l cap srcs r).
Notation refined := (refined d pos c l cap srcs r).
Notation order := (order d pos c l cap srcs r h).
Notation mk := (mk d pos c l cap srcs r).

Lemma heap_addrs : Permutation (map an_addr (heap t)) order.
Proof.
  apply NoDup_Permutation.
  - apply (NoDup_incl_NoDup (order_NoDup d pos c l cap srcs r h)).
    + rewrite map_length, (heap_length d pos c l cap srcs r h Hh). lia.
    + intros p Hp. apply (in_order _ _ _ _ _ _ _ _ Hh) in Hp. change p with (an_addr (mk p)). apply in_map.
      apply (in_heap _ _ _ _ _ _ _ _ Hh). eauto.
  - apply order_NoDup.
  - intros p. rewrite (in_order _ _ _ _ _ _ _ _ Hh), in_map_iff. split.
    + intros (n & <- & Hn). apply (in_heap _ _ _ _ _ _ _ _ Hh) in Hn. destruct Hn as (q & Q & ->). exact Q.
    + intros P. exists (mk p). split; [reflexivity|]. apply (in_heap _ _ _ _ _ _ _ _ Hh). eauto.
Qed.
Lemma heap_NoDup : NoDup (map an_addr (heap t)).
Proof. apply (Permutation_NoDup (Permutation_sym heap_addrs)). apply order_NoDup. Qed.

Variable o : nat.
Lemma construct_ok (m : @mheap ablock) : (forall n, In n (heap t) -> m (o, an_addr n) = false) ->
  exists m', construct o t m = Ok m' /\ (forall p, present p -> m' (o, p) = true) /\ (forall b, ~ (fst b = o /\ present (snd b)) -> m' b = m b).
Proof.
  intros F.
  assert (E : construct o t m = ofold (fun h b => alloc ablock_eqb b h) (map (fun n => (o, an_addr n)) (heap t)) m).
  { unfold construct. generalize (heap t) as xs. intros xs. generalize m. induction xs as [|x xs IH]; intros m0; [reflexivity|]. cbn [map ofold].
    destruct (alloc ablock_eqb (o, an_addr x) m0); cbn [bind]; auto. }
  assert (IN : forall p, In (o, p) (map (fun n => (o, an_addr n)) (heap t)) <-> present p).
  { intros p. rewrite in_map_iff. split.
    - intros (n & En & Hn). injection En as <-. apply (in_heap _ _ _ _ _ _ _ _ Hh) in Hn. destruct Hn as (q & Q & ->). exact Q.
    - intros P. exists (mk p). split; [reflexivity|]. apply (in_heap _ _ _ _ _ _ _ _ Hh). eauto. }
  destruct (alloc_fold ablock_eqb ablock_eqb_eq (map (fun n => (o, an_addr n)) (heap t)) m) as (m' & E' & A & C).
  - rewrite <- (map_map an_addr (fun p => (o, p))). apply FinFun.Injective_map_NoDup; [intros x y K; injection K; auto|exact heap_NoDup].
  - intros b Hb. apply in_map_iff in Hb. destruct Hb as (n & <- & Hn). apply F. exact Hn.
  - exists m'. rewrite E. split; [exact E'|]. split.
    + intros p P. apply A. apply IN. exact P.
    + intros [o' p] K. apply C. intros Hb. apply K. cbn [fst snd].
      assert (o' = o) as ->. { apply in_map_iff in Hb. destruct Hb as (n & En & _). injection En; auto. }
      split; [reflexivity|]. apply IN. exact Hb.
Qed.

Definition below (p q : addr) : Prop := exists s, q = s ++ p.
Lemma below_kid i p q : below (i :: p) q -> below p q.
Proof. intros (s & ->). exists (s ++ [i]). rewrite <- app_assoc. reflexivity. Qed.
Lemma below_disjoint i j p q : below (i :: p) q -> below (j :: p) q -> i = j.
Proof.
  intros (s & ->) (u & E). assert (L := f_equal (@length nat) E). rewrite !app_length in L. cbn [length] in L.
  assert (K : s ++ [i] = u ++ [j]).
  { apply (app_inv_tail p). rewrite <- !app_assoc. exact E. }
  apply app_inj_tail in K. apply K.
Qed.
Lemma below_cases p s : present (s ++ p) -> s = [] \/ exists i, i < n_children d /\ below (i :: p) (s ++ p) /\ refined p = true.
Proof.
  induction s as [|x s IH]; [left; reflexivity|]. intros (Hx & P & Rf). cbn [app] in *. right. destruct (IH P) as [->|(i & Hi & (u & E) & Hr)].
  - exists x. split; [exact Hx|]. split; [exists []; reflexivity|exact Rf].
  - exists i. split; [exact Hi|]. split; [exists (x :: u); cbn; rewrite E; reflexivity|exact Hr].
Qed.

Lemma delete_ok fuel : forall p (m : @mheap ablock), present p -> h - length p < fuel ->
  (forall q, present q -> below p q -> m (o, q) = true) ->
  exists m', delete_node d o t fuel p m = Ok m' /\ (forall q, present q -> below p q -> m' (o, q) = false) /\
    (forall b, ~ (fst b = o /\ present (snd b) /\ below p (snd b)) -> m' b = m b).
Proof.
  induction fuel as [|fuel IH]; intros p m P Hf Live; [lia|]. cbn [delete_node].
  rewrite (Live p P) by (exists []; reflexivity).
  assert (KF : forall ks, NoDup ks -> (forall i, In i ks -> i < n_children d) -> refined p = true -> forall m0 : @mheap ablock,
    (forall i q, In i ks -> present q -> below (i :: p) q -> m0 (o, q) = true) ->
    exists m', ofold (fun h q => delete_node d o t fuel q h) (map (fun i => i :: p) ks) m0 = Ok m' /\
      (forall i q, In i ks -> present q -> below (i :: p) q -> m' (o, q) = false) /\
      (forall b, ~ (fst b = o /\ present (snd b) /\ exists i, In i ks /\ below (i :: p) (snd b)) -> m' b = m0 b)).
  { induction ks as [|k ks IHk]; intros ND Hk Rp m0 L0; [exists m0; repeat split; intros; contradiction|].
    inversion ND as [|? ? N1 N2]; subst. cbn [map ofold].
    assert (LT := refined_depth d pos c l cap srcs r h Hh p P Rp).
    destruct (IH (k :: p) m0) as (m1 & E1 & A1 & C1).
    - cbn [AdaptiveProofs.present]. split; [apply Hk; left; reflexivity|auto].
    - cbn [length]. lia.
    - intros q Q Bq. apply (L0 k); auto. left; reflexivity.
    - rewrite E1. cbn [bind]. destruct (IHk N2 (fun i Hi => Hk i (or_intror Hi)) Rp m1) as (m' & E' & A' & C').
      + intros i q Hi Q Bq. rewrite C1; [apply (L0 i); auto; right; exact Hi|]. cbn [fst snd]. intros (_ & _ & K).
        assert (i = k) by (eapply below_disjoint; eauto). subst. contradiction.
      + exists m'. split; [exact E'|]. split.
        * intros i q [<-|Hi] Q Bq; [|eapply A'; eauto]. rewrite C'; [apply A1; assumption|].
          cbn [fst snd]. intros (_ & _ & i & Hi & K). assert (i = k) by (eapply below_disjoint; eauto). subst. contradiction.
        * intros b K. rewrite C', C1; [reflexivity| |].
          -- intros (X & Y & Z). apply K. repeat (split; auto). exists k. split; [left; reflexivity|exact Z].
          -- intros (X & Y & i & Hi & Z). apply K. repeat (split; auto). exists i. split; [right; exact Hi|exact Z]. }
  rewrite (children_eq d pos c l cap srcs r h Hh p P).
  assert (KK : exists m1, ofold (fun h q => delete_node d o t fuel q h) (if refined p then kids d p else []) m = Ok m1 /\
     (forall q, present q -> below p q -> q <> p -> m1 (o, q) = false) /\ m1 (o, p) = true /\
     (forall b, ~ (fst b = o /\ present (snd b) /\ below p (snd b)) -> m1 b = m b)).
  { destruct (refined p) eqn:Rp.
    - destruct (KF (seq 0 (n_children d))) with (m0 := m) as (m1 & E1 & A1 & C1); auto.
      + apply seq_NoDup.
      + intros i Hi. apply in_seq in Hi. lia.
      + intros i q _ Q Bq. apply Live; [exact Q|]. eapply below_kid. exact Bq.
      + exists m1. split; [exact E1|]. split; [|split].
        * intros q Q (s & ->) NE. destruct (below_cases p s Q) as [->|(i & Hi & Bi & _)]; [exfalso; apply NE; reflexivity|].
          apply (A1 i); auto. apply in_seq. lia.
        * rewrite C1; [apply Live; [exact P|exists []; reflexivity]|]. cbn [fst snd]. intros (_ & _ & i & _ & (s & E)).
          apply (f_equal (@length nat)) in E. rewrite app_length in E. cbn [length] in E. lia.
        * intros b K. apply C1. intros (X & Y & i & _ & Z). apply K. repeat (split; auto). eapply below_kid. exact Z.
    - exists m. split; [reflexivity|]. split; [|split].
      + intros q Q (s & ->) NE. destruct (below_cases p s Q) as [->|(i & _ & _ & K)]; [exfalso; apply NE; reflexivity|congruence].
      + apply Live; [exact P|exists []; reflexivity].
      + reflexivity. }
  destruct KK as (m1 & E1 & A1 & Lp & C1). rewrite E1. cbn [bind]. unfold release. rewrite Lp. eexists. split; [reflexivity|]. cbn beta. split.
  - intros q Q Bq. destruct (ablock_eqb (o, q) (o, p)) eqn:K; [reflexivity|]. cbn [negb andb]. apply A1; auto. intros ->.
    rewrite (proj2 (ablock_eqb_eq _ _) eq_refl) in K. discriminate.
  - intros b K. destruct (ablock_eqb b (o, p)) eqn:E.
    + apply ablock_eqb_eq in E. subst b. exfalso. apply K. cbn [fst snd]. repeat (split; auto). exists []. reflexivity.
    + cbn [negb andb]. apply C1. exact K.
Qed.

(** The life of the object, and a second destructor call. *)
Lemma lifetime (m0 : @mheap ablock) : (forall n, In n (heap t) -> m0 (o, an_addr n) = false) ->
  exists m1, construct o t m0 = Ok m1 /\ (forall n, In n (heap t) -> m1 (o, an_addr n) = true) /\
    forall fuel, h < fuel -> exists m2, destroy d o t fuel m1 = Ok m2 /\ (forall b, m2 b = m0 b) /\ destroy d o t fuel m2 = UB.
Proof.
  intros F. destruct (construct_ok m0 F) as (m1 & E1 & A1 & C1). exists m1. split; [exact E1|]. split.
  { intros n Hn. apply (in_heap _ _ _ _ _ _ _ _ Hh) in Hn. destruct Hn as (q & Q & ->). apply A1. exact Q. }
  intros fuel Hf. destruct (delete_ok fuel [] m1) as (m2 & E & A & C); [exact I|cbn; lia|auto|].
  assert (Z : forall q, present q -> m0 (o, q) = false).
  { intros q Q. apply (F (mk q)). apply (in_heap _ _ _ _ _ _ _ _ Hh). eauto. }
  assert (EQ : forall b, m2 b = m0 b).
  { intros [o' q]. destruct (Nat.eq_dec o' o) as [->|NE].
    - destruct (in_dec addr_eq_dec q order) as [Hq|Hq].
      + apply (in_order _ _ _ _ _ _ _ _ Hh) in Hq. rewrite Z by exact Hq. apply A; [exact Hq|]. exists q. symmetry. apply app_nil_r.
      + assert (NP : ~ present q) by (intros Q; apply Hq; apply (in_order _ _ _ _ _ _ _ _ Hh); exact Q).
        rewrite C, C1; [reflexivity| |]; cbn [fst snd]; tauto.
    - rewrite C, C1; [reflexivity| |]; cbn [fst snd]; tauto. }
  exists m2. split; [exact E|]. split; [exact EQ|]. unfold destroy. destruct fuel as [|fuel]; [lia|]. cbn [delete_node].
  rewrite EQ, Z by exact I. reflexivity.
Qed.
End Adaptive.

(** *** The balanced tree *)
Section Balanced.
Context {Src : Type}.
Variable d : nat.
Variable pos : Src -> list R.
Variable c : list R.
Variable l : R.
Variable srcs : list Src.
Variable h : nat.
Hypothesis Hd : 1 <= d.
Hypothesis Hc : length c = d.
Hypothesis Hpos : forall s, In s srcs -> length (pos s) = d.
Hypothesis Hl : (0 < l)%R.
Hypothesis H1 : 1 <= h.
Hypothesis Hh : h < 32.
Hypothesis Hdh : d * h <= 32.
Notation level := (level d pos c l 0 srcs (ByDepth h)).


Lemma leaf_buckets_ok : leaf_buckets d h c l (map (mk0 d pos c l srcs h) (level h)) = Ok (map (bucket d h) (level h)).
Proof.
  unfold leaf_buckets. rewrite omapM_map. apply omapM_ok. intros p Hp. assert (L := level_len _ _ _ _ _ _ _ _ Hp).
  cbn [an_center mk0]. apply (bucket_of_ctr d c l Hc Hl h Hh Hdh p L).
Qed.
Lemma buckets_perm : Permutation (map (bucket d h) (level h)) (seq 0 (n_leaves d h)).
Proof.
  assert (ND : NoDup (map (bucket d h) (level h))).
  { assert (X := level_NoDup d pos c l 0 srcs (ByDepth h) h).
    assert (Y : forall p, In p (level h) -> length p = h /\ valid d p).
    { intros p Hp. split; [eapply level_len; exact Hp|eapply (level_valid d pos c l srcs h Hd Hc Hpos); exact Hp]. }
    revert X Y. generalize (level h). intros ps. induction ps as [|p ps IH]; intros X Y; [constructor|]. apply NoDup_cons_iff in X; destruct X as [N1 N2].
    cbn [map]. constructor; [|apply IH; [exact N2|intros q Hq; apply Y; right; exact Hq]].
    intros K. apply in_map_iff in K. destruct K as (q & E & Hq). apply N1.
    destruct (Y p (or_introl eq_refl)) as [Lp Vp]. destruct (Y q (or_intror Hq)) as [Lq Vq].
    apply (bucket_inj d c Hc h Hh Hdh) in E; auto. subst. exact Hq. }
  apply NoDup_Permutation_bis; [exact ND| |].
  - rewrite seq_length, map_length, (level_boxes d pos c l srcs h Hd Hc) by lia. rewrite all_boxes_length. apply le_n.
  - intros k Hk. apply in_map_iff in Hk. destruct Hk as (p & <- & Hp). apply in_seq.
    destruct (bucket_ok d c Hc h Hh Hdh p (level_len _ _ _ _ _ _ _ _ Hp)) as [_ B]. lia.
Qed.

Variable o : nat.
Notation eqb_eq := obblock_eqb_eq.
(** The blocks of the object during construction. *)
Definition own (k : nat) (b : bblock) : Prop := match b with BVec i => i < k | _ => True end.

Lemma vec_fold m : (forall k, m (o, BVec k) = false) -> exists m', ofold (fun m k => balloc o (BVec k) m) (seq 0 (n_leaves d h)) m = Ok m' /\
  (forall k, m' (o, BVec k) = Nat.ltb k (n_leaves d h)) /\ (forall b, (forall k, b <> (o, BVec k)) -> m' b = m b).
Proof.
  intros F. destruct (alloc_fold obblock_eqb eqb_eq (map (fun k => (o, BVec k)) (seq 0 (n_leaves d h))) m) as (m' & E & A & C).
  - apply FinFun.Injective_map_NoDup; [intros x y K; injection K; auto|apply seq_NoDup].
  - intros b Hb. apply in_map_iff in Hb. destruct Hb as (k & <- & _). apply F.
  - exists m'. split.
    { rewrite <- E. clear. generalize (seq 0 (n_leaves d h)). intros ks. revert m. induction ks as [|k ks IH]; intros m; [reflexivity|]. cbn [map ofold].
      unfold balloc at 1. destruct (alloc obblock_eqb (o, BVec k) m); cbn [bind]; auto. }
    split.
    + intros k. destruct (Nat.ltb_spec k (n_leaves d h)) as [L|G].
      * apply A. apply in_map_iff. exists k. split; [reflexivity|]. apply in_seq. lia.
      * rewrite C; [apply F|]. intros K. apply in_map_iff in K. destruct K as (i & E' & Hi). injection E' as ->. apply in_seq in Hi. lia.
    + intros b K. apply C. intros Hb. apply in_map_iff in Hb. destruct Hb as (k & <- & _). apply (K k). reflexivity.
Qed.
Lemma unvec_fold ks m : Permutation ks (seq 0 (n_leaves d h)) -> (forall k, m (o, BVec k) = Nat.ltb k (n_leaves d h)) ->
  exists m', ofold (fun m k => brelease o (BVec k) m) ks m = Ok m' /\
  (forall k, m' (o, BVec k) = false) /\ (forall b, (forall k, b <> (o, BVec k)) -> m' b = m b).
Proof.
  intros P F. assert (IN : forall k, In k ks <-> k < n_leaves d h).
  { intros k. split; [intros Hk; apply (Permutation_in _ P) in Hk; apply in_seq in Hk; lia|].
    intros Hk. apply (Permutation_in _ (Permutation_sym P)). apply in_seq. lia. }
  destruct (release_fold obblock_eqb eqb_eq (map (fun k => (o, BVec k)) ks) m) as (m' & E & A & C).
  - apply FinFun.Injective_map_NoDup; [intros x y K; injection K; auto|]. apply (Permutation_NoDup (Permutation_sym P)), seq_NoDup.
  - intros b Hb. apply in_map_iff in Hb. destruct Hb as (k & <- & Hk). rewrite F. apply Nat.ltb_lt, IN, Hk.
  - exists m'. split.
    { rewrite <- E. clear. revert m. induction ks as [|k ks IH]; intros m; [reflexivity|]. cbn [map ofold].
      unfold brelease at 1. destruct (release obblock_eqb (o, BVec k) m); cbn [bind]; auto. }
    split.
    + intros k. destruct (Nat.ltb_spec k (n_leaves d h)) as [L|G].
      * apply A. apply in_map_iff. exists k. split; [reflexivity|]. apply IN. exact L.
      * rewrite C; [rewrite F; apply Nat.ltb_ge; exact G|]. intros K. apply in_map_iff in K. destruct K as (i & E' & Hi). injection E' as ->. apply IN in Hi. lia.
    + intros b K. apply C. intros Hb. apply in_map_iff in Hb. destruct Hb as (k & <- & _). apply (K k). reflexivity.
Qed.

Ltac ne := match goal with |- (_, _) <> (_, _) => let K := fresh in intros K; injection K; intros; discriminate end.
Lemma bal_construct_ok m0 : (forall b, m0 (o, b) = false) ->
  exists m4, m4 (o, BNodes) = true /\ m4 (o, BLeaves) = true /\ m4 (o, BTable) = true /\
    (forall k, m4 (o, BVec k) = Nat.ltb k (n_leaves d h)) /\ (forall o' b, o' <> o -> m4 (o', b) = m0 (o', b)) /\
    bal_construct d pos o h c l srcs m0 =
      match fill_buckets d pos h c l srcs with
      | Ok _ => bind (brelease o BTable m4) (fun m5 => Ok (m5, Ok (map (bucket d h) (level h))))
      | e => Ok (m4, bind e (fun _ => UB))
      end.
Proof.
  intros F.
  destruct (alloc1 obblock_eqb eqb_eq (o, BNodes) m0 (F _)) as (m1 & E1 & A1 & C1).
  destruct (alloc1 obblock_eqb eqb_eq (o, BLeaves) m1) as (m2 & E2 & A2 & C2); [rewrite C1 by ne; apply F|].
  destruct (alloc1 obblock_eqb eqb_eq (o, BTable) m2) as (m3 & E3 & A3 & C3); [rewrite C2, C1 by ne; apply F|].
  destruct (vec_fold m3) as (m4 & E4 & A4 & C4); [intros k; rewrite C3, C2, C1 by ne; apply F|].
  exists m4. split; [rewrite C4 by (intros; ne); rewrite C3, C2 by ne; exact A1|].
  split; [rewrite C4 by (intros; ne); rewrite C3 by ne; exact A2|].
  split; [rewrite C4 by (intros; ne); exact A3|]. split; [exact A4|]. split.
  { intros o' b NE. rewrite C4, C3, C2, C1; [reflexivity| | | |]; intros; intros K; injection K; auto. }
  destruct (expand_all_ok d pos c l srcs h Hd Hc Hpos H1) as (st & ES & _ & EL & _).
  unfold bal_construct. destruct h as [|h'] eqn:EH; [lia|]. rewrite <- EH in *. clear EH.
  unfold balloc at 1 2 3. rewrite E1. cbn [bind]. rewrite E2. cbn [bind]. rewrite ES, E3. cbn [bind].
  rewrite E4. cbn [bind]. rewrite EL, leaf_buckets_ok. destruct (fill_buckets d pos h c l srcs); reflexivity.
Qed.

(** Construction succeeds: the destructor restores the memory. *)
Lemma bal_lifetime m0 : (forall s, In s srcs -> in_half_open d c l (pos s)) -> (forall b, m0 (o, b) = false) ->
  exists m1 ks, bal_construct d pos o h c l srcs m0 = Ok (m1, Ok ks) /\ m1 (o, BTable) = false /\
  exists m2, bal_destroy o h ks m1 = Ok m2 /\ (forall b, m2 b = m0 b) /\ bal_destroy o h ks m2 = UB.
Proof.
  intros Hin F. destruct (bal_construct_ok m0 F) as (m4 & AN & AL & AT & AV & AO & E).
  rewrite (fill_buckets_eq d pos c l srcs h) in E by assumption.
  destruct (release1 obblock_eqb eqb_eq (o, BTable) m4 AT) as (m5 & E5 & A5 & C5). unfold brelease in E. rewrite E5 in E. cbn [bind] in E.
  exists m5, (map (bucket d h) (level h)). split; [exact E|]. split; [exact A5|].
  destruct (release1 obblock_eqb eqb_eq (o, BNodes) m5) as (m6 & E6 & A6 & C6); [rewrite C5 by ne; exact AN|].
  destruct (unvec_fold (rev (map (bucket d h) (level h))) m6) as (m7 & E7 & A7 & C7).
  { eapply Permutation_trans; [apply Permutation_sym, Permutation_rev|apply buckets_perm]. }
  { intros k. rewrite C6, C5 by ne. apply AV. }
  destruct (release1 obblock_eqb eqb_eq (o, BLeaves) m7) as (m8 & E8 & A8 & C8); [rewrite C7 by (intros; ne); rewrite C6, C5 by ne; exact AL|].
  assert (EQ : forall b, m8 b = m0 b).
  { intros [o' b]. destruct (Nat.eq_dec o' o) as [->|NE].
    - rewrite F. destruct b.
      + rewrite C8 by ne. rewrite C7 by (intros; ne). exact A6.
      + exact A8.
      + rewrite C8 by ne. rewrite C7 by (intros; ne). rewrite C6 by ne. exact A5.
      + rewrite C8 by ne. apply A7.
    - rewrite C8, C7, C6, C5; [apply AO; exact NE| | | |]; intros; intros K; injection K; auto. }
  exists m8. split; [|split; [exact EQ|]].
  - unfold bal_destroy. destruct h as [|h'] eqn:EH; [lia|]. rewrite <- EH in *. unfold brelease at 1. rewrite E6. cbn [bind].
    rewrite C6, C5, AL by ne. rewrite E7. cbn [bind]. exact E8.
  - unfold bal_destroy. destruct h as [|h'] eqn:EH; [lia|]. rewrite <- EH in *. unfold brelease at 1, release. rewrite EQ, F. reflexivity.
Qed.
(** Construction throws: every block stays allocated. *)
Lemma bal_throw_leaks m0 : fill_buckets d pos h c l srcs = Throw -> (forall b, m0 (o, b) = false) ->
  exists m1, bal_construct d pos o h c l srcs m0 = Ok (m1, Throw) /\
  m1 (o, BNodes) = true /\ m1 (o, BLeaves) = true /\ m1 (o, BTable) = true /\ forall k, k < n_leaves d h -> m1 (o, BVec k) = true.
Proof.
  intros HT F. destruct (bal_construct_ok m0 F) as (m4 & AN & AL & AT & AV & AO & E). rewrite HT in E. exists m4. split; [exact E|].
  repeat (split; [assumption|]). intros k Hk. rewrite AV. apply Nat.ltb_lt. exact Hk.
Qed.
End Balanced.
