(** The log files of the trees and the printed expansions. *)
From Coq Require Import List Bool ZArith Arith Reals Lra Lia Permutation Sorted.
From Coquelicot Require Import Complex.
From Verif Require Import Num Outcome Vec Orthtree AdaptiveTree TreeSpec VecProofs GeometrySpec GeometryProofs TreeGeometry
  AdaptiveProofs BfsProofs ListProofs ListContents BuildProofs TreeTheorems TreeTheorems2 BalancedTree BalancedSpec BalancedIndex BalancedAddr
  BalancedProofs BalancedTheorems PointTree PointProofs LifetimeProofs Output OutputSpec.
Import ListNotations.

(** *** The fold *)
Section Fold.
Context {T Src : Type}.
Notation row := (list (field T)).
Lemma numbered_app {A} (f : nat -> A -> list row) xs ys k : numbered f k (xs ++ ys) = numbered f k xs ++ numbered f (k + length xs) ys.
Proof.
  revert k. induction xs as [|x xs IH]; intros k; cbn [numbered app length]; [rewrite Nat.add_0_r; reflexivity|].
  rewrite IH, app_assoc, Nat.add_succ_r. reflexivity.
Qed.
Lemma numbered_map {A B} (g : A -> B) (f : nat -> B -> list row) xs k : numbered f k (map g xs) = numbered (fun k x => f k (g x)) k xs.
Proof. revert k. induction xs as [|x xs IH]; intros k; cbn [numbered map]; [reflexivity|]. rewrite IH. reflexivity. Qed.
Lemma numbered_ext {A} (f g : nat -> A -> list row) xs k : (forall i x, In x xs -> f i x = g i x) -> numbered f k xs = numbered g k xs.
Proof.
  revert k. induction xs as [|x xs IH]; intros k H; cbn [numbered]; [reflexivity|]. rewrite H by (left; reflexivity).
  rewrite IH; [reflexivity|]. intros; apply H; right; assumption.
Qed.
(** The log after the boxes [ps]. *)
Definition logged (g pt nr it w x : nat -> addr -> list row) (ps : list addr) : @log T :=
  Log (length ps) (numbered g 0 ps) (numbered pt 0 ps) (numbered nr 0 ps) (numbered it 0 ps) (numbered w 0 ps) (numbered x 0 ps).
Lemma logged_snoc g pt nr it w x ps p : logged g pt nr it w x (ps ++ [p]) =
  let lg := logged g pt nr it w x ps in let k := lg_next lg in
  Log (S k) (lg_geom lg ++ g k p) (lg_points lg ++ pt k p) (lg_near lg ++ nr k p) (lg_inter lg ++ it k p) (lg_W lg ++ w k p) (lg_X lg ++ x k p).
Proof.
  unfold logged. cbn [lg_next lg_geom lg_points lg_near lg_inter lg_W lg_X]. rewrite !numbered_app, app_length. cbn [numbered length Nat.add].
  rewrite !app_nil_r, Nat.add_1_r. reflexivity.
Qed.
Lemma logged_fold g pt nr it w x (step : log -> addr -> outcome log) ps :
  (forall p lg, In p ps -> let k := lg_next lg in step lg p =
     Ok (Log (S k) (lg_geom lg ++ g k p) (lg_points lg ++ pt k p) (lg_near lg ++ nr k p) (lg_inter lg ++ it k p) (lg_W lg ++ w k p) (lg_X lg ++ x k p))) ->
  ofold step ps log_empty = Ok (logged g pt nr it w x ps).
Proof.
  intros H. assert (G : forall rest done, ps = done ++ rest -> ofold step rest (logged g pt nr it w x done) = Ok (logged g pt nr it w x ps)).
  { induction rest as [|p rest IH]; intros done E; [rewrite app_nil_r in E; subst; reflexivity|]. cbn [ofold].
    rewrite H by (rewrite E; apply in_elt). cbn [bind]. assert (S1 := logged_snoc g pt nr it w x done p). cbv zeta in S1. rewrite <- S1. apply IH. rewrite E, <- app_assoc. reflexivity. }
  apply (G ps []). reflexivity.
Qed.

Lemma partner_fields_ok (look : addr -> option (@anode T Src)) (f : addr -> anode) ps : (forall q, In q ps -> look q = Some (f q)) ->
  partner_fields look ps = Ok (flat_map (fun q => center_of (f q)) ps).
Proof.
  intros H. unfold partner_fields. rewrite (omapM_ok _ (fun q => center_of (f q))).
  - cbn [omap bind]. rewrite <- flat_map_concat_map. reflexivity.
  - intros q Hq. rewrite H by exact Hq. reflexivity.
Qed.
(** Equal rows name equal centers. *)
Lemma FNum_inj (a b : list T) : map (@FNum T) a = map FNum b -> a = b.
Proof. revert b. induction a as [|x a IH]; intros [|y b] H; try discriminate; [reflexivity|]. cbn in H. injection H as -> H. f_equal. auto. Qed.
Lemma flat_map_fixed_inj {A} (f : A -> list T) (w : nat) (P : A -> Prop) : 0 < w -> (forall a, P a -> length (f a) = w) ->
  (forall a b, P a -> P b -> f a = f b -> a = b) -> forall xs ys, (forall a, In a xs -> P a) -> (forall a, In a ys -> P a) ->
  flat_map f xs = flat_map f ys -> xs = ys.
Proof.
  intros Hw HL HI. induction xs as [|x xs IH]; intros [|y ys] Hx Hy E; [reflexivity| | |]; cbn [flat_map] in E.
  - exfalso. apply (f_equal (@length T)) in E. rewrite app_length, HL in E by (apply Hy; left; reflexivity). cbn in E. lia.
  - exfalso. apply (f_equal (@length T)) in E. rewrite app_length, HL in E by (apply Hx; left; reflexivity). cbn in E. lia.
  - assert (LX := HL x (Hx x (or_introl eq_refl))). assert (LY := HL y (Hy y (or_introl eq_refl))).
    assert (EH : f x = f y /\ flat_map f xs = flat_map f ys).
    { clear - E LX LY. revert E. rewrite <- LY in LX. revert LX. generalize (f x) (f y) (flat_map f xs) (flat_map f ys).
      intros a. induction a as [|u a IH]; intros [|v b] r s L E; try discriminate L; [split; [reflexivity|exact E]|].
      cbn in E. injection E as -> E. injection L as L. destruct (IH b r s L E) as [-> ->]. split; reflexivity. }
    destruct EH as [E1 E2]. f_equal; [apply HI; auto; [apply Hx|apply Hy]; left; reflexivity|]. apply IH; [intros; apply Hx; right; assumption|intros; apply Hy; right; assumption|exact E2].
Qed.
End Fold.

(** *** Boxes with the same center *)
Section Centers.
Variable d : nat.
Variable c : list R.
Variable l : R.
Hypothesis Hd : 1 <= d.
Hypothesis Hc : length c = d.
Hypothesis Hl : (0 < l)%R.
Lemma gco_inj p q : valid d p -> valid d q -> length p = length q -> (forall j, j < d -> gco d j p = gco d j q) -> p = q.
Proof.
  intros Vp Vq L H. apply (gcos_inj d); auto. unfold gcos. apply map_ext_in. intros j Hj. apply in_seq in Hj. apply H. lia.
Qed.
Lemma odd_even a b k P : (0 < P)%Z -> ((2 * a + 1) * (P * (2 * k)) = (2 * b + 1) * P)%Z -> False.
Proof.
  intros HP E. assert (E2 : ((2 * a + 1) * (2 * k) = 2 * b + 1)%Z) by (apply (Z.mul_reg_r _ _ P); lia).
  assert (O := f_equal Z.odd E2). rewrite !Z.odd_mul, !Z.odd_add, !Z.odd_mul in O. cbn in O. discriminate O.
Qed.
Lemma centers_distinct p q : valid d p -> valid d q -> box_ctr d c l p = box_ctr d c l q -> p = q.
Proof.
  intros Vp Vq E.
  assert (X : forall j, j < d -> ((2 * gco d j p + 1) * 2 ^ Z.of_nat (length q) = (2 * gco d j q + 1) * 2 ^ Z.of_nat (length p))%Z).
  { intros j Hj. assert (A := nth_box_ctr d c l p j Hc Hj). assert (B := nth_box_ctr d c l q j Hc Hj). rewrite E in A. rewrite A in B.
    assert (Pp := pow2_pos (length p)). assert (Pq := pow2_pos (length q)).
    apply eq_IZR. rewrite !mult_IZR, !plus_IZR, !mult_IZR, <- !pow_IZR. 
    assert (G : ((IZR (gco d j p) + / 2) * (l / 2 ^ length p) = (IZR (gco d j q) + / 2) * (l / 2 ^ length q))%R) by lra.
    apply (Rmult_eq_reg_l (l / (2 * 2 ^ length p * 2 ^ length q))); [|apply Rgt_not_eq; apply Rdiv_lt_0_compat; [lra|]; apply Rmult_lt_0_compat; lra].
    replace (l / (2 * 2 ^ length p * 2 ^ length q) * ((2 * IZR (gco d j p) + 1) * 2 ^ length q))%R with ((IZR (gco d j p) + / 2) * (l / 2 ^ length p))%R by (field; lra).
    rewrite G. field; lra. }
  assert (LE : length p = length q).
  { specialize (X 0 Hd). destruct (lt_eq_lt_dec (length p) (length q)) as [[L|L]|L]; [exfalso|exact L|exfalso].
    - replace (length q) with (length p + S (length q - length p - 1)) in X by lia. rewrite Nat2Z.inj_add, Z.pow_add_r, Nat2Z.inj_succ, Z.pow_succ_r in X by lia.
      eapply odd_even; [|exact X]. apply Z.pow_pos_nonneg; lia.
    - replace (length p) with (length q + S (length p - length q - 1)) in X by lia. rewrite Nat2Z.inj_add, Z.pow_add_r, Nat2Z.inj_succ, Z.pow_succ_r in X by lia.
      symmetry in X. eapply odd_even; [|exact X]. apply Z.pow_pos_nonneg; lia. }
  apply gco_inj; auto. intros j Hj. specialize (X j Hj). rewrite LE in X. assert (P0 : (0 < 2 ^ Z.of_nat (length q))%Z) by (apply Z.pow_pos_nonneg; lia). nia.
Qed.
End Centers.

(** *** Trees *)
Section Trees.
Context {Src : Type}.
Variable d : nat.
Variable pos : Src -> list R.
Variable cols : Src -> list R.
Notation node := (@anode R Src).

Lemma filter_unique (ns : list node) n : NoDup (map an_addr ns) -> In n ns -> filter (fun m => addr_eqb (an_addr m) (an_addr n)) ns = [n].
Proof.
  induction ns as [|m ns IH]; [intros _ []|]. cbn [map]. intros ND [->|Hn]; apply NoDup_cons_iff in ND; destruct ND as [N1 N2]; cbn [filter].
  - rewrite addr_eqb_refl. f_equal. apply filter_none. intros m Hm. apply addr_eqb_neq. intros K. apply N1. rewrite <- K. apply in_map. exact Hm.
  - destruct (addr_eqb (an_addr m) (an_addr n)) eqn:E; [|apply IH; assumption]. exfalso. apply addr_eqb_eq in E. apply N1. rewrite E. apply in_map. exact Hn.
Qed.

Section Built.
Variable c : list R.
Variable l : R.
Variable cap : nat.
Variable srcs : list Src.
Variable r : rule.
Variable h : nat.
Hypothesis Hc : length c = d.
Hypothesis Hh : height_ok d pos c l cap srcs r h.
Notation present := (present d pos c l cap srcs r).
Notation refined := (refined d pos c l cap srcs r).
Notation order := (order d pos c l cap srcs r h).
Notation mk := (mk d pos c l cap srcs r).
Notation t := (spec_tree d pos c l cap srcs r h).
Notation ls := (final d pos c l cap srcs r h).

(** [ns] are the boxes of the tree. *)
Lemma boxes_perm (ns : list node) : Permutation (map an_addr ns) order -> (forall n, In n ns -> exists p, present p /\ n = mk p) ->
  Permutation (map mk order) ns.
Proof.
  intros P H. assert (E : ns = map mk (map an_addr ns)).
  { rewrite map_map. rewrite <- (map_id ns) at 1. apply map_ext_in. intros n Hn. destruct (H n Hn) as (p & _ & ->). reflexivity. }
  rewrite E. apply Permutation_map. apply Permutation_sym. exact P.
Qed.
Lemma centers_at_eq (ns : list node) ps : Permutation (map mk order) ns -> (forall q, In q ps -> present q) ->
  centers_at ns ps = flat_map (fun q => center_of (mk q)) ps.
Proof.
  intros P H. unfold centers_at. apply flat_map_ext_in. intros q Hq.
  assert (E := filter_unique ns (mk q)). cbn [an_addr AdaptiveProofs.mk] in E. rewrite E.
  - cbn [flat_map]. apply app_nil_r.
  - apply (Permutation_NoDup (Permutation_map an_addr P)). rewrite map_map. cbn [an_addr AdaptiveProofs.mk]. rewrite map_id. apply order_NoDup.
  - apply (Permutation_in _ P). apply in_map. apply (in_order _ _ _ _ _ _ _ _ Hh). apply H. exact Hq.
Qed.
Lemma depth_sorted : StronglySorted (fun a b : node => an_depth a <= an_depth b) (map mk order).
Proof.
  unfold AdaptiveProofs.order. generalize 0 at 1 as s. generalize (S h) as m. induction m as [|m IH]; intros s; [constructor|].
  cbn [seq flat_map]. specialize (IH (S s)). rewrite map_app.
  assert (A : forall a, In a (level d pos c l cap srcs r s) -> length a = s) by (intros a Ha; apply in_level in Ha; tauto).
  assert (B : forall b, In b (flat_map (level d pos c l cap srcs r) (seq (S s) m)) -> s <= length b).
  { intros b Hb. apply in_flat_map in Hb. destruct Hb as (k & Hk & Hb). apply in_seq in Hk. apply in_level in Hb. lia. }
  revert A. generalize (level d pos c l cap srcs r s). intros L A. induction L as [|a L IHL]; [exact IH|].
  cbn [map app]. constructor.
  - apply IHL. intros. apply A. right. assumption.
  - apply Forall_forall. intros b Hb. cbn [an_depth AdaptiveProofs.mk]. rewrite (A a) by (left; reflexivity). apply in_app_iff in Hb. 
    destruct Hb as [Hb|Hb]; apply in_map_iff in Hb; destruct Hb as (q & <- & Hq); cbn [an_depth AdaptiveProofs.mk].
    + rewrite (A q) by (right; assumption). lia.
    + apply B. assumption.
Qed.
Lemma near_present p q : present p -> In q (nl_near ls p) -> present q.
Proof.
  intros P H. destruct (refined p) eqn:E.
  - rewrite (final_near_inner d pos c l cap srcs r h Hc Hh p P E) in H. apply (own_near_in d pos c l cap srcs r Hc p q P) in H. apply H.
  - apply (final_near_leaf d pos c l cap srcs r h Hc Hh p q P E) in H. apply H.
Qed.
Lemma inter_present p q : present p -> In q (nl_inter ls p) -> present q.
Proof. intros P H. apply (final_inter_in d pos c l cap srcs r h Hc Hh p q P) in H. apply H. Qed.
Lemma X_present p q : present p -> In q (nl_X ls p) -> present q.
Proof. intros P H. apply (final_X_in d pos c l cap srcs r h Hc Hh p q P) in H. apply H. Qed.
Lemma W_present p q : present p -> In q (nl_W ls p) -> present q.
Proof. intros P H. apply (final_W_in d pos c l cap srcs r h Hc Hh p q P) in H. apply H. Qed.

Definition head (k : nat) (n : node) : list (field R) := [FNat k; FBool (an_leaf n); FNat (an_depth n); FNum (an_len n)].
Notation centers p := (flat_map (fun q => center_of (mk q)) p).
Lemma adaptive_log : adaptive_to_file d cols t ls = Ok (logged
  (fun k p => [head k (mk p) ++ center_of (mk p)])
  (fun k p => if an_leaf (mk p) then [sources_row cols k (mk p)] else [])
  (fun k p => [head k (mk p) ++ center_of (mk p) ++ centers (nl_near ls p)])
  (fun k p => [head k (mk p) ++ center_of (mk p) ++ centers (nl_inter ls p)])
  (fun k p => if an_leaf (mk p) then [head k (mk p) ++ centers (nl_W ls p)] else [])
  (fun k p => [head k (mk p) ++ center_of (mk p) ++ centers (nl_X ls p)]) order).
Proof.
  unfold adaptive_to_file. rewrite (bfs_levels (children d t) (log_adaptive cols t ls) (S h)).
  - rewrite (flat_map_ext_in _ (level d pos c l cap srcs r)) by (intros; apply bfs_level_level; exact Hh). fold order.
    apply logged_fold. intros p lg Hp. apply (in_order _ _ _ _ _ _ _ _ Hh) in Hp. cbv zeta. unfold log_adaptive.
    rewrite (lookup_mk _ _ _ _ _ _ _ _ Hh p Hp). cbn [of_option bind].
    assert (L : forall q, present q -> lookup t q = Some (mk q)) by (intros; apply lookup_mk; assumption).
    rewrite (partner_fields_ok (lookup t) mk (nl_near ls p)) by (intros q Hq; apply L; eapply near_present; eassumption).
    rewrite (partner_fields_ok (lookup t) mk (nl_inter ls p)) by (intros q Hq; apply L; eapply inter_present; eassumption).
    rewrite (partner_fields_ok (lookup t) mk (nl_X ls p)) by (intros q Hq; apply L; eapply X_present; eassumption).
    rewrite (partner_fields_ok (lookup t) mk (nl_W ls p)) by (intros q Hq; apply L; eapply W_present; eassumption).
    unfold head. destruct (an_leaf (mk p)); cbn [omap bind]; rewrite <- !app_assoc; reflexivity.
  - rewrite (bfs_level_level d pos c l cap srcs r h Hh). apply (level_ext_empty _ _ _ _ _ _ _ h); [apply Hh|lia].
  - rewrite (flat_map_ext_in _ (level d pos c l cap srcs r)) by (intros; apply bfs_level_level; exact Hh). fold order.
    rewrite heap_length by assumption. lia.
Qed.
Lemma point_log : point_to_file d cols t = Ok (logged
  (fun k p => [head k (mk p) ++ center_of (mk p)])
  (fun k p => if an_leaf (mk p) then [sources_row cols k (mk p)] else [])
  (fun _ _ => []) (fun _ _ => []) (fun _ _ => []) (fun _ _ => []) order).
Proof.
  unfold point_to_file. rewrite (bfs_levels (children d t) (log_point d cols t) (S h)).
  - rewrite (flat_map_ext_in _ (level d pos c l cap srcs r)) by (intros; apply bfs_level_level; exact Hh). fold order.
    apply logged_fold. intros p lg Hp. apply (in_order _ _ _ _ _ _ _ _ Hh) in Hp. cbv zeta. unfold log_point.
    rewrite (lookup_mk _ _ _ _ _ _ _ _ Hh p Hp). cbn [of_option bind]. rewrite (children_eq _ _ _ _ _ _ _ _ Hh p Hp).
    assert (E : match (if refined p then kids d p else []) with [] => true | _ => false end = an_leaf (mk p)).
    { unfold AdaptiveProofs.mk. cbn [an_leaf]. destruct (refined p); [|reflexivity]. unfold kids, n_children.
      assert (2 ^ d <> 0) by (apply Nat.pow_nonzero; lia). destruct (2 ^ d); [contradiction|reflexivity]. }
    rewrite E, !app_nil_r. unfold head. reflexivity.
  - rewrite (bfs_level_level d pos c l cap srcs r h Hh). apply (level_ext_empty _ _ _ _ _ _ _ h); [apply Hh|lia].
  - rewrite (flat_map_ext_in _ (level d pos c l cap srcs r)) by (intros; apply bfs_level_level; exact Hh). fold order.
    rewrite heap_length by assumption. lia.
Qed.
End Built.
End Trees.
