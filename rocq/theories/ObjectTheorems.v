(** The properties of the log files and of the lifetime of the objects, for every constructed tree. *)
From Coq Require Import List Bool ZArith Arith Reals Lra Lia Permutation Sorted.
From Coquelicot Require Import Complex.
From Verif Require Import Num Outcome Vec Orthtree AdaptiveTree TreeSpec VecProofs GeometrySpec GeometryProofs TreeGeometry
  AdaptiveProofs BfsProofs ListProofs ListContents RootBoxProofs BuildProofs TreeTheorems TreeTheorems2 TreeTheorems3 BalancedTree BalancedSpec BalancedIndex BalancedAddr
  BalancedProofs BalancedApiProofs BalancedTheorems PointTree PointProofs Lifetime LifetimeProofs Output OutputSpec OutputProofs
  Tables Tables3D Expansion2D Expansion3D Table3DProofs Exp3Loops Fields FieldSpec FieldProofs FieldTheorems FmmPasses FmmTree2D FmmApi FmmApiProofs FmmTree3D Termination CAux Exp2Theorems.
Import ListNotations.

Section Files.
Context {Src : Type}.
Variable d : nat.
Variable pos : Src -> list R.
Variable cols : Src -> list R.

Lemma present_valid c l cap srcs r p : present d pos c l cap srcs r p -> valid d p.
Proof. induction p as [|i p IH]; [intros _; constructor|]. intros (Hi & P & _). constructor; [exact Hi|exact (IH P)]. Qed.

Theorem adaptive_files cap fuel srcs t ls : 1 <= d -> (forall s, In s srcs -> length (pos s) = d) ->
  build_adaptive d pos cap fuel srcs = Ok t -> all_lists d t = Ok ls ->
  exists lg order, adaptive_to_file d cols t ls = Ok lg /\ Permutation order (heap t) /\
  StronglySorted (fun a b => an_depth a <= an_depth b) order /\
  (let head k (n : anode) := [FNat k; FBool (an_leaf n); FNat (an_depth n); FNum (an_len n)] in
   let list_rows (f : addr -> list addr) := numbered (fun k n => [head k n ++ center_of n ++ centers_at (heap t) (f (an_addr n))]) 0 order in
   lg_geom lg = numbered (fun k n => [head k n ++ center_of n]) 0 order /\
   lg_points lg = numbered (fun k n => if an_leaf n then [sources_row cols k n] else []) 0 order /\
   lg_near lg = list_rows (nl_near ls) /\ lg_inter lg = list_rows (nl_inter ls) /\ lg_X lg = list_rows (nl_X ls) /\
   lg_W lg = numbered (fun k n => if an_leaf n then [head k n ++ centers_at (heap t) (nl_W ls (an_addr n))] else []) 0 order) /\
  (forall n, In n (heap t) -> all_boxes_of (heap t) (nl_near ls (an_addr n) ++ nl_inter ls (an_addr n) ++ nl_X ls (an_addr n) ++ nl_W ls (an_addr n))) /\
  (forall n m, In n (heap t) -> In m (heap t) -> an_center n = an_center m -> n = m).
Proof.
  intros Hd Hpos HB HL. destruct (adaptive_inv _ _ _ _ _ _ Hd Hpos HB) as (c & l & h & RB & Hc & _ & Hh & -> & HP & _).
  rewrite (lists_final d pos c l cap srcs (rr cap srcs) h Hc Hh HP) in HL. injection HL as <-.
  set (r := ByCount (rr cap srcs)) in *. set (t := spec_tree d pos c l cap srcs r h).
  assert (IH : forall n, In n (heap t) -> exists p, present d pos c l cap srcs r p /\ n = mk d pos c l cap srcs r p).
  { intros n Hn. apply (in_heap _ _ _ _ _ _ _ _ Hh) in Hn. exact Hn. }
  assert (PM := boxes_perm d pos c l cap srcs r h (heap t) (heap_addrs d pos c l cap srcs r h Hh) IH).
  assert (CA := centers_at_eq d pos c l cap srcs r h Hh (heap t)).
  eexists. exists (map (mk d pos c l cap srcs r) (order d pos c l cap srcs r h)).
  split; [apply (adaptive_log d pos cols c l cap srcs r h Hc Hh)|]. split; [exact PM|]. split; [apply depth_sorted; assumption|].
  split; [|split].
  - cbv zeta. unfold logged. cbn [lg_geom lg_points lg_near lg_inter lg_W lg_X].
    rewrite !numbered_map. split; [reflexivity|]. split; [reflexivity|].
    split; [|split; [|split]]; apply numbered_ext; intros k p Hp; apply (in_order _ _ _ _ _ _ _ _ Hh) in Hp; cbn [an_addr mk]; rewrite CA; try reflexivity; try exact PM; intros q Hq.
    + eapply near_present; eassumption.
    + eapply inter_present; eassumption.
    + eapply X_present; eassumption.
    + eapply W_present; eassumption.
  - intros n Hn q Hq. destruct (IH n Hn) as (p & P & ->). cbn [an_addr mk] in Hq.
    exists (mk d pos c l cap srcs r q). split; [|reflexivity]. apply (in_heap _ _ _ _ _ _ _ _ Hh). exists q. split; [|reflexivity].
    rewrite !in_app_iff in Hq. destruct Hq as [Hq|[Hq|[Hq|Hq]]].
    + eapply near_present; eassumption.
    + eapply inter_present; eassumption.
    + eapply X_present; eassumption.
    + eapply W_present; eassumption.
  - intros n m Hn Hm E. destruct (IH n Hn) as (p & P & ->). destruct (IH m Hm) as (q & Q & ->). cbn [an_center mk] in E. f_equal.
    destruct HP as [Hl|Hr].
    + apply (centers_distinct d c l Hd Hc Hl); auto; eapply present_valid; eassumption.
    + assert (h = 0) as ->.
      { apply (height_ok_unique d pos c l cap srcs r); [exact Hh|]. unfold r. rewrite Hr. split; [reflexivity|intros; lia]. }
      apply (present_depth _ _ _ _ _ _ _ _ Hh) in P, Q. destruct p; [|cbn in P; lia]. destruct q; [reflexivity|cbn in Q; lia].
Qed.

Theorem point_files cap fuel pts t : 1 <= d -> (forall s, In s pts -> length (pos s) = d) -> build_points d pos cap fuel pts = Ok t ->
  exists lg order, point_to_file d cols t = Ok lg /\ Permutation order (heap t) /\
  StronglySorted (fun a b => an_depth a <= an_depth b) order /\
  lg_geom lg = numbered (fun k n => [[FNat k; FBool (an_leaf n); FNat (an_depth n); FNum (an_len n)] ++ center_of n]) 0 order /\
  lg_points lg = numbered (fun k n => if an_leaf n then [sources_row cols k n] else []) 0 order.
Proof.
  intros Hd Hpos HB. destruct (points_inv _ _ _ _ _ _ Hd Hpos HB) as (c & l & h & RB & Hc & _ & H1 & Hh & ->).
  assert (PM := boxes_perm d pos c l cap pts true h _ (heap_addrs d pos c l cap pts true h Hh) (fun n => proj1 (in_heap _ _ _ _ _ _ _ _ Hh n))).
  eexists. exists (map (mk d pos c l cap pts true) (order d pos c l cap pts true h)).
  split; [apply (point_log d pos cols c l cap pts true h Hc Hh)|]. split; [exact PM|]. split; [apply depth_sorted; assumption|].
  unfold logged. cbn [lg_geom lg_points]. rewrite !numbered_map. split; reflexivity.
Qed.

(** The rows of the leaves determine their sources, if the written numbers do. *)
Theorem sources_recoverable w srcs (n m : @anode R Src) k k' : 0 < w -> (forall s, In s srcs -> length (cols s) = w) ->
  (forall s s', In s srcs -> In s' srcs -> cols s = cols s' -> s = s') ->
  (forall s, In s (an_srcs n) -> In s srcs) -> (forall s, In s (an_srcs m) -> In s srcs) ->
  sources_row cols k n = sources_row cols k' m -> k = k' /\ an_srcs n = an_srcs m.
Proof.
  intros Hw HL HI Hn Hm E. unfold sources_row in E. injection E as -> E. split; [reflexivity|].
  apply (flat_map_fixed_inj (fun s => map (@FNum R) (cols s)) w (fun s => In s srcs)); auto.
  - intros s Hs. rewrite map_length. apply HL. exact Hs.
  - intros a b Ha Hb K. apply HI; auto. apply FNum_inj. exact K.
Qed.
End Files.

Section BalancedFiles.
Context {Src : Type}.
Variable d : nat.
Variable pos : Src -> list R.
Variable cols : Src -> list R.
Variable h : nat.
Variable srcs : list Src.
Variable t : @btree R Src.
Variable ls : nlists.
Hypothesis Hd : 1 <= d.
Hypothesis Hpos : forall s, In s srcs -> length (pos s) = d.
Hypothesis H1 : 1 <= h.
Hypothesis Hh : h < 32.
Hypothesis Hdh : d * h <= 32.
Hypothesis HB : bal_build d pos h srcs = Ok (t, ls).

Theorem balanced_files : exists lg order, balanced_to_file cols t ls = Ok lg /\ Permutation order (boxes t) /\
  StronglySorted (fun a b => an_depth a <= an_depth b) order /\
  (let head k (n : anode) := [FNat k; FNat (an_depth n); FNum (an_len n)] ++ center_of n in
   let list_rows (f : addr -> list addr) := numbered (fun k n => [head k n ++ centers_at (boxes t) (f (an_addr n))]) 0 order in
   lg_geom lg = numbered (fun k n => [head k n]) 0 order /\
   lg_points lg = numbered (fun k n => if an_leaf n then [sources_row cols k n] else []) 0 order /\
   lg_near lg = list_rows (nl_near ls) /\ lg_inter lg = list_rows (nl_inter ls)) /\
  (forall n, In n (boxes t) -> all_boxes_of (boxes t) (nl_near ls (an_addr n) ++ nl_inter ls (an_addr n))) /\
  (forall n m, In n (boxes t) -> In m (boxes t) -> an_center n = an_center m -> n = m).
Proof.
  destruct (bal_inv d pos h srcs t ls Hd Hpos H1 Hh Hdh HB) as (c & l & ch & RB & Hc & Hl & Hin & Hch & Et & El).
  set (r := ByDepth h) in *. assert (HO := height_ok_bal d pos c l srcs h Hd Hc). fold r in HO.
  assert (IB : forall n, In n (boxes t) -> exists p, present d pos c l 0 srcs r p /\ n = mk d pos c l 0 srcs r p).
  { intros n Hn. destruct (box_inv d pos h srcs t ls Hd Hpos H1 Hh Hdh HB n Hn) as (c' & l' & p & RB' & _ & _ & P & ->).
    rewrite RB in RB'. injection RB' as <- <-. exists p. auto. }
  assert (OE : order d pos c l 0 srcs r h = flat_map (level d pos c l 0 srcs r) (seq 0 h) ++ level d pos c l 0 srcs r h).
  { unfold order. rewrite seq_S, flat_map_app. cbn [flat_map Nat.add]. rewrite app_nil_r. reflexivity. }
  assert (PM : Permutation (map (mk d pos c l 0 srcs r) (order d pos c l 0 srcs r h)) (boxes t)).
  { rewrite Et. unfold boxes, bal_spec. cbn [bt_nodes bt_leaves]. rewrite <- map_app, OE. apply Permutation_refl. }
  assert (CA := centers_at_eq d pos c l 0 srcs r h HO (boxes t)).
  assert (LF : forall p, present d pos c l 0 srcs r p -> match bt_children t p with [] => true | _ => false end = an_leaf (mk d pos c l 0 srcs r p)).
  { intros p P. rewrite Et. cbn [bt_children bal_spec]. rewrite Hch by exact P. unfold chs, mk. cbn [an_leaf]. fold r.
    destruct (refined d pos c l 0 srcs r p); [|reflexivity]. unfold kids, n_children.
    assert (2 ^ d <> 0) by (apply Nat.pow_nonzero; lia). destruct (2 ^ d); [contradiction|reflexivity]. }
  pose (hd := fun k (n : @anode R Src) => [FNat k; FNat (an_depth n); FNum (an_len n)] ++ center_of n).
  pose (cs := fun ps => flat_map (fun q => center_of (mk d pos c l 0 srcs r q)) ps).
  pose (M := mk d pos c l 0 srcs r).
  pose (G := logged (fun k p => [hd k (M p)]) (fun k p => if an_leaf (M p) then [sources_row cols k (M p)] else [])
    (fun k p => [hd k (M p) ++ cs (nl_near ls p)]) (fun k p => [hd k (M p) ++ cs (nl_inter ls p)]) (fun _ _ => []) (fun _ _ => [])).
  assert (E : balanced_to_file cols t ls = Ok (G (order d pos c l 0 srcs r h))).
  { unfold balanced_to_file.
    destruct (bfs_dynamic (fun (_ : @log R) p => bt_children t p) (log_balanced cols t ls) (chs d pos c l srcs h) [] (order d pos c l 0 srcs r h)
      (fun done lg => lg = G done) (@length nat)) with
      (rest := order d pos c l 0 srcs r h) (done := @nil addr) (q := [@nil nat]) (fuel := length (bt_nodes t) + length (bt_leaves t)) (st := @log_empty R) as (st & E & HI).
    - intros p x Hx. unfold chs in Hx. destruct (refined _ _ _ _ _ _ _ p); [|destruct Hx]. unfold kids in Hx. apply in_map_iff in Hx.
      destruct Hx as (i & <- & _). cbn. lia.
    - apply order_fix; assumption.
    - intros done p rest lg EO _ ->. assert (P : present d pos c l 0 srcs r p).
      { apply (in_order _ _ _ _ _ _ _ _ HO). rewrite EO. apply in_elt. }
      eexists. split; [|split; [rewrite Et; cbn [bt_children bal_spec]; apply Hch; exact P|reflexivity]].
      unfold log_balanced.
      assert (LK : forall q, present d pos c l 0 srcs r q -> bt_lookup t q = Some (M q)).
      { intros q Q. rewrite Et. apply bt_lookup_spec; assumption. }
      rewrite (LK p P). cbn [of_option bind]. rewrite (LF p P).
      rewrite (partner_fields_ok (bt_lookup t) M (nl_near ls p)) by (intros q Hq; apply LK; rewrite El in Hq; eapply near_present; eassumption).
      rewrite (partner_fields_ok (bt_lookup t) M (nl_inter ls p)) by (intros q Hq; apply LK; rewrite El in Hq; eapply inter_present; eassumption).
      cbn [bind]. unfold G. rewrite logged_snoc. cbv zeta. rewrite !app_nil_r. reflexivity.
    - reflexivity.
    - reflexivity.
    - reflexivity.
    - rewrite Et. cbn [bt_nodes bt_leaves bal_spec]. rewrite !map_length, OE, app_length. apply le_n.
    - rewrite E, HI. reflexivity. }
  exists (G (order d pos c l 0 srcs r h)), (map M (order d pos c l 0 srcs r h)).
  split; [exact E|]. split; [exact PM|]. split; [apply depth_sorted; assumption|]. split; [|split].
  - cbv zeta. unfold G, logged. cbn [lg_geom lg_points lg_near lg_inter lg_W lg_X]. rewrite !numbered_map.
    split; [reflexivity|]. split; [reflexivity|].
    split; apply numbered_ext; intros k p Hp; apply (in_order _ _ _ _ _ _ _ _ HO) in Hp; change (an_addr (M p)) with p; rewrite CA; try reflexivity; try exact PM; intros q Hq; rewrite El in Hq.
    + eapply near_present; eassumption.
    + eapply inter_present; eassumption.
  - intros n Hn q Hq. destruct (IB n Hn) as (p & P & ->). cbn [an_addr mk] in Hq.
    exists (M q). split; [|reflexivity]. apply (Permutation_in _ PM). apply in_map. apply (in_order _ _ _ _ _ _ _ _ HO).
    rewrite in_app_iff, El in Hq. destruct Hq as [Hq|Hq]; [eapply near_present; eassumption|eapply inter_present; eassumption].
  - intros n m Hn Hm EC. destruct (IB n Hn) as (p & P & ->). destruct (IB m Hm) as (q & Q & ->). cbn [an_center mk] in EC. f_equal.
    apply (centers_distinct d c l Hd Hc Hl); auto; eapply present_valid; eassumption.
Qed.
End BalancedFiles.

(** *** Printed expansions *)
Theorem print2_rows e : length (se_co e) = S (se_ord e) ->
  exists rows, print2 e = Ok rows /\ map fst rows = seq 0 (S (se_ord e)) /\ forall n a, In (n, a) rows -> se_get e n = Ok a.
Proof.
  intros L. exists (map (fun n => (n, nth n (se_co e) (RtoC 0))) (seq 0 (S (se_ord e)))).
  assert (G : forall n, In n (seq 0 (S (se_ord e))) -> nth_error (se_co e) n = Some (nth n (se_co e) (RtoC 0))).
  { intros n Hn. apply in_seq in Hn. apply nth_error_nth'. rewrite L. lia. }
  split; [|split].
  - unfold print2. apply omapM_ok. intros n Hn. rewrite (G n Hn). reflexivity.
  - rewrite map_map. cbn [fst]. apply map_id.
  - intros n a Ha. apply in_map_iff in Ha. destruct Ha as (k & E & Hk). injection E as -> <-. unfold se_get. rewrite (G n Hk). reflexivity.
Qed.
Theorem print3_rows e : (0 <= s3_ord e)%Z -> length (s3_co e) = Z.to_nat ((s3_ord e + 1) * (s3_ord e + 1)) ->
  exists rows, print3 e = Ok rows /\ NoDup (map fst rows) /\
  (forall n m, (exists a, In ((n, m), a) rows) <-> (0 <= n <= s3_ord e)%Z /\ (- n <= m <= n)%Z) /\
  (forall n m a, In ((n, m), a) rows -> s3_get e n m = Ok a).
Proof.
  intros Hp L. assert (JL := jk_length (s3_ord e) Hp). pose (co := s3_co e). pose (ps := jk_pairs (s3_ord e)).
  assert (LL : length ps = length co) by (unfold ps, co; lia).
  assert (E : print3 e = Ok (combine ps co)).
  { unfold print3. fold ps. fold co.
    assert (G : forall (rest : list (Z * Z)) (rco : list C) (done : list (Z * Z)) (dco : list C), length done = length dco -> length rest = length rco -> co = dco ++ rco ->
      ofold (fun st nm => bind (of_option (nth_error co (snd st))) (fun a => Ok (fst st ++ [(nm, a)], S (snd st)))) rest (combine done dco, length done)
      = Ok (combine done dco ++ combine rest rco, length done + length rest)).
    { induction rest as [|x rest IH]; intros [|y rco] done dco E1 E2 E3; try discriminate E2.
      - cbn. rewrite app_nil_r, Nat.add_0_r. reflexivity.
      - cbn [ofold fst snd]. rewrite E3 at 1. rewrite nth_error_app2 by lia. rewrite E1, Nat.sub_diag. cbn [nth_error of_option bind].
        assert (CB : combine (done ++ [x]) (dco ++ [y]) = combine done dco ++ [(x, y)]).
        { clear - E1. revert dco E1. induction done as [|u done IH]; intros [|v dco] E1; try discriminate E1; [reflexivity|]. cbn. f_equal. apply IH. injection E1; auto. }
        rewrite <- CB. replace (S (length dco)) with (length (done ++ [x])) by (rewrite app_length, E1; cbn; lia).
        rewrite (IH rco (done ++ [x]) (dco ++ [y])).
        + rewrite CB, <- app_assoc. cbn [combine app]. do 2 f_equal. rewrite app_length, E1. cbn. lia.
        + rewrite !app_length. cbn. lia.
        + injection E2; auto.
        + rewrite <- app_assoc. exact E3. }
    assert (G0 := G ps co [] [] eq_refl LL eq_refl). cbn [combine length app Nat.add] in G0. rewrite G0. reflexivity. }
  exists (combine ps co). split; [exact E|].
  assert (FS : map fst (combine ps co) = ps).
  { clear E. revert LL. generalize ps co. intros xs. induction xs as [|x xs IH]; intros [|y ys] LL; try discriminate LL; [reflexivity|]. cbn. f_equal. apply IH. injection LL; auto. }
  split; [rewrite FS|split].
  - assert (ND : NoDup (map (fun jk => sh_index (fst jk) (snd jk)) ps)).
    { unfold ps. rewrite jk_index by exact Hp. apply FinFun.Injective_map_NoDup; [intros a b; apply Nat2Z.inj|apply seq_NoDup]. }
    eapply NoDup_map_inv. exact ND.
  - intros n m. assert (IJ := in_jk (s3_ord e) n m). split.
    + intros (a & Ha). apply (in_map fst) in Ha. rewrite FS in Ha. cbn [fst] in Ha. apply IJ in Ha. lia.
    + intros H. assert (I : In (n, m) ps) by (apply IJ; lia). rewrite <- FS in I. apply in_map_iff in I. destruct I as ([nm a] & E1 & Ha). cbn in E1. subst nm. eauto.
  - intros n m a Ha. assert (Hnm : In (n, m) ps) by (apply (in_map fst) in Ha; rewrite FS in Ha; exact Ha).
    apply in_jk in Hnm. destruct Hnm as [Hn Hm]. assert (N := jk_nth (s3_ord e) n m Hm ltac:(lia)).
    assert (B := sh_index_bound n m (s3_ord e) Hm ltac:(lia)).
    destruct (In_nth_error _ _ Ha) as (i & Hi).
    assert (Hi1 : nth_error ps i = Some (n, m)) by (rewrite <- FS; rewrite nth_error_map, Hi; reflexivity).
    assert (ND : NoDup ps).
    { assert (ND : NoDup (map (fun jk => sh_index (fst jk) (snd jk)) ps)).
      { unfold ps. rewrite jk_index by exact Hp. apply FinFun.Injective_map_NoDup; [intros x y; apply Nat2Z.inj|apply seq_NoDup]. }
      eapply NoDup_map_inv. exact ND. }
    assert (i = Z.to_nat (sh_index n m)).
    { apply (proj1 (NoDup_nth_error ps) ND); [apply nth_error_Some; congruence|]. rewrite Hi1. symmetry. exact N. }
    subst i. unfold s3_get, zget. destruct (Z.ltb_spec (sh_index n m) 0); [lia|]. fold co.
    assert (nth_error co (Z.to_nat (sh_index n m)) = Some a); [|rewrite H0; reflexivity].
    clear - Hi. revert Hi. generalize (Z.to_nat (sh_index n m)). generalize ps co. intros xs. induction xs as [|x xs IH]; intros [|y ys] [|k] Hi; try discriminate Hi.
    + cbn in *. congruence.
    + cbn in *. apply IH. exact Hi.
Qed.
(** A default-constructed expansion has order 0 and no coefficient: printing it reads past the end. *)
Theorem print_default : print2 (mkse 0 (RtoC 0) []) = UB /\ print3 s3_default = UB.
Proof. split; reflexivity. Qed.

(** *** Lifetimes *)
Section Lifetimes.
Context {Src : Type}.
Variable d : nat.
Variable pos : Src -> list R.
Notation heap := AdaptiveTree.heap.

Lemma spec_height c l cap srcs r h : at_height (spec_tree d pos c l cap srcs r h) = h.
Proof. reflexivity. Qed.

Theorem adaptive_lifetime cap fuel srcs t : 1 <= d -> (forall s, In s srcs -> length (pos s) = d) ->
  build_adaptive d pos cap fuel srcs = Ok t ->
  forall o m0, (forall n, In n (heap t) -> m0 (o, an_addr n) = false) ->
  exists m1, construct o t m0 = Ok m1 /\ (forall n, In n (heap t) -> m1 (o, an_addr n) = true) /\
    forall depth, at_height t < depth -> exists m2, destroy d o t depth m1 = Ok m2 /\ (forall b, m2 b = m0 b) /\ destroy d o t depth m2 = UB.
Proof.
  intros Hd Hpos HB. destruct (adaptive_inv _ _ _ _ _ _ Hd Hpos HB) as (c & l & h & RB & Hc & _ & Hh & -> & _).
  intros o m0 F. exact (lifetime d pos c l cap srcs _ h Hh o m0 F).
Qed.
Theorem point_lifetime cap fuel srcs t : 1 <= d -> (forall s, In s srcs -> length (pos s) = d) ->
  build_points d pos cap fuel srcs = Ok t ->
  forall o m0, (forall n, In n (heap t) -> m0 (o, an_addr n) = false) ->
  exists m1, construct o t m0 = Ok m1 /\ (forall n, In n (heap t) -> m1 (o, an_addr n) = true) /\
    forall depth, at_height t < depth -> exists m2, destroy d o t depth m1 = Ok m2 /\ (forall b, m2 b = m0 b) /\ destroy d o t depth m2 = UB.
Proof.
  intros Hd Hpos HB. destruct (points_inv _ _ _ _ _ _ Hd Hpos HB) as (c & l & h & RB & Hc & _ & _ & Hh & ->).
  intros o m0 F. exact (lifetime d pos c l cap srcs _ h Hh o m0 F).
Qed.

Theorem balanced_lifetime h srcs t ls : 1 <= d -> (forall s, In s srcs -> length (pos s) = d) -> h < 32 -> d * h <= 32 ->
  bal_build d pos h srcs = Ok (t, ls) ->
  exists c l, root_box d (map pos srcs) = Some (c, l) /\ forall o m0, (forall b, m0 (o, b) = false) ->
  exists m1 ks, bal_construct d pos o h c l srcs m0 = Ok (m1, Ok ks) /\ m1 (o, BLeaves) = true /\ m1 (o, BTable) = false /\
  exists m2, bal_destroy o h ks m1 = Ok m2 /\ (forall b, m2 b = m0 b) /\ bal_destroy o h ks m2 = UB.
Proof.
  intros Hd Hpos Hh Hdh HB. destruct h as [|h'] eqn:EH.
  - unfold bal_build in HB. destruct (root_box d (map pos srcs)) as [[c l]|]; [|discriminate]. exists c, l. split; [reflexivity|].
    intros o m0 F. unfold bal_construct.
    destruct (alloc1 obblock_eqb obblock_eqb_eq (o, BLeaves) m0 (F _)) as (m1 & E1 & A1 & C1).
    destruct (alloc1 obblock_eqb obblock_eqb_eq (o, BVec 0) m1) as (m2 & E2 & A2 & C2); [rewrite C1 by congruence; apply F|].
    unfold balloc. rewrite E1. cbn [bind]. rewrite E2. cbn [bind]. exists m2, [0]. split; [reflexivity|]. split; [rewrite C2 by congruence; exact A1|].
    split; [rewrite C2, C1 by congruence; apply F|].
    destruct (release1 obblock_eqb obblock_eqb_eq (o, BVec 0) m2 A2) as (m3 & E3 & A3 & C3).
    destruct (release1 obblock_eqb obblock_eqb_eq (o, BLeaves) m3) as (m4 & E4 & A4 & C4); [rewrite C3, C2 by congruence; exact A1|].
    assert (EQ : forall b, m4 b = m0 b).
    { intros [o' b]. destruct (Nat.eq_dec o' o) as [->|NE]; [|rewrite C4, C3, C2, C1 by congruence; reflexivity]. rewrite F.
      destruct b as [| | |k]; [rewrite C4, C3, C2, C1 by congruence; apply F|exact A4|rewrite C4, C3, C2, C1 by congruence; apply F|].
      destruct (Nat.eq_dec k 0) as [->|NK]; [rewrite C4 by congruence; exact A3|rewrite C4, C3, C2, C1 by congruence; apply F]. }
    exists m4. unfold bal_destroy. cbn [bind rev app ofold]. unfold brelease. split; [|split; [exact EQ|]].
    + rewrite C2, A1 by congruence. rewrite E3. cbn [bind]. exact E4.
    + rewrite EQ, F. reflexivity.
  - rewrite <- EH in *. assert (H1 : 1 <= h) by lia. clear EH.
    destruct (bal_inv d pos h srcs t ls Hd Hpos H1 Hh Hdh HB) as (c & l & ch & RB & Hc & Hl & Hin & _). exists c, l. split; [exact RB|].
    intros o m0 F. destruct (bal_lifetime d pos c l srcs h Hd Hc Hpos Hl H1 Hh Hdh o m0 Hin F) as (m1 & ks & E & T & m2 & D & EQ & U).
    exists m1, ks. split; [exact E|]. split; [|split; [exact T|exists m2; auto]].
    unfold bal_destroy in D. destruct h as [|h'']; [lia|]. unfold brelease at 1, release in D.
    destruct (m1 (o, BNodes)) eqn:BN; [|discriminate]. cbn [bind] in D.
    destruct (m1 (o, BLeaves)); [reflexivity|]. rewrite andb_false_r in D. discriminate.
Qed.

Lemma flat_box h c x : h < 32 -> leaf_box_indices d h c 0%R x = UB.
Proof.
  intros Hh. unfold leaf_box_indices. rewrite boxes_eq by exact Hh. cbn [bind]. unfold neqb. cbn [nleb n0 NumR].
  assert (E : Rleb 0 0 = true) by (apply Rleb_true; lra). rewrite E. reflexivity.
Qed.
Lemma fill_inside h c l srcs bs : 1 <= d -> (forall s, In s srcs -> length (pos s) = d) -> h < 32 -> root_box d (map pos srcs) = Some (c, l) ->
  fill_buckets d pos h c l srcs = Ok bs -> (0 < l)%R /\ forall s, In s srcs -> in_half_open d c l (pos s).
Proof.
  intros Hd Hpos Hh RB EF. destruct (root_len d pos srcs Hd Hpos c l RB) as [Hc Hl0].
  assert (B : forall s, In s srcs -> exists idx, leaf_box_indices d h c l (pos s) = Ok idx).
  { unfold fill_buckets in EF. eapply ofold_all; [|exact EF]. intros a x b Hx E. unfold bucket_of in E.
    destruct (leaf_box_indices d h c l (pos x)) as [idx| | | | |]; try discriminate. exists idx. reflexivity. }
  assert (Hl : (0 < l)%R).
  { destruct Hl0 as [|E0]; [assumption|exfalso]. subst l. destruct srcs as [|s ss]; [exact (root_nonempty d pos Hd c 0%R RB)|].
    destruct (B s ltac:(left; reflexivity)) as (idx & Hi). rewrite flat_box in Hi by exact Hh. discriminate. }
  split; [exact Hl|]. intros s Hs. destruct (B s Hs) as (idx & Hi). eapply indices_ok_in; try eassumption. apply Hpos. exact Hs.
Qed.

(** An exception in the constructor of the balanced tree: everything allocated so far stays allocated. *)
Theorem balanced_exception h srcs : 1 <= d -> (forall s, In s srcs -> length (pos s) = d) -> 1 <= h -> h < 32 -> d * h <= 32 ->
  bal_build d pos h srcs = Throw ->
  exists c l, root_box d (map pos srcs) = Some (c, l) /\ forall o m0, (forall b, m0 (o, b) = false) ->
  exists m1, bal_construct d pos o h c l srcs m0 = Ok (m1, Throw) /\
    m1 (o, BNodes) = true /\ m1 (o, BLeaves) = true /\ m1 (o, BTable) = true /\ forall k, k < (2 ^ d) ^ h -> m1 (o, BVec k) = true.
Proof.
  intros Hd Hpos H1 Hh Hdh HB. destruct (root_box d (map pos srcs)) as [[c l]|] eqn:RB; [|unfold bal_build in HB; rewrite RB in HB; discriminate].
  exists c, l. split; [reflexivity|]. destruct (root_len d pos srcs Hd Hpos c l RB) as [Hc Hl0].
  assert (HF : (0 < l)%R /\ fill_buckets d pos h c l srcs = Throw).
  { assert (EB : forall r, bal_build d pos h srcs <> Ok r) by (intros r Hr; rewrite HB in Hr; discriminate).
    assert (HF : fill_buckets d pos h c l srcs = Throw).
    { destruct (fill_buckets d pos h c l srcs) as [bs| | | | |] eqn:EF; [exfalso|reflexivity|exfalso..].
      - destruct (fill_inside h c l srcs bs Hd Hpos Hh RB EF) as [Hl Hin].
        destruct (proj2 (bal_build_iff d pos srcs Hd Hpos h c l H1 Hh Hdh RB) (conj Hl Hin)) as (r & Hr). exact (EB r Hr).
      all: unfold bal_build in HB; rewrite RB in HB; destruct (expand_all_ok d pos c l srcs h Hd Hc Hpos H1) as (st & ES & _);
        destruct h as [|h']; [lia|]; rewrite ES in HB; cbn [bind] in HB; unfold distribute in HB; rewrite EF in HB; discriminate. }
    split; [|exact HF]. destruct Hl0 as [Hl|Hl0]; [exact Hl|exfalso]. subst l. destruct srcs as [|s ss]; [exact (root_nonempty d pos Hd c 0%R RB)|].
    unfold fill_buckets in HF. cbn [ofold] in HF. unfold bucket_of at 1 in HF. rewrite flat_box in HF by exact Hh. discriminate. }
  destruct HF as [Hl HF]. intros o m0 F. destruct (bal_throw_leaks d pos c l srcs h Hd Hc Hpos Hl H1 Hh Hdh o m0 HF F) as (m1 & E & A & B & T & V).
  exists m1. repeat (split; [assumption|]). exact V.
Qed.
End Lifetimes.

Lemma two_left_throw : bal_build 2 (fun x => x) 1 [[-1; -1]; [-2; -2]]%R = Throw.
Proof.
  destruct (root_box_spec 2 [[-1; -1]; [-2; -2]]%R ltac:(lia) ltac:(discriminate)) as (lo & hi & c & l & (_ & _ & EB) & RB & Hc & CC & LL & j & Hj & EL).
  { intros x [<-|[<-|[]]]; reflexivity. }
  assert (B : forall i, i < 2 -> nth i lo 0%R = (-2)%R /\ nth i hi 0%R = (-1)%R).
  { intros i Hi. destruct (EB i Hi) as (A & (x & Ix & Ex) & (y & Iy & Ey)).
    assert (A1 := A _ (or_introl eq_refl)). assert (A2 := A _ (or_intror (or_introl eq_refl))).
    destruct i as [|[|i]]; [| |lia]; cbn in A1, A2; destruct Ix as [<-|[<-|[]]]; destruct Iy as [<-|[<-|[]]]; cbn in Ex, Ey; lra. }
  assert (L : l = (1 + eps5)%R). { destruct (B j Hj) as [B1 B2]. rewrite EL, B1, B2. lra. }
  assert (E5 : (0 < eps5 < 1)%R) by (unfold eps5; lra).
  unfold bal_build. rewrite map_id, RB.
  destruct (expand_all_ok 2 (fun x : list R => x) c l [[-1; -1]; [-2; -2]]%R 1 ltac:(lia) Hc ltac:(intros x [<-|[<-|[]]]; reflexivity) ltac:(lia)) as (st & ES & _).
  rewrite ES. cbn [bind]. unfold distribute, fill_buckets. cbn [ofold]. unfold bucket_of at 1.
  rewrite (indices_above 2 1 c l Hc ltac:(lra) ltac:(lia) [-1; -1]%R 0 eq_refl ltac:(lia)); [reflexivity|intros; lia|].
  cbn [nth]. rewrite CC by lia. destruct (B 0 ltac:(lia)) as [B1 B2]. rewrite B1, B2, L. lra.
Qed.

(** *** The object refers to the caller's vector of sources *)
Lemma force_away d grav safe eps srcs x : length x = d -> same_dim d srcs -> (forall s, In s srcs -> ps_pos s <> x) -> (0 <= eps)%R ->
  forcefield_sum d grav safe eps srcs x = Ok (direct_force d grav eps srcs x).
Proof.
  intros Hx Hd Hn He. apply forcefield_sum_eval; [exact Hx|exact Hd|]. intros s Hin. split; [intros _; apply Hn; exact Hin|].
  apply Rgt_not_eq, force_den_pos; [|exact He]. apply dist_pos; [rewrite (Hd s Hin); congruence|apply Hn; exact Hin].
Qed.
Section Referenced.
Context {ME LE Tb : Type}.
Variable o : ops ME LE Tb.
Variable d : nat.
Hypothesis Hd : 1 <= d.

Lemma made_tree cap fuel srcs tb f : make_fmm o d cap fuel srcs tb (Ok f) -> build_adaptive d (@ps_pos R) cap fuel srcs = Ok (f_tree f).
Proof.
  intros H. remember (Ok f) as r eqn:E. destruct H as [r' H N|t r' H1 H N|t ls H1 H2 _|t ls H1 H2 _ _|t ls r' H1 H2 _ _ _ _].
  - destruct r' as [t| | | | |]; try discriminate E. exfalso. exact (N t eq_refl).
  - destruct r' as [ls| | | | |]; try discriminate E. exfalso. exact (N ls eq_refl).
  - injection E as <-. exact H1.
  - discriminate E.
  - destruct r' as [m| | | | |]; try discriminate E. injection E as <-. exact H1.
Qed.
Theorem referenced cap fuel srcs tb f c l : same_dim d srcs -> make_fmm o d cap fuel srcs tb (Ok f) ->
  root_box d (map (@ps_pos R) srcs) = Some (c, l) -> forall now grav smooth x,
  (in_box d c l x -> eval_pot o d grav now f x = eval_pot o d grav srcs f x /\ eval_force o d grav smooth now f x = eval_force o d grav smooth srcs f x) /\
  (~ in_box d c l x -> eval_pot o d grav now f x = potential_sum d grav false now x /\ eval_force o d grav smooth now f x = forcefield_sum d grav false smooth now x).
Proof.
  intros Hs HM HR now grav smooth x. apply made_tree in HM.
  destruct (adaptive_inv _ _ _ _ _ _ Hd Hs HM) as (c' & l' & h & RB & Hc & _ & Hh & Et & _). rewrite HR in RB. injection RB as <- <-.
  unfold eval_pot, eval_force. rewrite Et.
  destruct (containing_leaf_spec _ _ _ _ _ _ _ _ Hh x Hc) as (L & _ & _ & _ & [(HB & _ & ->)|(HB & ->)]); cbn [bind]; (split; intros H; [|]); try contradiction; split; reflexivity.
Qed.
End Referenced.

Theorem referenced2 cap fuel eps srcs tb obj c l : same_dim 2 srcs -> adaptive_fmm2 cap fuel eps srcs tb (Ok obj) ->
  root_box 2 (map (@ps_pos R) srcs) = Some (c, l) -> forall now grav smooth x,
  (in_box 2 c l x -> potential_at grav now obj x = potential_at grav srcs obj x /\ force_at grav smooth now obj x = force_at grav smooth srcs obj x) /\
  (~ in_box 2 c l x -> length x = 2 -> same_dim 2 now -> (forall s, In s now -> ps_pos s <> x) -> (0 <= smooth)%R ->
     potential_at grav now obj x = Ok (direct_potential 2 grav now x) /\ force_at grav smooth now obj x = Ok (direct_force 2 grav smooth now x)).
Proof.
  intros Hs HA HR now grav smooth x.
  assert (HM : make_fmm (ops2 (fo_order obj)) 2 cap fuel srcs tb (Ok (fo_fmm obj))).
  { remember (Ok obj) as r eqn:E. destruct HA as [r' _ N|p r' _ HM].
    - destruct r' as [p| | | | |]; try discriminate E.
    - destruct r' as [f| | | | |]; try discriminate E. injection E as <-. exact HM. }
  destruct (referenced (ops2 (fo_order obj)) 2 ltac:(lia) cap fuel srcs tb (fo_fmm obj) c l Hs HM HR now grav smooth x) as [I O].
  split; [exact I|]. intros HX Hx Hn Ha Hsm. destruct (O HX) as [O1 O2]. unfold potential_at, force_at, eval_pot2, eval_force2. rewrite O1, O2. split.
  - apply potential_sum_away; [rewrite Hx; exact Hn|exact Ha].
  - apply force_away; assumption.
Qed.
Theorem referenced3 cap fuel eps srcs tb obj c l : same_dim 3 srcs -> adaptive_fmm3 cap fuel eps srcs tb (Ok obj) ->
  root_box 3 (map (@ps_pos R) srcs) = Some (c, l) -> forall now grav smooth x,
  (in_box 3 c l x -> potential3_at grav now obj x = potential3_at grav srcs obj x /\ force3_at grav smooth now obj x = force3_at grav smooth srcs obj x) /\
  (~ in_box 3 c l x -> length x = 3 -> same_dim 3 now -> (forall s, In s now -> ps_pos s <> x) -> (0 <= smooth)%R ->
     potential3_at grav now obj x = Ok (direct_potential 3 grav now x) /\ force3_at grav smooth now obj x = Ok (direct_force 3 grav smooth now x)).
Proof.
  intros Hs HA HR now grav smooth x.
  assert (HM : exists tb', make_fmm (ops3 (f3_order obj)) 3 cap fuel srcs tb' (Ok (f3_fmm obj))).
  { remember (Ok obj) as r eqn:E. destruct HA as [r' _ N|p r' _ _ N|p tb' r' _ _ HM].
    - destruct r' as [p| | | | |]; try discriminate E.
    - destruct r' as [p'| | | | |]; try discriminate E.
    - destruct r' as [f| | | | |]; try discriminate E. injection E as <-. exists tb'. exact HM. }
  destruct HM as [tb' HM].
  destruct (referenced (ops3 (f3_order obj)) 3 ltac:(lia) cap fuel srcs tb' (f3_fmm obj) c l Hs HM HR now grav smooth x) as [I O].
  split; [exact I|]. intros HX Hx Hn Ha Hsm. destruct (O HX) as [O1 O2]. unfold potential3_at, force3_at. rewrite O1, O2. split.
  - apply potential_sum_away; [rewrite Hx; exact Hn|exact Ha].
  - apply force_away; assumption.
Qed.

(** *** The two halves of the lifetime *)
Lemma forget_copy {Src} {d : nat} (t : @atree R Src) :
  (forall o m0, (forall n, In n (AdaptiveTree.heap t) -> m0 (o, an_addr n) = false) ->
  exists m1, construct o t m0 = Ok m1 /\ (forall n, In n (AdaptiveTree.heap t) -> m1 (o, an_addr n) = true) /\
    forall depth, at_height t < depth -> exists m2, destroy d o t depth m1 = Ok m2 /\ (forall b, m2 b = m0 b) /\ destroy d o t depth m2 = UB) ->
  forall o m0, (forall n, In n (AdaptiveTree.heap t) -> m0 (o, an_addr n) = false) ->
  exists m1, construct o t m0 = Ok m1 /\ (forall n, In n (AdaptiveTree.heap t) -> m1 (o, an_addr n) = true) /\
    forall depth, at_height t < depth -> exists m2, destroy d o t depth m1 = Ok m2 /\ forall b, m2 b = m0 b.
Proof.
  intros H o m0 F. destruct (H o m0 F) as (m1 & E & A & D). exists m1. split; [exact E|]. split; [exact A|].
  intros depth Hd. destruct (D depth Hd) as (m2 & E2 & Q & _). exists m2. auto.
Qed.
Lemma only_copy {Src} {d : nat} (t : @atree R Src) :
  (forall o m0, (forall n, In n (AdaptiveTree.heap t) -> m0 (o, an_addr n) = false) ->
  exists m1, construct o t m0 = Ok m1 /\ (forall n, In n (AdaptiveTree.heap t) -> m1 (o, an_addr n) = true) /\
    forall depth, at_height t < depth -> exists m2, destroy d o t depth m1 = Ok m2 /\ (forall b, m2 b = m0 b) /\ destroy d o t depth m2 = UB) ->
  forall o m0, (forall n, In n (AdaptiveTree.heap t) -> m0 (o, an_addr n) = false) ->
  exists m1, construct o t m0 = Ok m1 /\ forall depth, at_height t < depth -> bind (destroy d o t depth m1) (destroy d o t depth) = UB.
Proof.
  intros H o m0 F. destruct (H o m0 F) as (m1 & E & A & D). exists m1. split; [exact E|].
  intros depth Hd. destruct (D depth Hd) as (m2 & E2 & _ & U). rewrite E2. exact U.
Qed.
Theorem balanced_destructor {Src} d (pos : Src -> list R) h srcs t ls : 1 <= d -> (forall s, In s srcs -> length (pos s) = d) ->
  h < 32 -> d * h <= 32 -> bal_build d pos h srcs = Ok (t, ls) ->
  exists c l, root_box d (map pos srcs) = Some (c, l) /\ forall o m0, (forall b, m0 (o, b) = false) ->
  exists m1 ks, bal_construct d pos o h c l srcs m0 = Ok (m1, Ok ks) /\ m1 (o, BLeaves) = true /\ m1 (o, BTable) = false /\
  exists m2, bal_destroy o h ks m1 = Ok m2 /\ forall b, m2 b = m0 b.
Proof.
  intros Hd Hpos Hh Hdh HB. destruct (balanced_lifetime d pos h srcs t ls Hd Hpos Hh Hdh HB) as (c & l & RB & H). exists c, l. split; [exact RB|].
  intros o m0 F. destruct (H o m0 F) as (m1 & ks & E & A & T & m2 & D & Q & _). exists m1, ks. repeat (split; [assumption|]). exists m2. auto.
Qed.
Theorem balanced_copy {Src} d (pos : Src -> list R) h srcs t ls : 1 <= d -> (forall s, In s srcs -> length (pos s) = d) ->
  h < 32 -> d * h <= 32 -> bal_build d pos h srcs = Ok (t, ls) ->
  exists c l, root_box d (map pos srcs) = Some (c, l) /\ forall o m0, (forall b, m0 (o, b) = false) ->
  exists m1 ks, bal_construct d pos o h c l srcs m0 = Ok (m1, Ok ks) /\ bind (bal_destroy o h ks m1) (bal_destroy o h ks) = UB.
Proof.
  intros Hd Hpos Hh Hdh HB. destruct (balanced_lifetime d pos h srcs t ls Hd Hpos Hh Hdh HB) as (c & l & RB & H). exists c, l. split; [exact RB|].
  intros o m0 F. destruct (H o m0 F) as (m1 & ks & E & A & T & m2 & D & Q & U). exists m1, ks. split; [exact E|]. rewrite D. exact U.
Qed.

(** *** Cases *)
Lemma five_trees : (exists fuel t ls, build_adaptive 2 (fun x => x) 1 fuel five = Ok t /\ all_lists 2 t = Ok ls) /\
  (exists fuel t, build_points 2 (fun x => x) 1 fuel five = Ok t) /\ exists t ls, bal_build 2 (fun x => x) 1 five = Ok (t, ls).
Proof.
  split; [|split; [exact five_points|exact five_built]].
  destruct five_builds as (fuel & t & H). exists fuel, t.
  destruct (adaptive_lists_ok 2 (fun x : list R => x) 1 fuel five t ltac:(lia) five_dim H) as (ls & HL). exists ls. auto.
Qed.
Lemma zero_lengths : length (se_co (se_zero [1; 2]%R 4)) = S (se_ord (se_zero [1; 2]%R 4)) /\ (0 <= s3_ord (s3_zero [0; 0; 0]%R 3))%Z /\
  length (s3_co (s3_zero [0; 0; 0]%R 3)) = Z.to_nat ((3 + 1) * (3 + 1)).
Proof. split; [reflexivity|]. split; [cbn; lia|reflexivity]. Qed.
Theorem not_a_snapshot : exists cap fuel eps srcs obj now x, same_dim 2 srcs /\ same_dim 2 now /\
  adaptive_fmm2 cap fuel eps srcs (table_after []) (Ok obj) /\ potential_at true now obj x <> potential_at true srcs obj x.
Proof.
  destruct five_unit_case as (H1 & H2 & H3 & H4 & H5).
  destruct (fmm2_usable [] 1 1%R five_unit 3 H1 H2 H3 H4 H5) as (fuel & obj & c & l & RB & Hbox & U & _).
  assert (HA : adaptive_fmm2 1 fuel 1%R five_unit (table_after []) (Ok obj)) by (apply U; reflexivity).
  pose (x := [10; 10]%R).
  assert (OUT : ~ in_box 2 c l x).
  { intros HX. destruct (root_box_spec 2 (map (@ps_pos R) five_unit) ltac:(lia)) as (lo & hi & c' & l' & (_ & _ & EB) & RB' & Hc & CC & LL & (k & Hk & Ek)).
    { discriminate. } { intros y Hy. apply in_map_iff in Hy. destruct Hy as (s & <- & Hs). apply H1. exact Hs. }
    rewrite RB in RB'. injection RB' as <- <-.
    assert (B : forall j, j < 2 -> (-1 <= nth j lo 0 <= 1)%R /\ (-1 <= nth j hi 0 <= 1)%R).
    { assert (F : forall j y, j < 2 -> In y (map (@ps_pos R) five_unit) -> (-1 <= nth j y 0 <= 1)%R).
      { intros j y Hj Hy. unfold five_unit in Hy. rewrite map_map in Hy. cbn [ps_pos] in Hy. rewrite map_id in Hy.
        destruct five_bounds as (F & _). destruct (F j Hj) as (G & _). specialize (G y Hy). destruct j as [|[|j]]; [| |lia]; cbn in G; lra. }
      intros j Hj. destruct (EB j Hj) as (_ & (y & Iy & Ey) & (z & Iz & Ez)). rewrite Ey, Ez. split; apply F; assumption. }
    specialize (HX 0 ltac:(lia)). rewrite CC in HX by lia. destruct (B 0 ltac:(lia)) as [B1 B2]. destruct (B k Hk) as [B3 B4]. rewrite Ek in HX.
    unfold x, eps5 in HX. cbn [nth] in HX. lra. }
  assert (V0 : potential_at true [] obj x = Ok 0%R).
  { destruct (referenced2 1 fuel 1%R five_unit _ obj c l H1 HA RB [] true 0%R x) as [_ O].
    destruct (O OUT eq_refl) as [-> _]; [intros s []|intros s []|lra|reflexivity]. }
  assert (V1 : potential_at true [PSrc [8; 10]%R 1%R] obj x = Ok (ln 2)).
  { destruct (referenced2 1 fuel 1%R five_unit _ obj c l H1 HA RB [PSrc [8; 10]%R 1%R] true 0%R x) as [_ O].
    destruct (O OUT eq_refl) as [-> _]; [intros s [<-|[]]; reflexivity| |lra|].
    - intros s [<-|[]]. unfold x. cbn. intros E. injection E. lra.
    - f_equal. unfold direct_potential, kernel, field_sign, dist, rsum, x. cbn.
      match goal with |- context [sqrt ?e] => replace e with (2 * 2)%R by ring end. rewrite sqrt_square by lra. lra. }
  assert (L2 : (0 < ln 2)%R) by (rewrite <- ln_1; apply ln_increasing; lra).
  assert (D : potential_at true [] obj x <> potential_at true five_unit obj x \/ potential_at true [PSrc [8; 10]%R 1%R] obj x <> potential_at true five_unit obj x).
  { rewrite V0, V1. destruct (potential_at true five_unit obj x) as [v| | | | |]; try (left; discriminate).
    destruct (Req_dec v 0) as [->|N]; [right|left]; intros E; injection E; lra. }
  destruct D as [D|D]; exists 1, fuel, 1%R, five_unit, obj; [exists []|exists [PSrc [8; 10]%R 1%R]]; exists x; (split; [exact H1|]); (split; [|split; [exact HA|exact D]]).
  - intros s [].
  - intros s [<-|[]]. reflexivity.
Qed.
