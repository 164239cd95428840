(** Proofs about examples/integrator.cpp and about reading and writing files. *)
From Coq Require Import List Bool ZArith Arith Lia Lra Reals Permutation.
From Verif Require Import Num Outcome Vec Tables TableProofs CAux Schedule Fields FieldSpec FieldSchedules FmmPasses FmmApi FmmApiProofs
  Interfaces InterfaceProofs InterfaceTheorems.
Import ListNotations.
Local Open Scope R_scope.
Local Open Scope outcome_scope.

(** ** Sequential loops *)
Lemma ofold_fns {A S} (st : A -> S -> outcome S) l s : ofold (fun s a => st a s) l s = ofold (fun s f => f s) (map st l) s.
Proof. revert s. induction l as [|a l IH]; intros s; [reflexivity|]. cbn [ofold map]. destruct (st a s); cbn [bind]; try reflexivity. apply IH. Qed.
Lemma ofold_concat {A S} (f : S -> A -> outcome S) (ls : list (list A)) s : ofold (fun s l => ofold f l s) ls s = ofold f (concat ls) s.
Proof. revert s. induction ls as [|l ls IH]; intros s; [reflexivity|]. cbn [ofold concat]. rewrite ofold_app. destruct (ofold f l s); cbn [bind]; try reflexivity. apply IH. Qed.
Lemma ofold_map {A B S} (g : A -> B) (f : S -> B -> outcome S) l s : ofold f (map g l) s = ofold (fun s a => f s (g a)) l s.
Proof. revert s. induction l as [|a l IH]; intros s; [reflexivity|]. cbn [ofold map]. destruct (f s (g a)); cbn [bind]; try reflexivity. apply IH. Qed.
Lemma ofold_ext_in {A S} (f g : S -> A -> outcome S) l s : (forall s a, In a l -> f s a = g s a) -> ofold f l s = ofold g l s.
Proof.
  revert s. induction l as [|a l IH]; intros s H; [reflexivity|]. cbn [ofold]. rewrite H by (left; reflexivity). destruct (g s a); cbn [bind]; try reflexivity.
  apply IH. intros; apply H; right; assumption.
Qed.
(** Two nested counting loops are one. *)
Lemma ofold_nested {S} (st : nat -> S -> outcome S) n d s :
  ofold (fun s i => ofold (fun s j => st (i * d + j)%nat s) (seq 0 d) s) (seq 0 n) s = ofold (fun s k => st k s) (seq 0 (n * d)) s.
Proof.
  replace (n * d)%nat with (d * n)%nat by lia. rewrite <- (concat_seq d n 0), <- ofold_concat, ofold_map. apply ofold_ext_in. intros s' i _. rewrite ofold_map.
  apply ofold_ext_in. intros s'' j _. f_equal. lia.
Qed.
Lemma lset_app {A} (u : list A) z w x : lset (u ++ z :: w) (length u) x = u ++ x :: w.
Proof. induction u as [|a u IH]; [reflexivity|]. cbn [length app lset]. f_equal. exact IH. Qed.
(** Successive writes. *)
Lemma seq_writes {A} (val : nat -> A) m a v : (a + m <= length v)%nat ->
  ofold (fun v k => wr v (a + k) (val k)) (seq 0 m) v = Ok (firstn a v ++ map val (seq 0 m) ++ skipn (a + m) v).
Proof.
  induction m as [|m IH]; intros H.
  - cbn [seq ofold map app]. rewrite Nat.add_0_r, firstn_skipn. reflexivity.
  - rewrite seq_S, ofold_app, IH by lia. cbn [bind ofold Nat.add]. rewrite wr_ok.
    + cbn [bind]. f_equal. rewrite map_app. cbn [map]. rewrite <- !app_assoc.
      assert (E : skipn (a + m) v = nth (a + m) v (val 0%nat) :: skipn (a + S m) v).
      { clear IH. assert (H' : (a + m < length v)%nat) by lia. replace (a + S m)%nat with (S (a + m)) by lia. revert H'. generalize (a + m)%nat. clear. induction v as [|x v IH]; intros k Hk; [cbn in Hk; lia|].
        destruct k; [reflexivity|]. cbn [skipn nth]. rewrite IH by (cbn in Hk; lia). reflexivity. }
      rewrite E. rewrite !app_assoc. assert (L : length (firstn a v ++ map val (seq 0 m)) = (a + m)%nat) by (rewrite app_length, firstn_length, map_length, seq_length; lia).
      rewrite <- !app_assoc in *. cbn [app]. rewrite !app_assoc in *. etransitivity; [|exact (lset_app (firstn a v ++ map val (seq 0 m)) (nth (a + m) v (val 0%nat)) (skipn (a + S m) v) (val m))]. rewrite L. reflexivity.
    + rewrite !app_length, firstn_length, map_length, seq_length, skipn_length. lia.
Qed.

(** ** Arrays and sources *)
Theorem array_to_sources_ok d n positions charges : (0 < d)%nat -> (d * n <= length positions)%nat -> (n <= length charges)%nat ->
  array_to_sources d n positions charges = Ok (map (fun i => PSrc (point_at d positions i) (nth i charges 0)) (seq 0 n)).
Proof.
  intros Hd Hp Hc. unfold array_to_sources.
  set (st := fun i v => do x <- omapM (fun j => rd positions (i * d + j)) (seq 0 d) ;; do q <- rd charges i ;; wr v i (PSrc x q)).
  change (ofold (fun v i => st i v) (seq 0 n) (repeat (PSrc (vzero d) 0) n) = Ok (map (fun i => PSrc (point_at d positions i) (nth i charges 0)) (seq 0 n))).
  rewrite ofold_fns. apply (fill_run (PSrc [] 0)); [|apply repeat_length|apply Permutation_refl].
  intros k v Hk Hv. unfold st. assert (E := read_point_gen d positions k Hd ltac:(nia)). unfold read_point in E.
  replace (omapM (fun j => rd positions (k * d + j)) (seq 0 d)) with (omapM (fun j => rd positions (d * k + j)) (seq 0 d)) by (f_equal; rewrite (Nat.mul_comm d k); reflexivity).
  rewrite E. cbn [bind]. rewrite (rd_ok _ _ 0) by lia. cbn [bind]. apply wr_ok. lia.
Qed.
Lemma skipn_app_exact {A} (u w : list A) : skipn (length u) (u ++ w) = w.
Proof. induction u; [reflexivity|assumption]. Qed.
Lemma firstn_app_exact {A} (u w : list A) : firstn (length u) (u ++ w) = u.
Proof. induction u as [|x u IH]; [reflexivity|]. cbn. f_equal. exact IH. Qed.
Lemma skipn_skipn' {A} (a b : nat) (l : list A) : skipn a (skipn b l) = skipn (b + a) l.
Proof. revert l. induction b as [|b IH]; intros l; [reflexivity|]. destruct l; [rewrite !skipn_nil; reflexivity|]. cbn. apply IH. Qed.
Lemma concat_len {A} d (F : list (list A)) : (forall f, In f F -> length f = d) -> length (concat F) = (length F * d)%nat.
Proof. induction F as [|f F IH]; intros H; [reflexivity|]. cbn [concat length]. rewrite app_length, IH, (H f) by (try (left; reflexivity); intros; apply H; right; assumption). lia. Qed.
Theorem sources_to_array_ok {A} (inj : R -> A) d srcs positions charges : same_dim d srcs ->
  (length srcs * d <= length positions)%nat -> (length srcs <= length charges)%nat ->
  sources_to_array inj d srcs positions charges =
  Ok (map inj (concat (map (@ps_pos R) srcs)) ++ skipn (length srcs * d) positions, map inj (map (@ps_q R) srcs) ++ skipn (length srcs) charges).
Proof.
  intros Hs Hp Hc. unfold sources_to_array.
  assert (G : forall m, (m <= length srcs)%nat ->
    ofold (fun (st : list A * list A) i =>
      do s <- rd srcs i ;;
      do ps <- ofold (fun ps j => do x <- rd (ps_pos s) j ;; wr ps (i * d + j) (inj x)) (seq 0 d) (fst st) ;;
      do cs <- wr (snd st) i (inj (ps_q s)) ;;
      Ok (ps, cs)) (seq 0 m) (positions, charges) =
    Ok (map inj (concat (map (@ps_pos R) (firstn m srcs))) ++ skipn (m * d) positions, map inj (map (@ps_q R) (firstn m srcs)) ++ skipn m charges)).
  { induction m as [|m IH]; intros Hm; [reflexivity|]. rewrite seq_S, ofold_app, IH by lia. cbn [bind ofold Nat.add fst snd].
    set (s := nth m srcs (PSrc [] 0)). assert (Hin : In s srcs) by (apply nth_In; lia). assert (Ls := Hs s Hin). rewrite (rd_ok _ _ (PSrc [] 0)) by lia. fold s. cbn [bind].
    assert (LF : length (map inj (concat (map (@ps_pos R) (firstn m srcs)))) = (m * d)%nat).
    { rewrite map_length, (concat_len d); [rewrite map_length, firstn_length; f_equal; lia|]. intros f Hf. apply in_map_iff in Hf. destruct Hf as (u & <- & Hu). apply Hs.
      rewrite <- (firstn_skipn m srcs). apply in_or_app. left. exact Hu. }
    assert (LC : length (map inj (map (@ps_q R) (firstn m srcs))) = m) by (rewrite !map_length, firstn_length; lia).
    assert (EF : firstn (S m) srcs = firstn m srcs ++ [s]).
    { unfold s. clear -Hm. revert m Hm. induction srcs as [|x l IHl]; intros m Hm; [cbn in Hm; lia|]. destruct m; [reflexivity|]. cbn [firstn app nth]. f_equal. apply IHl. cbn in Hm; lia. }
    rewrite (ofold_ext_in _ (fun v k => wr v (m * d + k) (inj (nth k (ps_pos s) 0)))) by (intros v k Hk; apply in_seq in Hk; rewrite (rd_ok _ _ 0) by lia; reflexivity).
    rewrite seq_writes by (rewrite app_length, LF, skipn_length; nia). cbn [bind]. rewrite wr_ok by (rewrite app_length, LC, skipn_length; lia). cbn [bind]. f_equal. f_equal.
    - set (X := map inj (concat (map (@ps_pos R) (firstn m srcs)))) in *.
      assert (E1 : firstn (m * d) (X ++ skipn (m * d) positions) = X) by (rewrite <- LF at 1; apply firstn_app_exact).
      assert (E2 : skipn (m * d + d) (X ++ skipn (m * d) positions) = skipn (S m * d) positions).
      { rewrite <- (skipn_skipn' d (m * d) (X ++ _)). rewrite <- LF at 1. rewrite skipn_app_exact, skipn_skipn'. f_equal. lia. }
      rewrite E1, E2, EF, map_app, concat_app, map_app, <- !app_assoc. fold X. f_equal. cbn [map concat]. rewrite app_nil_r. f_equal.
      rewrite <- (map_map (fun k => nth k (ps_pos s) 0) inj). f_equal. rewrite <- Ls. apply map_nth_seq.
    - assert (E : skipn m charges = nth m charges (inj 0) :: skipn (S m) charges).
      { assert (H' : (m < length charges)%nat) by lia. revert H'. generalize m. clear. induction charges as [|x v IH]; intros k Hk; [cbn in Hk; lia|].
        destruct k; [reflexivity|]. cbn [skipn nth]. rewrite IH by (cbn in Hk; lia). reflexivity. }
      rewrite E, EF, !map_app, <- !app_assoc. cbn [map app]. etransitivity; [|exact (lset_app (map inj (map (@ps_q R) (firstn m srcs))) (nth m charges (inj 0)) (skipn (S m) charges) (inj (ps_q s)))]. rewrite LC. reflexivity. }
  rewrite G by lia. rewrite firstn_all. reflexivity.
Qed.
Lemma points_of_concat d srcs (rest : list R) i : same_dim d srcs -> (i < length srcs)%nat ->
  point_at d (concat (map (@ps_pos R) srcs) ++ rest) i = ps_pos (nth i srcs (PSrc [] 0)).
Proof.
  revert i. induction srcs as [|s srcs IH]; intros i Hs Hi; [cbn in Hi; lia|]. assert (Ls : length (ps_pos s) = d) by (apply Hs; left; reflexivity).
  cbn [map concat]. rewrite <- app_assoc. unfold point_at. destruct i as [|i].
  - rewrite Nat.mul_0_r. cbn [skipn nth]. rewrite <- Ls. apply firstn_app_exact.
  - replace (d * S i)%nat with (length (ps_pos s) + d * i)%nat by lia. rewrite <- skipn_skipn', skipn_app_exact. cbn [nth]. apply IH; [intros u Hu; apply Hs; right; exact Hu|cbn in Hi; lia].
Qed.
(** Writing sources to arrays and reading them back. *)
Theorem arrays_round_trip d srcs positions charges : (0 < d)%nat -> same_dim d srcs -> (length srcs * d <= length positions)%nat -> (length srcs <= length charges)%nat ->
  exists ps cs, sources_to_array (fun x => x) d srcs positions charges = Ok (ps, cs) /\ array_to_sources d (length srcs) ps cs = Ok srcs /\
    length ps = length positions /\ skipn (length srcs * d) ps = skipn (length srcs * d) positions.
Proof.
  intros Hd Hs Hp Hc. eexists. eexists. rewrite sources_to_array_ok by assumption. split; [reflexivity|]. rewrite !map_id.
  assert (LF : length (concat (map (@ps_pos R) srcs)) = (length srcs * d)%nat).
  { rewrite (concat_len d); [rewrite map_length; reflexivity|]. intros f Hf. apply in_map_iff in Hf. destruct Hf as (u & <- & Hu). apply Hs. exact Hu. }
  split; [|split].
  - rewrite array_to_sources_ok; [|exact Hd|rewrite app_length, LF; nia|rewrite app_length, map_length; lia]. f_equal.
    etransitivity; [|exact (map_nth_seq (PSrc [] 0) srcs)]. apply map_ext_in. intros i Hi. apply in_seq in Hi. rewrite points_of_concat by (try assumption; lia).
    rewrite app_nth1 by (rewrite map_length; lia). rewrite (nth_indep _ 0 (ps_q (PSrc [] 0))) by (rewrite map_length; lia). rewrite (map_nth (@ps_q R)).
    destruct (nth i srcs (PSrc [] 0)); reflexivity.
  - rewrite app_length, LF, skipn_length. lia.
  - rewrite <- LF at 1. apply skipn_app_exact.
Qed.

(** ** The derivative *)
Lemma flat_pair_perm n m : Permutation (flat_map (fun k => [k; (m + k)%nat]) (seq 0 n)) (seq 0 n ++ map (fun k => (m + k)%nat) (seq 0 n)).
Proof.
  induction n as [|n IH]; [apply Permutation_refl|]. rewrite !seq_S, flat_map_app, map_app. cbn [flat_map app Nat.add map].
  eapply Permutation_trans; [apply Permutation_app_tail; exact IH|]. rewrite <- !app_assoc. apply Permutation_app_head.
  cbn [app]. eapply Permutation_trans; [apply Permutation_sym, Permutation_middle|]. apply perm_skip. apply Permutation_refl.
Qed.
Lemma map_add_seq a n : map (fun k => (a + k)%nat) (seq 0 n) = seq a n.
Proof.
  revert a. induction n as [|n IH]; intros a; [reflexivity|]. cbn [seq map]. f_equal; [lia|]. rewrite <- seq_shift, map_map, <- (IH (S a)). apply map_ext. intros; lia.
Qed.
Section Deriv.
Variables (d n : nat) (y masses : list R) (forces : list (list R)).
Hypothesis Hd : (0 < d)%nat.
Hypothesis Hy : length y = (2 * n * d)%nat.
Hypothesis Hm : (n <= length masses)%nat.
Hypothesis HF : length forces = n.
Hypothesis HF' : forall f, In f forces -> length f = d.
Let nd := (n * d)%nat.
Let sv k (f : list R) := do v <- rd y (nd + k) ;; wr f k v.
Let sa k (f : list R) := do F <- rd forces (k / d) ;; do x <- rd F (k mod d) ;; do m <- rd masses (k / d) ;; do a <- rdiv x m ;; wr f (nd + k) a.
Lemma deriv_steps f : deriv_loop d n y masses forces f = ofold (fun f k => do f1 <- sv k f ;; sa k f1) (seq 0 nd) f.
Proof.
  unfold deriv_loop, nd. rewrite <- (ofold_nested (fun k f => do f1 <- sv k f ;; sa k f1)). apply ofold_ext_in. intros s i Hi. apply ofold_ext_in. intros s' j Hj. apply in_seq in Hj.
  unfold sv, sa, nd. replace ((i * d + j) / d)%nat with i by (rewrite Nat.div_add_l by lia; rewrite Nat.div_small by lia; lia).
  replace ((i * d + j) mod d)%nat with j by (rewrite Nat.add_comm, Nat.mod_add by lia; rewrite Nat.mod_small by lia; reflexivity).
  rewrite Nat.add_assoc. destruct (rd y (n * d + i * d + j)); reflexivity.
Qed.
Lemma force_read k : (k < nd)%nat -> (k / d < n)%nat /\ (k mod d < d)%nat /\ length (nth (k / d) forces []) = d.
Proof.
  intros Hk. assert (A : (k / d < n)%nat) by (apply Nat.div_lt_upper_bound; unfold nd in Hk; lia). split; [exact A|]. split; [apply Nat.mod_upper_bound; lia|]. apply HF', nth_In. lia.
Qed.
Theorem deriv_ok f : length f = (2 * n * d)%nat -> (forall i, (i < n)%nat -> nth i masses 0 <> 0) ->
  exists g, deriv_loop d n y masses forces f = Ok g /\ length g = (2 * n * d)%nat /\
  (forall k, (k < n * d)%nat -> nth k g 0 = nth (n * d + k) y 0) /\
  (forall i j, (i < n)%nat -> (j < d)%nat -> nth (n * d + i * d + j) g 0 = nth j (nth i forces []) 0 / nth i masses 0).
Proof.
  intros Lf Hmz. rewrite deriv_steps.
  set (val := fun k => if (k <? nd)%nat then nth (nd + k) y 0 else nth ((k - nd) mod d) (nth ((k - nd) / d) forces []) 0 / nth ((k - nd) / d) masses 0).
  set (st := fun k f => if (k <? nd)%nat then sv k f else sa (k - nd) f).
  assert (E : ofold (fun f k => do f1 <- sv k f ;; sa k f1) (seq 0 nd) f = ofold (fun s f => f s) (map st (flat_map (fun k => [k; (nd + k)%nat]) (seq 0 nd))) f).
  { rewrite flat_map_concat_map, <- ofold_fns, <- ofold_concat, ofold_map. apply ofold_ext_in. intros s k Hk. apply in_seq in Hk. cbn [ofold]. unfold st.
    destruct (Nat.ltb_spec k nd); [|lia]. destruct (Nat.ltb_spec (nd + k) nd); [lia|]. replace (nd + k - nd)%nat with k by lia.
    destruct (sv k s); try reflexivity. cbn [bind]. destruct (sa k a); reflexivity. }
  rewrite E. rewrite (fill_run 0 st val (2 * n * d)).
  - eexists. split; [reflexivity|]. split; [rewrite map_length, seq_length; reflexivity|].
    assert (N : forall k, (k < 2 * n * d)%nat -> nth k (map val (seq 0 (2 * n * d))) 0 = val k).
    { intros k Hk. rewrite (nth_indep _ 0 (val 0%nat)) by (rewrite map_length, seq_length; exact Hk). rewrite map_nth, seq_nth by exact Hk. reflexivity. }
    split.
    + intros k Hk. rewrite N by nia. unfold val. destruct (Nat.ltb_spec k nd); [reflexivity|unfold nd in *; lia].
    + intros i j Hi Hj. rewrite N by nia. unfold val, nd. destruct (Nat.ltb_spec (n * d + i * d + j) (n * d)); [nia|].
      replace (n * d + i * d + j - n * d)%nat with (i * d + j)%nat by lia.
      replace ((i * d + j) / d)%nat with i by (rewrite Nat.div_add_l by lia; rewrite Nat.div_small by lia; lia).
      replace ((i * d + j) mod d)%nat with j by (rewrite Nat.add_comm, Nat.mod_add by lia; rewrite Nat.mod_small by lia; reflexivity). reflexivity.
  - intros k v Hk Hv. unfold st, val. destruct (Nat.ltb_spec k nd) as [L|L].
    + unfold sv. rewrite (rd_ok _ _ 0) by (unfold nd in *; nia). cbn [bind]. apply wr_ok. lia.
    + unfold sa. set (u := (k - nd)%nat). assert (Hu : (u < nd)%nat) by (unfold u, nd in *; nia). destruct (force_read u Hu) as (A & B & C).
      rewrite (rd_ok _ _ []) by lia. cbn [bind]. rewrite (rd_ok _ _ 0) by lia. cbn [bind]. rewrite (rd_ok _ _ 0) by lia. cbn [bind]. unfold rdiv.
      destruct (Req_EM_T (nth (u / d) masses 0) 0) as [Z|_]; [exfalso; exact (Hmz _ A Z)|]. cbn [bind]. replace (nd + u)%nat with k by (unfold u; lia). apply wr_ok. lia.
  - exact Lf.
  - eapply Permutation_trans; [apply flat_pair_perm|]. rewrite map_add_seq. replace (2 * n * d)%nat with (nd + nd)%nat by (unfold nd; nia). rewrite seq_app. apply Permutation_refl.
Qed.
(** A mass that is zero. *)
Theorem deriv_massless f i : length f = (2 * n * d)%nat -> (i < n)%nat -> nth i masses 0 = 0 -> deriv_loop d n y masses forces f = NonFinite.
Proof.
  intros Lf Hi Hz. rewrite deriv_steps.
  assert (ST : forall k v, (k < nd)%nat -> length v = (2 * n * d)%nat -> (nth (k / d) masses 0 = 0 -> (do f1 <- sv k v ;; sa k f1) = NonFinite) /\
     ((do f1 <- sv k v ;; sa k f1) = NonFinite \/ exists v', (do f1 <- sv k v ;; sa k f1) = Ok v' /\ length v' = (2 * n * d)%nat)).
  { intros k v Hk Hv. destruct (force_read k Hk) as (A & B & C). unfold sv, sa. rewrite (rd_ok _ _ 0) by (unfold nd in *; nia). cbn [bind]. rewrite wr_ok by (unfold nd in *; nia). cbn [bind].
    rewrite (rd_ok _ _ []) by lia. cbn [bind]. rewrite (rd_ok _ _ 0) by lia. cbn [bind]. rewrite (rd_ok _ _ 0) by lia. cbn [bind]. unfold rdiv.
    destruct (Req_EM_T (nth (k / d) masses 0) 0) as [Z|Z]; cbn [bind]; [split; [reflexivity|left; reflexivity]|]. split; [intros Z'; contradiction|]. right.
    rewrite wr_ok by (rewrite lset_length; unfold nd in *; nia). eexists. split; [reflexivity|]. rewrite !lset_length. exact Hv. }
  assert (G : forall l v, (forall k, In k l -> (k < nd)%nat) -> length v = (2 * n * d)%nat -> (exists k, In k l /\ nth (k / d) masses 0 = 0) ->
    ofold (fun f k => do f1 <- sv k f ;; sa k f1) l v = NonFinite).
  { induction l as [|k l IH]; intros v Hl Hv (k0 & Hk0 & Z); [destruct Hk0|]. cbn [ofold]. destruct (ST k v (Hl k (or_introl eq_refl)) Hv) as [S1 [S2|(v' & S2 & L2)]]; [rewrite S2; reflexivity|].
    destruct Hk0 as [->|Hk0]; [rewrite (S1 Z) in S2; discriminate|]. rewrite S2. cbn [bind]. apply IH; [intros; apply Hl; right; assumption|exact L2|]. exists k0. split; assumption. }
  apply G; [intros k Hk; apply in_seq in Hk; lia|exact Lf|]. exists (i * d)%nat. split; [apply in_seq; unfold nd; nia|]. rewrite Nat.div_mul by lia. exact Hz.
Qed.
End Deriv.
Section DerivFunc.
Variables (d : nat) (O : Type) (ctor : list (psrc R) -> outcome O -> Prop) (frc : list (psrc R) -> O -> list R -> outcome (list R)).
Variables (n : nat) (charges masses y f : list R) (o : O) (g : list R -> list R).
Hypothesis Hd : (0 < d)%nat.
Hypothesis Hy : length y = (2 * n * d)%nat.
Hypothesis Hf : length f = (2 * n * d)%nat.
Hypothesis Hm : (n <= length masses)%nat.
Hypothesis Hc : (n <= length charges)%nat.
Notation srcs := (map (fun i => PSrc (point_at d y i) (nth i charges 0)) (seq 0 n)).
Hypothesis Hctor : exactly (ctor srcs) (Ok o).
Hypothesis Hg : forall s, In s srcs -> frc srcs o (ps_pos s) = Ok (g (ps_pos s)) /\ length (g (ps_pos s)) = d.
Notation F := (map (fun s => map (fun u => u * ps_q s) (g (ps_pos s))) srcs).
Lemma derivative_run x : deriv_loop d n y masses F f = x -> exactly (derivative_func d O ctor frc n charges masses y f) x.
Proof.
  intros Hx. unfold derivative_func. eapply andthen_ok; [intros r; rewrite array_to_sources_ok by (try assumption; nia); reflexivity|].
  eapply andthen_ok; [exact Hctor|]. eapply andthen_ok; [exact (batch_pointwise (fun q v => vscale v q) (frc srcs o) (vzero d) srcs (fun s => g (ps_pos s)) (fun s H => proj1 (Hg s H)))|].
  intros r. rewrite <- Hx. reflexivity.
Qed.
Lemma forces_shape : length F = n /\ forall f, In f F -> length f = d.
Proof.
  split; [rewrite !map_length; apply seq_length|]. intros u Hu. apply in_map_iff in Hu. destruct Hu as (s & <- & Hs). rewrite map_length. apply Hg. exact Hs.
Qed.
Theorem derivative_ok : (forall i, (i < n)%nat -> nth i masses 0 <> 0) ->
  exists r, exactly (derivative_func d O ctor frc n charges masses y f) (Ok r) /\ length r = (2 * n * d)%nat /\
  (forall k, (k < n * d)%nat -> nth k r 0 = nth (n * d + k) y 0) /\
  (forall i j, (i < n)%nat -> (j < d)%nat ->
    nth (n * d + i * d + j) r 0 = nth i charges 0 * nth j (g (point_at d y i)) 0 / nth i masses 0).
Proof.
  intros Hmz. destruct forces_shape as [L1 L2]. destruct (deriv_ok d n y masses F Hd Hy Hm L1 L2 f Hf Hmz) as (r & E & L & A & B).
  exists r. split; [apply derivative_run; exact E|]. split; [exact L|]. split; [exact A|]. intros i j Hi Hj. rewrite (B i j Hi Hj). f_equal.
  set (s := PSrc (point_at d y i) (nth i charges 0)).
  assert (Es : nth_error srcs i = Some s) by (rewrite nth_error_map, (nth_error_nth' _ 0%nat) by (rewrite seq_length; exact Hi); rewrite seq_nth by exact Hi; reflexivity).
  erewrite (nth_error_nth F) by (rewrite nth_error_map, Es; reflexivity). cbn [ps_q ps_pos s].
  assert (Lg : length (g (point_at d y i)) = d) by (apply (Hg s); eapply nth_error_In; exact Es).
  rewrite (nth_indep _ 0 (0 * nth i charges 0)) by (rewrite map_length; lia). rewrite (map_nth (fun u => u * nth i charges 0)). apply Rmult_comm.
Qed.
Theorem derivative_massless i : (i < n)%nat -> nth i masses 0 = 0 -> exactly (derivative_func d O ctor frc n charges masses y f) NonFinite.
Proof.
  intros Hi Hz. destruct forces_shape as [L1 L2]. apply derivative_run. apply (deriv_massless d n y masses F Hd Hy Hm L1 L2 f i Hf Hi Hz).
Qed.
End DerivFunc.
