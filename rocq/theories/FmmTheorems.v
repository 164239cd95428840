(** The constructed tree object is the same for every schedule, and its evaluation is accurate. *)
From Coq Require Import List Bool ZArith Arith Lia Lra Reals Permutation.
From Verif Require Import Num Outcome Vec Orthtree AdaptiveTree TreeSpec VecProofs GeometrySpec GeometryProofs TreeGeometry
  AdaptiveProofs BfsProofs ListProofs ListContents RootBoxProofs BuildProofs TreeTheorems TreeTheorems2 CAux FieldSpec Schedule Fields FieldProofs
  FmmPasses PassProofs PassSteps PassTree PassSpec PassEval.
Import ListNotations.

Section Make.
Context {ME LE Tb I : Type}.
Variable o : ops ME LE Tb.
Variable d : nat.
Variable tb0 tb : Tb.
Variable MEof : list R -> list (psrc R) -> ME -> Prop.
Variable wfLE : list R -> LE -> Prop.
Variable lval : I -> LE -> list R -> R.
Variable dir : I -> psrc R -> list R -> R.
Variable E : I -> R -> R.
Hypothesis SO : sound o d tb MEof wfLE lval dir E.
Hypothesis Htb : snd (o_zero o tb0 []) = tb.
Notation pos := (@ps_pos R).
Hypothesis Hd : (1 <= d)%nat.

(** What is known of the constructed object. *)
Inductive fmm_ok (cap : nat) (srcs : list (psrc R)) (c : list R) (l : R) (f : @fmm ME LE Tb) : Prop :=
| fmm_leaf : (length srcs <= cap)%nat -> 
    f_tree f = spec_tree d pos c l cap srcs false 0 -> f_lists f = final d pos c l cap srcs false 0 ->
    m_le (f_mem f) [] = Some (fst (o_zero o tb0 c)) -> fmm_ok cap srcs c l f
| fmm_tree h : (cap < length srcs)%nat -> (0 < l)%R -> height_ok d pos c l cap srcs true h ->
    f_tree f = spec_tree d pos c l cap srcs true h -> f_lists f = final d pos c l cap srcs true h ->
    mem_good d tb MEof wfLE lval dir E c l cap srcs true h (f_mem f) -> fmm_ok cap srcs c l f.

Theorem make_fmm_in cap fuel srcs t c l : (length c = d -> (0 < l)%R -> sound_in o d tb MEof wfLE lval dir E c l (fun s => In s srcs)) -> same_dim d srcs -> build_adaptive d pos cap fuel srcs = Ok t ->
  root_box d (map pos srcs) = Some (c, l) -> (forall s, In s srcs -> in_box d c l (pos s)) ->
  exists f, (forall r, make_fmm o d cap fuel srcs tb0 r <-> r = Ok f) /\ f_tree f = t /\ length c = d /\ fmm_ok cap srcs c l f.
Proof.
  intros SI Hdim HB HR Hbox.
  destruct (adaptive_inv d pos cap fuel srcs t Hd Hdim HB) as (c' & l' & h & HR' & Hc & Hl & Hh & Et & Hl' & _).
  assert (c' = c /\ l' = l) as [-> ->] by (rewrite HR in HR'; injection HR' as -> ->; auto). clear HR'.
  assert (HL : all_lists d t = Ok (final d pos c l cap srcs (rr cap srcs) h)) by (rewrite Et; apply lists_final; assumption).
  unfold rr in *. destruct (Nat.leb_spec (length srcs) cap) as [Hcap|Hcap]; cbn [negb] in *.
  2:{ destruct Hl' as [Hl'|]; [|discriminate].
    assert (H1 : (1 <= h)%nat).
    { destruct h as [|h]; [|lia]. destruct Hh as [X _]. cbn in X. discriminate X. }
    destruct (passes_good o d tb0 tb MEof wfLE lval dir E Htb c l cap srcs (SI Hc Hl') true h Hc Hl' Hh Hdim Hbox H1) as (m' & Gm & Rm).
    exists (Fmm t (final d pos c l cap srcs true h) m'). split; [|split; [reflexivity|split; [exact Hc|]]].
    + intros r. split.
      * intros H. inversion H as [r0 X1 X2|t0 r0 X1 X2 X3|t0 ls0 X1 X2 X3|t0 ls0 X1 X2 X3 X4|t0 ls0 r0 X1 X2 X3 X4 X5 X6]; subst r.
        -- exfalso. apply (X2 t). congruence.
        -- exfalso. assert (t0 = t) by congruence. subst t0. apply (X3 (final d pos c l cap srcs true h)). congruence.
        -- lia.
        -- exfalso. assert (t0 = t) by congruence. subst t0. rewrite Et in X4. unfold spec_tree in X4; cbn [at_height at_nodes at_leaves] in X4.
           rewrite !map_length, !seq_length in X4. lia.
        -- assert (t0 = t) by congruence. subst t0. assert (ls0 = final d pos c l cap srcs true h) by congruence. subst ls0.
           rewrite Et in X6. apply Rm in X6. subst r0. reflexivity.
      * intros ->. change (Ok (Fmm t (final d pos c l cap srcs true h) m')) with (omap (fun m => Fmm t (final d pos c l cap srcs true h) m) (Ok m')).
        apply mf_passes; try assumption.
        -- rewrite Et. unfold spec_tree; cbn [at_height at_nodes]. rewrite map_length, seq_length. reflexivity.
        -- rewrite Et. unfold spec_tree; cbn [at_height at_leaves]. rewrite map_length, seq_length. lia.
        -- rewrite Et. apply Rm. reflexivity.
    + eapply fmm_tree; [exact Hcap|exact Hl'|exact Hh|exact Et|reflexivity|exact Gm]. }
  - assert (h = 0%nat) as ->.
    { apply (height_ok_unique d pos c l cap srcs false); [assumption|]. split; [reflexivity|intros; lia]. }
    exists (Fmm t (final d pos c l cap srcs false 0) (mem0 o t tb0)). split; [|split; [reflexivity|split; [exact Hc|]]].
    + intros r. split.
      * intros H. inversion H as [r0 X1 X2|t0 r0 X1 X2 X3|t0 ls0 X1 X2 X3|t0 ls0 X1 X2 X3 X4|t0 ls0 r0 X1 X2 X3 X4 X5 X6]; subst r; try lia.
        -- exfalso. apply (X2 t). congruence.
        -- exfalso. assert (t0 = t) by congruence. subst t0. apply (X3 (final d pos c l cap srcs false 0)). congruence.
        -- assert (t0 = t) by congruence. subst t0. assert (ls0 = final d pos c l cap srcs false 0) by congruence. subst ls0. reflexivity.
      * intros ->. apply mf_leaf; assumption.
    + apply fmm_leaf; try assumption; try reflexivity.
      cbn [f_mem mem0 m_le]. rewrite Et, (lookup_mk d pos c l cap srcs false 0 Hh [] Logic.I). reflexivity.
Qed.
Theorem make_fmm_good cap fuel srcs t c l : same_dim d srcs -> build_adaptive d pos cap fuel srcs = Ok t ->
  root_box d (map pos srcs) = Some (c, l) -> (forall s, In s srcs -> in_box d c l (pos s)) ->
  exists f, (forall r, make_fmm o d cap fuel srcs tb0 r <-> r = Ok f) /\ f_tree f = t /\ length c = d /\ fmm_ok cap srcs c l f.
Proof. apply make_fmm_in. intros Hc Hl. apply sound_everywhere; assumption. Qed.

Notation not_at x := (fun s => negb (is_at x s)).
(** The truncation error allowed by the theorem: none for a single leaf. *)
Definition tree_bound (cap : nat) (srcs : list (psrc R)) (f : @fmm ME LE Tb) (l : R) (i : I) : R :=
  if (length srcs <=? cap)%nat then 0%R else (E i (l / 2 ^ at_height (f_tree f)) * abs_charge srcs)%R.

Lemma single_near c l cap srcs : nl_near (final d pos c l cap srcs false 0) [] = [[]].
Proof. reflexivity. Qed.
Lemma single_W c l cap srcs : nl_W (final d pos c l cap srcs false 0) [] = [].
Proof. reflexivity. Qed.
Lemma single_sub c l cap srcs : an_srcs (mk d pos c l cap srcs false []) = srcs.
Proof. reflexivity. Qed.
Lemma height_zero c l cap srcs : height_ok d pos c l cap srcs false 0.
Proof. split; [reflexivity|intros; lia]. Qed.
Lemma single_leaf c l cap srcs x : length c = d -> in_box d c l x ->
  containing_leaf d (spec_tree d pos c l cap srcs false 0) x = Ok (Some (mk d pos c l cap srcs false [])).
Proof.
  intros Hc Hin. destruct (containing_leaf_spec _ _ _ _ _ _ _ _ (height_zero c l cap srcs) x Hc) as (p & P & N & _ & [(_ & _ & H)|(H & _)]); [|contradiction].
  destruct p as [|i p]; [exact H|]. destruct P as (_ & P & Rp). destruct p as [|j p]; [discriminate|].
  exfalso. clear - P. revert j P. induction p as [|k p IH]; intros j P; destruct P as (_ & P & Rp); [discriminate|]. apply (IH k P).
Qed.
Lemma not_in_box_away c l (srcs : list (psrc R)) x : (forall s, In s srcs -> in_box d c l (pos s)) -> ~ in_box d c l x ->
  forall s, In s srcs -> ps_pos s <> x.
Proof. intros H N s Hs Ex. apply N. rewrite <- Ex. apply H. exact Hs. Qed.
Lemma in_box_dec c l x : in_box d c l x \/ ~ in_box d c l x.
Proof.
  assert (G : forall n, (forall j, (j < n)%nat -> (nth j c 0%R - l / 2 <= nth j x 0%R <= nth j c 0%R + l / 2)%R) \/
    ~ (forall j, (j < n)%nat -> (nth j c 0%R - l / 2 <= nth j x 0%R <= nth j c 0%R + l / 2)%R)).
  { induction n as [|n [IH|IH]]; [left; intros; lia| |right; intros H; apply IH; intros; apply H; lia].
    destruct (Rle_dec (nth n c 0 - l / 2)%R (nth n x 0%R)) as [A|A]; [destruct (Rle_dec (nth n x 0%R) (nth n c 0 + l / 2)%R) as [B|B]|].
    - left. intros j Hj. destruct (Nat.eq_dec j n) as [->|]; [lra|apply IH; lia].
    - right. intros H. apply B. apply H. lia.
    - right. intros H. apply A. apply H. lia. }
  apply (G d).
Qed.

Section Potential.
Variable ipot : I.
Hypothesis Hlpot : forall c e y, wfLE c e -> length y = d -> o_lpot o e y = Ok (lval ipot e y).
Hypothesis Hmpot : forall c len S e y, MEof c S e -> length c = d -> same_dim d S -> (0 < len)%R ->
  (forall s, In s S -> in_box d c len (ps_pos s)) -> length y = d -> apart d c y (3 / 2 * len) ->
  exists v, o_mpot o e y = Ok v /\ (Rabs (v - rsum (fun s => dir ipot s y) S) <= E ipot len * abs_charge S)%R.
Hypothesis Hdir : forall s y, dir ipot s y = kernel d (ps_q s) (dist (ps_pos s) y).
Hypothesis HE : forall len, (0 < len)%R -> (0 <= E ipot len)%R.

Theorem eval_pot_accurate cap srcs c l f : same_dim d srcs -> length c = d -> fmm_ok cap srcs c l f ->
  (forall s, In s srcs -> in_box d c l (pos s)) ->
  forall grav x, length x = d ->
  exists v, eval_pot o d grav srcs f x = Ok v /\
    (in_box d c l x -> Rabs (v - direct_potential d grav (filter (not_at x) srcs) x) <= tree_bound cap srcs f l ipot)%R /\
    (~ in_box d c l x -> v = direct_potential d grav srcs x).
Proof.
  intros Hdim Hc HF Hbox grav x Hx.
  assert (DX : same_dim (length x) srcs) by (rewrite Hx; exact Hdim).
  destruct (in_box_dec c l x) as [HI|HO].
  - destruct HF as [Hcap Et El Em|h Hcap Hl Hh Et El Em].
    + destruct f as [t0 ls0 m0]. cbn [f_tree f_lists f_mem] in Et, El, Em. subst t0 ls0.
      unfold eval_pot. cbn [f_tree f_lists f_mem]. rewrite single_leaf by assumption. cbn [bind].
      change (an_addr (mk d pos c l cap srcs false [])) with (@nil nat). rewrite Em. cbn [of_option bind].
      destruct (so_zero _ _ _ _ _ _ _ _ SO tb0 c Hc) as [Wz Vz]. rewrite (Hlpot _ _ _ Wz Hx), Vz. cbn [bind].
      rewrite single_W. cbn [ofold bind]. rewrite single_near. cbn [ofold].
      rewrite (lookup_mk d pos c l cap srcs false 0 (height_zero c l cap srcs) [] Logic.I). cbn [of_option bind].
      change (an_leaf (mk d pos c l cap srcs false [])) with true. change (addr_eqb [] []) with true. rewrite single_sub.
      rewrite potential_sum_safe by exact DX. cbn [bind]. eexists. split; [reflexivity|]. split; [intros _|contradiction].
      unfold tree_bound. destruct (Nat.leb_spec (length srcs) cap); [|lia].
      assert (ED : forall S, direct_potential d grav S x = (field_sign grav * direct_potential d true S x)%R).
      { intros S. unfold direct_potential. rewrite <- rsum_scal. apply rsum_ext. intros s _. unfold field_sign. ring. }
      rewrite ED. replace (_ - _)%R with 0%R by (destruct grav; unfold field_sign; ring). rewrite Rabs_R0. lra.
    + destruct (containing_leaf_spec _ _ _ _ _ _ _ _ Hh x Hc) as (L & PL & NL & Ep & [(_ & HB & HC)|(H & _)]); [|contradiction].
      destruct Em as (Tm & Mm & Lm). destruct f as [t0 ls0 m0]. cbn [f_tree f_lists f_mem] in *. subst t0 ls0.
      destruct (eval_pot_good o d MEof wfLE lval dir E (so_E _ _ _ _ _ _ _ _ SO) c l cap srcs true h Hc Hl Hh Hdim Hbox L x PL NL Ep Hx HB HC m0) with (ipot := ipot) (grav := grav)
        as (v & Hv & Bv); try assumption.
      * apply Lm; [exact PL|]. right. left. exact NL.
      * intros q Pq Lq. apply Mm; [exact Pq|]. right. exact Lq.
      * exists v. split; [exact Hv|]. split; [intros _|contradiction]. unfold tree_bound. cbn [f_tree].
        destruct (Nat.leb_spec (length srcs) cap); [lia|]. exact Bv.
  - assert (AW := not_in_box_away c l srcs x Hbox HO).
    exists (direct_potential d grav srcs x). split; [|split; [contradiction|reflexivity]].
    assert (HCL : containing_leaf d (f_tree f) x = Ok None).
    { destruct HF as [Hcap Et El Em|h Hcap Hl Hh Et El Em]; rewrite Et.
      - destruct (containing_leaf_spec _ _ _ _ _ _ _ _ (height_zero c l cap srcs) x Hc) as (L & _ & _ & _ & [(H & _)|(_ & H)]); [contradiction|exact H].
      - destruct (containing_leaf_spec _ _ _ _ _ _ _ _ Hh x Hc) as (L & _ & _ & _ & [(H & _)|(_ & H)]); [contradiction|exact H]. }
    unfold eval_pot. rewrite HCL. cbn [bind]. apply potential_sum_away; assumption.
Qed.
End Potential.

Section Force.
Variable ifrc : nat -> I.
(** What a point must satisfy for the expansions about a centre to give a force there. *)
Variable okx : list R -> list R -> Prop.
Hypothesis Hlfrc : forall c e y, wfLE c e -> length y = d -> okx c y -> o_lforce o e y = Ok (map (fun k => lval (ifrc k) e y) (seq 0 d)).
Hypothesis Hmfrc : forall c len S e y, MEof c S e -> length c = d -> same_dim d S -> (0 < len)%R ->
  (forall s, In s S -> in_box d c len (ps_pos s)) -> length y = d -> apart d c y (3 / 2 * len) -> okx c y ->
  exists v, o_mforce o e y = Ok (map v (seq 0 d)) /\ forall k, (k < d)%nat ->
    (Rabs (v k - rsum (fun s => dir (ifrc k) s y) S) <= E (ifrc k) len * abs_charge S)%R.
Hypothesis Hdir : forall k s y, dir (ifrc k) s y = force_on d true 0 s y k.
Hypothesis HE : forall k len, (0 < len)%R -> (0 <= E (ifrc k) len)%R.

(** The sources split into near ones, whose force is smoothed, and far ones, at least a smallest leaf away, whose force is not. *)
Theorem eval_force_accurate cap srcs c l f : same_dim d srcs -> length c = d -> fmm_ok cap srcs c l f ->
  (forall s, In s srcs -> in_box d c l (pos s)) ->
  forall grav eps x, length x = d -> (0 <= eps)%R -> 
  (forall L n, containing_leaf d (f_tree f) x = Ok (Some L) -> expanded_for (f_tree f) (f_lists f) L n -> okx (an_center n) x) ->
  exists v, eval_force o d grav eps srcs f x = Ok (map v (seq 0 d)) /\
    (in_box d c l x -> exists near far, Permutation (near ++ far) (filter (not_at x) srcs) /\
       (forall s, In s far -> apart d (pos s) x (l / 2 ^ at_height (f_tree f))) /\
       forall k, (k < d)%nat ->
       Rabs (v k - (rsum (fun s => force_on d grav eps s x k) near + rsum (fun s => force_on d grav 0 s x k) far)) <= tree_bound cap srcs f l (ifrc k))%R /\
    (~ in_box d c l x -> map v (seq 0 d) = direct_force d grav eps srcs x).
Proof.
  intros Hdim Hc HF Hbox grav eps x Hx Heps Hokx.
  destruct (in_box_dec c l x) as [HI|HO].
  - destruct HF as [Hcap Et El Em|h Hcap Hl Hh Et El Em].
    + destruct f as [t0 ls0 m0]. cbn [f_tree f_lists f_mem] in Et, El, Em. subst t0 ls0.
      unfold eval_force, vec. cbn [f_tree f_lists f_mem]. rewrite single_leaf by assumption. cbn [bind].
      change (an_addr (mk d pos c l cap srcs false [])) with (@nil nat). rewrite Em. cbn [of_option bind].
      destruct (so_zero _ _ _ _ _ _ _ _ SO tb0 c Hc) as [Wz Vz]. rewrite (Hlfrc _ _ _ Wz Hx (Hokx _ _ (single_leaf c l cap srcs x Hc HI) (or_introl eq_refl))). cbn [bind].
      rewrite single_W. cbn [ofold bind]. rewrite single_near. cbn [ofold].
      rewrite (lookup_mk d pos c l cap srcs false 0 (height_zero c l cap srcs) [] Logic.I). cbn [of_option bind].
      change (an_leaf (mk d pos c l cap srcs false [])) with true. change (addr_eqb [] []) with true. rewrite single_sub.
      rewrite forcefield_sum_safe by assumption. cbn [bind]. unfold direct_force. rewrite vadd_map_seq. cbn [bind].
      exists (fun k => rsum (fun s => force_on d grav eps s x k) (filter (not_at x) srcs)). split; [|split; [intros _|contradiction]].
      * f_equal. destruct grav.
        -- apply map_ext. intros k. rewrite Vz. ring.
        -- unfold vneg, vscale. rewrite map_map. apply map_ext. intros k. rewrite Vz, nneg1_R. cbn [nmul NumR].
           assert (SG : forall S, rsum (fun s => force_on d false eps s x k) S = (- rsum (fun s => force_on d true eps s x k) S)%R).
           { intros S. replace (- _)%R with ((-1) * rsum (fun s => force_on d true eps s x k) S)%R by ring.
             rewrite <- rsum_scal. apply rsum_ext. intros s _. unfold force_on, field_sign. ring. }
           rewrite SG. ring.
      * exists (filter (not_at x) srcs), []. rewrite app_nil_r. split; [reflexivity|]. split; [intros s []|]. intros k Hk.
        unfold tree_bound. destruct (Nat.leb_spec (length srcs) cap); [|lia]. 
        replace (_ - _)%R with 0%R by (unfold rsum at 3; cbn; ring). rewrite Rabs_R0. lra.
    + destruct (containing_leaf_spec _ _ _ _ _ _ _ _ Hh x Hc) as (L & PL & NL & Ep & [(_ & HB & HC)|(H & _)]); [|contradiction].
      destruct Em as (Tm & Mm & Lm). destruct f as [t0 ls0 m0]. cbn [f_tree f_lists f_mem] in *. subst t0 ls0.
      destruct (eval_force_good o d MEof wfLE lval dir E (so_E _ _ _ _ _ _ _ _ SO) c l cap srcs true h Hc Hl Hh Hdim Hbox L x PL NL Ep Hx HB HC m0) with (ifrc := ifrc) (okx := okx) (grav := grav) (eps := eps)
        as (v & Hv & Bv); try assumption.
      * apply Lm; [exact PL|]. right. left. exact NL.
      * intros q Pq Lq. apply Mm; [exact Pq|]. right. exact Lq.
      * intros q Hq. apply (Hokx _ (mk d pos c l cap srcs true q) HC). destruct Hq as [->|Hq]; [left; reflexivity|right].
        split; [|exact Hq]. apply (in_heap _ _ _ _ _ _ _ _ Hh). exists q. split; [|reflexivity].
        eapply final_W_in in Hq; [|eassumption..]. apply Hq.
      * exists v. split; [exact Hv|]. split; [intros _|contradiction].
        eexists _, _. split; [|split; [|intros k Hk; unfold tree_bound; cbn [f_tree]; destruct (Nat.leb_spec (length srcs) cap); [lia|exact (Bv k Hk)]]].
        -- rewrite <- (filter_perm (not_at x) _ _ (far_cover d c l cap srcs true h Hc Hh L PL NL)), filter_app. apply Permutation_app_head.
           rewrite filter_all_away; [reflexivity|]. eapply far_away; eassumption.
        -- eapply far_apart; eassumption.
  - assert (AW := not_in_box_away c l srcs x Hbox HO).
    exists (fun k => rsum (fun s => force_on d grav eps s x k) srcs). split; [|split; [contradiction|reflexivity]].
    assert (HCL : containing_leaf d (f_tree f) x = Ok None).
    { destruct HF as [Hcap Et El Em|h Hcap Hl Hh Et El Em]; rewrite Et.
      - destruct (containing_leaf_spec _ _ _ _ _ _ _ _ (height_zero c l cap srcs) x Hc) as (L & _ & _ & _ & [(H & _)|(_ & H)]); [contradiction|exact H].
      - destruct (containing_leaf_spec _ _ _ _ _ _ _ _ Hh x Hc) as (L & _ & _ & _ & [(H & _)|(_ & H)]); [contradiction|exact H]. }
    unfold eval_force. rewrite HCL. cbn [bind]. apply forcefield_sum_eval; try assumption.
    intros s Hs. split; [intros _; apply AW; exact Hs|]. apply Rgt_not_eq. apply force_den_pos; [|exact Heps].
    apply dist_pos; [rewrite (Hdim s Hs); congruence|apply AW; exact Hs].
Qed.

(** Where the expansions give no force, neither does the tree. *)
Theorem eval_force_fails cap srcs c l f :
  (forall c e y, wfLE c e -> length c = d -> length y = d -> ~ okx c y -> o_lforce o e y = NonFinite) ->
  (forall c S e y, MEof c S e -> length c = d -> length y = d -> ~ okx c y -> o_mforce o e y = NonFinite) ->
  (forall c y, okx c y \/ ~ okx c y) ->
  same_dim d srcs -> length c = d -> fmm_ok cap srcs c l f -> (forall s, In s srcs -> in_box d c l (pos s)) ->
  forall grav eps x L n, length x = d -> containing_leaf d (f_tree f) x = Ok (Some L) -> expanded_for (f_tree f) (f_lists f) L n -> ~ okx (an_center n) x ->
  eval_force o d grav eps srcs f x = NonFinite.
Proof.
  intros Hlbad Hmbad Hdec Hdim Hc HF Hbox grav eps x L n Hx HCL Hn Nn. destruct f as [t0 ls0 m0].
  destruct HF as [Hcap Et El Em|h Hcap Hl Hh Et El (Tm & Mm & Lm)]; cbn [f_tree f_lists f_mem] in *; subst t0 ls0.
  - assert (HI : in_box d c l x).
    { destruct (containing_leaf_spec _ _ _ _ _ _ _ _ (height_zero c l cap srcs) x Hc) as (q & _ & _ & _ & [(HI & _)|(_ & X)]); [exact HI|]. congruence. }
    assert (EL := single_leaf c l cap srcs x Hc HI). rewrite HCL in EL. injection EL as ->. destruct Hn as [->|[_ []]].
    unfold eval_force, vec. cbn [f_tree f_lists f_mem]. rewrite HCL. cbn [bind].
    change (an_addr (mk d pos c l cap srcs false [])) with (@nil nat). rewrite Em. cbn [of_option bind].
    destruct (so_zero _ _ _ _ _ _ _ _ SO tb0 c Hc) as [Wz _]. rewrite (Hlbad _ _ _ Wz Hc Hx Nn). reflexivity.
  - destruct (containing_leaf_spec _ _ _ _ _ _ _ _ Hh x Hc) as (L' & PL & NL & Ep & [(_ & HB & HC)|(_ & H)]); [|congruence].
    rewrite HCL in HC. injection HC as ->.
    apply (eval_force_bad o d MEof wfLE lval dir E c l cap srcs true h Hc Hl Hh Hdim Hbox L' x PL NL Ep Hx HB HCL m0) with (ifrc := ifrc) (okx := okx); try assumption.
    + apply Lm; [exact PL|]. right. left. exact NL.
    + intros q Pq Lq. apply Mm; [exact Pq|]. right. exact Lq.
    + destruct Hn as [->|[Hh' Hw]]; [exists L'; auto|]. apply (in_heap _ _ _ _ _ _ _ _ Hh) in Hh'. destruct Hh' as (q & Pq & ->). exists q. auto.
Qed.
End Force.
End Make.
