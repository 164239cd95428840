(** End-to-end results for the three-dimensional trees: force. *)
From Coq Require Import List Bool ZArith Arith Lia Lra Reals Permutation.
From Coquelicot Require Import Complex.
From Verif Require Import Num Outcome Vec Orthtree AdaptiveTree TreeSpec VecProofs GeometrySpec GeometryProofs TreeGeometry
  AdaptiveProofs BuildProofs ListProofs ListContents RootBoxProofs TreeTheorems TreeTheorems3 Tables Tables3D Expansion3D CAux TableProofs Table3DProofs FieldSpec Schedule Fields FieldProofs
  FmmPasses PassProofs PassSteps PassTree PassSpec PassEval PassAgree FmmTree2DProofs FmmTheorems FmmApi FmmApiProofs
  BalancedTree BalancedSpec BalancedIndex BalancedAddr BalancedProofs BalancedTheorems BalancedFmm BalancedFmmProofs BalancedApiProofs
  Kernel3 Harmonics3D Exp3Loops Exp3Proofs Exp3Errors Exp3Theorems Exp3Forces FmmTree3D FmmTree3DProofs FmmForce3DProofs Fmm3ApiProofs Fmm3Theorems.
Import ListNotations.
Local Open Scope R_scope.

Notation not_at x := (fun s => negb (is_at x s)).

Lemma on_axis_dec c x : ~ on_axis c x \/ ~ ~ on_axis c x.
Proof.
  unfold on_axis. destruct (Req_dec (nth 0 x 0) (nth 0 c 0)) as [A|A]; destruct (Req_dec (nth 1 x 0) (nth 1 c 0)) as [B|B]; intuition.
Qed.
Lemma okx3_iff c x : length c = 3%nat -> length x = 3%nat -> (okx3 c x <-> ~ on_axis c x).
Proof.
  intros Hc Hx. unfold okx3, on_axis. rewrite p3_sub by assumption. unfold off_axis, psub, p3, c1, c2, c3, vget. cbn [fst snd]. change (@n0 R NumR) with 0. split.
  - intros [H|H] [A B]; apply H; lra.
  - intros H. destruct (Req_dec (nth 0 x 0) (nth 0 c 0)) as [A|A]; [|left; lra]. destruct (Req_dec (nth 1 x 0) (nth 1 c 0)) as [B|B]; [|right; lra].
    exfalso. apply H. split; assumption.
Qed.

(** The error bound for boxes of side [len]. *)
Definition bound3f (p : nat) (len : R) : R :=
  (INR (p + 2) * (sqrt 3 / (4 - sqrt 3)) ^ S p + INR (p + 1) * (sqrt 3 / (4 - sqrt 3)) ^ p) / ((2 - sqrt 3) * len) ^ 2.

Lemma lbad3 p c e y : LE3 p c e -> length c = 3%nat -> length y = 3%nat -> ~ ~ on_axis c y -> le3_force e y = NonFinite.
Proof.
  intros (Hc & f & ->) _ Hy N. apply le3_force_axis; [exact Hc|exact Hy|]. cbn [s3_ctr s3_of]. intros O. apply N. apply okx3_iff; assumption.
Qed.
Lemma mbad3 p c S e y : ME3 p c S e -> length c = 3%nat -> length y = 3%nat -> ~ ~ on_axis c y -> me3_force e y = NonFinite.
Proof.
  intros (Hc & _ & ->) _ Hy N. apply me3_force_axis; [exact Hc|exact Hy|]. cbn [s3_ctr s3_of]. intros O. apply N. apply okx3_iff; assumption.
Qed.

(** *** The adaptive tree *)
Section Adaptive.
Variables (orders : list nat) (tb0 : tb3) (cap fuel : nat) (eps : R) (srcs : list (psrc R)) (p : nat) (t : @atree R (psrc R)) (c : list R) (l : R).
Hypothesis Htb0 : tables3_after orders = Ok tb0.
Hypothesis Hdim : same_dim 3 srcs.
Hypothesis Hord : order_of eps srcs = Ok p.
Hypothesis Hp : (1 <= p <= 42)%nat.
Hypothesis Hbuild : build_adaptive 3 (@ps_pos R) cap fuel srcs = Ok t.
Hypothesis Hroot : root_box 3 (map (@ps_pos R) srcs) = Some (c, l).
Hypothesis Hbox : forall s, In s srcs -> in_box 3 c l (ps_pos s).

Theorem fmm3_force : exists o, (forall r, adaptive_fmm3 cap fuel eps srcs tb0 r <-> r = Ok o) /\ f3_order o = p /\ f_tree (f3_fmm o) = t /\
  forall grav smooth x, length x = 3%nat -> 0 <= smooth ->
  ((forall L n, containing_leaf 3 t x = Ok (Some L) -> expanded_for t (f_lists (f3_fmm o)) L n -> ~ on_axis (an_center n) x) ->
   exists v, force3_at grav smooth srcs o x = Ok (map v (seq 0 3)) /\
     (in_box 3 c l x -> exists near far, Permutation (near ++ far) (filter (not_at x) srcs) /\
       (forall s, In s far -> apart 3 (ps_pos s) x (l / 2 ^ at_height t)) /\
       forall k, (k < 3)%nat ->
       Rabs (v k - (rsum (fun s => force_on 3 grav smooth s x k) near + rsum (fun s => force_on 3 grav 0 s x k) far)) <=
         (if (length srcs <=? cap)%nat then 0 else bound3f p (l / 2 ^ at_height t) * abs_charge srcs)) /\
     (~ in_box 3 c l x -> map v (seq 0 3) = direct_force 3 grav smooth srcs x)) /\
  (forall L n, containing_leaf 3 t x = Ok (Some L) -> expanded_for t (f_lists (f3_fmm o)) L n -> on_axis (an_center n) x ->
   force3_at grav smooth srcs o x = NonFinite).
Proof.
  destruct (tables3_grown orders tb0 p Htb0 Hp) as (tb1 & E1 & Hfor & _).
  assert (HT : snd (o_zero (ops3 p) tb1 []) = tb1) by (cbn [ops3 o_zero snd]; now rewrite (refresh_id p (proj1 Hp) tb1 Hfor)).
  assert (SO := sound3f p (proj1 Hp) tb1 Hfor).
  destruct (make_fmm_good (ops3 p) 3 tb1 tb1 (ME3 p) (LE3 p) (lf3 p) df3 (E3f p) SO HT ltac:(lia)
    cap fuel srcs t c l Hdim Hbuild Hroot Hbox) as (f & U & Ef & Hc & G).
  exists (Fmm3Obj p f). split; [exact (api3_unique _ cap fuel eps srcs p Hord tb1 f E1 U)|]. split; [reflexivity|]. split; [exact Ef|].
  intros grav smooth x Hx Hs. cbn [f3_fmm]. split.
  - intros Hok.
    destruct (eval_force_accurate (ops3 p) 3 tb1 tb1 (ME3 p) (LE3 p) (lf3 p) df3 (E3f p) SO ltac:(lia) (fun k => k) (fun c x => length c = 3%nat -> ~ on_axis c x))
      with (cap := cap) (srcs := srcs) (c := c) (l := l) (f := f) (grav := grav) (eps := smooth) (x := x) as (v & Hv & B1 & B2); try assumption.
    + intros c0 e y He Hy O. apply lfrc3 with (c := c0); try assumption; [exact (proj1 Hp)|]. apply okx3_iff; [apply He|exact Hy|apply O, He].
    + intros c0 len S e y He Hc0 HS Hlen HinS Hy Hap O. apply mfrc3 with (c := c0); try assumption; [exact (proj1 Hp)|]. apply okx3_iff; [exact Hc0|exact Hy|apply O, Hc0].
    + reflexivity.
    + intros. apply E3f_nonneg; assumption.
    + intros L n HL Hn _. rewrite Ef in HL, Hn. apply (Hok L n); assumption.
    + exists v. split; [exact Hv|]. split; [|exact B2]. intros Hin. destruct (B1 Hin) as (near & far & P1 & P2 & P3).
      rewrite Ef in P2. exists near, far. split; [exact P1|]. split; [exact P2|]. intros k Hk. specialize (P3 k Hk). unfold tree_bound in P3. rewrite Ef in P3.
      destruct (Nat.leb_spec (length srcs) cap) as [|Hlt]; [exact P3|]. rewrite E3f_eq in P3; [exact P3|].
      destruct G as [G0 _ _ _|h _ Hl _ _ _ _]; [lia|]. apply Rdiv_lt_0_compat; [exact Hl|apply pow_lt; lra].
  - intros L n HL Hn O. rewrite <- Ef in HL, Hn.
    apply (eval_force_fails (ops3 p) 3 tb1 tb1 (ME3 p) (LE3 p) (lf3 p) df3 (E3f p) SO ltac:(lia) (fun k => k) (fun c x => ~ on_axis c x))
      with (cap := cap) (c := c) (l := l) (L := L) (n := n); try assumption.
    + intros c0 e y He Hy O'. apply lfrc3 with (c := c0); try assumption; [exact (proj1 Hp)|]. apply okx3_iff; [apply He|exact Hy|exact O'].
    + intros c0 len S e y He Hc0 HS Hlen HinS Hy Hap O'. apply mfrc3 with (c := c0); try assumption; [exact (proj1 Hp)|]. apply okx3_iff; assumption.
    + intros. eapply lbad3; eassumption.
    + intros. eapply mbad3; eassumption.
    + intros. apply on_axis_dec.
    + tauto.
Qed.
End Adaptive.

(** *** The balanced tree *)
Section Balanced.
Variables (orders : list nat) (tb0 : tb3) (cap : nat) (eps : R) (srcs : list (psrc R)) (p h : nat) (c : list R) (l : R).
Hypothesis Htb0 : tables3_after orders = Ok tb0.
Hypothesis Hdim : same_dim 3 srcs.
Hypothesis Hord : order_of eps srcs = Ok p.
Hypothesis Hp : (1 <= p <= 42)%nat.
Hypothesis Hht : bal_height 3 (length srcs) cap = Ok h.
Hypothesis H10 : (h <= 10)%nat.
Hypothesis Hroot : root_box 3 (map (@ps_pos R) srcs) = Some (c, l).
Hypothesis Hl : 0 < l.
Hypothesis Hin : forall s, In s srcs -> in_half_open 3 c l (ps_pos s).

Theorem bal3_force : exists o, (forall r, balanced_fmm3 cap eps srcs tb0 r <-> r = Ok o) /\ b3_order o = p /\ bt_height (b_tree (b3_fmm o)) = h /\
  forall grav smooth x, length x = 3%nat -> in_half_open 3 c l x -> 0 <= smooth ->
  exists L, bal_containing_leaf 3 (b_tree (b3_fmm o)) x = Ok L /\ in_half_open 3 (an_center L) (an_len L) x /\
  (~ on_axis (an_center L) x -> exists v, bal_force3_at grav smooth o x = Ok (map v (seq 0 3)) /\
     exists near far, Permutation (near ++ far) (filter (not_at x) srcs) /\
       (forall s, In s far -> apart 3 (ps_pos s) x (l / 2 ^ h)) /\
       forall k, (k < 3)%nat ->
       Rabs (v k - (rsum (fun s => force_on 3 grav smooth s x k) near + rsum (fun s => force_on 3 grav 0 s x k) far)) <=
         (if (h =? 0)%nat then 0 else bound3f p (l / 2 ^ h) * abs_charge srcs)) /\
  (on_axis (an_center L) x -> bal_force3_at grav smooth o x = NonFinite).
Proof.
  destruct (tables3_grown orders tb0 p Htb0 Hp) as (tb1 & E1 & Hfor & _).
  assert (HT : snd (o_zero (ops3 p) tb1 []) = tb1) by (cbn [ops3 o_zero snd]; now rewrite (refresh_id p (proj1 Hp) tb1 Hfor)).
  destruct (root_len 3 (@ps_pos R) srcs ltac:(lia) Hdim c l Hroot) as [Hc _]. assert (SO := sound3f p (proj1 Hp) tb1 Hfor).
  destruct (make_bal_good (ops3 p) 3 tb1 tb1 (ME3 p) (LE3 p) (lf3 p) df3 (E3f p) SO HT
    c l srcs h ltac:(lia) Hc Hl ltac:(lia) ltac:(lia) Hdim Hin Hroot) as (f & U & G).
  assert (H64 : (h < 64 / 3)%nat) by (change (64 / 3)%nat with 21%nat; lia).
  exists (Bal3Obj p f). split; [exact (bal_api3_unique _ cap eps srcs p h Hord Hht tb1 f E1 U)|]. split; [reflexivity|]. split.
  { destruct G as ((ch & _ & Et) & _). cbn [b3_fmm]. rewrite Et. reflexivity. }
  intros grav smooth x Hx HI Hs. exists (mk 3 (@ps_pos R) c l 0 srcs (ByDepth h) (path 3 c l x h)). cbn [b3_fmm].
  assert (OL : bal_containing_leaf 3 (b_tree f) x = Ok (mk 3 (@ps_pos R) c l 0 srcs (ByDepth h) (path 3 c l x h))).
  { destruct G as ((ch & _ & ->) & _). apply (bal_containing_leaf_ok 3 (@ps_pos R) c l srcs h ltac:(lia) Hc Hl ltac:(lia) ltac:(lia) ch x H64 Hx HI). }
  split; [exact OL|]. split.
  { cbn [an_center an_len mk]. apply path_iff; try assumption; [apply path_valid_all|rewrite path_length; reflexivity]. }
  split; intros O.
  - destruct (bal_force_accurate (ops3 p) 3 tb1 tb1 (ME3 p) (LE3 p) (lf3 p) df3 (E3f p) SO
      c l srcs h ltac:(lia) Hc Hl ltac:(lia) ltac:(lia) Hdim Hin H64 (fun k => k) (fun c x => ~ on_axis c x)) with (f := f) (grav := grav) (eps := smooth) (x := x)
      as (v & Hv & near & far & P1 & P2 & P3); try assumption.
    + intros c0 e y He Hy O'. apply lfrc3 with (c := c0); try assumption; [exact (proj1 Hp)|]. apply okx3_iff; [apply He|exact Hy|exact O'].
    + intros c0 len S e y He Hc0 HS Hlen HinS Hy Hap O'. apply mfrc3 with (c := c0); try assumption; [exact (proj1 Hp)|]. apply okx3_iff; assumption.
    + reflexivity.
    + intros. apply E3f_nonneg; assumption.
    + intros L HL. rewrite OL in HL. injection HL as <-. exact O.
    + exists v. split; [exact Hv|]. exists near, far. split; [exact P1|]. split; [exact P2|]. intros k Hk. specialize (P3 k Hk). unfold bal_bound in P3.
      destruct (Nat.eqb_spec h 0) as [|Hne]; [exact P3|]. rewrite E3f_eq in P3; [exact P3|]. apply Rdiv_lt_0_compat; [exact Hl|apply pow_lt; lra].
  - apply (bal_force_fails (ops3 p) 3 tb1 tb1 (ME3 p) (LE3 p) (lf3 p) df3 (E3f p) SO
      c l srcs h ltac:(lia) Hc Hl ltac:(lia) ltac:(lia) Hdim H64 (fun c x => ~ on_axis c x)) with (L := mk 3 (@ps_pos R) c l 0 srcs (ByDepth h) (path 3 c l x h)); try assumption.
    + intros. eapply lbad3; eassumption.
    + tauto.
Qed.
End Balanced.

(** *** Points that avoid finitely many numbers *)
Lemma avoid (xs : list R) a b : a < b -> exists z, a < z < b /\ ~ In z xs.
Proof.
  revert a b. induction xs as [|y xs IH]; intros a b H.
  - exists ((a + b) / 2). split; [lra|auto].
  - destruct (Rle_lt_dec y ((a + b) / 2)) as [Hy|Hy].
    + destruct (IH ((a + b) / 2) b) as (z & Hz & Nz); [lra|]. exists z. split; [lra|]. intros [->|E]; [lra|auto].
    + destruct (IH a ((a + b) / 2)) as (z & Hz & Nz); [lra|]. exists z. split; [lra|]. intros [->|E]; [lra|auto].
Qed.

Lemma present_valid d pos c l cap (srcs : list (psrc R)) r q : present d pos c l cap srcs r q -> valid d q.
Proof. induction q as [|i q IH]; intros P; [constructor|]. destruct P as (Hi & P & _). constructor; [exact Hi|exact (IH P)]. Qed.
(** Every leaf of an adaptive tree contains points on the vertical line through its centre that are no sources; the tree finds that leaf there. *)
Section LeafAxis.
Variables (cap fuel : nat) (srcs : list (psrc R)) (t : @atree R (psrc R)) (c : list R) (l : R).
Hypothesis Hdim : same_dim 3 srcs.
Hypothesis Hbuild : build_adaptive 3 (@ps_pos R) cap fuel srcs = Ok t.
Hypothesis Hroot : root_box 3 (map (@ps_pos R) srcs) = Some (c, l).

Lemma leaf_axis_point n : 0 < l -> In n (leaf_nodes t) -> exists x, length x = 3%nat /\ in_box 3 c l x /\ on_axis (an_center n) x /\
  ~ In x (map (@ps_pos R) srcs) /\ containing_leaf 3 t x = Ok (Some n).
Proof.
  intros Hl Hn. destruct (adaptive_inv 3 (@ps_pos R) cap fuel srcs t ltac:(lia) Hdim Hbuild) as (c' & l' & h & RB & Hc & _ & Hh & Et & HP & _).
  rewrite Hroot in RB. injection RB as <- <-. subst t. destruct (proj1 (in_leaf_nodes _ _ _ _ _ _ _ _ _ Hh) Hn) as (q & Pq & Nq & ->).
  cbn [an_center mk]. set (b := box_ctr 3 c l q). assert (Lb : length b = 3%nat) by (apply len_box_ctr; exact Hc).
  assert (Wq : 0 < box_len l q) by (rewrite box_len_pow; apply Rdiv_lt_0_compat; [exact Hl|apply pow_lt; lra]).
  destruct (avoid (map (fun s => nth 2 (ps_pos s) 0) srcs) (nth 2 b 0) (nth 2 b 0 + box_len l q / 2)) as (z & Hz & Nz); [lra|].
  set (x := [nth 0 b 0; nth 1 b 0; z]). exists x.
  assert (V : valid 3 q) by (eapply present_valid; exact Pq).
  assert (Bx : in_half_open 3 b (box_len l q) x).
  { intros j Hj. destruct j as [|[|[|j]]]; [| | |lia]; unfold x; cbn [nth]; lra. }
  assert (Bb : in_box 3 b (box_len l q) x) by (intros j Hj; specialize (Bx j Hj); lra).
  assert (Bc : in_box 3 c l x) by (apply (leaf_box_in_root 3 c l q); assumption).
  assert (Hh0 : in_half_open 3 c l x).
  { assert (RI : forall r y, length y = 3%nat -> in_half_open 3 (box_ctr 3 c l r) (box_len l r) y -> valid 3 r -> in_half_open 3 c l y).
    { intros r y Hy By Vr j Hj. specialize (By j Hj). rewrite nth_box_ctr, box_len_pow in By by assumption.
      assert (B := gco_bounds 3 j r). assert (P2 := pow2_pos (length r)). assert (W2 : 0 < l / 2 ^ length r) by (apply Rdiv_lt_0_compat; lra).
      assert (E : 2 ^ length r * (l / 2 ^ length r) = l) by (field; lra).
      assert (B1 : 0 <= IZR (gco 3 j r)) by (apply IZR_le; lia).
      assert (B2 : IZR (gco 3 j r) + 1 <= 2 ^ length r). { rewrite <- IZR_p2, <- plus_IZR. apply IZR_le. lia. }
      set (g := IZR (gco 3 j r)) in *. set (w := l / 2 ^ length r) in *. assert (Q1 : 0 <= g * w) by (apply Rmult_le_pos; lra).
      assert (Q2 : (g + 1) * w <= 2 ^ length r * w) by (apply Rmult_le_compat_r; lra). lra. }
    apply (RI q x); [reflexivity|exact Bx|exact V]. }
  assert (PX : path 3 c l x (length q) = q) by (apply path_iff; assumption).
  split; [reflexivity|]. split; [exact Bc|]. split; [split; reflexivity|]. split.
  { intros I0. apply in_map_iff in I0. destruct I0 as (s & Es & Is). apply Nz. apply in_map_iff. exists s. split; [rewrite Es; reflexivity|exact Is]. }
  destruct (containing_leaf_spec _ _ _ _ _ _ _ _ Hh x Hc) as (L & PL & NL & Ep & [(_ & _ & HC)|(H & _)]); [|contradiction].
  assert (GG : forall a b, present 3 (@ps_pos R) c l cap srcs (rr cap srcs) b -> refined 3 (@ps_pos R) c l cap srcs (rr cap srcs) a = false ->
     path 3 c l x (length a) = a -> path 3 c l x (length b) = b -> (length a <= length b)%nat -> a = b).
  { intros a0 b0 Pb Na Ea Eb Hlen. assert (X : In a0 (ancestors_or_self b0)).
    { rewrite <- Eb. apply anc_path. exists (length a0). auto. }
    apply in_sufs_app in X. destruct X as (r & Er). destruct r as [|i r]; [symmetry; exact Er|].
    rewrite Er in Pb. cbn [app] in Pb. apply present_app_refined in Pb. congruence. }
  assert (EL : L = q) by (destruct (le_lt_dec (length L) (length q)) as [D|D]; [apply GG; auto|symmetry; apply GG; auto; lia]).
  rewrite HC, EL. reflexivity.
Qed.

(** Some points of the root box are on no vertical line through the centre of a box. *)
Lemma off_axes_point : 0 < l -> exists x, length x = 3%nat /\ in_box 3 c l x /\ forall n, In n (heap t) -> ~ on_axis (an_center n) x.
Proof.
  intros Hl. destruct (root_len 3 (@ps_pos R) srcs ltac:(lia) Hdim c l Hroot) as [Hc _].
  destruct (avoid (map (fun n => nth 0 (an_center n) 0) (heap t)) (nth 0 c 0) (nth 0 c 0 + l / 2)) as (z & Hz & Nz); [lra|].
  exists [z; nth 1 c 0; nth 2 c 0]. split; [reflexivity|]. split.
  - intros j Hj. destruct j as [|[|[|j]]]; [| | |lia]; cbn [nth]; lra.
  - intros n Hn [A _]. cbn [nth] in A. apply Nz. apply in_map_iff. exists n. auto.
Qed.
End LeafAxis.
