(** End-to-end results for the three-dimensional trees: potential. *)
From Coq Require Import List Bool ZArith Arith Lia Lra Reals Permutation.
From Coquelicot Require Import Complex.
From Verif Require Import Num Outcome Vec Orthtree AdaptiveTree TreeSpec VecProofs GeometrySpec GeometryProofs TreeGeometry
  AdaptiveProofs BuildProofs ListProofs ListContents RootBoxProofs TreeTheorems TreeTheorems3 Tables Tables3D Expansion3D CAux TableProofs Table3DProofs FieldSpec Schedule Fields FieldProofs
  FmmPasses PassProofs PassSteps PassTree PassSpec PassEval PassAgree FmmTree2DProofs FmmTheorems FmmApi FmmApiProofs
  BalancedTree BalancedSpec BalancedIndex BalancedAddr BalancedProofs BalancedFmm BalancedFmmProofs BalancedApiProofs
  Kernel3 Harmonics3D Exp3Loops Exp3Proofs Exp3Errors Exp3Theorems FmmTree3D FmmTree3DProofs.
Import ListNotations.
Local Open Scope R_scope.

Notation not_at x := (fun s => negb (is_at x s)).

(** The error bound for boxes of side [len]. *)
Definition bound3 (p : nat) (len : R) : R := 2 * (sqrt 3 / (4 - sqrt 3)) ^ S p / ((2 - sqrt 3) * len).

(** *** The adaptive tree *)
Section Adaptive.
Variables (orders : list nat) (tb0 : tb3) (cap fuel : nat) (eps : R) (srcs : list (psrc R)) (p : nat) (t : @atree R (psrc R)) (c : list R) (l : R).
Hypothesis Htb0 : tables3_after orders = Ok tb0.
Hypothesis Hdim : same_dim 3 srcs.
Hypothesis Hord : order_of eps srcs = Ok p.
Hypothesis Hp : (1 <= p <= 42)%nat.
Hypothesis Hbuild : build_adaptive 3 (@ps_pos R) cap fuel srcs = Ok t.
Hypothesis Hroot : root_box 3 (map (@ps_pos R) srcs) = Some (c, l).
Hypothesis Hbox : forall s, In s srcs -> in_box 3 c l (ps_pos s).

Lemma api3_unique tb1 f : tb3_refresh tb0 (Z.of_nat p) = Ok tb1 -> (forall r, make_fmm (ops3 p) 3 cap fuel srcs tb1 r <-> r = Ok f) ->
  forall r, adaptive_fmm3 cap fuel eps srcs tb0 r <-> r = Ok (Fmm3Obj p f).
Proof.
  intros E U r. split.
  - intros H. inversion H as [r0 X1 X2|p0 r0 X1 X2 X3|p0 tb' r0 X1 X2 X3]; subst.
    + exfalso. apply (X2 p). exact Hord.
    + exfalso. assert (p0 = p) by congruence. subst p0. apply (X3 tb1). exact E.
    + assert (p0 = p) by congruence. subst p0. assert (tb' = tb1) by congruence. subst tb'. apply U in X3. subst r0. reflexivity.
  - intros ->. change (Ok (Fmm3Obj p f)) with (omap (Fmm3Obj p) (Ok f)). eapply af3_make; [exact Hord|exact E|]. apply U. reflexivity.
Qed.

Theorem fmm3_potential : exists o, (forall r, adaptive_fmm3 cap fuel eps srcs tb0 r <-> r = Ok o) /\ f3_order o = p /\ f_tree (f3_fmm o) = t /\
  forall grav x, length x = 3%nat -> exists v, potential3_at grav srcs o x = Ok v /\
     (in_box 3 c l x -> Rabs (v - direct_potential 3 grav (filter (not_at x) srcs) x) <=
        (if (length srcs <=? cap)%nat then 0 else bound3 p (l / 2 ^ at_height t) * abs_charge srcs)) /\
     (~ in_box 3 c l x -> v = direct_potential 3 grav srcs x).
Proof.
  destruct (tables3_grown orders tb0 p Htb0 Hp) as (tb1 & E1 & Hfor & _).
  assert (HT : snd (o_zero (ops3 p) tb1 []) = tb1) by (cbn [ops3 o_zero snd]; now rewrite (refresh_id p (proj1 Hp) tb1 Hfor)).
  destruct (make_fmm_good (ops3 p) 3 tb1 tb1 (ME3 p) (LE3 p) lv3 dr3 (E3 p) (sound3 p (proj1 Hp) tb1 Hfor) HT ltac:(lia)
    cap fuel srcs t c l Hdim Hbuild Hroot Hbox) as (f & U & Ef & Hc & G).
  exists (Fmm3Obj p f). split; [apply (api3_unique tb1); assumption|]. split; [reflexivity|]. split; [exact Ef|].
  intros grav x Hx.
  destruct (eval_pot_accurate (ops3 p) 3 tb1 tb1 (ME3 p) (LE3 p) lv3 dr3 (E3 p) (sound3 p (proj1 Hp) tb1 Hfor) ltac:(lia) tt)
      with (cap := cap) (srcs := srcs) (c := c) (l := l) (f := f) (grav := grav) (x := x) as (v & Hv & B1 & B2); try assumption.
  - intros. eapply lpot3; [exact (proj1 Hp)|eassumption..].
  - intros. eapply mpot3; [exact (proj1 Hp)|eassumption..].
  - reflexivity.
  - intros. apply E3_nonneg. assumption.
  - exists v. split; [exact Hv|]. split; [|exact B2]. intros Hin. specialize (B1 Hin). unfold tree_bound in B1. rewrite Ef in B1. exact B1.
Qed.
End Adaptive.

(** Orders above 42 stop the program: the factorials needed do not fit a double and GSL's error handler aborts. *)
Theorem fmm3_order_limit orders tb cap fuel eps srcs p : tables3_after orders = Ok tb -> order_of eps srcs = Ok p -> (42 < p)%nat ->
  forall r, adaptive_fmm3 cap fuel eps srcs tb r <-> r = Abort.
Proof.
  intros Htb Hord Hp r. destruct (tables3_spec orders tb Htb) as (Hok & _ & Hm).
  assert (E : tb3_refresh tb (Z.of_nat p) = Abort) by (apply tb3_refresh_abort; [exact Hok|lia|lia]). split.
  - intros H. inversion H as [r0 X1 X2|p0 r0 X1 X2 X3|p0 tb' r0 X1 X2 X3]; subst.
    + exfalso. apply (X2 p). exact Hord.
    + assert (p0 = p) by congruence. subst p0. rewrite E. reflexivity.
    + assert (p0 = p) by congruence. subst p0. congruence.
  - intros ->. change (@Abort fmm3_obj) with (bind (@Abort tb3) (fun _ : tb3 => @UB fmm3_obj)). rewrite <- E. eapply af3_tables; [exact Hord|reflexivity|].
    intros tb' X. congruence.
Qed.
Theorem bal3_order_limit orders tb cap eps srcs p h : tables3_after orders = Ok tb -> order_of eps srcs = Ok p -> (42 < p)%nat ->
  bal_height 3 (length srcs) cap = Ok h ->
  forall r, balanced_fmm3 cap eps srcs tb r <-> r = Abort.
Proof.
  intros Htb Hord Hp Hh r. destruct (tables3_spec orders tb Htb) as (Hok & _ & Hm).
  assert (E : tb3_refresh tb (Z.of_nat p) = Abort) by (apply tb3_refresh_abort; [exact Hok|lia|lia]). split.
  - intros H. inversion H as [r0 X1 X2|p0 r0 X1 X2 X3|p0 h0 r0 X1 X2 X3 X4|p0 h0 tb' r0 X1 X2 X3 X4]; subst.
    + exfalso. apply (X2 p). exact Hord.
    + exfalso. apply (X3 h). exact Hh.
    + assert (p0 = p) by congruence. subst p0. rewrite E. reflexivity.
    + assert (p0 = p) by congruence. subst p0. congruence.
  - intros ->. change (@Abort bal3_obj) with (bind (@Abort tb3) (fun _ : tb3 => @UB bal3_obj)). rewrite <- E. eapply bf3_tables; [exact Hord|exact Hh|reflexivity|].
    intros tb' X. congruence.
Qed.

(** *** The balanced tree *)
Section Balanced.
Variables (orders : list nat) (tb0 : tb3) (cap : nat) (eps : R) (srcs : list (psrc R)) (p h : nat) (c : list R) (l : R).
Hypothesis Htb0 : tables3_after orders = Ok tb0.
Hypothesis Hdim : same_dim 3 srcs.
Hypothesis Hord : order_of eps srcs = Ok p.
Hypothesis Hp : (1 <= p <= 42)%nat.
Hypothesis Hht : bal_height 3 (length srcs) cap = Ok h.
Hypothesis H10 : (h <= 10)%nat.
Hypothesis Hroot : root_box 3 (map (@ps_pos R) srcs) = Some (c, l).
Hypothesis Hl : 0 < l.
Hypothesis Hin : forall s, In s srcs -> in_half_open 3 c l (ps_pos s).

Lemma bal_api3_unique tb1 f : tb3_refresh tb0 (Z.of_nat p) = Ok tb1 -> (forall r, make_bal (ops3 p) 3 h srcs tb1 r <-> r = Ok f) ->
  forall r, balanced_fmm3 cap eps srcs tb0 r <-> r = Ok (Bal3Obj p f).
Proof.
  intros E U r. split.
  - intros H. inversion H as [r0 X1 X2|p0 r0 X1 X2 X3|p0 h0 r0 X1 X2 X3 X4|p0 h0 tb' r0 X1 X2 X3 X4]; subst.
    + exfalso. apply (X2 p). exact Hord.
    + exfalso. apply (X3 h). exact Hht.
    + exfalso. assert (p0 = p) by congruence. subst p0. apply (X4 tb1). exact E.
    + assert (p0 = p) by congruence. assert (h0 = h) by congruence. subst p0 h0. assert (tb' = tb1) by congruence. subst tb'. apply U in X4. subst r0. reflexivity.
  - intros ->. change (Ok (Bal3Obj p f)) with (omap (Bal3Obj p) (Ok f)). eapply bf3_make; [exact Hord|exact Hht|exact E|]. apply U. reflexivity.
Qed.

Theorem bal3_potential : exists o, (forall r, balanced_fmm3 cap eps srcs tb0 r <-> r = Ok o) /\ b3_order o = p /\ bt_height (b_tree (b3_fmm o)) = h /\
  forall grav x, length x = 3%nat -> in_half_open 3 c l x -> exists v, bal_potential3_at grav o x = Ok v /\
     Rabs (v - direct_potential 3 grav (filter (not_at x) srcs) x) <=
        (if (h =? 0)%nat then 0 else bound3 p (l / 2 ^ h) * abs_charge srcs).
Proof.
  destruct (tables3_grown orders tb0 p Htb0 Hp) as (tb1 & E1 & Hfor & _).
  assert (HT : snd (o_zero (ops3 p) tb1 []) = tb1) by (cbn [ops3 o_zero snd]; now rewrite (refresh_id p (proj1 Hp) tb1 Hfor)).
  destruct (root_len 3 (@ps_pos R) srcs ltac:(lia) Hdim c l Hroot) as [Hc _].
  destruct (make_bal_good (ops3 p) 3 tb1 tb1 (ME3 p) (LE3 p) lv3 dr3 (E3 p) (sound3 p (proj1 Hp) tb1 Hfor) HT
    c l srcs h ltac:(lia) Hc Hl ltac:(lia) ltac:(lia) Hdim Hin Hroot) as (f & U & G).
  assert (H64 : (h < 64 / 3)%nat) by (change (64 / 3)%nat with 21%nat; lia).
  exists (Bal3Obj p f). split; [apply (bal_api3_unique tb1); assumption|]. split; [reflexivity|]. split.
  - destruct G as ((ch & _ & Et) & _). cbn [b3_fmm]. rewrite Et. reflexivity.
  - intros grav x Hx HI.
    destruct (bal_pot_accurate (ops3 p) 3 tb1 tb1 (ME3 p) (LE3 p) lv3 dr3 (E3 p) (sound3 p (proj1 Hp) tb1 Hfor)
      c l srcs h ltac:(lia) Hc Hl ltac:(lia) ltac:(lia) Hdim Hin H64 tt) with (f := f) (grav := grav) (x := x) as (v & Hv & B1); try assumption.
    + intros. eapply lpot3; [exact (proj1 Hp)|eassumption..].
    + intros. eapply mpot3; [exact (proj1 Hp)|eassumption..].
    + reflexivity.
    + intros. apply E3_nonneg. assumption.
    + exists v. split; [exact Hv|exact B1].
Qed.
End Balanced.
