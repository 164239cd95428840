(** Evaluation of the three-dimensional adaptive tree in rounded arithmetic, given the geometry of the boxes and the expansions. *)
From Coq Require Import List Bool ZArith Arith Lia Lra Psatz Reals Permutation.
From Coquelicot Require Import Coquelicot.
From Verif Require Import Num Outcome Vec VecProofs Tables Tables3D Orthtree AdaptiveTree TreeSpec GeometryProofs AdaptiveProofs BfsProofs ListProofs ListContents
  BuildProofs Schedule CAux TableProofs Expansion3D Exp3Loops Exp3Proofs Exp3Errors Fields FieldSpec FieldProofs FmmPasses PassProofs PassSteps PassTree AnyTree AnyLists AnyPasses FmmTree3D FmmTree3DProofs
  RoundedFields RoundedSpec RoundedProofs RoundedTree RoundedExpansion2D RoundedExpansion3D RoundedComplexSpec RoundedHarmonicSpec RoundedLoops3 RoundedErrors3 RoundedGood3 RoundedPasses3 RoundedSeries.
Import ListNotations.
Local Open Scope R_scope.

Section Eval.
Variable w : R.
Hypothesis Hw : 0 <= w <= 1 / 2.
Variable rnd : R -> R.
Variable hyp : list R -> R.
Variables u e : R.
Hypothesis Hu : 0 <= u <= w.
Hypothesis He : 0 <= e <= w.
Hypothesis Hrnd : accurate_rounding u rnd.
Hypothesis Hhyp : accurate_norm e hyp.
Variable lg : R -> R.
Variable ky : nat.
Variable A : harith.
Hypothesis HA : accurate_harmonics w ky A.
Variables mforce lforce : se3 -> list R -> outcome (list R).
Variable p : nat.
Hypothesis Hp : (1 <= p)%nat.
Notation ge := (ge w p).
Notation U := (direct_potential 3 true).

(** [v] is [T] up to an error of at most [b], after [n] roundings of quantities of size at most [X]. *)
Definition vg (n : nat) (v T b X : R) : Prop := Rabs T <= X /\ 0 <= b /\ Rabs (v - T) <= ge n * (b + X) - X.
Lemma ge_pos n : 1 <= ge n. Proof. apply ge_1. exact Hw. Qed.
Lemma vg_le n n' v T b b' X X' : vg n v T b X -> (n <= n')%nat -> b <= b' -> X <= X' -> vg n' v T b' X'.
Proof.
  intros (H1 & H2 & H3) Hn Hb HX. assert (G := ge_pos n). assert (G' := ge_mono w Hw p n n' Hn). assert (AX := Rabs_pos T). split; [lra|]. split; [lra|]. eapply Rle_trans; [exact H3|].
  assert (E1 : ge n * (b + X) <= ge n' * (b + X)) by (apply Rmult_le_compat_r; lra).
  assert (E2 : ge n' * (b + X) + 1 * ((b' - b) + (X' - X)) <= ge n' * (b' + X')).
  { replace (ge n' * (b' + X')) with (ge n' * (b + X) + ge n' * ((b' - b) + (X' - X))) by ring. apply Rplus_le_compat_l, Rmult_le_compat_r; lra. }
  lra.
Qed.
Lemma w_gam : 16 * w <= gam w p.
Proof.
  unfold gam, k1. assert (Z : 2 <= IZR (Z.of_nat p + 1)) by (apply IZR_le; lia). assert (8 <= IZR (Z.of_nat p + 1) ^ 3).
  { replace 8 with (2 ^ 3) by ring. apply pow_incr. lra. }
  apply Rmult_le_compat_r; lra.
Qed.
Lemma vg_add n v T b X v' T' b' X' : vg n v T b X -> vg n v' T' b' X' -> vg (S n) (rnd (v + v')) (T + T') (b + b') (X + X').
Proof.
  intros (H1 & H2 & H3) (K1 & K2 & K3). assert (G := ge_pos n). assert (WG := w_gam). split; [eapply Rle_trans; [apply Rabs_triang|lra]|]. split; [lra|].
  assert (E : Rabs (v + v' - (T + T')) <= ge n * ((b + b') + (X + X')) - (X + X')).
  { replace (v + v' - (T + T')) with ((v - T) + (v' - T')) by ring. eapply Rle_trans; [apply Rabs_triang|]. lra. }
  assert (M : Rabs (v + v') <= ge n * ((b + b') + (X + X'))).
  { replace (v + v') with ((T + T') + (v + v' - (T + T'))) by ring. eapply Rle_trans; [apply Rabs_triang|]. assert (Z := Rabs_triang T T'). lra. }
  replace (rnd (v + v') - (T + T')) with ((rnd (v + v') - (v + v')) + (v + v' - (T + T'))) by ring. eapply Rle_trans; [apply Rabs_triang|].
  assert (RN := Hrnd (v + v')). assert (GS : ge (S n) = (1 + gam w p) * ge n) by reflexivity. rewrite GS.
  assert (Y : u * Rabs (v + v') <= gam w p * (ge n * ((b + b') + (X + X')))) by (apply Rmult_le_compat; [lra|apply Rabs_pos|lra|exact M]). lra.
Qed.
Lemma vg_zero n : vg n 0 0 0 0.
Proof. split; [rewrite Rabs_R0; lra|]. split; [lra|]. rewrite Rminus_0_r, Rabs_R0. lra. Qed.
Lemma fold_vg {Z} (g : Z -> outcome R) (ex bd Mx : Z -> R) n xs : (forall a, In a xs -> exists v, g a = Ok v /\ vg n v (ex a) (bd a) (Mx a)) ->
  forall m z e0 b0 M0, (n <= m)%nat -> vg m z e0 b0 M0 ->
  exists v, ofold (fun acc a => bind (g a) (fun v => Ok (rnd (acc + v)))) xs z = Ok v /\ vg (m + length xs) v (e0 + rsum ex xs) (b0 + rsum bd xs) (M0 + rsum Mx xs).
Proof.
  induction xs as [|a xs IH]; intros H m z e0 b0 M0 Hm Hz.
  - cbn [ofold length]. exists z. split; [reflexivity|]. change (rsum Mx []) with 0. change (rsum ex []) with 0. change (rsum bd []) with 0. rewrite !Rplus_0_r, Nat.add_0_r. exact Hz.
  - destruct (H a (or_introl eq_refl)) as (v & E & P). cbn [ofold]. rewrite E. cbn [bind].
    destruct (IH (fun b Hin => H b (or_intror Hin)) (S m) (rnd (z + v)) (e0 + ex a) (b0 + bd a) (M0 + Mx a)) as (v2 & E2 & P2).
    + lia.
    + apply vg_add; [exact Hz|]. eapply vg_le; [exact P|exact Hm|apply Rle_refl|apply Rle_refl].
    + exists v2. split; [exact E2|]. rewrite !rsum_cons. cbn [length]. replace (m + S (length xs))%nat with (S m + length xs)%nat by lia. rewrite <- !Rplus_assoc. exact P2.
Qed.

Lemma opp_of x : representable rnd x -> exact_opp rnd x.
Proof. intros H y Hy. replace (y * -1) with (- y) by ring. apply H. exact Hy. Qed.
(** The size of the contribution of one source. *)
Definition kmaj (s : psrc R) (x : list R) : R := Rabs (ps_q s) / dist (ps_pos s) x.
Lemma one_growth : (1 + u) * / ((1 - e) * (1 - u)) <= 1 + 16 * w.
Proof.
  assert (D : 0 < (1 - e) * (1 - u)) by (apply Rmult_lt_0_compat; lra). apply (Rmult_le_reg_r ((1 - e) * (1 - u))); [exact D|]. rewrite Rmult_assoc, Rinv_l, Rmult_1_r by lra.
  assert (D2 : (1 - w) * (1 - w) <= (1 - e) * (1 - u)) by (apply Rmult_le_compat; lra).
  apply Rle_trans with ((1 + 16 * w) * ((1 - w) * (1 - w))); [|apply Rmult_le_compat_l; lra]. apply Rle_trans with (1 + w); [lra|]. nra.
Qed.
Lemma near_one safe s x : length x = 3%nat -> length (ps_pos s) = 3%nat -> representable rnd x -> safe = true \/ ps_pos s <> x ->
  exists v, potential_r rnd hyp lg 3 true safe s x = Ok v /\
    vg 1 v (if negb (is_at x s) then kernel 3 (ps_q s) (dist (ps_pos s) x) else 0) 0 (if negb (is_at x s) then kmaj s x else 0).
Proof.
  intros Lx Ls X SF. assert (U1 : 0 <= u < 1) by lra. assert (E1 : 0 <= e < 1) by lra. destruct (is_at x s) eqn:At; cbn [negb].
  - apply is_at_true in At. destruct SF as [->|SF]; [|contradiction]. exists 0.
    rewrite (potential_r_at rnd u U1 Hrnd hyp lg e E1 (norm_of_spec e hyp Hhyp) 3 true s x (opp_of x X) At). split; [reflexivity|apply vg_zero].
  - apply is_at_false in At. assert (LL : length (ps_pos s) = length x) by congruence.
    assert (D := dist_rel rnd u U1 Hrnd hyp e E1 (norm_of_spec e hyp Hhyp) _ _ LL (opp_of x X)). assert (D0 := dist_pos _ _ LL At). unfold kmaj. set (r := dist (ps_pos s) x) in *.
    unfold potential_r. set (r' := hyp (vsub_r rnd (ps_pos s) x)) in *. assert (LP := lo_pos u U1 e E1).
    assert (R0 : 0 < r') by (eapply rel_pos; [exact LP|exact D0|exact D]).
    replace (Req_bool r' 0) with false by (symmetry; apply Req_bool_false; lra). rewrite andb_false_r. cbn [Nat.eqb]. unfold rdiv_r. destruct (Req_EM_T r' 0) as [|_]; [lra|]. cbn [bind].
    exists (rnd (- ps_q s / r')). split; [reflexivity|].
    assert (F : rel ((1 - u) * / ((1 + e) * (1 + u))) ((1 + u) * / ((1 - e) * (1 - u))) (rnd (- ps_q s / r')) (- ps_q s / r)).
    { apply (rnd_of rnd u U1 Hrnd); [left; apply Rinv_0_lt_compat, Rmult_lt_0_compat; lra|]. apply rel_div; [exact LP|lra|exact D]. }
    assert (Q : Rabs (- ps_q s / r) = Rabs (ps_q s) / r).
    { unfold Rdiv. rewrite Rabs_mult, Rabs_Ropp. f_equal. apply Rabs_pos_eq. left. apply Rinv_0_lt_compat. exact D0. }
    apply rel_err in F.
    + rewrite Q in F. unfold kernel. cbn [Nat.eqb]. split; [rewrite Q; lra|]. split; [lra|]. eapply Rle_trans; [exact F|]. rewrite Rplus_0_l.
      apply Rplus_le_compat_r. apply Rmult_le_compat_r; [rewrite <- Q; apply Rabs_pos|]. assert (G := one_growth). assert (WG := w_gam).
      replace (ge 1) with (1 + gam w p) by (unfold RoundedErrors3.ge; cbn [pow]; ring). lra.
    + apply Rmult_le_pos; [lra|]. left. apply Rinv_0_lt_compat, Rmult_lt_0_compat; lra.
    + replace ((1 - u) * / ((1 + e) * (1 + u)) * ((1 + u) * / ((1 - e) * (1 - u)))) with (/ (1 - e * e)) by (field; repeat split; nra).
      rewrite <- Rinv_1 at 1. apply Rinv_le_contravar; nra.
Qed.
Lemma U_sum S x : U S x = rsum (fun s => kernel 3 (ps_q s) (dist (ps_pos s) x)) S.
Proof. unfold direct_potential, field_sign. apply rsum_ext. intros s _. ring. Qed.
Lemma near_sum safe S x : length x = 3%nat -> same_dim 3 S -> representable rnd x -> (safe = true \/ forall s, In s S -> ps_pos s <> x) ->
  exists v, potential_sum_r rnd hyp lg 3 true safe S x = Ok v /\ vg (1 + length S) v (U (others x S) x) 0 (dsum (others x S) x).
Proof.
  intros Lx HD X SF. unfold potential_sum_r.
  destruct (fold_vg (fun s => potential_r rnd hyp lg 3 true safe s x) (fun s => if negb (is_at x s) then kernel 3 (ps_q s) (dist (ps_pos s) x) else 0)
    (fun s => 0) (fun s => if negb (is_at x s) then kmaj s x else 0) 1 S) with (m := 1%nat) (z := 0) (e0 := 0) (b0 := 0) (M0 := 0) as (v & E & P).
  - intros s Hs. apply near_one; try assumption; [apply HD; exact Hs|]. destruct SF as [->|SF]; [left; reflexivity|right; apply SF; exact Hs].
  - lia.
  - apply vg_zero.
  - exists v. split; [exact E|]. rewrite !Rplus_0_l in P. rewrite U_sum. unfold dsum, others. rewrite !rsum_filter. eapply vg_le; [exact P|apply le_n| |apply Rle_refl].
    rewrite rsum_zero. apply Rle_refl.
Qed.

(** The tree. *)
Variable tau : R.
Hypothesis Htau : 0 <= tau.
Notation NN := (NumRnd rnd).
Variable c : list R.
Variable l : R.
Variable cap : nat.
Variable srcs : list (psrc R).
Variable rr : rule.
Variable h : nat.
Notation o := (ops3_r A mforce lforce p).
Variable pos : psrc R -> list R.
Notation refined := (@AnyTree.refined R (psrc R) NN 3 pos c l cap srcs rr).
Notation present := (@AnyTree.present R (psrc R) NN 3 pos c l cap srcs rr).
Notation sub := (@AnyTree.sub R (psrc R) NN 3 pos c l srcs).
Notation mk := (@AnyTree.mk R (psrc R) NN 3 pos c l cap srcs rr).
Notation ctr := (@AnyTree.ctr R NN 3 c l).
Notation path := (@AnyTree.path R NN 3 c l).
Variable ls : nlists.
Hypothesis Hh : @AnyTree.height_ok R (psrc R) NN 3 pos c l cap srcs rr h.
Hypothesis Hdim : same_dim 3 srcs.
Hypothesis Hcap : forall b, present b -> refined b = false -> (length (sub b) <= cap)%nat.
Variable K : nat.
Variable rad : addr -> R.
Hypothesis G0 : forall b, present b -> 0 < rad b /\ length (ctr b) = 3%nat.
Hypothesis G1 : forall b s, present b -> In s (sub b) -> dist (ps_pos s) (ctr b) <= rad b.
Hypothesis G2 : forall i b, present (i :: b) -> rad (i :: b) + dist (ctr (i :: b)) (ctr b) <= rad b.
Hypothesis G3 : forall b q, present b -> In q (nl_inter ls b) ->
  present q /\ (2 <= length q)%nat /\ exists r, rad q + rad b < r /\ r <= dist (ctr q) (ctr b) /\ trunc3_two (rad q) (rad b) r p <= tau.
Hypothesis G4 : forall b q, present b -> In q (nl_X ls b) -> present q /\ refined q = false /\
  exists r, rad b < r /\ trunc3 (rad b) r p <= tau /\ forall s, In s (sub q) -> r <= dist (ps_pos s) (ctr b).
Notation rfar := (@rfar NN c l srcs pos ls).
Notation ofar := (@ofar NN c l srcs pos ls).
Notation MEok := (@MEok w ky p NN c l cap srcs h pos rad).
Notation LEok := (@LEok w ky p tau NN c l cap srcs h pos ls K rad).

Variable L : addr.
Variable x : list R.
Hypothesis PL : present L.
Hypothesis NL : refined L = false.
Hypothesis Hx : length x = 3%nat.
Hypothesis Hrep : representable rnd x.
Hypothesis HxL : dist x (ctr L) <= rad L.
Hypothesis HxW : forall q, In q (nl_W ls L) -> (2 <= length q)%nat /\ exists r, rad q < r /\ r <= dist x (ctr q) /\ trunc3 (rad q) r p <= tau.
Hypothesis HKL : (length (nl_W ls L) <= K)%nat /\ (length (nl_near ls L) <= K)%nat.

Notation near_srcs := (flat_map sub (nl_near ls L)).
Notation W_srcs := (flat_map sub (nl_W ls L)).

Hypothesis W_pres : forall q, In q (nl_W ls L) -> present q.
Hypothesis near_pres : forall q, In q (nl_near ls L) -> present q /\ refined q = false.
Hypothesis cover : Permutation (near_srcs ++ W_srcs ++ rfar L) srcs.
Hypothesis near_other : forall q s, present q -> refined q = false -> q <> L -> In s (sub q) -> ps_pos s <> x.
Lemma dist_tri a b m : length a = 3%nat -> length b = 3%nat -> length m = 3%nat -> dist a b <= dist a m + dist m b.
Proof. intros Ha Hb Hm. rewrite (dist_sym m b) by congruence. apply dist_three; assumption. Qed.
Lemma x_anc a : In a (ancestors_or_self L) -> dist x (ctr a) <= rad a.
Proof.
  clear - HxL PL G0 G2 Hx. revert PL HxL. induction L as [|i b IH]; intros P H [<-|Ha]; try assumption; [destruct Ha|].
  assert (Pb : present b) by apply P. apply IH; [exact Pb| |exact Ha]. assert (G := G2 i b P).
  eapply Rle_trans; [apply (dist_tri x (ctr b) (ctr (i :: b))); [exact Hx|apply G0; exact Pb|apply G0; exact P]|]. lra.
Qed.
Lemma far_away s : In s (W_srcs ++ rfar L) -> ps_pos s <> x.
Proof.
  intros Hs Ex. apply in_app_iff in Hs. destruct Hs as [Hs|Hs].
  - apply in_flat_map in Hs. destruct Hs as (q & Hq & Hs). destruct (HxW q Hq) as (_ & r & B1 & B2 & _). assert (P := W_pres q Hq).
    assert (D := G1 q s P Hs). rewrite Ex in D. lra.
  - apply in_flat_map in Hs. destruct Hs as (a & Ha & Hs). assert (Pa : present a) by (eapply AnyLists.present_suf; eassumption).
    assert (D := x_anc a Ha). destruct (G0 a Pa) as [Ra La].
    unfold RoundedPasses3.ofar in Hs. apply in_app_iff in Hs. destruct Hs as [Hs|Hs]; apply in_flat_map in Hs; destruct Hs as (q & Hq & Hs).
    + destruct (G3 a q Pa Hq) as (Pq & _ & r & B1 & B2 & _). assert (D' := G1 q s Pq Hs). rewrite Ex in D'. destruct (G0 q Pq) as [Rq Lq].
      assert (T := dist_tri (ctr q) (ctr a) x Lq La Hx). rewrite (dist_sym (ctr q) x) in T by congruence. lra.
    + destruct (G4 a q Pa Hq) as (_ & _ & r & B1 & _ & GS). specialize (GS s Hs). rewrite Ex in GS. lra.
Qed.
Lemma others_away S : (forall s, In s S -> ps_pos s <> x) -> others x S = S.
Proof.
  induction S as [|s S IH]; intros H; [reflexivity|]. unfold others. cbn [filter]. rewrite (proj2 (is_at_false x s)) by (apply H; left; reflexivity).
  cbn [negb]. f_equal. apply IH. intros; apply H; right; assumption.
Qed.
Lemma others_split f : rsum f (others x srcs) = rsum f (others x near_srcs) + (rsum f W_srcs + rsum f (rfar L)).
Proof.
  unfold others. rewrite <- (rsum_perm f _ _ (filter_perm _ _ _ cover)), filter_app, rsum_app. f_equal.
  rewrite <- rsum_app. fold (others x (W_srcs ++ rfar L)). rewrite others_away; [reflexivity|exact far_away].
Qed.
Lemma others_flat qs : others x (flat_map sub qs) = flat_map (fun q => others x (sub q)) qs.
Proof. unfold others. induction qs as [|q qs IH]; [reflexivity|]. cbn [flat_map]. rewrite filter_app, IH. reflexivity. Qed.
Lemma rsum_flat {X} (f : psrc R -> R) (g : X -> list (psrc R)) qs : rsum f (flat_map g qs) = rsum (fun q => rsum f (g q)) qs.
Proof. induction qs as [|q qs IH]; [reflexivity|]. cbn [flat_map]. rewrite rsum_app, rsum_cons, IH. reflexivity. Qed.


Variable m : @mem se3 se3 tb3.
Hypothesis HLE : exists e, m_le m L = Some e /\ LEok L e.
Hypothesis HME : forall q, present q -> (2 <= length q)%nat -> exists e, m_me m q = Some e /\ MEok q e.

Notation N1 := (Nop ky (Z.of_nat p)).
Definition cN : nat := (cL ky p cap h K h + N1 + (p + 1) * (p + 1) + 1 + cap + 2 * K)%nat.
(** The evaluation once the leaf has been found; [lk] is the look-up of boxes. *)
Variable lk : addr -> option (@anode R (psrc R)).
Hypothesis Hlk : forall q, In q (nl_near ls L) -> lk q = Some (mk q).
Definition leaf_pot (field : bool) : outcome R :=
  bind (of_option (m_le m L)) (fun le => bind (o_lpot o le x) (fun p0 =>
  bind (ofold (fun pot q => bind (of_option (m_me m q)) (fun e => bind (o_mpot o e x) (fun v => Ok (rnd (pot + v))))) (nl_W ls L) p0) (fun p1 =>
  bind (ofold (fun pot q => bind (of_option (lk q)) (fun n =>
    if an_leaf n then bind (potential_sum_r rnd hyp lg 3 true (addr_eqb q L) (an_srcs n) x) (fun v => Ok (rnd (pot + v))) else UB)) (nl_near ls L) p1) (fun p2 =>
  Ok (if field then p2 else - p2))))).
Lemma dsum_ge0 S : (forall s, In s S -> ps_pos s <> x) -> same_dim 3 S -> 0 <= dsum S x.
Proof. intros N D. apply rsum_nonneg. intros s Hs. unfold Rdiv. apply Rmult_le_pos; [apply Rabs_pos|]. left. apply Rinv_0_lt_compat, dist_pos; [rewrite Hx; apply D; exact Hs|apply N; exact Hs]. Qed.
Lemma U_dsum S : (forall s, In s S -> ps_pos s <> x) -> same_dim 3 S -> Rabs (U S x) <= dsum S x.
Proof.
  intros N D. rewrite U_sum. unfold dsum. eapply Rle_trans; [apply rsum_abs|]. apply rsum_le. intros s Hs. unfold kernel. cbn [Nat.eqb]. unfold Rdiv. rewrite Rabs_mult, Rabs_Ropp.
  apply Req_le. f_equal. apply Rabs_pos_eq. left. apply Rinv_0_lt_compat, dist_pos; [rewrite Hx; apply D; exact Hs|apply N; exact Hs].
Qed.
Notation kk := (2 * k1 p ^ 3).
Lemma kk_1 : 1 <= kk.
Proof. assert (K1 := k1_ge p). assert (1 <= k1 p ^ 3) by (apply pow_R1_Rle; exact K1). lra. Qed.
Lemma value_vg n S v : (forall s, In s S -> ps_pos s <> x) -> same_dim 3 S -> Rabs (v - U S x) <= tau * abs_charge S + (ge n - 1) * (kk * dsum S x) ->
  vg n v (U S x) (tau * abs_charge S) (kk * dsum S x).
Proof.
  intros N D H. assert (D0 := dsum_ge0 S N D). assert (KK := kk_1). assert (Q := abs_charge_ge0 S). assert (G := ge_pos n). assert (T : 0 <= tau * abs_charge S) by (apply Rmult_le_pos; assumption).
  split; [eapply Rle_trans; [apply U_dsum; assumption|]; nra|]. split; [exact T|]. eapply Rle_trans; [exact H|].
  rewrite Rmult_plus_distr_l. assert (1 * (tau * abs_charge S) <= ge n * (tau * abs_charge S)) by (apply Rmult_le_compat_r; lra). lra.
Qed.
Lemma sub_dim q : same_dim 3 (sub q).
Proof. intros s Hs. apply Hdim. exact (@AnyTree.sub_incl R (psrc R) NN 3 pos c l srcs _ _ Hs). Qed.
Lemma cover_in s : In s (near_srcs ++ W_srcs ++ rfar L) -> In s srcs.
Proof. intros H. eapply Permutation_in; [exact cover|exact H]. Qed.
Lemma rfar_dim : same_dim 3 (rfar L).
Proof. intros s Hs. apply Hdim, cover_in. rewrite !in_app_iff. auto. Qed.
Theorem eval_fine field : exists v, leaf_pot field = Ok v /\
  Rabs (v - direct_potential 3 field (others x srcs) x) <= ge cN * (tau * abs_charge (others x srcs)) + (ge cN - 1) * (kk * dsum (others x srcs) x).
Proof.
  assert (Dp := AnyTree.present_depth 3 pos c l cap srcs rr h Hh L PL). set (N0 := (cL ky p cap h K h + (N1 + Z.to_nat ((Z.of_nat p + 1) * (Z.of_nat p + 1))))%nat).
  assert (CL : (cL ky p cap h K (length L) <= cL ky p cap h K h)%nat) by (unfold cL; apply Nat.add_le_mono_l, Nat.mul_le_mono_r; exact Dp).
  unfold leaf_pot.
  destruct HLE as (e0 & E0 & Q0). rewrite E0. cbn [of_option bind o_lpot ops3_r].
  destruct (lgood_value w Hw ky A HA p tau _ _ _ _ e0 x Q0 Hx HxL) as (v0 & V0 & B0). rewrite V0. cbn [bind].
  assert (P0 : vg N0 v0 (U (rfar L) x) (tau * abs_charge (rfar L)) (kk * dsum (rfar L) x)).
  { eapply vg_le; [apply value_vg; [|exact rfar_dim|exact B0]| |apply Rle_refl|apply Rle_refl]; [|unfold N0; lia]. intros s Hs. apply far_away. apply in_or_app. right. exact Hs. }
  destruct (fold_vg (fun q => bind (of_option (m_me m q)) (fun e => me3_pot_r A e x)) (fun q => U (sub q) x) (fun q => tau * abs_charge (sub q))
      (fun q => kk * dsum (sub q) x) N0 (nl_W ls L)) with (m := N0) (z := v0) (e0 := U (rfar L) x) (b0 := tau * abs_charge (rfar L)) (M0 := kk * dsum (rfar L) x)
      as (v1 & E1 & P1); [|apply le_n|exact P0|].
  { intros q Hq. assert (Pq := W_pres q Hq). destruct (HxW q Hq) as (L2 & r & X1 & X2 & X3). destruct (HME q Pq L2) as (g & Hg & Mg). rewrite Hg. cbn [of_option bind].
    destruct (G0 q Pq) as [Rq Lq].
    destruct (mgood_value w Hw ky A HA p tau _ _ _ (rad q) r g x Mg Hx ltac:(lra) X2 X3) as (v & V & Bv).
    exists v. split; [exact V|]. eapply vg_le; [apply value_vg; [|apply sub_dim|exact Bv]| |apply Rle_refl|apply Rle_refl].
    - intros s Hs. apply far_away. apply in_or_app. left. apply in_flat_map. exists q. auto.
    - assert (X := cM_mono ky p Hp cap h q). unfold N0, cL, cB. lia. }
  assert (E1' : forall f, (forall pot q, f pot q = bind (bind (of_option (m_me m q)) (fun e => me3_pot_r A e x)) (fun v => Ok (rnd (pot + v)))) ->
    ofold f (nl_W ls L) v0 = Ok v1).
  { intros f Hf. rewrite <- E1. clear - Hf. generalize v0. induction (nl_W ls L) as [|q qs IH]; intros z; [reflexivity|]. cbn [ofold]. rewrite Hf.
    destruct (bind (of_option (m_me m q)) (fun e => me3_pot_r A e x)) as [v| | | | |]; cbn [bind]; try reflexivity. apply IH. }
  rewrite E1' by (intros pot q; cbn [o_mpot ops3_r]; destruct (m_me m q); reflexivity). cbn [bind]. clear E1 E1'.
  destruct (fold_vg (fun q => potential_sum_r rnd hyp lg 3 true (addr_eqb q L) (sub q) x) (fun q => U (others x (sub q)) x) (fun q => 0)
      (fun q => dsum (others x (sub q)) x) (1 + cap) (nl_near ls L)) with (m := (N0 + 1 + cap + length (nl_W ls L))%nat) (z := v1)
      (e0 := U (rfar L) x + rsum (fun q => U (sub q) x) (nl_W ls L)) (b0 := tau * abs_charge (rfar L) + rsum (fun q => tau * abs_charge (sub q)) (nl_W ls L))
      (M0 := kk * dsum (rfar L) x + rsum (fun q => kk * dsum (sub q) x) (nl_W ls L)) as (v2 & E2 & P2); [|lia|eapply vg_le; [exact P1|lia|apply Rle_refl|apply Rle_refl]|].
  { intros q Hq. destruct (near_pres q Hq) as [Pq Nq].
    destruct (near_sum (addr_eqb q L) (sub q) x Hx (sub_dim q) Hrep) as (v & V & Pv).
    - destruct (addr_eqb q L) eqn:Eq; [left; reflexivity|right]. intros s Hs. apply (near_other q s Pq Nq); [|exact Hs]. intros ->. rewrite addr_eqb_refl in Eq. discriminate.
    - exists v. split; [exact V|]. eapply vg_le; [exact Pv| |apply Rle_refl|apply Rle_refl]. specialize (Hcap q Pq Nq). lia. }
  assert (E2' : forall f, (forall pot q, In q (nl_near ls L) -> f pot q = bind (potential_sum_r rnd hyp lg 3 true (addr_eqb q L) (sub q) x) (fun v => Ok (rnd (pot + v)))) ->
    ofold f (nl_near ls L) v1 = Ok v2).
  { intros f Hf. rewrite <- E2. clear - Hf. revert Hf. generalize v1. induction (nl_near ls L) as [|q qs IH]; intros z Hf; [reflexivity|]. cbn [ofold]. rewrite Hf by (left; reflexivity).
    destruct (potential_sum_r rnd hyp lg 3 true (addr_eqb q L) (sub q) x) as [v| | | | |]; cbn [bind]; try reflexivity. apply IH. intros; apply Hf; right; assumption. }
  rewrite E2'.
  2:{ intros pot q Hq. destruct (near_pres q Hq) as [Pq Nq]. rewrite (Hlk q Hq). cbn [of_option bind].
      unfold AnyTree.mk at 1. cbn [an_leaf]. rewrite Nq. cbn [negb]. unfold AnyTree.mk. cbn [an_srcs]. rewrite Nq. reflexivity. }
  cbn [bind]. clear E2 E2'. eexists. split; [reflexivity|].
  assert (UF : forall S, direct_potential 3 field S x = field_sign field * U S x).
  { intros S. unfold direct_potential. rewrite <- rsum_const_mul. apply rsum_ext. intros s _. unfold field_sign. ring. }
  assert (SG : Rabs ((if field then v2 else - v2) - direct_potential 3 field (others x srcs) x) = Rabs (v2 - U (others x srcs) x)).
  { rewrite UF. unfold field_sign. destruct field; [f_equal; ring|]. rewrite <- Rabs_Ropp. f_equal. ring. }
  rewrite SG. clear SG UF.
  assert (UE : U (rfar L) x + rsum (fun q => U (sub q) x) (nl_W ls L) + rsum (fun q => U (others x (sub q)) x) (nl_near ls L) = U (others x srcs) x).
  { unfold direct_potential. rewrite (others_split _), others_flat, !rsum_flat. ring. }
  rewrite UE in P2. clear UE.
  assert (QT : abs_charge (others x srcs) = abs_charge (others x near_srcs) + (abs_charge W_srcs + abs_charge (rfar L))) by apply others_split.
  assert (DT : dsum (others x srcs) x = dsum (others x near_srcs) x + (dsum W_srcs x + dsum (rfar L) x)) by apply others_split.
  assert (QN := abs_charge_ge0 (others x near_srcs)).
  assert (DN : 0 <= dsum (others x near_srcs) x).
  { apply dsum_ge0; intros s Hs; apply filter_In in Hs; destruct Hs as [Hs Hn]; [apply is_at_false; apply negb_true_iff; exact Hn|apply Hdim, cover_in; rewrite !in_app_iff; auto]. }
  apply (vg_le _ cN _ _ _ (tau * abs_charge (others x srcs)) _ (kk * dsum (others x srcs) x)) in P2.
  - destruct P2 as (_ & _ & P2). rewrite Rmult_plus_distr_l in P2. lra.
  - destruct HKL as [K1 K2]. unfold cN, N0. replace (Z.to_nat ((Z.of_nat p + 1) * (Z.of_nat p + 1))) with ((p + 1) * (p + 1))%nat by lia. lia.
  - rewrite rsum_zero, Rplus_0_r, QT, rsum_const_mul. replace (rsum (fun q => abs_charge (sub q)) (nl_W ls L)) with (abs_charge W_srcs) by (unfold abs_charge; rewrite rsum_flat; reflexivity).
    assert (0 <= tau * abs_charge (others x near_srcs)) by (apply Rmult_le_pos; assumption). lra.
  - rewrite DT, rsum_const_mul. replace (rsum (fun q => dsum (sub q) x) (nl_W ls L)) with (dsum W_srcs x) by (unfold dsum; rewrite rsum_flat; reflexivity).
    replace (rsum (fun q => dsum (others x (sub q)) x) (nl_near ls L)) with (dsum (others x near_srcs) x) by (unfold dsum; rewrite others_flat, rsum_flat; reflexivity).
    assert (KK := kk_1). assert (1 * dsum (others x near_srcs) x <= kk * dsum (others x near_srcs) x) by (apply Rmult_le_compat_r; lra). lra.
Qed.
End Eval.

(** The adaptive tree: the lists of a leaf cover all sources, and sources at the point of evaluation are in its leaf. *)
Section Cover.
Variable rnd : R -> R.
Variable c : list R.
Variable l : R.
Variable cap : nat.
Variable srcs : list (psrc R).
Variable rr : rule.
Variable h : nat.
Notation NN := (NumRnd rnd).
Notation pos := (@ps_pos R).
Notation refined := (@AnyTree.refined R (psrc R) NN 3 pos c l cap srcs rr).
Notation present := (@AnyTree.present R (psrc R) NN 3 pos c l cap srcs rr).
Notation sub := (@AnyTree.sub R (psrc R) NN 3 pos c l srcs).
Notation path := (@AnyTree.path R NN 3 c l).
Notation t := (@AnyTree.spec_tree R (psrc R) NN 3 pos c l cap srcs rr h).
Notation ls := (@AnyLists.final R (psrc R) NN 3 pos c l cap srcs rr h).
Hypothesis Hsym : forall a b, @adjb R (psrc R) NN 3 pos c l cap srcs rr a b = @adjb R (psrc R) NN 3 pos c l cap srcs rr b a.
Hypothesis Hh : @AnyTree.height_ok R (psrc R) NN 3 pos c l cap srcs rr h.
Hypothesis G3 : forall b q, present b -> In q (nl_inter ls b) -> present q.
Notation rfar := (@rfar NN c l srcs pos ls).
Variable L : addr.
Variable x : list R.
Hypothesis PL : present L.
Hypothesis NL : refined L = false.
Hypothesis Hpath : path x (length L) = L.
Notation near_srcs := (flat_map sub (nl_near ls L)).
Notation W_srcs := (flat_map sub (nl_W ls L)).

Lemma W_pres q : In q (nl_W ls L) -> present q.
Proof. intros H. apply final_W_in in H; [apply H|assumption|assumption]. Qed.
Lemma near_pres q : In q (nl_near ls L) -> present q /\ refined q = false.
Proof. intros H. apply final_near_leaf in H; [tauto|assumption..]. Qed.
Lemma cover : Permutation (near_srcs ++ W_srcs ++ rfar L) srcs.
Proof.
  assert (G := Permutation_flat_map sub (AnyLists.interactions_perm 3 pos c l cap srcs rr Hsym h Hh L PL NL)).
  rewrite (AnyTree.sub_leaves_perm 3 pos c l cap srcs rr h Hh) in G.
  unfold interactions in G. rewrite !flat_map_app in G. etransitivity; [|exact G].
  assert (B : forall qs, (forall q, In q qs -> present q) -> Permutation (flat_map sub qs) (flat_map sub (flat_map (leaves_below t) qs))).
  { induction qs as [|q qs IH]; intros Hq; [constructor|]. cbn [flat_map]. rewrite flat_map_app. apply Permutation_app.
    - unfold leaves_below. rewrite AnyLists.leaf_list_eq. symmetry. apply AnyTree.sub_below; [exact Hh|]. apply Hq. left. reflexivity.
    - apply IH. intros; apply Hq; right; assumption. }
  apply Permutation_app_head. apply Permutation_app.
  - apply B. exact W_pres.
  - unfold RoundedPasses3.rfar. rewrite !flat_map_concat_map, concat_map, map_map.
    assert (PA : forall a, In a (ancestors_or_self L) -> present a) by (intros a Ha; eapply AnyLists.present_suf; eassumption).
    clear G. induction (ancestors_or_self L) as [|a As IH]; [constructor|]. cbn [map concat].
    rewrite concat_app. apply Permutation_app; [|apply IH; intros; apply PA; right; assumption].
    rewrite <- flat_map_concat_map, flat_map_app. unfold RoundedPasses3.ofar. apply Permutation_app; [|reflexivity].
    apply B. intros q Hq. apply (G3 a q); [|exact Hq]. apply PA. left. reflexivity.
Qed.
Lemma near_other q s : present q -> refined q = false -> q <> L -> In s (sub q) -> ps_pos s <> x.
Proof.
  intros Pq Nq NE Hs Ex. apply (@AnyTree.sub_path R (psrc R) NN 3 pos c l srcs) in Hs. destruct Hs as [_ Hs]. rewrite Ex in Hs.
  assert (G : forall a b, present a -> present b -> refined a = false -> a <> b -> path x (length a) = a -> path x (length b) = b ->
     (length a <= length b)%nat -> False).
  { intros a b Pa Pb Na Hne Ea Eb Hlen. assert (X : In a (ancestors_or_self b)).
    { rewrite <- Eb. apply (@AnyTree.anc_path R NN 3 c l). exists (length a). auto. }
    apply in_sufs_app in X. destruct X as (r & Er). destruct r as [|i r]; [simpl in Er; congruence|].
    rewrite Er in Pb. cbn [app] in Pb. apply (@AnyTree.present_app_refined R (psrc R) NN) in Pb. congruence. }
  destruct (le_lt_dec (length q) (length L)) as [Hlen|Hlen].
  - apply (G q L); auto.
  - apply (G L q); auto. lia.
Qed.
End Cover.
