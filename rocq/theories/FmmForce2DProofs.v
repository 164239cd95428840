(** The force fields of the two-dimensional expansions also satisfy what the passes need. *)
From Coq Require Import List Bool ZArith Arith Lia Lra Reals Permutation.
From Coquelicot Require Import Complex.
From Verif Require Import Num Outcome Vec Orthtree AdaptiveTree TreeSpec VecProofs GeometrySpec GeometryProofs TreeGeometry
  AdaptiveProofs BuildProofs ListProofs ListContents TreeTheorems Tables Expansion2D CAux TableProofs Exp2Proofs Exp2Local Exp2Errors Exp2ForceErrors Exp2Theorems FieldSpec Schedule Fields FieldProofs
  FmmPasses PassProofs PassSteps PassTree PassSpec PassEval FmmTree2D FmmTree2DProofs.
Import ListNotations.
Local Open Scope R_scope.

Lemma dpeval_map2 xs ys z : length xs = length ys -> dpeval (map2 Cplus xs ys) z = (dpeval xs z + dpeval ys z)%C /\ peval (map2 Cplus xs ys) z = (peval xs z + peval ys z)%C.
Proof.
  revert ys. induction xs as [|a xs IH]; intros [|b ys] H; try discriminate; [split; cbn; ring|].
  injection H as H. destruct (IH ys H) as [I1 I2].
  change (map2 Cplus (a :: xs) (b :: ys)) with ((a + b)%C :: map2 Cplus xs ys). cbn [peval dpeval]. rewrite I1, I2. split; ring.
Qed.

Section Instance.
Variable p : nat.
Hypothesis Hp : (1 <= p)%nat.
Variable tb0 : btab.
Hypothesis Hok : bt_ok tb0.
Notation tb := (se_table tb0 p).

Definition lf (k : nat) (e : se2) (x : list R) : R := nth k (le2_force e x) 0.
Definition df (k : nat) (s : psrc R) (x : list R) : R := force_on 2 true 0 s x k.
(** Error per unit charge of one component of the force, for boxes of side [len]. *)
Definition E2f (k : nat) (len : R) : R := ratio2 ^ p / ((2 - sqrt 2) * len).

Lemma E2f_nonneg k len : 0 < len -> 0 <= E2f k len.
Proof.
  intros H. assert (R2 := ratio2_lt). assert (S2 := sqrt2_lt). apply Rmult_le_pos; [apply pow_le; lra|]. left. apply Rinv_0_lt_compat. nra.
Qed.
Lemma df_high k s x : (2 <= k)%nat -> length (ps_pos s) = 2%nat -> length x = 2%nat -> df k s x = 0.
Proof. intros Hk Hs Hx. unfold df, force_on. rewrite !nth_overflow by lia. unfold Rdiv. ring. Qed.
Lemma lf_high k e x : (2 <= k)%nat -> lf k e x = 0.
Proof. intros Hk. unfold lf, le2_force. cbv zeta. destruct k as [|[|k]]; [lia|lia|]. destruct k; reflexivity. Qed.
Lemma zero_force c k x : lf k (se_zero c p) x = 0.
Proof.
  unfold lf, le2_force, se_zero. cbn [se_ctr se_co].
  assert (G : forall n z pw j, le2_force_loop z pw (RtoC 0) j (repeat (RtoC 0) n) = RtoC 0).
  { induction n as [|n IH]; intros z pw j; [reflexivity|]. cbn [repeat le2_force_loop].
    replace (RtoC 0 + RtoC (INR j) * RtoC 0 * pw)%C with (RtoC 0) by ring. apply IH. }
  cbn [repeat tl]. rewrite G. destruct k as [|[|[|]]]; cbn; try reflexivity; ring.
Qed.
Lemma add_force a b e k x : se_add a b = Ok e -> se_co a <> [] -> lf k e x = lf k a x + lf k b x.
Proof.
  intros H Ha. unfold se_add in H. destruct (Nat.eqb_spec (length (se_co a)) (length (se_co b))) as [L|]; [|discriminate]. cbn [negb] in H.
  destruct (Ceq_dec _ _) as [C0|]; [|discriminate]. injection H as <-. unfold lf.
  assert (Hb : se_co b <> []) by (destruct (se_co b); [destruct (se_co a); [congruence|discriminate]|discriminate]).
  rewrite !le2_force_dpeval; try assumption.
  - cbn [se_co se_ctr]. rewrite <- C0. destruct (dpeval_map2 (se_co a) (se_co b) (cplx x - se_ctr a)%C L) as [-> _].
    generalize (dpeval (se_co a) (cplx x - se_ctr a)%C), (dpeval (se_co b) (cplx x - se_ctr a)%C). intros u v.
    destruct k as [|[|[|]]]; cbn [nth]; unfold Re, Im, Cplus; cbn [fst snd]; ring.
  - cbn [se_co]. destruct (se_co a); [congruence|]. destruct (se_co b); [congruence|]. discriminate.
Qed.
Lemma add_LEf c a b : LE2 p c a -> LE2 p c b -> exists e, se_add a b = Ok e /\ LE2 p c e /\ forall k x, lf k e x = lf k a x + lf k b x.
Proof.
  intros Ha Hb. destruct (add_LE p c a b Ha Hb) as (e & He & Le & _). exists e. split; [exact He|]. split; [exact Le|].
  intros k x. apply add_force; [exact He|]. apply co_nonempty. apply Ha.
Qed.

(** One incoming multipole expansion. *)
Lemma m2l_onef c len c1 S : length c = 2%nat -> 0 < len -> length c1 = 2%nat -> same_dim 2 S ->
  (forall s, In s S -> in_box 2 c1 len (ps_pos s)) -> apart 2 c c1 (2 * len) ->
  exists e, le2_m2l tb c (me2_sources c1 p S) = Ok (e, tb) /\ LE2 p c e /\ forall k x, length x = 2%nat -> in_box 2 c len x ->
    Rabs (lf k e x - rsum (fun s => df k s x) S) <= E2f k len * abs_charge S.
Proof.
  intros Hc Hl Hc1 HS Hin Hap. assert (S2 := sqrt2_lt).
  destruct (m2l_one p Hp tb0 Hok c len c1 S Hc Hl Hc1 HS Hin Hap) as (e & He & Le & _).
  exists e. split; [exact He|]. split; [exact Le|]. intros k x Hx Hix.
  destruct (le_lt_dec 2 k) as [Hk|Hk].
  - rewrite lf_high by exact Hk. rewrite (rsum_ext (fun s => df k s x) (fun _ => 0)) by (intros s Hs; apply df_high; [exact Hk|apply HS; exact Hs|exact Hx]).
    rewrite rsum_zero, Rminus_0_r, Rabs_R0. apply Rmult_le_pos; [apply E2f_nonneg; exact Hl|apply abs_charge_nonneg].
  - assert (HD : 2 * len <= dist c1 c). { rewrite dist_sym by congruence. apply (apart_dist 2); try assumption. lra. }
    assert (He' : le2_m2l tb c (me2_sources c1 p S) = Ok (e, se_table tb p)) by (rewrite (tb_id p Hp tb0); exact He).
    assert (G := m2l2_force_error tb c c1 p S x (ratio2 * len) (ratio2 * len) (2 * len) e).
    unfold df, lf. eapply Rle_trans; [apply G; try assumption|].
    + apply tb_ok. exact Hok.
    + unfold ratio2. nra.
    + unfold ratio2. nra.
    + unfold ratio2. nra.
    + intros s Hs. apply in_box_dist; [exact Hc1|apply HS; exact Hs|exact Hl|apply Hin; exact Hs].
    + apply in_box_dist; assumption.
    + rewrite Rmult_comm. apply Rmult_le_compat_r; [apply abs_charge_nonneg|]. right. unfold E2f.
      replace ((ratio2 * len + ratio2 * len) / (2 * len)) with ratio2 by (field; lra).
      replace (2 * len - (ratio2 * len + ratio2 * len)) with ((2 - sqrt 2) * len) by (unfold ratio2; field). reflexivity.
Qed.

(** A ratio of [2/3 sqrt 2 / 2] and a gap of [(3 - sqrt 2) / 2 * len] are better. *)
Lemma W_boundf len n k : 0 < len -> (p <= n)%nat -> (ratio2 * len / (3 / 2 * len)) ^ n / (3 / 2 * len - ratio2 * len) <= E2f k len.
Proof.
  intros Hl Hn. assert (S2 := sqrt2_lt). assert (R2 := ratio2_lt). unfold E2f, Rdiv. apply Rmult_le_compat.
  - apply pow_le. apply Rmult_le_pos; [nra|left; apply Rinv_0_lt_compat; lra].
  - left. apply Rinv_0_lt_compat. unfold ratio2. nra.
  - replace (ratio2 * len * / (3 * / 2 * len)) with (ratio2 * (2 / 3)) by (field; lra).
    replace n with (p + (n - p))%nat by lia. rewrite pow_add.
    assert (A : (ratio2 * (2 / 3)) ^ p <= ratio2 ^ p) by (apply pow_incr; lra).
    assert (B : (ratio2 * (2 / 3)) ^ (n - p) <= 1) by (rewrite <- (pow1 (n - p)); apply pow_incr; lra).
    assert (C0 : 0 <= (ratio2 * (2 / 3)) ^ p) by (apply pow_le; lra). assert (D0 : 0 <= (ratio2 * (2 / 3)) ^ (n - p)) by (apply pow_le; lra). nra.
  - apply Rinv_le_contravar; [nra|]. unfold ratio2. nra.
Qed.

Theorem sound2f : sound (ops2 p) 2 tb (ME2 p) (LE2 p) lf df E2f.
Proof.
  assert (SO := sound2 p Hp tb0 Hok). assert (S2 := sqrt2_lt). constructor.
  - exact (so_p2m _ _ _ _ _ _ _ _ SO).
  - exact (so_m2m _ _ _ _ _ _ _ _ SO).
  - intros tb' c Hc. cbn [ops2 o_zero fst]. split; [apply zero_LE|]. intros i x. apply zero_force.
  - exact (so_size _ _ _ _ _ _ _ _ SO).
  - intros c a b Ha Hb. cbn [ops2 o_add]. destruct (add_LEf c a b Ha Hb) as (e & H1 & H2 & H3). exists e. split; [exact H1|]. split; [exact H2|exact H3].
  - intros c c' e Hc' He. destruct (so_l2l _ _ _ _ _ _ _ _ SO c c' e Hc' He) as (e' & H1 & H2 & _). exists e'. split; [exact H1|]. split; [exact H2|].
    intros k x. destruct He as (We & Oe & Ce). cbn [ops2 o_l2l] in H1. rewrite le2_l2l_shift in H1 by (try assumption; lia).
    injection H1 as <- _. unfold lf. rewrite l2l_force; [reflexivity|]. apply co_nonempty. exact We.
  - intros c len parts Hc Hl Hne HM. cbn [ops2 o_m2l]. unfold le2_m2l_many.
    assert (F : forall ps acc, (forall u, In u ps -> In u parts) -> LE2 p c acc ->
      exists e, ofold (fun st e => bind (le2_m2l (snd st) c e) (fun r => bind (se_add (fst st) (fst r)) (fun s => Ok (s, snd r)))) (map snd ps) (acc, tb) = Ok (e, tb) /\
        LE2 p c e /\ forall k x, length x = 2%nat -> in_box 2 c len x ->
        Rabs (lf k e x - (lf k acc x + rsum (fun s => df k s x) (flat_map (fun u => snd (fst u)) ps))) <= E2f k len * abs_charge (flat_map (fun u => snd (fst u)) ps)).
    { induction ps as [|u ps IH]; intros acc Hin Hacc.
      - exists acc. split; [reflexivity|]. split; [exact Hacc|]. intros k x _ _. cbn [flat_map]. unfold abs_charge; cbn [rsum fold_right].
        replace (_ - _) with 0 by ring. rewrite Rabs_R0. lra.
      - destruct (HM u (Hin u (or_introl eq_refl))) as (M1 & M2 & M3 & M4 & M5).
        destruct (m2l_onef c len (fst (fst u)) (snd (fst u)) Hc Hl M2 M3 M4 M5) as (e1 & He1 & L1 & B1).
        destruct (add_LEf c acc e1 Hacc L1) as (e2 & He2 & L2 & V2).
        destruct (IH e2 (fun v Hv => Hin v (or_intror Hv)) L2) as (e3 & He3 & L3 & B3).
        exists e3. split.
        + cbn [map ofold fst snd]. rewrite M1, He1. cbn [bind fst snd]. rewrite He2. cbn [bind]. exact He3.
        + split; [exact L3|]. intros k x Hx Hix. specialize (B1 k x Hx Hix). specialize (B3 k x Hx Hix). rewrite V2 in B3.
          cbn [flat_map]. rewrite rsum_app, abs_charge_app.
          set (DD := rsum (fun s => df k s x) (flat_map (fun u => snd (fst u)) ps)) in *.
          replace (_ - _) with ((lf k e3 x - (lf k acc x + lf k e1 x + DD)) + (lf k e1 x - rsum (fun s => df k s x) (snd (fst u)))) by ring.
          eapply Rle_trans; [apply Rabs_triang|]. lra. }
    destruct (map snd parts) as [|e0 es] eqn:Ep; [destruct parts; [congruence|discriminate]|].
    assert (Oe : se_ord e0 = p).
    { destruct parts as [|u parts]; [congruence|]. cbn [map] in Ep. destruct (HM u (or_introl eq_refl)) as (M1 & _).
      assert (e0 = snd u) by congruence. subst e0. rewrite M1. reflexivity. }
    rewrite Oe, (tb_id p Hp tb0), <- Ep. destruct (F parts (se_zero c p) (fun u H => H) (zero_LE p c)) as (e & He & Le & B).
    exists e. split; [exact He|]. split; [exact Le|]. intros k x Hx Hix. 
    specialize (B k x Hx Hix). rewrite zero_force, Rplus_0_l in B. exact B.
  - intros c len S Hc Hl HS Hap. destruct (so_p2l _ _ _ _ _ _ _ _ SO c len S Hc Hl HS Hap) as (e & H1 & H2 & _).
    exists e. split; [exact H1|]. split; [exact H2|]. intros k x Hx Hix.
    assert (He : le2_sources c p S = Ok e).
    { cbn [ops2 o_p2l] in H1. apply bind_ok in H1. destruct H1 as (e' & He' & H1). congruence. }
    destruct (le_lt_dec 2 k) as [Hk|Hk].
    + rewrite lf_high by exact Hk. rewrite (rsum_ext (fun s => df k s x) (fun _ => 0)) by (intros s Hs; apply df_high; [exact Hk|apply HS; exact Hs|exact Hx]).
      rewrite rsum_zero, Rminus_0_r, Rabs_R0. apply Rmult_le_pos; [apply E2f_nonneg; exact Hl|apply abs_charge_nonneg].
    + unfold lf, df. eapply Rle_trans; [apply (le2_force_error c p S x (ratio2 * len) (3 / 2 * len) e); try assumption|].
      * unfold ratio2. split; nra.
      * intros s Hs. rewrite dist_sym by (rewrite (HS s Hs); congruence). apply (apart_dist 2); [exact Hc|apply HS; exact Hs|lra|apply Hap; exact Hs].
      * apply in_box_dist; assumption.
      * rewrite Rmult_comm. apply Rmult_le_compat_r; [apply abs_charge_nonneg|]. apply W_boundf; [exact Hl|lia].
  - intros i l1 l2 [H1 H2]. unfold E2f, Rdiv. apply Rmult_le_compat_l; [apply pow_le; apply ratio2_lt|]. apply Rinv_le_contravar; nra.
Qed.

Lemma lfrc2 c e y : LE2 p c e -> length y = 2%nat -> o_lforce (ops2 p) e y = Ok (map (fun k => lf k e y) (seq 0 2)).
Proof. intros _ _. reflexivity. Qed.
Lemma mfrc2 c len S e y : ME2 p c S e -> length c = 2%nat -> same_dim 2 S -> 0 < len ->
  (forall s, In s S -> in_box 2 c len (ps_pos s)) -> length y = 2%nat -> apart 2 c y (3 / 2 * len) ->
  exists v, o_mforce (ops2 p) e y = Ok (map v (seq 0 2)) /\ forall k, (k < 2)%nat ->
    Rabs (v k - rsum (fun s => df k s y) S) <= E2f k len * abs_charge S.
Proof.
  intros -> Hc HS Hl Hin Hy Hap. assert (S2 := sqrt2_lt).
  destruct (me2_force_error c p S y (ratio2 * len) (3 / 2 * len)) as (F & HF & LF & B); try assumption.
  - unfold ratio2. split; nra.
  - intros s Hs. apply in_box_dist; [exact Hc|apply HS; exact Hs|exact Hl|apply Hin; exact Hs].
  - rewrite dist_sym by congruence. apply (apart_dist 2); [exact Hc|exact Hy|lra|exact Hap].
  - exists (fun k => nth k F 0). split.
    + cbn [ops2 o_mforce]. rewrite HF. f_equal. destruct F as [|a [|b [|]]]; try discriminate. reflexivity.
    + intros k Hk. eapply Rle_trans; [apply B; exact Hk|]. rewrite Rmult_comm. apply Rmult_le_compat_r; [apply abs_charge_nonneg|].
      apply W_boundf; [exact Hl|lia].
Qed.
End Instance.
