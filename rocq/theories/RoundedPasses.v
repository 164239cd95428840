(** The passes of the two-dimensional adaptive tree in rounded arithmetic, given the geometry of the boxes. *)
From Coq Require Import List Bool ZArith Arith Lia Lra Reals Permutation.
From Coquelicot Require Import Coquelicot.
From Verif Require Import Num Outcome Vec VecProofs Tables Orthtree AdaptiveTree TreeSpec GeometryProofs AdaptiveProofs BfsProofs ListProofs ListContents
  BuildProofs Schedule CAux TableProofs Expansion2D Exp2Proofs Fields FieldSpec FieldProofs Exp2Errors FmmPasses PassProofs PassSteps PassTree AnyTree AnyLists AnyPasses
  RoundedExpansion2D RoundedComplexSpec ApproxC RoundedSeries RoundedLocal RoundedConvert RoundedGood.
Import ListNotations.
Local Open Scope R_scope.
Arguments Cmod x%C.
Arguments Re z%C.
Arguments Im z%C.
Arguments ap w n%nat x'%C x%C X%R.
Arguments src_at ctr%C s.

Lemma me_close_perm w p n c S S' r e : Permutation S S' -> me_close w p n c S r e -> me_close w p n c S' r e.
Proof.
  intros P (H1 & H2 & H3 & H0 & H4 & H5). assert (Q : abs_charge S = abs_charge S') by (apply rsum_perm; exact P).
  assert (K : forall k, me_coef c S k = me_coef c S' k).
  { intros [|k]; unfold me_coef; [f_equal; apply rsum_perm; exact P|rewrite (lsum_perm _ _ _ P); reflexivity]. }
  split; [exact H1|]. split; [exact H2|]. split; [exact H3|]. split; [exact H0|]. rewrite <- Q. split; [rewrite <- K; exact H4|]. intros k Hk. rewrite <- K. apply H5. exact Hk.
Qed.
Lemma lgood_perm w p rho L n c S S' r e : Permutation S S' -> lgood w p rho L n c S r e -> lgood w p rho L n c S' r e.
Proof.
  intros P (bs & Bs & H1 & H2 & H3 & H4 & H5). exists bs, Bs. assert (Q : abs_charge S = abs_charge S') by (apply rsum_perm; exact P).
  split; [exact H1|]. rewrite <- Q. split; [exact H2|]. split; [|split; [exact H4|]].
  - intros x Lx Hx. replace (direct_potential 2 true S' x) with (direct_potential 2 true S x) by (apply rsum_perm; exact P). apply H3; assumption.
  - intros x Lx Hx k Hk. rewrite <- (rsum_perm (fun s => force_on 2 true 0 s x k) S S' P). apply H5; assumption.
Qed.

Section Passes.
Variable w : R.
Hypothesis Hw : 0 <= w <= 1 / 2.
Variable A : carith.
Hypothesis HA : accurate_complex w A.
Variable p : nat.
Hypothesis Hp1 : (1 <= p)%nat.
Variable rho L : R.
Hypothesis Hrho : 0 < rho < 1.
Context {NN : Num R}.
Variable tb0 : btab.
Hypothesis Htb0 : bt_ok tb0.
Variable c : list R.
Variable l : R.
Variable cap : nat.
Variable srcs : list (psrc R).
Variable rr : rule.
Variable h : nat.
Notation o := (ops2_r A p).
Notation tb := (se_table tb0 p).
(** The positions that decide in which boxes a source is. *)
Variable pos : psrc R -> list R.
Notation refined := (@AnyTree.refined R (psrc R) NN 2 pos c l cap srcs rr).
Notation present := (@AnyTree.present R (psrc R) NN 2 pos c l cap srcs rr).
Notation sub := (@AnyTree.sub R (psrc R) NN 2 pos c l srcs).
Notation ctr := (@AnyTree.ctr R NN 2 c l).
Notation t := (@AnyTree.spec_tree R (psrc R) NN 2 pos c l cap srcs rr h).
Variable ls : nlists.
Hypothesis Hh : @AnyTree.height_ok R (psrc R) NN 2 pos c l cap srcs rr h.
Hypothesis Hdim : same_dim 2 srcs.
Hypothesis Hcap : forall b, present b -> refined b = false -> (length (sub b) <= cap)%nat.
Variable K : nat.
Hypothesis HK : forall b, present b -> (length (nl_inter ls b) <= K)%nat /\ (length (nl_X ls b) <= K)%nat.

(** The geometry. *)
Variable rad : addr -> R.
Hypothesis G0 : forall b, present b -> 0 < rad b /\ length (ctr b) = 2%nat.
Hypothesis G1 : forall b s, present b -> In s (sub b) -> dist (ps_pos s) (ctr b) <= rad b.
Hypothesis G2 : forall i b, present (i :: b) -> rad (i :: b) + Cmod (cplx (ctr (i :: b)) - cplx (ctr b)) <= rad b.
Hypothesis G3 : forall b q, present b -> In q (nl_inter ls b) ->
  present q /\ (2 <= length q)%nat /\ rad b + rad q <= rho * Cmod (cplx (ctr q) - cplx (ctr b)) /\ Rabs (ln (Cmod (cplx (ctr q) - cplx (ctr b)))) <= L.
Hypothesis G4 : forall b q, present b -> In q (nl_X ls b) -> present q /\ refined q = false /\
  forall s, In s (sub q) -> rad b <= rho * Cmod (src_at (cplx (ctr b)) s) /\ Rabs (ln (Cmod (src_at (cplx (ctr b)) s))) <= L.
Hypothesis G5 : forall b, present b -> (length b <= 1)%nat -> nl_inter ls b = [] /\ nl_X ls b = [].

Definition ofar (b : addr) : list (psrc R) := flat_map sub (nl_inter ls b) ++ flat_map sub (nl_X ls b).
Definition rfar (b : addr) : list (psrc R) := flat_map ofar (ancestors_or_self b).

(** Operation counts. *)
Definition cM (k : nat) : nat := (2 * p + 2 + cap + (h - k) * (3 * p + 6))%nat.
Definition cB : nat := (cM 0 + 12 * p + 7 + K + cap)%nat.
Definition cL (k : nat) : nat := (cB + k * (3 * p + 5 + K))%nat.

Notation me_close := (me_close w p).
Notation lgood := (lgood w p rho L).
Definition MEok (b : addr) (e : se2) : Prop := me_close (cM (length b)) (cplx (ctr b)) (sub b) (rad b) e.
Definition LEok (b : addr) (e : se2) : Prop := lgood (cL (length b)) (ctr b) (rfar b) (rad b) e.
Definition Part (b : addr) (vs xs : list addr) (e : se2) : Prop :=
  lgood (cL (length b - 1) + 3 * p + 4 + Nat.min 1 (length vs) + length xs) (ctr b) (rfar (tl b) ++ flat_map sub vs ++ flat_map sub xs) (rad b) e /\
  (1 <= length b)%nat.

Lemma tb_ok : bt_ok tb. Proof. apply se_table_ok. exact Htb0. Qed.
Lemma tb_max : (p <= bt_max tb)%nat. Proof. rewrite se_table_max. lia. Qed.
Lemma sub_dim2 b : same_dim 2 (sub b).
Proof. intros s Hs. apply Hdim. eapply AnyTree.sub_incl. exact Hs. Qed.
Lemma src_at_dist b s : present b -> In s (sub b) -> Cmod (src_at (cplx (ctr b)) s) <= rad b.
Proof.
  intros P Hs. assert (D := G1 b s P Hs). rewrite dist_Cmod in D; [exact D|apply sub_dim2 in Hs; exact Hs|]. apply G0. exact P.
Qed.
Lemma cM_mono (b : addr) : (cM (length b) <= cM 0)%nat.
Proof. unfold cM. apply Nat.add_le_mono_l, Nat.mul_le_mono_r. lia. Qed.

Lemma hp2m b : present b -> refined b = false -> exists e, o_p2m o tb (ctr b) (sub b) = Ok (e, tb) /\ MEok b e.
Proof.
  intros P N. cbn [o_p2m ops2_r]. replace (se_table tb p) with tb by (symmetry; apply se_table_id; exact tb_max).
  eexists. split; [reflexivity|]. eapply me_close_le; [exact Hw|apply p2m_close|]; try eassumption.
  - left. apply G0. exact P.
  - intros s Hs. apply src_at_dist; assumption.
  - unfold cM. specialize (Hcap b P N). generalize ((h - length b) * (3 * p + 6))%nat. lia.
Qed.
Lemma kids_len b : length (kids 2 b) = 4%nat.
Proof. reflexivity. Qed.
Lemma Forall2_len {X Y} (P : X -> Y -> Prop) xs ys : Forall2 P xs ys -> length xs = length ys.
Proof. induction 1; cbn [length]; congruence. Qed.
Lemma Forall2_map_l {X Y Z} (f : X -> Z) (P : X -> Y -> Prop) (Q : Z -> Y -> Prop) xs ys : (forall a b, In a xs -> P a b -> Q (f a) b) -> Forall2 P xs ys -> Forall2 Q (map f xs) ys.
Proof. intros H F. induction F; cbn [map]; constructor; [apply H; [left; reflexivity|assumption]|]. apply IHF. intros; apply H; [right; assumption|assumption]. Qed.
Lemma hm2m b es : present b -> refined b = true -> (2 <= length b)%nat -> Forall2 MEok (kids 2 b) es ->
  exists e, o_m2m o tb (ctr b) es = Ok (e, tb) /\ MEok b e.
Proof.
  intros P Rf _ F. cbn [o_m2m ops2_r]. assert (LE := Forall2_len _ _ _ F). rewrite kids_len in LE.
  assert (PK : forall a, In a (kids 2 b) -> present a /\ exists i, a = i :: b).
  { intros a Ha. unfold kids in Ha. apply in_map_iff in Ha. destruct Ha as (i & <- & Hi). apply in_seq in Hi. split; [|exists i; reflexivity].
    cbn [AnyTree.present]. split; [lia|split; assumption]. }
  destruct (m2m_close w Hw A HA p tb (cM (S (length b))) (ctr b) (rad b) (map (fun a => (cplx (ctr a), sub a, rad a)) (kids 2 b)) es) as (e & E & Q).
  - exact tb_ok.
  - exact tb_max.
  - intros ->. discriminate.
  - eapply Forall2_map_l; [|exact F]. intros a e Ha HM. destruct (PK a Ha) as (Pa & i & ->). cbn [fst snd]. split; [exact HM|]. split; [left; apply G0; exact Pa|]. apply G2. exact Pa.
  - exists e. split; [exact E|]. unfold MEok. eapply me_close_perm; [apply AnyTree.sub_kids|].
    rewrite flat_map_concat_map, map_map in Q. cbn [fst snd] in Q. rewrite <- flat_map_concat_map in Q.
    eapply me_close_le; [exact Hw|exact Q|]. rewrite <- LE. assert (D := AnyTree.refined_depth 2 pos c l cap srcs rr h Hh b P Rf). unfold cM.
    replace (h - length b)%nat with (S (h - S (length b)))%nat by lia. rewrite Nat.mul_succ_l. lia.
Qed.
Lemma rfar_shallow b : present b -> (length b <= 1)%nat -> rfar b = [].
Proof.
  intros P Hb. assert (O : forall a, present a -> (length a <= 1)%nat -> ofar a = []).
  { intros a Pa Ha. unfold ofar. destruct (G5 a Pa Ha) as [-> ->]. reflexivity. }
  unfold rfar. destruct b as [|i b]; cbn [ancestors_or_self flat_map]; [rewrite O by assumption; reflexivity|]. destruct b; [|cbn [length] in Hb; lia].
  rewrite O by assumption. cbn [ancestors_or_self flat_map]. rewrite O; [reflexivity|exact I|cbn; lia].
Qed.
Lemma hzero b : present b -> (length b <= 1)%nat -> LEok b (fst (o_zero o tb0 (ctr b))).
Proof. intros P Hb. unfold LEok. rewrite rfar_shallow by assumption. apply lgood_zero; assumption. Qed.
Lemma hsize b e : LEok b e -> o_size o e <> 0%nat.
Proof. intros H. apply lgood_size in H. cbn [o_size ops2_r]. rewrite H. discriminate. Qed.
Lemma cL_1 k : (cB <= cL k)%nat. Proof. unfold cL. lia. Qed.
Lemma hl2l i b pe : present (i :: b) -> LEok b pe ->
  exists e s, o_l2l o tb (ctr (i :: b)) pe = Ok (e, tb) /\ o_add o (fst (o_zero o tb0 (ctr (i :: b)))) e = Ok s /\ Part (i :: b) [] [] s.
Proof.
  intros P H. cbn [o_l2l o_add o_zero ops2_r fst].
  destruct (lgood_l2l w Hw A HA p Hp1 rho L tb _ _ _ _ pe (ctr (i :: b)) (rad (i :: b)) tb_max H) as (e & E & Q).
  { destruct (G0 _ P); lra. }
  { assert (G := G2 i b P). rewrite <- Cmod_opp. replace (- (cplx (ctr b) - cplx (ctr (i :: b))))%C with (cplx (ctr (i :: b)) - cplx (ctr b))%C by ring. exact G. }
  destruct (lgood_add w Hw A HA p Hp1 rho L _ _ [] _ _ (se_zero (ctr (i :: b)) p) e (lgood_zero w Hw p Hp1 rho L _ _ _) Q) as (s & E' & Q').
  exists e, s. split; [exact E|]. split; [exact E'|]. split; [|cbn [length]; lia]. cbn [tl flat_map length Nat.min]. rewrite app_nil_r. cbn [app] in Q'.
  eapply lgood_le; [exact Hw|exact Q'|]. replace (S (length b) - 1)%nat with (length b) by lia. lia.
Qed.
Lemma hm2l b es s : present b -> nl_inter ls b <> [] -> Forall2 MEok (nl_inter ls b) es -> Part b [] [] s ->
  exists e s', o_m2l o tb (ctr b) es = Ok (e, tb) /\ o_add o s e = Ok s' /\ Part b (nl_inter ls b) [] s'.
Proof.
  intros P NE F [H Hb]. cbn [o_m2l o_add ops2_r]. assert (LE := Forall2_len _ _ _ F).
  destruct (lgood_many w Hw A HA p Hp1 rho L ltac:(lra) tb (cM 0) (ctr b) (rad b) (map (fun a => (ctr a, sub a, rad a)) (nl_inter ls b)) es) as (e & E & Q).
  - exact tb_ok.
  - exact tb_max.
  - apply G0. exact P.
  - intros ->. destruct (nl_inter ls b); [congruence|discriminate].
  - left. apply G0. exact P.
  - eapply Forall2_map_l; [|exact F]. intros a e Ha HM. cbn [fst snd]. destruct (G3 b a P Ha) as (Pa & _ & X1 & X2).
    destruct (G0 a Pa) as [Ra La]. destruct (G0 b P) as [Rb Lb].
    split; [eapply me_close_le; [exact Hw|exact HM|apply cM_mono]|]. split; [exact La|]. split; [apply sub_dim2|]. split; [intros s' Hs; apply G1; assumption|].
    split; [lra|]. split; [exact X1|]. split; [|exact X2]. nra.
  - rewrite flat_map_concat_map, map_map in Q. cbn [fst snd] in Q. rewrite <- flat_map_concat_map in Q.
    cbn [flat_map app length Nat.min] in H. rewrite app_nil_r in H.
    set (n := (cL (length b - 1) + 3 * p + 4 + 0 + 0)%nat) in *.
    destruct (lgood_add w Hw A HA p Hp1 rho L n _ _ (flat_map sub (nl_inter ls b)) _ s e H) as (s' & E' & Q').
    { eapply lgood_le; [exact Hw|exact Q|]. destruct (HK b P) as [K1 _]. assert (X := cL_1 (length b - 1)). unfold cB in X. unfold n. lia. }
    exists e, s'. split; [exact E|]. split; [exact E'|]. split; [|exact Hb]. cbn [flat_map length]. rewrite app_nil_r.
    eapply lgood_le; [exact Hw|exact Q'|]. unfold n. assert (1 <= length (nl_inter ls b))%nat by (destruct (nl_inter ls b); [congruence|cbn [length]; lia]). lia.
Qed.
Lemma hp2l b xs q ys s : present b -> nl_X ls b = xs ++ q :: ys -> Part b (nl_inter ls b) xs s ->
  exists e s', o_p2l o tb (ctr b) (sub q) = Ok (e, tb) /\ o_add o s e = Ok s' /\ Part b (nl_inter ls b) (xs ++ [q]) s'.
Proof.
  intros P EX [H Hb]. cbn [o_p2l o_add ops2_r]. destruct (G4 b q P) as (Pq & Nq & GS); [rewrite EX; apply in_elt|]. destruct (G0 b P) as [Rb Lb].
  destruct (lgood_p2l w Hw A HA p Hp1 rho L ltac:(lra) (ctr b) (sub q) (rad b) (rad b / rho)) as (e & E & Q).
  - exact Lb.
  - apply sub_dim2.
  - split; [lra|]. right. field. lra.
  - apply Rdiv_lt_0_compat; lra.
  - intros s' Hs. destruct (GS s' Hs) as [X1 X2]. split; [|exact X2]. apply (Rmult_le_reg_l rho); [lra|]. replace (rho * (rad b / rho)) with (rad b) by (field; lra). exact X1.
  - rewrite E. cbn [bind]. rewrite se_table_id by exact tb_max.
    set (n := (cL (length b - 1) + 3 * p + 4 + Nat.min 1 (length (nl_inter ls b)) + length xs)%nat) in *.
    destruct (lgood_add w Hw A HA p Hp1 rho L n _ _ (sub q) _ s e H) as (s' & E' & Q').
    { eapply lgood_le; [exact Hw|exact Q|]. specialize (Hcap q Pq Nq). assert (X := cL_1 (length b - 1)). unfold cB in X. unfold n. lia. }
    exists e, s'. split; [reflexivity|]. split; [exact E'|]. split; [|exact Hb]. rewrite flat_map_app, app_length. cbn [flat_map length]. rewrite app_nil_r, !app_assoc in *.
    eapply lgood_le; [exact Hw|exact Q'|]. unfold n. lia.
Qed.
Lemma hdone b s : present b -> Part b (nl_inter ls b) (nl_X ls b) s -> LEok b s.
Proof.
  intros P [H Hb]. destruct b as [|i b]; [cbn [length] in Hb; lia|]. unfold LEok. cbn [tl] in H.
  eapply lgood_perm; [|eapply lgood_le; [exact Hw|exact H|]].
  - unfold rfar. cbn [ancestors_or_self flat_map]. unfold ofar at 2. apply Permutation_app_comm.
  - destruct (HK (i :: b) P) as [_ K2]. cbn [length] in *. replace (S (length b) - 1)%nat with (length b) by lia. unfold cL. rewrite Nat.mul_succ_l. lia.
Qed.

Theorem passes_fine : (1 <= h)%nat ->
  exists m', @mem_good se2 se2 btab NN 2 tb c l cap srcs rr h pos MEok LEok m' /\ forall r, passes_result (regions o 2 t ls) (mem0 o t tb0) r <-> r = Ok m'.
Proof.
  intros H1. apply (@passes_good se2 se2 btab o NN 2 tb0 tb eq_refl c l cap srcs rr h pos ls Hh) with (Part := Part); try assumption.
  - intros b q P Hq. destruct (G3 b q P Hq) as (X1 & X2 & _). split; assumption.
  - intros b q P Hq. destruct (G4 b q P Hq) as (X1 & X2 & _). split; assumption.
  - exact hp2m.
  - exact hm2m.
  - exact hzero.
  - exact hsize.
  - exact hl2l.
  - exact hm2l.
  - exact hp2l.
  - exact hdone.
Qed.
End Passes.
