(** The passes of the three-dimensional adaptive tree in rounded arithmetic, given the geometry of the boxes. *)
From Coq Require Import List Bool ZArith Arith Lia Lra Reals Permutation.
From Coquelicot Require Import Coquelicot.
From Verif Require Import Num Outcome Vec VecProofs Tables Tables3D Table3DProofs Orthtree AdaptiveTree TreeSpec GeometryProofs AdaptiveProofs BfsProofs ListProofs ListContents
  BuildProofs Schedule CAux TableProofs Expansion3D Exp3Loops Exp3Proofs Exp3Errors Fields FieldSpec FieldProofs FmmPasses PassProofs PassSteps PassTree AnyTree AnyLists AnyPasses FmmTree3D FmmTree3DProofs
  RoundedExpansion2D RoundedExpansion3D RoundedComplexSpec RoundedHarmonicSpec RoundedLoops3 RoundedErrors3 RoundedGood3.
Import ListNotations.
Local Open Scope R_scope.

Lemma mgood_perm w p n c S S' r e : Permutation S S' -> mgood w p n c S r e -> mgood w p n c S' r e.
Proof.
  intros P (H1 & H2 & H3 & f & E & H4 & H5). assert (Q : abs_charge S = abs_charge S') by (apply rsum_perm; exact P).
  assert (I : forall s, In s S' -> In s S) by (intros s; apply Permutation_in, Permutation_sym, P).
  split; [exact H1|]. split; [intros s Hs; apply H2, I, Hs|]. split; [intros s Hs; apply H3, I, Hs|]. exists f. split; [exact E|].
  apply (mclose_ext w p n r _ f (me_coef c S) (me_coef c S')); [intros; apply lsum_perm; exact P|]. rewrite <- Q. split; assumption.
Qed.
Lemma lgood_perm w p tau n c S S' r e : Permutation S S' -> lgood w p tau n c S r e -> lgood w p tau n c S' r e.
Proof.
  intros P (H0 & f' & f & E & H1 & H2 & H3). split; [exact H0|]. exists f', f, E. split; [exact H1|]. split; [exact H2|]. intros x Lx Hx. destruct (H3 x Lx Hx) as [T1 T2].
  replace (direct_potential 3 true S' x) with (direct_potential 3 true S x) by (apply rsum_perm; exact P). rewrite <- (rsum_perm (fun s => Rabs (ps_q s)) S S' P : abs_charge S = abs_charge S').
  rewrite <- (rsum_perm (fun s => Rabs (ps_q s) / dist (ps_pos s) x) S S' P : dsum S x = dsum S' x). split; assumption.
Qed.

Section Passes.
Variable w : R.
Hypothesis Hw : 0 <= w <= 1 / 2.
Variable ky : nat.
Variable A : harith.
Hypothesis HA : accurate_harmonics w ky A.
Variables mforce lforce : se3 -> list R -> outcome (list R).
Variable p : nat.
Hypothesis Hp : (1 <= p)%nat.
Variable tau : R.
Context {NN : Num R}.
Variable tb : tb3.
Hypothesis Htb : tb3_for tb (Z.of_nat p).
Variable c : list R.
Variable l : R.
Variable cap : nat.
Variable srcs : list (psrc R).
Variable rr : rule.
Variable h : nat.
Notation o := (ops3_r A mforce lforce p).
(** The positions that decide in which boxes a source is. *)
Variable pos : psrc R -> list R.
Notation refined := (@AnyTree.refined R (psrc R) NN 3 pos c l cap srcs rr).
Notation present := (@AnyTree.present R (psrc R) NN 3 pos c l cap srcs rr).
Notation sub := (@AnyTree.sub R (psrc R) NN 3 pos c l srcs).
Notation ctr := (@AnyTree.ctr R NN 3 c l).
Notation t := (@AnyTree.spec_tree R (psrc R) NN 3 pos c l cap srcs rr h).
Variable ls : nlists.
Hypothesis Hh : @AnyTree.height_ok R (psrc R) NN 3 pos c l cap srcs rr h.
Hypothesis Hdim : same_dim 3 srcs.
Hypothesis Hcap : forall b, present b -> refined b = false -> (length (sub b) <= cap)%nat.
Variable K : nat.
Hypothesis HK : forall b, present b -> (length (nl_inter ls b) <= K)%nat /\ (length (nl_X ls b) <= K)%nat.

(** The geometry. *)
Variable rad : addr -> R.
Hypothesis G0 : forall b, present b -> 0 < rad b /\ length (ctr b) = 3%nat.
Hypothesis G1 : forall b s, present b -> In s (sub b) -> dist (ps_pos s) (ctr b) <= rad b.
Hypothesis G2 : forall i b, present (i :: b) -> rad (i :: b) + dist (ctr (i :: b)) (ctr b) <= rad b.
Hypothesis G3 : forall b q, present b -> In q (nl_inter ls b) ->
  present q /\ (2 <= length q)%nat /\ exists r, rad q + rad b < r /\ r <= dist (ctr q) (ctr b) /\ trunc3_two (rad q) (rad b) r p <= tau.
Hypothesis G4 : forall b q, present b -> In q (nl_X ls b) -> present q /\ refined q = false /\
  exists r, rad b < r /\ trunc3 (rad b) r p <= tau /\ forall s, In s (sub q) -> r <= dist (ps_pos s) (ctr b).
Hypothesis G5 : forall b, present b -> (length b <= 1)%nat -> nl_inter ls b = [] /\ nl_X ls b = [].

Definition ofar (b : addr) : list (psrc R) := flat_map sub (nl_inter ls b) ++ flat_map sub (nl_X ls b).
Definition rfar (b : addr) : list (psrc R) := flat_map ofar (ancestors_or_self b).

(** Operation counts. *)
Notation N1 := (Nop ky (Z.of_nat p)).
Definition cM (k : nat) : nat := (N1 + cap + (h - k) * (N1 + 8))%nat.
Definition cB : nat := (cM 0 + N1 + K + cap)%nat.
Definition cL (k : nat) : nat := (cB + k * (N1 + 2 + K))%nat.

Notation mgood := (mgood w p).
Notation lgood := (lgood w p tau).
Definition MEok (b : addr) (e : se3) : Prop := mgood (cM (length b)) (ctr b) (sub b) (rad b) e.
Definition LEok (b : addr) (e : se3) : Prop := lgood (cL (length b)) (ctr b) (rfar b) (rad b) e.
Definition Part (b : addr) (vs xs : list addr) (e : se3) : Prop :=
  lgood (cL (length b - 1) + N1 + 1 + Nat.min 1 (length vs) + length xs) (ctr b) (rfar (tl b) ++ flat_map sub vs ++ flat_map sub xs) (rad b) e /\
  (1 <= length b)%nat.

Lemma sub_dim3 b : same_dim 3 (sub b).
Proof. intros s Hs. apply Hdim. eapply AnyTree.sub_incl. exact Hs. Qed.
Lemma cM_mono (b : addr) : (cM (length b) <= cM 0)%nat.
Proof. unfold cM. apply Nat.add_le_mono_l, Nat.mul_le_mono_r. lia. Qed.
Lemma rad0 b : present b -> 0 <= rad b.
Proof. intros P. left. apply G0. exact P. Qed.

Lemma hp2m b : present b -> refined b = false -> exists e, o_p2m o tb (ctr b) (sub b) = Ok (e, tb) /\ MEok b e.
Proof.
  intros P N. cbn [o_p2m ops3_r]. rewrite (refresh_id p Hp tb Htb). cbn [bind].
  destruct (mgood_p2m w Hw ky A HA p (ctr b) (sub b) (rad b) (rad0 b P)) as (e & E & M).
  - apply G0. exact P.
  - apply sub_dim3.
  - intros s Hs. apply G1; assumption.
  - rewrite E. cbn [bind]. eexists. split; [reflexivity|]. eapply mgood_le; [exact Hw|apply rad0; exact P|exact M|].
    unfold cM. specialize (Hcap b P N). generalize ((h - length b) * (N1 + 8))%nat. lia.
Qed.
Lemma kids_len b : length (kids 3 b) = 8%nat.
Proof. reflexivity. Qed.
Lemma Forall2_len {X Y} (P : X -> Y -> Prop) xs ys : Forall2 P xs ys -> length xs = length ys.
Proof. induction 1; cbn [length]; congruence. Qed.
Lemma Forall2_map_l {X Y Z} (f : X -> Z) (P : X -> Y -> Prop) (Q : Z -> Y -> Prop) xs ys : (forall a b, In a xs -> P a b -> Q (f a) b) -> Forall2 P xs ys -> Forall2 Q (map f xs) ys.
Proof. intros H F. induction F; cbn [map]; constructor; [apply H; [left; reflexivity|assumption]|]. apply IHF. intros; apply H; [right; assumption|assumption]. Qed.
Lemma Forall2_r {X Y} (P : X -> Y -> Prop) (Q : Y -> Prop) xs ys : (forall a b, P a b -> Q b) -> Forall2 P xs ys -> forall b, In b ys -> Q b.
Proof. intros H F. induction F; intros b' []; subst; eauto. Qed.
Lemma MEok_ord b e : MEok b e -> s3_ord e = Z.of_nat p.
Proof. apply mgood_ord. Qed.
Lemma hm2m b es : present b -> refined b = true -> (2 <= length b)%nat -> Forall2 MEok (kids 3 b) es ->
  exists e, o_m2m o tb (ctr b) es = Ok (e, tb) /\ MEok b e.
Proof.
  intros P Rf _ F. cbn [o_m2m ops3_r]. assert (LE := Forall2_len _ _ _ F). rewrite kids_len in LE.
  assert (PK : forall a, In a (kids 3 b) -> present a /\ exists i, a = i :: b).
  { intros a Ha. unfold kids in Ha. apply in_map_iff in Ha. destruct Ha as (i & <- & Hi). apply in_seq in Hi. split; [|exists i; reflexivity].
    cbn [AnyTree.present]. split; [lia|split; assumption]. }
  rewrite (grow_id p Hp tb Htb). 2:{ intros e He. apply (Forall2_r _ (fun e => s3_ord e = Z.of_nat p) _ _ MEok_ord F). destruct es; [destruct He|]. destruct He as [<-|[]]. left. reflexivity. }
  cbn [bind].
  destruct (mgood_m2m w Hw ky A HA p tb Htb (cM (S (length b))) (ctr b) (rad b) (map (fun a => (ctr a, sub a, rad a)) (kids 3 b)) es) as (e & E & Q).
  - apply G0. exact P.
  - apply rad0. exact P.
  - intros ->. discriminate.
  - eapply Forall2_map_l; [|exact F]. intros a e Ha HM. destruct (PK a Ha) as (Pa & i & ->). cbn [fst snd]. split; [exact HM|]. split; [apply rad0; exact Pa|]. apply G2. exact Pa.
  - rewrite E. cbn [bind]. exists e. split; [reflexivity|]. unfold MEok. eapply mgood_perm; [apply AnyTree.sub_kids|].
    rewrite flat_map_concat_map, map_map in Q. cbn [fst snd] in Q. rewrite <- flat_map_concat_map in Q.
    eapply mgood_le; [exact Hw|apply rad0; exact P|exact Q|]. rewrite <- LE. assert (D := AnyTree.refined_depth 3 pos c l cap srcs rr h Hh b P Rf). unfold cM.
    replace (h - length b)%nat with (S (h - S (length b)))%nat by lia. rewrite Nat.mul_succ_l. lia.
Qed.
Lemma rfar_shallow b : present b -> (length b <= 1)%nat -> rfar b = [].
Proof.
  intros P Hb. assert (O : forall a, present a -> (length a <= 1)%nat -> ofar a = []).
  { intros a Pa Ha. unfold ofar. destruct (G5 a Pa Ha) as [-> ->]. reflexivity. }
  unfold rfar. destruct b as [|i b]; cbn [ancestors_or_self flat_map]; [rewrite O by assumption; reflexivity|]. destruct b; [|cbn [length] in Hb; lia].
  rewrite O by assumption. cbn [ancestors_or_self flat_map]. rewrite O; [reflexivity|exact I|cbn; lia].
Qed.
Lemma hzero b : present b -> (length b <= 1)%nat -> LEok b (fst (o_zero o tb (ctr b))).
Proof. intros P Hb. unfold LEok. rewrite rfar_shallow by assumption. cbn [o_zero ops3_r fst]. apply lgood_zero. apply G0. exact P. Qed.
Lemma hsize b e : LEok b e -> o_size o e <> 0%nat.
Proof. apply lgood_size. Qed.
Lemma cL_1 k : (cB <= cL k)%nat. Proof. unfold cL. lia. Qed.
Lemma hl2l i b pe : present (i :: b) -> LEok b pe ->
  exists e s, o_l2l o tb (ctr (i :: b)) pe = Ok (e, tb) /\ o_add o (fst (o_zero o tb (ctr (i :: b)))) e = Ok s /\ Part (i :: b) [] [] s.
Proof.
  intros P H. cbn [o_l2l o_add o_zero ops3_r fst]. rewrite (lgood_ord w p tau _ _ _ _ _ H). rewrite (refresh_id p Hp tb Htb). cbn [bind]. destruct (G0 _ P) as [R1 L1].
  assert (Pb : present b) by (cbn [AnyTree.present] in P; tauto). destruct (G0 _ Pb) as [R2 L2].
  destruct (lgood_l2l w Hw ky A HA p tau tb Htb _ _ _ _ pe (ctr (i :: b)) (rad (i :: b)) H L1) as (e & E & Q).
  { lra. }
  { rewrite (dist_sym (ctr b)) by congruence. apply G2. exact P. }
  destruct (lgood_add w Hw ky A HA p tau (cL (length b) + N1) (ctr (i :: b)) [] (rfar b) (rad (i :: b)) (s3_zero (ctr (i :: b)) (Z.of_nat p)) e) as (s & E' & Q').
  { lra. } { apply lgood_zero. exact L1. } { exact Q. }
  rewrite E. cbn [bind]. exists e, s. split; [reflexivity|]. split; [exact E'|]. split; [|cbn [length]; lia]. cbn [tl flat_map length Nat.min]. rewrite app_nil_r. cbn [app] in Q'.
  eapply lgood_le; [exact Hw|lra|exact Q'|]. replace (S (length b) - 1)%nat with (length b) by lia. lia.
Qed.
Lemma hm2l b es s : present b -> nl_inter ls b <> [] -> Forall2 MEok (nl_inter ls b) es -> Part b [] [] s ->
  exists e s', o_m2l o tb (ctr b) es = Ok (e, tb) /\ o_add o s e = Ok s' /\ Part b (nl_inter ls b) [] s'.
Proof.
  intros P NE F [H Hb]. cbn [o_m2l o_add ops3_r]. assert (LE := Forall2_len _ _ _ F). destruct (G0 _ P) as [R1 L1].
  rewrite (grow_id p Hp tb Htb) by (intros e He; apply (Forall2_r _ (fun e => s3_ord e = Z.of_nat p) _ _ MEok_ord F); exact He). cbn [bind].
  destruct (lgood_many w Hw ky A HA p tau tb Htb (cM 0) (ctr b) (rad b) (map (fun a => (ctr a, sub a, rad a)) (nl_inter ls b)) es) as (e & E & Q).
  - exact L1.
  - lra.
  - intros ->. destruct (nl_inter ls b); [congruence|discriminate].
  - eapply Forall2_map_l; [|exact F]. intros a e Ha HM. cbn [fst snd]. destruct (G3 b a P Ha) as (Pa & _ & X1).
    split; [eapply mgood_le; [exact Hw|apply rad0; exact Pa|exact HM|apply cM_mono]|]. split; [apply rad0; exact Pa|exact X1].
  - rewrite flat_map_concat_map, map_map in Q. cbn [fst snd] in Q. rewrite <- flat_map_concat_map in Q.
    cbn [flat_map app length Nat.min] in H. rewrite app_nil_r in H.
    set (n := (cL (length b - 1) + N1 + 1 + 0 + 0)%nat) in *.
    destruct (lgood_add w Hw ky A HA p tau n (ctr b) (rfar (tl b)) (flat_map sub (nl_inter ls b)) (rad b) s e) as (s' & E' & Q').
    { lra. } { exact H. }
    { eapply lgood_le; [exact Hw|lra|exact Q|]. destruct (HK b P) as [K1 _]. assert (X := cL_1 (length b - 1)). unfold cB in X. unfold n. lia. }
    rewrite E. cbn [bind]. exists e, s'. split; [reflexivity|]. split; [exact E'|]. split; [|exact Hb]. cbn [flat_map length]. rewrite app_nil_r.
    eapply lgood_le; [exact Hw|lra|exact Q'|]. unfold n. assert (1 <= length (nl_inter ls b))%nat by (destruct (nl_inter ls b); [congruence|cbn [length]; lia]). lia.
Qed.
Lemma hp2l b xs q ys s : present b -> nl_X ls b = xs ++ q :: ys -> Part b (nl_inter ls b) xs s ->
  exists e s', o_p2l o tb (ctr b) (sub q) = Ok (e, tb) /\ o_add o s e = Ok s' /\ Part b (nl_inter ls b) (xs ++ [q]) s'.
Proof.
  intros P EX [H Hb]. cbn [o_p2l o_add ops3_r]. destruct (G4 b q P) as (Pq & Nq & r & GR & GT & GS); [rewrite EX; apply in_elt|]. destruct (G0 b P) as [Rb Lb].
  rewrite (refresh_id p Hp tb Htb). cbn [bind].
  destruct (lgood_p2l w Hw ky A HA p tau (ctr b) (sub q) (rad b) r) as (e & E & Q).
  - exact Lb.
  - apply sub_dim3.
  - lra.
  - exact GS.
  - exact GT.
  - rewrite E. cbn [bind].
    set (n := (cL (length b - 1) + N1 + 1 + Nat.min 1 (length (nl_inter ls b)) + length xs)%nat) in *.
    destruct (lgood_add w Hw ky A HA p tau n (ctr b) (rfar (tl b) ++ flat_map sub (nl_inter ls b) ++ flat_map sub xs) (sub q) (rad b) s e) as (s' & E' & Q').
    { lra. } { exact H. }
    { eapply lgood_le; [exact Hw|lra|exact Q|]. specialize (Hcap q Pq Nq). assert (X := cL_1 (length b - 1)). unfold cB in X. unfold n. lia. }
    exists e, s'. split; [reflexivity|]. split; [exact E'|]. split; [|exact Hb]. rewrite flat_map_app, app_length. cbn [flat_map length]. rewrite app_nil_r, !app_assoc in *.
    eapply lgood_le; [exact Hw|lra|exact Q'|]. unfold n. lia.
Qed.
Lemma hdone b s : present b -> Part b (nl_inter ls b) (nl_X ls b) s -> LEok b s.
Proof.
  intros P [H Hb]. destruct b as [|i b]; [cbn [length] in Hb; lia|]. unfold LEok. cbn [tl] in H.
  eapply lgood_perm; [|eapply lgood_le; [exact Hw|apply rad0; exact P|exact H|]].
  - unfold rfar. cbn [ancestors_or_self flat_map]. unfold ofar at 2. apply Permutation_app_comm.
  - destruct (HK (i :: b) P) as [_ K2]. cbn [length] in *. replace (S (length b) - 1)%nat with (length b) by lia. unfold cL. rewrite Nat.mul_succ_l. lia.
Qed.

Theorem passes_fine3 : (1 <= h)%nat ->
  exists m', @mem_good se3 se3 tb3 NN 3 tb c l cap srcs rr h pos MEok LEok m' /\ forall r, passes_result (regions o 3 t ls) (mem0 o t tb) r <-> r = Ok m'.
Proof.
  intros H1. apply (@passes_good se3 se3 tb3 o NN 3 tb tb) with (Part := Part); try assumption.
  - cbn [o_zero ops3_r snd]. rewrite (refresh_id p Hp tb Htb). reflexivity.
  - intros b q P Hq. destruct (G3 b q P Hq) as (X1 & X2 & _). split; assumption.
  - intros b q P Hq. destruct (G4 b q P Hq) as (X1 & X2 & _). split; assumption.
  - exact hp2m.
  - exact hm2m.
  - exact hzero.
  - exact hsize.
  - exact hl2l.
  - exact hm2l.
  - exact hp2l.
  - exact hdone.
Qed.
End Passes.
