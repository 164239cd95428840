(** Concrete cases that meet the hypotheses of theorems about expansions; addition of multipole potentials in space. *)
From Coq Require Import Reals List Arith Lra Lia ZArith.
From Coquelicot Require Import Coquelicot.
From Verif Require Import Num Outcome Vec VecProofs Tables Tables3D Expansion3D CAux Table3DProofs FieldSpec Fields FieldProofs
  TableProofs Expansion2D Exp2Proofs Exp2Local Exp2Errors Exp2Forces Exp2Theorems
  Kernel3 Harmonics3D Exp3Loops Exp3Proofs Exp3Errors Exp3Theorems Exp3Cases Force3Theorems.
Import ListNotations.
Local Open Scope R_scope.

Lemma me2_wf center p srcs : wf_se (me2_sources center p srcs) /\ se_ord (me2_sources center p srcs) = p /\ se_ctr (me2_sources center p srcs) = cplx center.
Proof. destruct (me2_sources_definition center p srcs) as (A & B & C & _). split; [unfold wf_se; rewrite A; exact C|]. split; assumption. Qed.
Lemma dist2_is a b a' b' r : 0 <= r -> (a - a') * (a - a') + (b - b') * (b - b') = r * r -> dist [a; b] [a'; b'] = r.
Proof. intros Hr H. rewrite dist2, H. apply sqrt_square. exact Hr. Qed.

Lemma history_case : let e := me2_sources [1; 1] 3 unit_pair in
  wf_se e /\ (se_ord e <= max_order [3; 1])%nat /\ (se_ord e <= max_order [7])%nat /\ (1 <= se_ord e)%nat /\ se_ctr e <> cplx [0; 0] /\
  (2 * se_ord e - 2 <= max_order [4])%nat /\ (2 * se_ord e - 2 <= max_order [1; 7])%nat.
Proof.
  destruct (me2_wf [1; 1] 3 unit_pair) as (A & B & C). cbn zeta. rewrite B, C. split; [exact A|].
  repeat split; try (cbn; lia). unfold cplx, vget; cbn. intros H. injection H. lra.
Qed.
Lemma p2l2_case : length [0; 0] = 2%nat /\ length [0; 1] = 2%nat /\ same_dim 2 [PSrc [4; 0] 1; PSrc [0; -5] (-2)] /\ 0 <= 1 < 4 /\
  (forall s, In s [PSrc [4; 0] 1; PSrc [0; -5] (-2)] -> 4 <= dist (ps_pos s) [0; 0]) /\ dist [0; 1] [0; 0] <= 1.
Proof.
  split; [reflexivity|]. split; [reflexivity|]. split; [intros s [<-|[<-|[]]]; reflexivity|]. split; [lra|]. split.
  - intros s [<-|[<-|[]]]; cbn [ps_pos]; [rewrite (dist2_is _ _ _ _ 4)|rewrite (dist2_is _ _ _ _ 5)]; lra.
  - rewrite (dist2_is _ _ _ _ 1); lra.
Qed.
Lemma m2l2_case : (1 <= 3)%nat /\ same_dim 2 [PSrc [4; 1] 1; PSrc [3; 0] (-2)] /\ 0 <= 1 /\ 1 + 1 < 4 /\ 4 <= dist [4; 0] [0; 0] /\
  (forall s, In s [PSrc [4; 1] 1; PSrc [3; 0] (-2)] -> dist (ps_pos s) [4; 0] <= 1) /\ dist [0; 1] [0; 0] <= 1.
Proof.
  split; [lia|]. split; [intros s [<-|[<-|[]]]; reflexivity|]. split; [lra|]. split; [lra|]. split; [rewrite (dist2_is _ _ _ _ 4); lra|]. split.
  - intros s [<-|[<-|[]]]; cbn [ps_pos]; rewrite (dist2_is _ _ _ _ 1); lra.
  - rewrite (dist2_is _ _ _ _ 1); lra.
Qed.
Lemma force2_case : let e := me2_sources [4; 0] 5 unit_pair in se_co e <> [] /\ cplx [1; 2] <> se_ctr e.
Proof.
  destruct (me2_wf [4; 0] 5 unit_pair) as (A & B & C). cbn zeta. rewrite C. split.
  - intros H. unfold wf_se in A. rewrite H in A. discriminate.
  - unfold cplx, vget; cbn. intros H. injection H. lra.
Qed.
Lemma add2_case : let a := me2_sources [4; 0] 5 unit_pair in let b := me2_sources [4; 0] 5 [PSrc [4; 1] 7] in
  length (se_co a) = length (se_co b) /\ se_ctr a = se_ctr b /\ se_ctr a <> se_ctr (me2_sources [4; 1] 5 unit_pair).
Proof.
  destruct (me2_wf [4; 0] 5 unit_pair) as (A & B & C). destruct (me2_wf [4; 0] 5 [PSrc [4; 1] 7]) as (A' & B' & C').
  destruct (me2_wf [4; 1] 5 unit_pair) as (_ & _ & C''). unfold wf_se in *. cbn zeta. rewrite C, C', C'', A, A', B, B'.
  split; [reflexivity|]. split; [reflexivity|]. unfold cplx, vget; cbn. intros H. injection H. lra.
Qed.

(** Three dimensions. *)
Lemma tables3_case : exists tb, tables3_after [5; 2; 8]%nat = Ok tb /\ (1 <= max_order3 [5; 2; 8]%nat)%nat /\ (Z.abs (-7) <= 9 <= 2 * Z.of_nat (max_order3 [5; 2; 8]%nat))%Z /\
  (Z.abs (-7) <= Z.of_nat (max_order3 [5; 2; 8]%nat))%Z /\ (Z.abs 8 <= Z.of_nat (max_order3 [5; 2; 8]%nat))%Z.
Proof. destruct tables_case as (tb & H). exists tb. split; [exact H|]. cbn. repeat split; lia. Qed.
Lemma merge3_case : exists tb es, tables3_after [5; 2; 8]%nat = Ok tb /\ (1 <= 6 <= max_order3 [5; 2; 8]%nat)%nat /\ length [1; 0; 0] = 3%nat /\
  (let parts := [([0; 0; 0], unit_pair3); ([0; 2; 0], [PSrc [0; 3; 1] 5])] in
   parts <> [] /\ (forall u, In u parts -> length (fst u) = 3%nat /\ same_dim 3 (snd u)) /\ omapM (fun u => me3_sources (fst u) (Z.of_nat 6) (snd u)) parts = Ok es).
Proof.
  destruct tables_case as (tb & H).
  assert (D1 : same_dim 3 unit_pair3) by (intros s [<-|[<-|[]]]; reflexivity).
  assert (D2 : same_dim 3 [PSrc [0; 3; 1] 5]) by (intros s [<-|[]]; reflexivity).
  destruct (me3_sources_total [0; 0; 0] 6 unit_pair3 eq_refl D1) as (e1 & E1 & _).
  destruct (me3_sources_total [0; 2; 0] 6 [PSrc [0; 3; 1] 5] eq_refl D2) as (e2 & E2 & _).
  exists tb, [e1; e2]. split; [exact H|]. split; [cbn; lia|]. split; [reflexivity|]. cbn zeta. split; [discriminate|]. split.
  - intros u [<-|[<-|[]]]; cbn [fst snd]; split; auto.
  - cbn [omapM fst snd]. rewrite E1. cbn [bind]. rewrite E2. reflexivity.
Qed.
Lemma history3_case : exists tb1 tb2 e1 e2, tables3_after [5; 2; 8]%nat = Ok tb1 /\ tables3_after [6]%nat = Ok tb2 /\
  (1 <= 6 <= max_order3 [5; 2; 8]%nat)%nat /\ (1 <= 6 <= max_order3 [6]%nat)%nat /\ wf3 6 e1 /\ wf3 6 e2 /\ e1 <> e2 /\ s3_ctr e1 = s3_ctr e2 /\ s3_ctr e1 <> [1; 0; 0].
Proof.
  destruct (proj1 (tables3_iff [5; 2; 8]%nat)) as (tb1 & H1); [intros o [<-|[<-|[<-|[]]]]; lia|].
  destruct (proj1 (tables3_iff [6]%nat)) as (tb2 & H2); [intros o [<-|[]]; lia|].
  exists tb1, tb2, (s3_of 6 [0; 0; 0] (fun _ _ => RtoC 0)), (s3_of 6 [0; 0; 0] (fun _ _ => RtoC 1)).
  split; [exact H1|]. split; [exact H2|]. split; [cbn; lia|]. split; [cbn; lia|].
  split; [apply (s3_of_wf 6); reflexivity|]. split; [apply (s3_of_wf 6); reflexivity|]. split; [|split; [reflexivity|]].
  - intros E. apply (f_equal (fun e => nth 0 (s3_co e) (RtoC 2))) in E. cbn in E. apply RtoC_inj in E. lra.
  - cbn. intros E. injection E. lra.
Qed.

Theorem add3_multipoles p a b e : wf3 p a -> wf3 p b -> s3_ctr a = s3_ctr b -> s3_add a b = Ok e ->
  forall x va vb, length x = 3%nat -> x <> s3_ctr a -> me3_pot a x = Ok va -> me3_pot b x = Ok vb -> me3_pot e x = Ok (va + vb).
Proof.
  intros Wa Wb Hc. destruct (wf3_form p a Wa) as [f Ef]. destruct (wf3_form p b Wb) as [g Eg]. assert (HC : length (s3_ctr a) = 3%nat) by apply Wa.
  rewrite <- Hc in Eg. set (c := s3_ctr a) in *. rewrite Ef, Eg. rewrite s3_add_of. intros He. injection He as <-.
  intros x va vb Hx Nx Va Vb.
  assert (NZ : pn (p3 (vsub x c)) <> 0).
  { destruct x as [|x0 [|x1 [|x2 [|]]]]; try discriminate. apply p3_sub_nz; [exact HC|reflexivity|exact Nx]. }
  rewrite me3_pot_ok in Va, Vb by (try assumption; lia). injection Va as <-. injection Vb as <-.
  rewrite me3_pot_ok by (try assumption; lia). f_equal.
  replace (mval3 (Z.of_nat p) (fun n m => (f n m + g n m)%C) (p3 (vsub x c)))
    with (mval3 (Z.of_nat p) f (p3 (vsub x c)) + mval3 (Z.of_nat p) g (p3 (vsub x c)))%C.
  - unfold Re. cbn [fst Cplus]. ring.
  - unfold mval3, lsum2. rewrite <- lsum_plus. apply lsum_ext. intros n _. rewrite <- lsum_plus. apply lsum_ext. intros m _. ring.
Qed.
