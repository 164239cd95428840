(** Concrete cases for the theorems on three-dimensional expansions. *)
From Coq Require Import Reals List Arith ZArith Lia Lra.
From Coquelicot Require Import Complex.
From Verif Require Import Num Outcome Vec Tables Tables3D Spherical Expansion3D CAux Table3DProofs FieldSpec Fields FieldProofs Harmonics3D Exp3Loops Exp3Theorems.
Import ListNotations.
Local Open Scope R_scope.

Lemma ofold_snoc {A S} (f : S -> A -> outcome S) L a s s' : ofold f L s = Ok s' -> ofold f (L ++ [a]) s = f s' a.
Proof.
  revert s. induction L as [|b L IH]; intros s H; cbn [ofold app] in *.
  - injection H as ->. destruct (f s' a); reflexivity.
  - destruct (f s b); try discriminate. cbn [bind] in *. apply IH. exact H.
Qed.
Theorem tables3_abort orders tb p : tables3_after orders = Ok tb -> (42 < p)%nat -> tables3_after (orders ++ [p]) = Abort.
Proof.
  intros H Hp. unfold tables3_after in *. rewrite (ofold_snoc _ _ _ _ _ H). destruct (tables3_spec orders tb H) as (Hok & _ & Hm).
  apply tb3_refresh_abort; [exact Hok|lia|lia].
Qed.
Lemma tables_case : exists tb, tables3_after [5; 2; 8]%nat = Ok tb.
Proof. apply tables3_iff. intros o Ho. repeat destruct Ho as [<-|Ho]; try lia. destruct Ho. Qed.

Lemma order_zero_out_of_bounds : exists tb e, tables3_after [0%nat] = Ok tb /\ me3_sources [0; 0; 0] 0 [PSrc [1; 0; 0] 1] = Ok e /\ wf3 0 e /\
  me3_merge tb [0; 0; 1] [e] = UB /\ le3_translate tb [0; 0; 1] e = UB /\ le3_convert tb [0; 0; 1] e = UB.
Proof.
  destruct (me3_sources_total [0; 0; 0] 0 [PSrc [1; 0; 0] 1] eq_refl) as (e & E & W).
  { intros s [<-|[]]. reflexivity. }
  exists tb3_init, e. split; [reflexivity|]. split; [exact E|]. split; [exact W|].
  assert (CT : s3_ctr e = [0; 0; 0]).
  { unfold me3_sources in E. destruct (ofold _ _ _); try discriminate. cbn [bind] in E. injection E as <-. reflexivity. }
  destruct W as (Ho & _ & _). change (Z.of_nat 0) with 0%Z in Ho.
  assert (YT : forall p th ph, (0 <= sin th) -> (0 <= p)%Z -> exists tab, ylm_table p th ph = Ok tab).
  { intros p th ph Hs Hp. destruct (ylm_table_ok p th ph Hs Hp) as (tab & H & _). eauto. }
  destruct (spherical_ok (vsub [0; 0; 0] [0; 0; 1]) eq_refl) as (r & th & ph & Es & _ & Er & _ & Hs).
  assert (Hr : r <> 0).
  { intros Q. rewrite Q in Er. cbn in Er. unfold Kernel3.pn, HarmonicBounds.nrm, Kernel3.c1, Kernel3.c2, Kernel3.c3 in Er. cbn in Er. symmetry in Er. apply sqrt_eq_0 in Er; lra. }
  split; [|split].
  - unfold me3_merge. cbn [ofold]. unfold me3_shift. rewrite Ho, CT, Es. cbn [bind vget nth].
    destruct (YT 0%Z th ph Hs ltac:(lia)) as (tab & ->). cbn [bind]. change (jk_pairs 0) with [(0, 0)%Z]. cbn [omapM].
    change (zrange 0 0) with [0%Z]. cbn [ofold]. change (zrange (Z.max (- 0) (0 + 0 - 0)) (Z.min 0 (0 + 0 - 0))) with [0%Z]. reflexivity.
  - unfold le3_translate, le3_shift. rewrite Ho, CT, Es. cbn [bind vget nth]. change (2 * 0)%Z with 0%Z.
    destruct (YT 0%Z th ph Hs ltac:(lia)) as (tab & ->). cbn [bind]. change (jk_pairs 0) with [(0, 0)%Z]. cbn [omapM].
    change (zrange 0 0) with [0%Z]. cbn [ofold]. change (zrange (Z.max (- 0) (0 + 0 - 0)) (Z.min 0 (0 + 0 - 0))) with [0%Z]. reflexivity.
  - unfold le3_convert. rewrite Ho, CT, Es. cbn [bind vget nth]. change (2 * 0)%Z with 0%Z.
    destruct (YT 0%Z th ph Hs ltac:(lia)) as (tab & ->). cbn [bind]. rewrite rinv_ok by exact Hr. cbn [bind]. change (jk_pairs 0) with [(0, 0)%Z]. cbn [omapM].
    change (zrange 0 0) with [0%Z]. cbn [ofold]. change (zrange (- 0) 0) with [0%Z]. reflexivity.
Qed.
Lemma operations_case : exists tb e, tables3_after [5; 2; 8]%nat = Ok tb /\ (1 <= 8 <= max_order3 [5; 2; 8])%nat /\
  me3_sources [0; 0; 0] 8 [PSrc [1; 0; 0] 1; PSrc [0; 1; 1] (-2)] = Ok e /\ wf3 8 e.
Proof.
  destruct tables_case as (tb & H). destruct (me3_sources_total [0; 0; 0] 8 [PSrc [1; 0; 0] 1; PSrc [0; 1; 1] (-2)] eq_refl) as (e & E & W).
  - intros s [<-|[<-|[]]]; reflexivity.
  - exists tb, e. split; [exact H|]. split; [cbn; lia|]. split; [exact E|exact W].
Qed.

Definition unit_pair3 : list (psrc R) := [PSrc [1; 0; 0] 1; PSrc [0; -1; 0] (-3)].
Lemma dist3 a b c a' b' c' : dist [a; b; c] [a'; b'; c'] = sqrt ((a - a') ^ 2 + ((b - b') ^ 2 + ((c - c') ^ 2 + 0))).
Proof. reflexivity. Qed.
Lemma dist3_is a b c a' b' c' r : 0 <= r -> (a - a') ^ 2 + (b - b') ^ 2 + (c - c') ^ 2 = r * r -> dist [a; b; c] [a'; b'; c'] = r.
Proof. intros Hr H. rewrite dist3. replace (_ + _) with (r * r) by lra. apply sqrt_square. exact Hr. Qed.
Lemma unit_pair3_case : length [0; 0; 0] = 3%nat /\ length [4; 0; 0] = 3%nat /\ same_dim 3 unit_pair3 /\ 0 <= 1 < 4 /\
  (forall s, In s unit_pair3 -> dist (ps_pos s) [0; 0; 0] <= 1) /\ 4 <= dist [4; 0; 0] [0; 0; 0].
Proof.
  split; [reflexivity|]. split; [reflexivity|]. split; [intros s [<-|[<-|[]]]; reflexivity|]. split; [lra|]. split.
  - intros s [<-|[<-|[]]]; cbn [ps_pos]; rewrite (dist3_is _ _ _ _ _ _ 1); lra.
  - rewrite (dist3_is _ _ _ _ _ _ 4); lra.
Qed.
Lemma p2l3_case : 0 <= 1 < 4 /\ (forall s, In s [PSrc [4; 0; 0] 1] -> 4 <= dist (ps_pos s) [0; 0; 0]) /\ dist [0; 1; 0] [0; 0; 0] <= 1.
Proof.
  split; [lra|]. split.
  - intros s [<-|[]]; cbn [ps_pos]; rewrite (dist3_is _ _ _ _ _ _ 4); lra.
  - rewrite (dist3_is _ _ _ _ _ _ 1); lra.
Qed.
Lemma m2l3_case : 0 <= 1 /\ 1 + 1 < 4 /\ 4 <= dist [4; 0; 0] [0; 0; 0] /\
  (forall s, In s [PSrc [4; 1; 0] 1] -> dist (ps_pos s) [4; 0; 0] <= 1) /\ dist [0; 1; 0] [0; 0; 0] <= 1.
Proof.
  split; [lra|]. split; [lra|]. split; [rewrite (dist3_is _ _ _ _ _ _ 4); lra|]. split.
  - intros s [<-|[]]; cbn [ps_pos]; rewrite (dist3_is _ _ _ _ _ _ 1); lra.
  - rewrite (dist3_is _ _ _ _ _ _ 1); lra.
Qed.
