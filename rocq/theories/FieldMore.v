(** Proofs: when the all-pairs force function is defined, its properties in all those cases, and linearity in the charges. *)
From Coq Require Import Reals List Arith Bool Lia Lra Permutation.
From Coquelicot Require Import Coquelicot.
From Verif Require Import Num Outcome Vec Tables CAux Schedule Fields FieldSpec FieldProofs FieldSchedules FieldTheorems.
Import ListNotations.
Local Open Scope R_scope.

Lemma ofold_step_ok {A S} (f : S -> A -> outcome S) l : forall s r, ofold f l s = Ok r -> forall a, In a l -> exists s0 s1, f s0 a = Ok s1.
Proof.
  induction l as [|b l IH]; intros s r H a Ha; [destruct Ha|]. cbn [ofold] in H. destruct (f s b) as [s'| | | | |] eqn:E; try discriminate.
  destruct Ha as [<-|Ha]; [exists s, s'; exact E|]. exact (IH s' r H a Ha).
Qed.
Lemma omapM_step_ok {A B} (f : A -> outcome B) l : forall r, omapM f l = Ok r -> forall a, In a l -> exists b, f a = Ok b.
Proof.
  induction l as [|b l IH]; intros r H a Ha; [destruct Ha|]. cbn [omapM] in H. destruct (f b) as [c| | | | |] eqn:E; try discriminate.
  cbn [bind] in H. destruct (omapM f l) as [bs| | | | |] eqn:F; try discriminate.
  destruct Ha as [<-|Ha]; [exists c; exact E|]. exact (IH bs eq_refl a Ha).
Qed.

(** [particleForces] is defined iff no pair has a vanishing denominator. *)
Lemma pf_defined_den d grav eps (srcs : list (psrc R)) its : same_dim d srcs -> pf_iterations d grav eps srcs = Ok its ->
  forall i j si sj, nth_error srcs i = Some si -> nth_error srcs j = Some sj -> i <> j -> force_den d eps (dist (ps_pos si) (ps_pos sj)) <> 0.
Proof.
  intros Hd H.
  assert (G : forall i j si sj, nth_error srcs i = Some si -> nth_error srcs j = Some sj -> (j < i)%nat -> force_den d eps (dist (ps_pos sj) (ps_pos si)) <> 0).
  { intros i j si sj Hi Hj Hij Q. unfold pf_iterations in H.
    assert (Li : (i < length srcs)%nat) by (apply nth_error_Some; congruence).
    destruct (omapM_step_ok _ _ _ H i) as [b Hb]; [apply in_seq; lia|].
    unfold pf_iteration in Hb. rewrite Hi in Hb. cbn [of_option bind] in Hb.
    match type of Hb with bind ?X _ = _ => destruct X as [r| | | | |] eqn:E; try discriminate end.
    destruct (ofold_step_ok _ _ _ _ E j) as [s0 [s1 Hs]]; [apply in_seq; lia|]. rewrite Hj in Hs. cbn [of_option bind] in Hs.
    rewrite forcefield_singular in Hs; [discriminate| |discriminate|exact Q].
    rewrite (Hd si), (Hd sj); [reflexivity|eapply nth_error_In; eassumption|eapply nth_error_In; eassumption]. }
  intros i j si sj Hi Hj Hij. destruct (Nat.lt_ge_cases j i) as [L|L].
  - rewrite dist_sym; [exact (G i j si sj Hi Hj L)|].
    rewrite (Hd si), (Hd sj); [reflexivity|eapply nth_error_In; eassumption|eapply nth_error_In; eassumption].
  - apply (G j i sj si Hj Hi). lia.
Qed.

Theorem pf_defined_iff d grav eps (srcs : list (psrc R)) : same_dim d srcs ->
  (exists its, pf_iterations d grav eps srcs = Ok its) <->
  (forall i j si sj, nth_error srcs i = Some si -> nth_error srcs j = Some sj -> i <> j -> force_den d eps (dist (ps_pos si) (ps_pos sj)) <> 0).
Proof.
  intros Hd. split.
  - intros [its H]. exact (pf_defined_den d grav eps srcs its Hd H).
  - intros H. exists (pf_its d grav eps srcs). apply pf_iterations_eq; assumption.
Qed.

Theorem pf_whenever_defined d grav eps (srcs : list (psrc R)) its : same_dim d srcs -> pf_iterations d grav eps srcs = Ok its ->
  (exists run, interleaving its run) /\
  forall run, interleaving its run ->
    length (pf_result d (length srcs) run) = length srcs /\
    (forall f, In f (pf_result d (length srcs) run) -> length f = d) /\
    (forall k sk c, nth_error srcs k = Some sk -> (c < d)%nat ->
      nth c (nth k (pf_result d (length srcs) run) []) 0
      = rsum (fun j => match nth_error srcs j with
                       | Some sj => if (j =? k)%nat then 0 else force_on d grav eps sj (ps_pos sk) c * ps_q sk
                       | None => 0 end) (seq 0 (length srcs))) /\
    (forall c, (c < d)%nat -> rsum (fun f => nth c f 0) (pf_result d (length srcs) run) = 0).
Proof.
  intros Hd H. pose proof (pf_defined_den d grav eps srcs its Hd H) as Hden.
  assert (E : its = pf_its d grav eps srcs) by (rewrite (pf_iterations_eq d grav eps srcs Hd Hden) in H; congruence). subst its.
  split; [eexists; apply interleaving_seq|].
  intros run Hrun. destruct (pf_dims d grav eps srcs run Hrun) as [L1 L2]. split; [exact L1|]. split; [exact L2|]. split.
  - intros k sk c Hk Hc. assert (Hlt : (k < length srcs)%nat) by (apply nth_error_Some; congruence).
    rewrite (pf_correct d grav eps srcs Hd run k c Hlt Hc Hrun). apply rsum_ext. intros j Hj. apply in_seq in Hj.
    rewrite (sr_error srcs j) by lia. rewrite (sr_error srcs k Hlt) in Hk. injection Hk as Hk. destruct (j =? k)%nat; [reflexivity|].
    unfold pair_force. rewrite Hk. reflexivity.
  - intros c Hc. apply (pf_total d grav eps srcs Hd run c Hc Hrun).
Qed.
Theorem total_force_whenever_defined d grav eps (srcs : list (psrc R)) its : same_dim d srcs -> pf_iterations d grav eps srcs = Ok its ->
  forall run, interleaving its run -> forall c, (c < d)%nat -> rsum (fun f => nth c f 0) (pf_result d (length srcs) run) = 0.
Proof. intros Hd H run Hr. destruct (pf_whenever_defined d grav eps srcs its Hd H) as [_ T]. destruct (T run Hr) as (_ & _ & _ & K). exact K. Qed.
Theorem forces_whenever_defined d grav eps (srcs : list (psrc R)) its : same_dim d srcs -> pf_iterations d grav eps srcs = Ok its ->
  (exists run, interleaving its run) /\
  forall run, interleaving its run ->
    length (pf_result d (length srcs) run) = length srcs /\
    (forall f, In f (pf_result d (length srcs) run) -> length f = d) /\
    (forall k sk c, nth_error srcs k = Some sk -> (c < d)%nat ->
      nth c (nth k (pf_result d (length srcs) run) []) 0
      = rsum (fun j => match nth_error srcs j with
                       | Some sj => if (j =? k)%nat then 0 else force_on d grav eps sj (ps_pos sk) c * ps_q sk
                       | None => 0 end) (seq 0 (length srcs))).
Proof.
  intros Hd H. destruct (pf_whenever_defined d grav eps srcs its Hd H) as [X T]. split; [exact X|].
  intros run Hr. destruct (T run Hr) as (A & B & C & _). auto.
Qed.

(** Two coincident particles and a third one, softened: defined although positions repeat. *)
Definition twins : list (psrc R) := [PSrc [1; 2] 3; PSrc [1; 2] (-1); PSrc [0; 0] 2].
Lemma twins_defined : same_dim 2 twins /\ ~ NoDup (map ps_pos twins) /\ exists its, pf_iterations 2 true (/ 10) twins = Ok its.
Proof.
  assert (D : same_dim 2 twins) by (intros s [<-|[<-|[<-|[]]]]; reflexivity).
  split; [exact D|]. split; [intros N; inversion N as [|? ? H]; apply H; left; reflexivity|].
  apply pf_defined_iff; [exact D|]. intros i j si sj _ _ _. unfold force_den. cbn [Nat.eqb].
  pose proof (pow2_ge_0 (dist (ps_pos si) (ps_pos sj))). lra.
Qed.

(** The potential is linear in the vector of charges. *)
Lemma potential_lin d grav safe p q1 q2 a b x v1 v2 : potential d grav safe (PSrc p q1) x = Ok v1 -> potential d grav safe (PSrc p q2) x = Ok v2 ->
  potential d grav safe (PSrc p (a * q1 + b * q2)) x = Ok (a * v1 + b * v2).
Proof.
  unfold potential. cbn [ps_pos ps_q]. destruct (safe && Req_bool (vnorm (vsub p x)) 0).
  - intros H1 H2. injection H1 as <-. injection H2 as <-. f_equal. ring.
  - unfold rdiv. destruct (d =? 2)%nat; destruct (Req_EM_T (vnorm (vsub p x)) 0); cbn [bind]; intros H1 H2; try discriminate;
      injection H1 as <-; injection H2 as <-; f_equal; destruct grav; try ring; field; assumption.
Qed.
Theorem potential_sum_linear d grav safe (data : list (list R * R * R)) a b x v1 v2 :
  potential_sum d grav safe (map (fun w => PSrc (fst (fst w)) (snd (fst w))) data) x = Ok v1 ->
  potential_sum d grav safe (map (fun w => PSrc (fst (fst w)) (snd w)) data) x = Ok v2 ->
  potential_sum d grav safe (map (fun w => PSrc (fst (fst w)) (a * snd (fst w) + b * snd w)) data) x = Ok (a * v1 + b * v2).
Proof.
  unfold potential_sum.
  assert (G : forall z1 z2, ofold (fun pot s => bind (potential d grav safe s x) (fun p => Ok (pot + p))) (map (fun w => PSrc (fst (fst w)) (snd (fst w))) data) z1 = Ok v1 ->
    ofold (fun pot s => bind (potential d grav safe s x) (fun p => Ok (pot + p))) (map (fun w => PSrc (fst (fst w)) (snd w)) data) z2 = Ok v2 ->
    ofold (fun pot s => bind (potential d grav safe s x) (fun p => Ok (pot + p))) (map (fun w => PSrc (fst (fst w)) (a * snd (fst w) + b * snd w)) data) (a * z1 + b * z2) = Ok (a * v1 + b * v2)).
  { induction data as [|[[p q1] q2] data IH]; intros z1 z2; cbn [map ofold fst snd].
    - intros H1 H2. injection H1 as ->. injection H2 as ->. reflexivity.
    - destruct (potential d grav safe (PSrc p q1) x) as [u1| | | | |] eqn:E1; cbn [bind]; try discriminate. intros H1.
      destruct (potential d grav safe (PSrc p q2) x) as [u2| | | | |] eqn:E2; cbn [bind]; try discriminate. intros H2.
      rewrite (potential_lin d grav safe p q1 q2 a b x u1 u2 E1 E2). cbn [bind].
      replace (a * z1 + b * z2 + (a * u1 + b * u2)) with (a * (z1 + u1) + b * (z2 + u2)) by ring. apply IH; assumption. }
  intros H1 H2. specialize (G 0 0 H1 H2). replace (a * 0 + b * 0) with 0 in G by ring. exact G.
Qed.
Definition two_charges : list (list R * R * R) := [([0; 0], 1, 4); ([1; 0], -2, 5)].
Lemma two_charges_case : exists v1 v2,
  potential_sum 2 true false (map (fun w => PSrc (fst (fst w)) (snd (fst w))) two_charges) [2; 2] = Ok v1 /\
  potential_sum 2 true false (map (fun w => PSrc (fst (fst w)) (snd w)) two_charges) [2; 2] = Ok v2.
Proof.
  do 2 eexists; split; apply potential_sum_away; intros s [<-|[<-|[]]]; try reflexivity; cbn [ps_pos fst]; intros E; inversion E; lra.
Qed.
