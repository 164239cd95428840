(** The parallel all-pairs loops of fields.hpp give the same result for every schedule. *)
From Coq Require Import Reals List Arith Bool Lra Lia Permutation.
From Verif Require Import Num Outcome Vec VecProofs Tables CAux TableProofs Schedule Fields FieldSpec FieldProofs.
Import ListNotations.
Local Open Scope R_scope.

Lemma interleaving_perm {A} (its : list (list A)) run : interleaving its run -> Permutation (concat its) run.
Proof.
  induction 1 as [its H|before a it after run H IH].
  - assert (concat its = []) as ->; [|reflexivity].
    induction its as [|x its IH]; [reflexivity|]. simpl. rewrite (H x) by (left; reflexivity). apply IH.
    intros y Hy. apply H. right; exact Hy.
  - rewrite concat_app in *. cbn [concat app] in *.
    etransitivity; [symmetry; apply Permutation_middle|]. constructor. exact IH.
Qed.
(** Every list of iterations has a run, e.g. the sequential one. *)
Lemma interleaving_seq {A} (its : list (list A)) : interleaving its (concat its).
Proof.
  assert (H : forall pre, (forall it, In it pre -> it = []) -> interleaving (pre ++ its) (concat its)).
  { induction its as [|it its IH]; intros pre Hp.
    - rewrite app_nil_r. constructor. exact Hp.
    - cbn [concat]. induction it as [|a it IHit].
      + cbn [app]. change (pre ++ [] :: its) with (pre ++ [[]] ++ its). rewrite app_assoc. apply IH.
        intros x Hx. apply in_app_or in Hx. destruct Hx as [Hx|[<-|[]]]; [apply Hp; exact Hx|reflexivity].
      + cbn [app]. constructor. exact IHit. }
  apply (H []). intros it [].
Qed.

(** ** Sums of updates *)
Definition hits (i : nat) (run : list (nat * R)) : R := rsum (fun u => if (fst u =? i)%nat then snd u else 0) run.

Lemma add_at_length v u : length (add_at v u) = length v.
Proof. apply lset_length. Qed.
Lemma nth_lset_same {A} (l : list A) k x d : (k < length l)%nat -> nth k (lset l k x) d = x.
Proof. revert k; induction l as [|a l IH]; intros [|k] H; simpl in *; try lia; [reflexivity|]. apply IH. lia. Qed.
Lemma nth_lset_other {A} (l : list A) k j x d : j <> k -> nth j (lset l k x) d = nth j l d.
Proof. revert k j; induction l as [|a l IH]; intros [|k] [|j] H; simpl; try lia; try reflexivity. apply IH. lia. Qed.
Lemma add_at_nth v u i : (i < length v)%nat -> nth i (add_at v u) 0 = nth i v 0 + (if (fst u =? i)%nat then snd u else 0).
Proof.
  intros Hi. unfold add_at. destruct (Nat.eqb_spec (fst u) i) as [<-|N].
  - rewrite nth_lset_same by exact Hi. reflexivity.
  - rewrite nth_lset_other by congruence. ring.
Qed.
Lemma add_all_length run v : length (fold_left add_at run v) = length v.
Proof. revert v; induction run as [|u run IH]; intros v; cbn [fold_left]; [reflexivity|]. rewrite IH. apply add_at_length. Qed.
Lemma add_all_nth run v i : (i < length v)%nat -> nth i (fold_left add_at run v) 0 = nth i v 0 + hits i run.
Proof.
  revert v; induction run as [|u run IH]; intros v Hi; cbn [fold_left].
  - unfold hits; simpl; ring.
  - rewrite IH by (rewrite add_at_length; exact Hi). rewrite add_at_nth by exact Hi. unfold hits. rewrite rsum_cons. ring.
Qed.

(** ** particlePotentialEnergies *)
Section PPE.
Variables (d : nat) (grav : bool) (srcs : list (psrc R)).
Hypothesis Hdim : same_dim d srcs.
Hypothesis Hdist : forall i j si sj, nth_error srcs i = Some si -> nth_error srcs j = Some sj -> i <> j -> ps_pos si <> ps_pos sj.

Definition nilsrc : psrc R := {| ps_pos := []; ps_q := 0 |}.
Definition sr (i : nat) : psrc R := nth i srcs nilsrc.
Lemma sr_error i : (i < length srcs)%nat -> nth_error srcs i = Some (sr i).
Proof. intros H. apply nth_error_nth'. exact H. Qed.
Lemma sr_in i : (i < length srcs)%nat -> In (sr i) srcs.
Proof. intros H. apply nth_In. exact H. Qed.

(** Energy of the pair [i], [j]. *)
Definition pair_energy (i j : nat) : R := ps_q (sr i) * (field_sign grav * kernel d (ps_q (sr j)) (dist (ps_pos (sr j)) (ps_pos (sr i)))).
Lemma pair_energy_sym i j : (i < length srcs)%nat -> (j < length srcs)%nat -> pair_energy i j = pair_energy j i.
Proof.
  intros Hi Hj. unfold pair_energy. rewrite (dist_sym (ps_pos (sr j)) (ps_pos (sr i))).
  - unfold kernel. destruct (d =? 2)%nat; unfold Rdiv; ring.
  - rewrite (Hdim _ (sr_in i Hi)), (Hdim _ (sr_in j Hj)). reflexivity.
Qed.

Lemma ppe_iteration_eq i : (i < length srcs)%nat ->
  ppe_iteration d grav srcs i = Ok (map (fun j => (j, pair_energy i j)) (seq 0 i) ++ [(i, rsum (pair_energy i) (seq 0 i))]).
Proof.
  intros Hi. unfold ppe_iteration. rewrite (sr_error i Hi). cbn [of_option bind].
  assert (H : forall l e ups, (forall j, In j l -> (j < i)%nat) ->
    ofold (fun (st : R * list (nat * R)) j =>
      bind (of_option (nth_error srcs j)) (fun sj =>
      bind (potential d grav false sj (ps_pos (sr i))) (fun p =>
      Ok (fst st + ps_q (sr i) * p, snd st ++ [(j, ps_q (sr i) * p)])))) l (e, ups)
    = Ok (e + rsum (pair_energy i) l, ups ++ map (fun j => (j, pair_energy i j)) l)).
  { induction l as [|j l IH]; intros e ups Hl; cbn [ofold map].
    - rewrite app_nil_r. do 2 f_equal. simpl; ring.
    - assert (j < i)%nat by (apply Hl; left; reflexivity).
      rewrite (sr_error j) by lia. cbn [of_option bind].
      rewrite potential_away.
      + cbn [bind fst snd]. fold (pair_energy i j). rewrite IH by (intros; apply Hl; right; assumption).
        rewrite rsum_cons, <- app_assoc. cbn [app]. do 2 f_equal. ring.
      + rewrite (Hdim _ (sr_in j ltac:(lia))), (Hdim _ (sr_in i Hi)). reflexivity.
      + apply (Hdist j i); [apply sr_error; lia|apply sr_error; exact Hi|lia]. }
  rewrite H by (intros j Hj; apply in_seq in Hj; lia). cbn [bind fst snd app]. rewrite Rplus_0_l. reflexivity.
Qed.

Definition ppe_its : list (list (nat * R)) :=
  map (fun i => map (fun j => (j, pair_energy i j)) (seq 0 i) ++ [(i, rsum (pair_energy i) (seq 0 i))]) (seq 0 (length srcs)).
Lemma ppe_iterations_eq : ppe_iterations d grav srcs = Ok ppe_its.
Proof.
  unfold ppe_iterations, ppe_its.
  assert (H : forall l, (forall i, In i l -> (i < length srcs)%nat) -> omapM (ppe_iteration d grav srcs) l
     = Ok (map (fun i => map (fun j => (j, pair_energy i j)) (seq 0 i) ++ [(i, rsum (pair_energy i) (seq 0 i))]) l)).
  { induction l as [|i l IH]; intros Hl; cbn [omapM map]; [reflexivity|].
    rewrite ppe_iteration_eq by (apply Hl; left; reflexivity). cbn [bind]. rewrite IH by (intros; apply Hl; right; assumption).
    reflexivity. }
  apply H. intros i Hi. apply in_seq in Hi. lia.
Qed.

Lemma rsum_pick (f : nat -> R) n k : (k < n)%nat -> rsum (fun j => if (j =? k)%nat then f j else 0) (seq 0 n) = f k.
Proof.
  induction n as [|n IH]; intros Hk; [lia|]. rewrite rsum_seq_S, Nat.add_0_l.
  destruct (Nat.eqb_spec n k) as [->|N].
  - rewrite (rsum_ext _ (fun _ => 0)); [rewrite rsum_zero; ring|].
    intros j Hj. apply in_seq in Hj. destruct (Nat.eqb_spec j k); [lia|reflexivity].
  - rewrite IH by lia. ring.
Qed.
Lemma rsum_pick_none (f : nat -> R) n k : (n <= k)%nat -> rsum (fun j => if (j =? k)%nat then f j else 0) (seq 0 n) = 0.
Proof.
  intros Hk. rewrite (rsum_ext _ (fun _ => 0)); [apply rsum_zero|].
  intros j Hj. apply in_seq in Hj. destruct (Nat.eqb_spec j k); [lia|reflexivity].
Qed.

(** What entry [k] collects from iteration [i]. *)
Lemma hits_iteration i k : hits k (map (fun j => (j, pair_energy i j)) (seq 0 i) ++ [(i, rsum (pair_energy i) (seq 0 i))])
  = if (k <? i)%nat then pair_energy i k else if (i =? k)%nat then rsum (pair_energy i) (seq 0 i) else 0.
Proof.
  unfold hits. rewrite rsum_app, rsum_map. cbn [rsum fold_right fst snd]. fold (rsum (fun j => if (j =? k)%nat then pair_energy i j else 0) (seq 0 i)).
  destruct (Nat.ltb_spec k i) as [L|L].
  - rewrite (rsum_pick (pair_energy i)) by exact L. destruct (Nat.eqb_spec i k); [lia|]. ring.
  - rewrite (rsum_pick_none (pair_energy i)) by exact L. destruct (Nat.eqb_spec i k); ring.
Qed.
Lemma hits_concat k its : hits k (concat its) = rsum (hits k) its.
Proof. unfold hits. induction its as [|it its IH]; [reflexivity|]. cbn [concat]. rewrite rsum_app, IH. reflexivity. Qed.

Theorem ppe_correct run k : (k < length srcs)%nat -> interleaving ppe_its run ->
  nth k (ppe_result (length srcs) run) 0
  = rsum (fun j => if (j =? k)%nat then 0 else pair_energy k j) (seq 0 (length srcs)).
Proof.
  intros Hk Hrun. unfold ppe_result. rewrite add_all_nth by (rewrite repeat_length; exact Hk).
  rewrite nth_repeat, Rplus_0_l. unfold hits. rewrite <- (rsum_perm _ _ _ (interleaving_perm _ _ Hrun)).
  fold (hits k (concat ppe_its)). rewrite hits_concat. unfold ppe_its. rewrite rsum_map.
  rewrite (rsum_ext _ _ _ (fun i _ => hits_iteration i k)).
  (* split the index range at k *)
  replace (length srcs) with (k + (1 + (length srcs - k - 1)))%nat by lia. rewrite !seq_app, !rsum_app. cbn [seq Nat.add].
  rewrite !rsum_cons. cbn [rsum fold_right]. rewrite Nat.ltb_irrefl, Nat.eqb_refl.
  rewrite (rsum_ext _ (fun _ => 0) (seq 0 k)).
  2:{ intros i Hi. apply in_seq in Hi. destruct (Nat.ltb_spec k i); [lia|]. destruct (Nat.eqb_spec i k); [lia|reflexivity]. }
  rewrite rsum_zero.
  rewrite (rsum_ext (fun j => if (j =? k)%nat then 0 else pair_energy k j) (pair_energy k) (seq 0 k)).
  2:{ intros i Hi. apply in_seq in Hi. destruct (Nat.eqb_spec i k); [lia|reflexivity]. }
  match goal with |- context [rsum ?f (seq (k + 1) ?n)] =>
    rewrite (rsum_ext f (fun j => if (j =? k)%nat then 0 else pair_energy k j) (seq (k + 1) n)) end.
  - ring.
  - intros i Hi. apply in_seq in Hi. destruct (Nat.ltb_spec k i); [|lia]. destruct (Nat.eqb_spec i k); [lia|].
    apply pair_energy_sym; lia.
Qed.
End PPE.

(** ** particleForces *)
Lemma nth_vscale_map (f : nat -> R) q d : vscale (map f (seq 0 d)) q = map (fun k => f k * q) (seq 0 d).
Proof. unfold vscale. rewrite map_map. reflexivity. Qed.

(** An update of one component is an update of one entry of the component's column. *)
Definition col (c : nat) (v : list (list R)) : list R := map (fun f => nth c f 0) v.
Definition col_run (c : nat) (run : list (nat * (nat * R))) : list (nat * R) :=
  flat_map (fun u => if (fst (snd u) =? c)%nat then [(fst u, snd (snd u))] else []) run.

Lemma map_lset {A B} (f : A -> B) l k x : map f (lset l k x) = lset (map f l) k (f x).
Proof. revert k; induction l as [|a l IH]; intros [|k]; simpl; f_equal; auto. Qed.
Lemma lset_same_val {A} (l : list A) k d : lset l k (nth k l d) = l.
Proof. revert k; induction l as [|a l IH]; intros [|k]; simpl; f_equal; auto. Qed.
Lemma nth_col c v j : nth j (col c v) 0 = nth c (nth j v []) 0.
Proof.
  unfold col. destruct (Nat.lt_ge_cases j (length v)) as [L|L].
  - rewrite (nth_map_lt _ v j []) by exact L. reflexivity.
  - rewrite (nth_overflow (map _ v)) by (rewrite map_length; exact L). rewrite (nth_overflow v) by exact L.
    destruct c; reflexivity.
Qed.
Lemma col_add d c v u : (c < d)%nat -> (forall f, In f v -> length f = d) -> (fst u < length v)%nat ->
  col c (add_vec_at v u) = fold_left add_at (col_run c [u]) (col c v)
  /\ (forall f, In f (add_vec_at v u) -> length f = d) /\ length (add_vec_at v u) = length v.
Proof.
  intros Hc Hv Hu. destruct u as [j [c' x]]. cbn [fst] in Hu.
  assert (Hlen : length (nth j v []) = d) by (apply Hv; apply nth_In; exact Hu).
  split; [|split].
  - unfold col_run. cbn [flat_map fst snd]. unfold col, add_vec_at. rewrite map_lset. cbn [fst snd].
    destruct (Nat.eqb_spec c' c) as [->|N]; cbn [app fold_left].
    + unfold add_at at 1. cbn [fst snd]. rewrite nth_lset_same by lia. unfold add_at. cbn [fst snd].
      fold (col c v). rewrite nth_col. reflexivity.
    + unfold add_at. cbn [fst snd]. rewrite nth_lset_other by congruence.
      rewrite <- nth_col. fold (col c v). apply lset_same_val.
  - intros f Hf. unfold add_vec_at in Hf. cbn [fst snd] in Hf.
    assert (G : forall (l : list (list R)) k y, In f (lset l k y) -> In f l \/ f = y).
    { induction l as [|a l IH]; intros [|k] y Hin; simpl in Hin; try tauto; destruct Hin as [->|Hin]; auto.
      - left; right; exact Hin.
      - left; left; reflexivity.
      - destruct (IH _ _ Hin); [left; right; assumption|right; assumption]. }
    destruct (G _ _ _ Hf) as [Hin| ->]; [apply Hv; exact Hin|]. rewrite add_at_length. exact Hlen.
  - apply lset_length.
Qed.
Lemma col_run_app c r1 r2 : col_run c (r1 ++ r2) = col_run c r1 ++ col_run c r2.
Proof. apply flat_map_app. Qed.
Lemma col_fold d c run : (c < d)%nat -> forall v, (forall f, In f v -> length f = d) -> (forall u, In u run -> (fst u < length v)%nat) ->
  col c (fold_left add_vec_at run v) = fold_left add_at (col_run c run) (col c v).
Proof.
  intros Hc. induction run as [|u run IH]; intros v Hv Hu; [reflexivity|].
  destruct (col_add d c v u Hc Hv (Hu u (or_introl eq_refl))) as [E [Hv' Hl]].
  cbn [fold_left]. rewrite IH.
  - rewrite E. change (u :: run) with ([u] ++ run). rewrite col_run_app, fold_left_app. reflexivity.
  - exact Hv'.
  - intros w Hw. rewrite Hl. apply Hu. right; exact Hw.
Qed.
Lemma pf_fold_dims d run : forall v, (forall f, In f v -> length f = d) -> (forall u, In u run -> (fst u < length v)%nat) ->
  length (fold_left add_vec_at run v) = length v /\ (forall f, In f (fold_left add_vec_at run v) -> length f = d).
Proof.
  induction run as [|u run IH]; intros v Hv Hu; [split; [reflexivity|exact Hv]|].
  cbn [fold_left].
  assert (Hl : length (add_vec_at v u) = length v) by apply lset_length.
  assert (Hv' : forall f, In f (add_vec_at v u) -> length f = d).
  { intros f Hf. assert (Hu0 : (fst u < length v)%nat) by (apply Hu; left; reflexivity).
    unfold add_vec_at in Hf.
    assert (G : forall (l : list (list R)) k y, In f (lset l k y) -> In f l \/ f = y).
    { induction l as [|a l IHl]; intros [|k] y Hin; simpl in Hin; try tauto; destruct Hin as [->|Hin]; auto.
      - left; right; exact Hin.
      - left; left; reflexivity.
      - destruct (IHl _ _ Hin); [left; right; assumption|right; assumption]. }
    destruct (G _ _ _ Hf) as [Hin| ->]; [apply Hv; exact Hin|]. rewrite add_at_length. apply Hv. apply nth_In. exact Hu0. }
  destruct (IH _ Hv') as [A B].
  - intros w Hw. rewrite Hl. apply Hu. right; exact Hw.
  - split; [congruence|exact B].
Qed.

Section PF.
Variables (d : nat) (grav : bool) (eps : R) (srcs : list (psrc R)).
Hypothesis Hdim : same_dim d srcs.
Hypothesis Hden : forall i j si sj, nth_error srcs i = Some si -> nth_error srcs j = Some sj -> i <> j ->
  force_den d eps (dist (ps_pos si) (ps_pos sj)) <> 0.
Notation sr := (sr srcs).

(** Component [c] of the force on particle [i] by particle [j]. *)
Definition pair_force (c i j : nat) : R := force_on d grav eps (sr j) (ps_pos (sr i)) c * ps_q (sr i).
Lemma pair_force_anti c i j : (i < length srcs)%nat -> (j < length srcs)%nat -> pair_force c i j = - pair_force c j i.
Proof.
  intros Hi Hj. unfold pair_force, force_on. rewrite (dist_sym (ps_pos (sr j)) (ps_pos (sr i))).
  - unfold Rdiv. ring.
  - rewrite (Hdim _ (sr_in _ i Hi)), (Hdim _ (sr_in _ j Hj)). reflexivity.
Qed.

Definition pf_it (i : nat) : list (nat * (nat * R)) :=
  flat_map (fun j => map (fun k => (j, (k, - pair_force k i j))) (seq 0 d)) (seq 0 i)
  ++ map (fun k => (i, (k, rsum (pair_force k i) (seq 0 i)))) (seq 0 d).

Lemma vget_map_seq (f : nat -> R) n k : (k < n)%nat -> vget (map f (seq 0 n)) k = f k.
Proof. intros H. unfold vget. apply nth_map_seq. exact H. Qed.

Lemma pf_iteration_eq i : (i < length srcs)%nat -> pf_iteration d grav eps srcs i = Ok (pf_it i).
Proof.
  intros Hi. unfold pf_iteration, pf_it. rewrite (sr_error _ i Hi). cbn [of_option bind].
  assert (Hpi : length (ps_pos (sr i)) = d) by (apply Hdim; apply sr_in; exact Hi).
  assert (H : forall l z ups, (forall j, In j l -> (j < i)%nat) ->
    ofold (fun (st : list R * list (nat * (nat * R))) j =>
      bind (of_option (nth_error srcs j)) (fun sj =>
      bind (forcefield d grav false eps sj (ps_pos (sr i))) (fun f =>
      Ok (vadd (fst st) (vscale f (ps_q (sr i))), snd st ++ map (fun k => (j, (k, - vget (vscale f (ps_q (sr i))) k))) (seq 0 d)))))
      l (map z (seq 0 d), ups)
    = Ok (map (fun k => z k + rsum (pair_force k i) l) (seq 0 d),
          ups ++ flat_map (fun j => map (fun k => (j, (k, - pair_force k i j))) (seq 0 d)) l)).
  { induction l as [|j l IH]; intros z ups Hl; cbn [ofold flat_map].
    - rewrite app_nil_r. do 2 f_equal. apply map_ext. intros; simpl; ring.
    - assert (j < i)%nat by (apply Hl; left; reflexivity).
      rewrite (sr_error _ j) by lia. cbn [of_option bind].
      assert (Hpj : length (ps_pos (sr j)) = d) by (apply Hdim; apply sr_in; lia).
      rewrite forcefield_eval.
      + cbn [bind fst snd]. unfold force_vec. rewrite Hpi, nth_vscale_map, vadd_map_seq.
        rewrite (IH (fun k => z k + force_on d grav eps (sr j) (ps_pos (sr i)) k * ps_q (sr i))) by (intros; apply Hl; right; assumption).
        rewrite <- app_assoc. do 2 f_equal; [|f_equal; f_equal].
        * apply map_ext. intros k. rewrite rsum_cons. unfold pair_force at 2. ring.
        * apply map_ext_in. intros k Hk. apply in_seq in Hk. rewrite vget_map_seq by lia. reflexivity.
      + congruence.
      + discriminate.
      + apply (Hden j i); [apply sr_error; lia|apply sr_error; exact Hi|lia]. }
  rewrite vzero_map, H by (intros j Hj; apply in_seq in Hj; lia). cbn [bind fst snd app]. f_equal. f_equal.
  apply map_ext_in. intros k Hk. apply in_seq in Hk. rewrite vget_map_seq by lia. rewrite Rplus_0_l. reflexivity.
Qed.

Definition pf_its : list (list (nat * (nat * R))) := map pf_it (seq 0 (length srcs)).
Lemma pf_iterations_eq : pf_iterations d grav eps srcs = Ok pf_its.
Proof.
  unfold pf_iterations, pf_its.
  assert (H : forall l, (forall i, In i l -> (i < length srcs)%nat) -> omapM (pf_iteration d grav eps srcs) l = Ok (map pf_it l)).
  { induction l as [|i l IH]; intros Hl; cbn [omapM map]; [reflexivity|].
    rewrite pf_iteration_eq by (apply Hl; left; reflexivity). cbn [bind]. rewrite IH by (intros; apply Hl; right; assumption).
    reflexivity. }
  apply H. intros i Hi. apply in_seq in Hi. lia.
Qed.

Lemma pf_run_in run u : interleaving pf_its run -> In u run -> (fst u < length srcs)%nat.
Proof.
  intros Hrun Hu. apply (Permutation_in _ (Permutation_sym (interleaving_perm _ _ Hrun))) in Hu.
  apply in_concat in Hu. destruct Hu as [it [Hit Hu]]. apply in_map_iff in Hit. destruct Hit as [i [<- Hi]]. apply in_seq in Hi.
  unfold pf_it in Hu. apply in_app_or in Hu. destruct Hu as [Hu|Hu].
  - apply in_flat_map in Hu. destruct Hu as [j [Hj Hu]]. apply in_map_iff in Hu. destruct Hu as [k [<- _]]. apply in_seq in Hj.
    cbn [fst]. lia.
  - apply in_map_iff in Hu. destruct Hu as [k [<- _]]. cbn [fst]. lia.
Qed.

Lemma col_run_pick c (f : nat -> R) j : (c < d)%nat -> col_run c (map (fun k => (j, (k, f k))) (seq 0 d)) = [(j, f c)].
Proof.
  intros Hc. unfold col_run. generalize (eq_refl (seq 0 d)). generalize (seq 0 d) at 1 3. intros l El.
  assert (Hnd : NoDup l) by (rewrite El; apply seq_NoDup). assert (Hin : In c l) by (rewrite El; apply in_seq; lia). clear El.
  induction l as [|k l IH]; [destruct Hin|]. inversion Hnd as [|? ? Hk Hnd']; subst. cbn [map flat_map fst snd].
  destruct (Nat.eqb_spec k c) as [->|N].
  - cbn [app]. f_equal. clear IH Hin Hnd Hnd'. induction l as [|k l IH]; [reflexivity|]. cbn [map flat_map fst snd].
    destruct (Nat.eqb_spec k c) as [->|N]; [exfalso; apply Hk; left; reflexivity|]. cbn [app]. apply IH.
    intros Q; apply Hk; right; exact Q.
  - cbn [app]. apply IH; [exact Hnd'|]. destruct Hin as [E|Hin]; [contradiction|exact Hin].
Qed.
Lemma col_run_it c i : (c < d)%nat ->
  col_run c (pf_it i) = map (fun j => (j, - pair_force c i j)) (seq 0 i) ++ [(i, rsum (pair_force c i) (seq 0 i))].
Proof.
  intros Hc. unfold pf_it. rewrite col_run_app. rewrite (col_run_pick c (fun k => rsum (pair_force k i) (seq 0 i))) by exact Hc.
  f_equal. induction (seq 0 i) as [|j l IH]; [reflexivity|]. cbn [flat_map map]. rewrite col_run_app, IH.
  rewrite (col_run_pick c (fun k => - pair_force k i j)) by exact Hc. reflexivity.
Qed.
Lemma col_run_perm c r1 r2 : Permutation r1 r2 -> Permutation (col_run c r1) (col_run c r2).
Proof. intros H. apply Permutation_flat_map. exact H. Qed.
Lemma col_run_concat c its : col_run c (concat its) = concat (map (col_run c) its).
Proof. induction its as [|it its IH]; [reflexivity|]. cbn [concat map]. rewrite col_run_app, IH. reflexivity. Qed.

Lemma pf_col_result c run : (c < d)%nat -> interleaving pf_its run ->
  col c (pf_result d (length srcs) run) = fold_left add_at (col_run c run) (repeat 0 (length srcs)).
Proof.
  intros Hc Hrun. unfold pf_result. rewrite (col_fold d).
  - f_equal. unfold col, vzero. generalize (length srcs). induction n as [|n IH]; [reflexivity|]. cbn [repeat map]. rewrite IH, nth_repeat. reflexivity.
  - exact Hc.
  - intros f Hf. apply repeat_spec in Hf. subst f. apply repeat_length.
  - intros u Hu. rewrite repeat_length. apply (pf_run_in run); assumption.
Qed.

Lemma hits_pf_iteration c i k : (c < d)%nat -> hits k (col_run c (pf_it i))
  = if (k <? i)%nat then - pair_force c i k else if (i =? k)%nat then rsum (pair_force c i) (seq 0 i) else 0.
Proof.
  intros Hc. rewrite col_run_it by exact Hc. unfold hits. rewrite rsum_app, rsum_map. cbn [rsum fold_right fst snd].
  fold (rsum (fun j => if (j =? k)%nat then - pair_force c i j else 0) (seq 0 i)).
  destruct (Nat.ltb_spec k i) as [L|L].
  - rewrite (rsum_pick (fun j => - pair_force c i j)) by exact L. destruct (Nat.eqb_spec i k); [lia|]. ring.
  - rewrite (rsum_pick_none (fun j => - pair_force c i j)) by exact L. destruct (Nat.eqb_spec i k); ring.
Qed.

Theorem pf_correct run k c : (k < length srcs)%nat -> (c < d)%nat -> interleaving pf_its run ->
  nth c (nth k (pf_result d (length srcs) run) []) 0
  = rsum (fun j => if (j =? k)%nat then 0 else pair_force c k j) (seq 0 (length srcs)).
Proof.
  intros Hk Hc Hrun. rewrite <- nth_col, pf_col_result by assumption.
  rewrite add_all_nth by (rewrite repeat_length; exact Hk). rewrite nth_repeat, Rplus_0_l.
  unfold hits. rewrite <- (rsum_perm _ _ _ (col_run_perm c _ _ (interleaving_perm _ _ Hrun))).
  rewrite col_run_concat. fold (hits k (concat (map (col_run c) pf_its))). rewrite hits_concat. unfold pf_its. rewrite !rsum_map.
  rewrite (rsum_ext _ _ _ (fun i _ => hits_pf_iteration c i k Hc)).
  replace (length srcs) with (k + (1 + (length srcs - k - 1)))%nat by lia. rewrite !seq_app, !rsum_app. cbn [seq Nat.add].
  rewrite !rsum_cons. cbn [rsum fold_right]. rewrite Nat.ltb_irrefl, Nat.eqb_refl.
  rewrite (rsum_ext _ (fun _ => 0) (seq 0 k)).
  2:{ intros i Hi. apply in_seq in Hi. destruct (Nat.ltb_spec k i); [lia|]. destruct (Nat.eqb_spec i k); [lia|reflexivity]. }
  rewrite rsum_zero.
  rewrite (rsum_ext (fun j => if (j =? k)%nat then 0 else pair_force c k j) (pair_force c k) (seq 0 k)).
  2:{ intros i Hi. apply in_seq in Hi. destruct (Nat.eqb_spec i k); [lia|reflexivity]. }
  match goal with |- context [rsum ?f (seq (k + 1) ?n)] =>
    rewrite (rsum_ext f (fun j => if (j =? k)%nat then 0 else pair_force c k j) (seq (k + 1) n)) end.
  - ring.
  - intros i Hi. apply in_seq in Hi. destruct (Nat.ltb_spec k i); [|lia]. destruct (Nat.eqb_spec i k); [lia|].
    rewrite (pair_force_anti c k i) by lia. reflexivity.
Qed.

Theorem pf_dims run : interleaving pf_its run ->
  length (pf_result d (length srcs) run) = length srcs /\ (forall f, In f (pf_result d (length srcs) run) -> length f = d).
Proof.
  intros Hrun. unfold pf_result. destruct (pf_fold_dims d run (repeat (vzero d) (length srcs))) as [A B].
  - intros f Hf. apply repeat_spec in Hf. subst f. apply repeat_length.
  - intros u Hu. rewrite repeat_length. apply (pf_run_in run); assumption.
  - rewrite repeat_length in A. split; assumption.
Qed.

(** The components of all forces cancel. *)
Theorem pf_total run c : (c < d)%nat -> interleaving pf_its run ->
  rsum (fun f => nth c f 0) (pf_result d (length srcs) run) = 0.
Proof.
  intros Hc Hrun. destruct (pf_dims run Hrun) as [Hlen _].
  transitivity (rsum (fun k => nth c (nth k (pf_result d (length srcs) run) []) 0) (seq 0 (length srcs))).
  - revert Hlen. generalize (pf_result d (length srcs) run). generalize (length srcs). intros n l <-. clear.
    induction l as [|f l IH]; [reflexivity|]. cbn [length seq]. rewrite !rsum_cons. cbn [nth]. rewrite IH, rsum_seq_shift. reflexivity.
  - rewrite (rsum_ext _ (fun k => rsum (fun j => if (j =? k)%nat then 0 else pair_force c k j) (seq 0 (length srcs)))).
    2:{ intros k Hk. apply in_seq in Hk. apply pf_correct; [lia|exact Hc|exact Hrun]. }
    set (S := rsum _ _).
    assert (E : S = - S).
    { unfold S at 1. rewrite rsum_swap. unfold S. rewrite <- rsum_opp. apply rsum_ext. intros k Hk. apply in_seq in Hk.
      rewrite <- rsum_opp. apply rsum_ext. intros j Hj. apply in_seq in Hj.
      rewrite (Nat.eqb_sym k j). destruct (Nat.eqb_spec j k); [ring|]. apply pair_force_anti; lia. }
    lra.
Qed.
End PF.
