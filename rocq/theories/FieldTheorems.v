(** Final forms of the field theorems. *)
From Coq Require Import Reals List Arith Bool Lra Lia Permutation.
From Coquelicot Require Import Coquelicot.
From Verif Require Import Num Outcome Vec VecProofs Tables CAux Schedule Fields FieldSpec FieldProofs FieldSchedules.
Import ListNotations.
Local Open Scope R_scope.

(** ** Superposition *)
Lemma potential_sum_nonneg_cases d grav safe s x : (exists v, potential d grav safe s x = Ok v) \/ potential d grav safe s x = NonFinite.
Proof.
  unfold potential, rdiv. destruct (safe && Req_bool _ 0); [left; eexists; reflexivity|].
  destruct (d =? 2)%nat; destruct (Req_EM_T _ 0); cbn [bind]; auto; left; eexists; reflexivity.
Qed.
Definition pval (d : nat) (grav safe : bool) (x : list R) (s : psrc R) : R :=
  match potential d grav safe s x with Ok v => v | _ => 0 end.
Lemma potential_sum_spec d grav safe srcs x :
  ((forall s, In s srcs -> potential d grav safe s x = Ok (pval d grav safe x s)) /\
   potential_sum d grav safe srcs x = Ok (rsum (pval d grav safe x) srcs))
  \/ ((exists s, In s srcs /\ potential d grav safe s x = NonFinite) /\ potential_sum d grav safe srcs x = NonFinite).
Proof.
  unfold potential_sum.
  assert (H : forall z, ((forall s, In s srcs -> potential d grav safe s x = Ok (pval d grav safe x s)) /\
     ofold (fun pot s => bind (potential d grav safe s x) (fun p => Ok (pot + p))) srcs z = Ok (z + rsum (pval d grav safe x) srcs))
    \/ ((exists s, In s srcs /\ potential d grav safe s x = NonFinite) /\
     ofold (fun pot s => bind (potential d grav safe s x) (fun p => Ok (pot + p))) srcs z = NonFinite)).
  { induction srcs as [|s srcs IH]; intros z; cbn [ofold].
    - left. split; [intros s []|]. simpl. f_equal; ring.
    - destruct (potential_sum_nonneg_cases d grav safe s x) as [[v E]|E]; rewrite E; cbn [bind].
      + destruct (IH (z + v)) as [[A B]|[[t [A A']] B]].
        * left. split.
          -- intros t [<-|Ht]; [unfold pval; rewrite E; reflexivity|apply A; exact Ht].
          -- rewrite B, rsum_cons. f_equal. unfold pval at 2. rewrite E. ring.
        * right. split; [exists t; split; [right; exact A|exact A']|exact B].
      + right. split; [exists s; split; [left; reflexivity|exact E]|reflexivity]. }
  destruct (H 0) as [[A B]|[A B]]; [left; split; [exact A|]; rewrite B; f_equal; ring|right; split; assumption].
Qed.

Theorem potential_sum_app d grav safe s1 s2 x v1 v2 : potential_sum d grav safe s1 x = Ok v1 -> potential_sum d grav safe s2 x = Ok v2 ->
  potential_sum d grav safe (s1 ++ s2) x = Ok (v1 + v2).
Proof.
  intros H1 H2.
  destruct (potential_sum_spec d grav safe s1 x) as [[A1 B1]|[_ B1]]; [|congruence].
  destruct (potential_sum_spec d grav safe s2 x) as [[A2 B2]|[_ B2]]; [|congruence].
  destruct (potential_sum_spec d grav safe (s1 ++ s2) x) as [[A B]|[[s [Hs A]] B]].
  - rewrite B, rsum_app. congruence.
  - exfalso. apply in_app_or in Hs. destruct Hs as [Hs|Hs]; [rewrite (A1 s Hs) in A|rewrite (A2 s Hs) in A]; discriminate.
Qed.
Theorem potential_sum_perm d grav safe s1 s2 x : Permutation s1 s2 -> potential_sum d grav safe s1 x = potential_sum d grav safe s2 x.
Proof.
  intros P. destruct (potential_sum_spec d grav safe s1 x) as [[A1 B1]|[[s [Hs A1]] B1]];
    destruct (potential_sum_spec d grav safe s2 x) as [[A2 B2]|[[t [Ht A2]] B2]]; rewrite B1, B2.
  - f_equal. apply rsum_perm. exact P.
  - rewrite (A1 t) in A2; [discriminate|]. apply (Permutation_in _ (Permutation_sym P)). exact Ht.
  - rewrite (A2 s) in A1; [discriminate|]. apply (Permutation_in _ P). exact Hs.
  - reflexivity.
Qed.
Definition scale_q (k : R) (s : psrc R) : psrc R := PSrc (ps_pos s) (k * ps_q s).
Lemma potential_scale d grav safe k s x v : potential d grav safe s x = Ok v -> potential d grav safe (scale_q k s) x = Ok (k * v).
Proof.
  unfold potential, scale_q, rdiv. cbn [ps_pos ps_q].
  destruct (safe && Req_bool _ 0); [intros [= <-]; f_equal; ring|].
  destruct (d =? 2)%nat; destruct (Req_EM_T _ 0); cbn [bind]; try discriminate; intros [= <-]; f_equal; destruct grav; unfold Rdiv; ring.
Qed.
Theorem potential_sum_scale d grav safe k srcs x v : potential_sum d grav safe srcs x = Ok v ->
  potential_sum d grav safe (map (scale_q k) srcs) x = Ok (k * v).
Proof.
  revert v. induction srcs as [|s srcs IH]; intros v H.
  - cbn in H |- *. assert (v = 0) by congruence. subst. f_equal; ring.
  - destruct (potential_sum_spec d grav safe (s :: srcs) x) as [[A B]|[_ B]]; [|congruence].
    assert (Ev : v = rsum (pval d grav safe x) (s :: srcs)) by congruence. rewrite rsum_cons in Ev.
    change (map (scale_q k) (s :: srcs)) with ([scale_q k s] ++ map (scale_q k) srcs).
    assert (Es := A s (or_introl eq_refl)).
    assert (E2 : potential_sum d grav safe srcs x = Ok (rsum (pval d grav safe x) srcs)).
    { destruct (potential_sum_spec d grav safe srcs x) as [[_ B']|[[t [Ht A']] _]]; [exact B'|].
      rewrite (A t (or_intror Ht)) in A'. discriminate. }
    rewrite (potential_sum_app _ _ _ _ _ _ (k * pval d grav safe x s) (k * rsum (pval d grav safe x) srcs)).
    + f_equal. rewrite Ev. ring.
    + unfold potential_sum. cbn [ofold]. rewrite (potential_scale _ _ _ k _ _ _ Es). cbn [bind]. f_equal. ring.
    + apply IH. exact E2.
Qed.
(** The gravitational and the Coulomb field are opposite. *)
Lemma potential_grav d safe s x v : potential d true safe s x = Ok v -> potential d false safe s x = Ok (- v).
Proof.
  unfold potential, rdiv. destruct (safe && Req_bool _ 0); [intros [= <-]; f_equal; ring|].
  destruct (d =? 2)%nat; destruct (Req_EM_T _ 0); cbn [bind]; try discriminate; intros [= <-]; reflexivity.
Qed.

(** ** The force is minus the gradient of the potential that the code returns *)
Theorem direct_force_is_gradient d grav safe srcs x : (d = 2 \/ d = 3)%nat -> length x = d -> same_dim d srcs ->
  (forall s, In s srcs -> ps_pos s <> x) ->
  exists (U : list R -> R) F,
    (forall y, length y = d -> (forall s, In s srcs -> ps_pos s <> y) -> potential_sum d grav safe srcs y = Ok (U y)) /\
    forcefield_sum d grav safe 0 srcs x = Ok F /\ length F = d /\
    forall k, (k < d)%nat -> is_derive (fun t : R => U (lset x k t)) (nth k x 0) (- nth k F 0).
Proof.
  intros Hd Hx Hs Hn. exists (direct_potential d grav srcs), (direct_force d grav 0 srcs x). split; [|split; [|split]].
  - intros y Hy Hav. apply potential_sum_away; [rewrite Hy; exact Hs|exact Hav].
  - apply forcefield_sum_eval; [exact Hx|exact Hs|]. intros s Hin. split; [intros _; apply Hn; exact Hin|].
    apply Rgt_not_eq. apply force_den_pos; [|lra]. apply dist_pos; [rewrite (Hs s Hin); congruence|apply Hn; exact Hin].
  - unfold direct_force. rewrite map_length, seq_length. reflexivity.
  - intros k Hk. apply force_is_minus_gradient; assumption.
Qed.

(** ** Newton's third law for one pair *)
Theorem newton_pair d grav eps s t : length (ps_pos s) = d -> length (ps_pos t) = d ->
  forall f g, forcefield d grav false eps s (ps_pos t) = Ok f -> forcefield d grav false eps t (ps_pos s) = Ok g ->
  forall k, (k < d)%nat -> ps_q t * nth k f 0 = - (ps_q s * nth k g 0).
Proof.
  intros Hs Ht f g Hf Hg k Hk.
  assert (E1 : length (ps_pos s) = length (ps_pos t)) by congruence.
  destruct (Req_EM_T (force_den d eps (dist (ps_pos s) (ps_pos t))) 0) as [Z|NZ].
  - rewrite forcefield_singular in Hf; [discriminate|congruence|discriminate|exact Z].
  - rewrite forcefield_eval in Hf; [|congruence|discriminate|exact NZ].
    rewrite forcefield_eval in Hg; [|congruence|discriminate|rewrite dist_sym by congruence; exact NZ].
    assert (Ef : f = force_vec d grav eps s (ps_pos t)) by congruence. assert (Eg : g = force_vec d grav eps t (ps_pos s)) by congruence.
    subst f g. unfold force_vec. rewrite !nth_map_seq by lia. unfold force_on. rewrite (dist_sym (ps_pos t) (ps_pos s)) by congruence.
    unfold Rdiv. ring.
Qed.

(** ** The parallel all-pairs loops *)
Theorem ppe_schedule_independent d grav (srcs : list (psrc R)) : same_dim d srcs -> NoDup (map ps_pos srcs) ->
  exists its, ppe_iterations d grav srcs = Ok its /\
  (exists run, interleaving its run) /\
  forall run, interleaving its run ->
    length (ppe_result (length srcs) run) = length srcs /\
    forall k sk, nth_error srcs k = Some sk ->
      nth k (ppe_result (length srcs) run) 0
      = rsum (fun j => match nth_error srcs j with
                       | Some sj => if (j =? k)%nat then 0 else ps_q sk * (field_sign grav * kernel d (ps_q sj) (dist (ps_pos sj) (ps_pos sk)))
                       | None => 0 end) (seq 0 (length srcs)).
Proof.
  intros Hd Hnd.
  assert (Hdist : forall i j si sj, nth_error srcs i = Some si -> nth_error srcs j = Some sj -> i <> j -> ps_pos si <> ps_pos sj).
  { intros i j si sj Hi Hj Hij E. apply Hij. rewrite NoDup_nth_error in Hnd. apply Hnd.
    - rewrite map_length. apply nth_error_Some. congruence.
    - rewrite !nth_error_map, Hi, Hj. cbn. congruence. }
  exists (ppe_its d grav srcs). split; [apply ppe_iterations_eq; assumption|]. split; [eexists; apply interleaving_seq|].
  intros run Hrun. split; [unfold ppe_result; rewrite add_all_length; apply repeat_length|].
  intros k sk Hk. assert (Hlt : (k < length srcs)%nat) by (apply nth_error_Some; congruence).
  rewrite (ppe_correct d grav srcs Hd run k Hlt Hrun). apply rsum_ext. intros j Hj. apply in_seq in Hj.
  rewrite (sr_error srcs j) by lia. rewrite (sr_error srcs k Hlt) in Hk. injection Hk as Hk. destruct (j =? k)%nat; [reflexivity|].
  unfold pair_energy. rewrite Hk. reflexivity.
Qed.

Theorem pf_schedule_independent d grav eps (srcs : list (psrc R)) : same_dim d srcs -> NoDup (map ps_pos srcs) -> 0 <= eps ->
  exists its, pf_iterations d grav eps srcs = Ok its /\
  (exists run, interleaving its run) /\
  forall run, interleaving its run ->
    length (pf_result d (length srcs) run) = length srcs /\
    (forall f, In f (pf_result d (length srcs) run) -> length f = d) /\
    (forall k sk c, nth_error srcs k = Some sk -> (c < d)%nat ->
      nth c (nth k (pf_result d (length srcs) run) []) 0
      = rsum (fun j => match nth_error srcs j with
                       | Some sj => if (j =? k)%nat then 0 else force_on d grav eps sj (ps_pos sk) c * ps_q sk
                       | None => 0 end) (seq 0 (length srcs))) /\
    (forall c, (c < d)%nat -> rsum (fun f => nth c f 0) (pf_result d (length srcs) run) = 0).
Proof.
  intros Hd Hnd He.
  assert (Hden : forall i j si sj, nth_error srcs i = Some si -> nth_error srcs j = Some sj -> i <> j ->
     force_den d eps (dist (ps_pos si) (ps_pos sj)) <> 0).
  { intros i j si sj Hi Hj Hij. apply Rgt_not_eq, force_den_pos; [|exact He].
    apply dist_pos.
    - rewrite (Hd si), (Hd sj); [reflexivity|eapply nth_error_In; eassumption|eapply nth_error_In; eassumption].
    - intros E. apply Hij. rewrite NoDup_nth_error in Hnd. apply Hnd.
      + rewrite map_length. apply nth_error_Some. congruence.
      + rewrite !nth_error_map, Hi, Hj. cbn. congruence. }
  exists (pf_its d grav eps srcs). split; [apply pf_iterations_eq; assumption|]. split; [eexists; apply interleaving_seq|].
  intros run Hrun. destruct (pf_dims d grav eps srcs run Hrun) as [L1 L2]. split; [exact L1|]. split; [exact L2|]. split.
  - intros k sk c Hk Hc. assert (Hlt : (k < length srcs)%nat) by (apply nth_error_Some; congruence).
    rewrite (pf_correct d grav eps srcs Hd run k c Hlt Hc Hrun). apply rsum_ext. intros j Hj. apply in_seq in Hj.
    rewrite (sr_error srcs j) by lia. rewrite (sr_error srcs k Hlt) in Hk. injection Hk as Hk. destruct (j =? k)%nat; [reflexivity|].
    unfold pair_force. rewrite Hk. reflexivity.
  - intros c Hc. apply (pf_total d grav eps srcs Hd run c Hc Hrun).
Qed.

(** ** The [safe] flag *)
Theorem potential_safe_flag d grav srcs x : same_dim (length x) srcs ->
  potential_sum d grav true srcs x = Ok (direct_potential d grav (filter (fun s => negb (is_at x s)) srcs) x) /\
  (potential_sum d grav false srcs x = NonFinite <-> exists s, In s srcs /\ ps_pos s = x) /\
  ((forall s, In s srcs -> ps_pos s <> x) -> potential_sum d grav false srcs x = potential_sum d grav true srcs x).
Proof.
  intros Hd. split; [apply potential_sum_safe; exact Hd|]. split; [split|].
  - intros H. destruct (existsb (is_at x) srcs) eqn:E.
    + apply existsb_exists in E. destruct E as [s [Hs E]]. exists s. split; [exact Hs|]. apply is_at_true. exact E.
    + exfalso. rewrite potential_sum_away in H; [discriminate|exact Hd|].
      intros s Hs. apply is_at_false. destruct (is_at x s) eqn:Es; [|reflexivity].
      assert (existsb (is_at x) srcs = true) by (apply existsb_exists; exists s; split; assumption). congruence.
  - apply potential_sum_unsafe. exact Hd.
  - intros Hn. rewrite !potential_sum_away by assumption. reflexivity.
Qed.
Theorem force_safe_flag d grav srcs x : length x = d -> same_dim d srcs ->
  (forall eps, 0 <= eps -> forcefield_sum d grav true eps srcs x = Ok (direct_force d grav eps (filter (fun s => negb (is_at x s)) srcs) x)) /\
  (forcefield_sum d grav false 0 srcs x = NonFinite <-> exists s, In s srcs /\ ps_pos s = x) /\
  (forall eps, 0 <= eps -> (forall s, In s srcs -> ps_pos s <> x) -> forcefield_sum d grav false eps srcs x = forcefield_sum d grav true eps srcs x).
Proof.
  intros Hx Hd.
  assert (Haway : forall eps safe, 0 <= eps -> (forall s, In s srcs -> ps_pos s <> x) -> forcefield_sum d grav safe eps srcs x = Ok (direct_force d grav eps srcs x)).
  { intros eps safe He Hn. apply forcefield_sum_eval; [exact Hx|exact Hd|]. intros s Hin. split; [intros _; apply Hn; exact Hin|].
    apply Rgt_not_eq, force_den_pos; [|exact He]. apply dist_pos; [rewrite (Hd s Hin); congruence|apply Hn; exact Hin]. }
  split; [intros eps He; apply forcefield_sum_safe; assumption|]. split; [split|].
  - intros H. destruct (existsb (is_at x) srcs) eqn:E.
    + apply existsb_exists in E. destruct E as [s [Hs E]]. exists s. split; [exact Hs|]. apply is_at_true. exact E.
    + exfalso. rewrite Haway in H; [discriminate|lra|].
      intros s Hs. apply is_at_false. destruct (is_at x s) eqn:Es; [|reflexivity].
      assert (existsb (is_at x) srcs = true) by (apply existsb_exists; exists s; split; assumption). congruence.
  - apply forcefield_sum_unsafe; assumption.
  - intros eps He Hn. rewrite !Haway by assumption. reflexivity.
Qed.

(** A case that meets the hypotheses: three sources with charges of both signs. *)
Definition three : list (psrc R) := [PSrc [0; 0] 1; PSrc [1; 0] (-2); PSrc [0; 3] 5].
Lemma three_dim : same_dim 2 three.
Proof. intros s [<-|[<-|[<-|[]]]]; reflexivity. Qed.
Lemma three_distinct : NoDup (map ps_pos three).
Proof.
  cbn. repeat constructor; cbn; intros H; repeat destruct H as [H|H]; try contradiction;
  apply (f_equal (fun l => (nth 0 l 0, nth 1 l 0))) in H; cbn in H; injection H; intros; lra.
Qed.
Lemma three_away : forall s, In s three -> ps_pos s <> [2; 2].
Proof.
  intros s [<-|[<-|[<-|[]]]]; cbn; intros H; apply (f_equal (fun l => (nth 0 l 0, nth 1 l 0))) in H; cbn in H; injection H; intros; lra.
Qed.

Theorem total_force_vanishes d grav eps (srcs : list (psrc R)) : same_dim d srcs -> NoDup (map ps_pos srcs) -> 0 <= eps ->
  exists its, pf_iterations d grav eps srcs = Ok its /\ forall run, interleaving its run ->
    forall c, (c < d)%nat -> rsum (fun f => nth c f 0) (pf_result d (length srcs) run) = 0.
Proof.
  intros Hd Hn He. destruct (pf_schedule_independent d grav eps srcs Hd Hn He) as [its [E [_ H]]]. exists its. split; [exact E|].
  intros run Hr c Hc. destruct (H run Hr) as [_ [_ [_ T]]]. apply T. exact Hc.
Qed.
Theorem pf_schedule_independent' d grav eps (srcs : list (psrc R)) : same_dim d srcs -> NoDup (map ps_pos srcs) -> 0 <= eps ->
  exists its, pf_iterations d grav eps srcs = Ok its /\
  (exists run, interleaving its run) /\
  forall run, interleaving its run ->
    length (pf_result d (length srcs) run) = length srcs /\
    (forall f, In f (pf_result d (length srcs) run) -> length f = d) /\
    (forall k sk c, nth_error srcs k = Some sk -> (c < d)%nat ->
      nth c (nth k (pf_result d (length srcs) run) []) 0
      = rsum (fun j => match nth_error srcs j with
                       | Some sj => if (j =? k)%nat then 0 else force_on d grav eps sj (ps_pos sk) c * ps_q sk
                       | None => 0 end) (seq 0 (length srcs))).
Proof.
  intros Hd Hn He. destruct (pf_schedule_independent d grav eps srcs Hd Hn He) as [its [E [Hex H]]]. exists its.
  split; [exact E|]. split; [exact Hex|]. intros run Hr. destruct (H run Hr) as [A [B [C0 _]]]. repeat split; assumption.
Qed.
